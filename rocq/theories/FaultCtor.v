(** Running out of memory in constructors. Proof file. *)
From Verif Require Export FaultSpec FaultLogic FaultThrow.
From Verif Require Import FaultSl ThreadSl ForwardHistory BackwardProofs ForwardRuns.
From iris.proofmode Require Import tactics.

Section forward.
  Context {V : Type}.
  Notation C := (cell V).
  Notation A := (Allocator C).
  Notation iProp := (bi_car (hpropI C)).
  (** what a throwing (n, value) constructor leaves in memory *)
  Definition fl_partial (n : nat) (v : V) : iProp :=
    (emp ∨ ∃ this ys k, ⌜k < n⌝ ∧ ⌜ys.*2 = replicate k v⌝ ∧ flist this ys)%I.
  Lemma xp_fl_new_n n v :
    Xp (λ al : A, fl_new_n n (ExtVal v)) (λ _ : unit, True) (λ _, emp)%I
      (λ _ this, ∃ ys, ⌜ys.*2 = replicate n v⌝ ∧ flist this ys)%I (λ _, fl_partial n v).
  Proof.
    unfold fl_new_n. apply (xp_bind _ _ _ _ (λ _ this, flist this [])%I).
    - eapply xp_throw; [apply (xp_clean 1); [cw|]|].
      + intros al x _. iStartProof. iIntros "_". by iApply wp_fl_new.
      + intros x _. iIntros "_". by iLeft.
    - intros this. apply (xp_bind (λ al : A, fl_insert_after_n (Some this) n (ExtVal v)) (λ _ _, ret this) _ _ (λ _ _, ∃ ys, ⌜ys.*2 = replicate n v⌝ ∧ flist this ys)%I).
      2: { intros p. apply xp_ret. intros x _. by iIntros "H". }
      eapply xp_conseq; [apply (xp_fl_insert_n (Some this) 0 n (ExtVal v))|].
      intros x _. iIntros "H". iExists (this, [], v). iSplit; [by iPureIntro; split_and!|].
      iExists emp%I. iSplitR; [done|]. simpl. iFrame. iSplit.
      + iIntros (_) "_ H". iDestruct "H" as (zs Hz) "H". iExists zs. iSplit; [done|]. simpl. by rewrite app_nil_r.
      + iIntros "_ H". iDestruct "H" as (zs k Hk Hz) "H". iRight. simpl in *. rewrite app_nil_r. rewrite replicate_length in Hk.
        iExists this, zs, k. iSplit; [done|]. iSplit; [|done]. iPureIntro. rewrite Hz take_replicate. f_equal. lia.
  Qed.
  Lemma th_fl_insert_n k n p v : k < n →
    ∀ this (xs : list (loc * V)), p = Some (last_loc this xs) →
    Th (λ al : A, fl_insert_after_n p n (ExtVal v)) (flist this xs)
      (∃ ys, ⌜ys.*2 = replicate k v⌝ ∧ flist this (xs ++ ys))%I.
  Proof.
    revert n p. induction k as [|k IH]; intros n p Hk this xs Hp; (destruct n as [|n]; [lia|]); cbn [fl_insert_after_n].
    - apply (th_now 0 2); [|intros x; tr]. unfold new_node.
      eapply th_conseq; [|reflexivity|].
      + cbn [deref]. apply (th_after (λ al : A, ret v) _ _ (λ _, flist this xs)%I (False)%I).
        * apply xp_ret. intros x _. by iIntros "H".
        * intros v'. apply (th_now 0 2); [|intros l; tr]. apply th_alloc.
      + iIntros "H". iExists []. iSplit; [done|]. by rewrite app_nil_r.
    - apply (th_after (λ al : A, new_node (ExtVal v)) _ _ (λ x, ∃ l, ⌜x = Some l⌝ ∧ flist this xs ∗ l ↦ Cell None (Live v))%I (flist this xs)).
      { apply (xp_clean 1); [cw|]. intros al x _. iIntros "H". iApply (wp_new_node with "H"); [done|]. iIntros (l) "H Hl". iExists l. iSplit; [done|]. iFrame. }
      intros [l|]; [|apply (th_absurd 0 2); [tr|]; iIntros "H"; by iDestruct "H" as (l Hl) "H"].
      apply (th_after (λ al : A, insert_after p (Some l)) _ _ (λ p', ⌜p' = Some l⌝ ∧ flist this (xs ++ [(l, v)]))%I False%I).
      { apply xp_of_wp; [cw|]. intros al x _. iIntros "H". iDestruct "H" as (l' Hl) "[H Hl]". simplify_eq.
        destruct (flist_at this xs (length xs) ltac:(lia)) as (ns1&l&s&Hl&Hys&Heq&_). rewrite Heq drop_all /=. specialize (Hys [(l', v)]). rewrite firstn_all in Hys. rewrite Hys.
        rewrite pos_at_last in Hl. injection Hl as ->.
        iDestruct (cells_focus with "H") as "(H1&H2&H3)". iApply (wp_insert_after with "H2 Hl"). iIntros "H2 Hl". iSplit; [done|].
        iApply cells_focus. simpl. iFrame. }
      intros [l'|]; [|apply (th_absurd 0 2); [tr|]; iIntros "[%Hl H]"; done].
      assert ({l' = l} + {l' ≠ l}) as [->|Hne] by apply decide, _.
      2: { apply (th_absurd 0 2); [tr|]. iIntros "[%Hl H]". congruence. }
      eapply th_conseq; [apply (IH n (Some l) ltac:(lia) this (xs ++ [(l, v)]))| |].
      + by rewrite last_loc_snoc.
      + by iIntros "[_ H]".
      + iIntros "H". iDestruct "H" as (ys Hys) "H". iExists ((l, v) :: ys). iSplit; [iPureIntro; simpl; by f_equal|]. by rewrite -app_assoc.
  Qed.
End forward.
