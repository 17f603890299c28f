(** Running out of memory while several elements are inserted in a backward_list. Proof file. *)
From Verif Require Export FaultSpec FaultLogic FaultThrow.
From Verif Require Import ThreadSl ForwardHistory FaultSl FaultCtor ForwardProofs BackwardProofs.
From iris.proofmode Require Import tactics.

Ltac tr_hint h ::=
  lazymatch h with
  | @it_advance => tr_by @tr_it_advance
  | @fl_insert_after_n => tr_by @tr_fl_insert_after_n
  | @fl_insert_after_ext => tr_by @tr_fl_insert_after_ext
  end.
Section backward.
  Context {V : Type}.
  Notation C := (cell V).
  Notation A := (Allocator C).
  Notation iProp := (bi_car (hpropI C)).
  Implicit Types (xs ys : list (loc * V)).

  (** the first k < length vs values are there; tail_ has not moved *)
  Definition bl_part (b : blist) xs i (vs : list V) : iProp :=
    (∃ ys k, ⌜k < length vs ∧ ys.*2 = take k vs ∧
        (i < length xs ∨ k = 0 → bl_tail b = Some (last_loc (bl_head b) (take i xs ++ ys ++ drop i xs)))⌝ ∧
       flist (bl_head b) (take i xs ++ ys ++ drop i xs))%I.
  Lemma last_kept (h : loc) xs ys i : i < length xs → last_loc h (take i xs ++ ys ++ drop i xs) = last_loc h xs.
  Proof.
    intros Hi. rewrite app_assoc -{3}(take_drop i xs). assert (∃ a zs, drop i xs = a :: zs) as ([a v]&zs&->).
    { destruct (drop i xs) eqn:E; [|by eauto]. apply (f_equal length) in E. rewrite drop_length /= in E. lia. }
    destruct zs as [|[z w] zs _] using rev_ind; [by rewrite !last_loc_snoc|]. by rewrite !app_comm_cons !app_assoc !last_loc_snoc.
  Qed.
  Lemma bl_part_of b xs i (vs : list V) k ys : i ≤ length xs →
    bl_tail b = Some (last_loc (bl_head b) xs) → k < length vs → ys.*2 = take k vs →
    flist (bl_head b) (take i xs ++ ys ++ drop i xs) ⊢ bl_part b xs i vs.
  Proof.
    intros Hi Ht Hk Hys. iIntros "H". iExists ys, k. iSplit; [|done]. iPureIntro. split_and!; [done..|].
    intros [Hl| ->]; [by rewrite last_kept|]. rewrite take_0 in Hys. apply fmap_nil_inv in Hys as ->. by rewrite /= take_drop.
  Qed.
  Lemma xp_bl_insert_n b xs i n r v : i ≤ length xs → refers xs r v →
    Xp (λ al : A, bl_insert_after_n b (pos_at (bl_head b) xs i) n r) (λ _ : unit, True) (λ _, blistP b xs)
      (λ _ b', ∃ ys, ⌜ys.*2 = replicate n v⌝ ∧ ⌜bl_head b' = bl_head b⌝ ∧ blistP b' (take i xs ++ ys ++ drop i xs))%I
      (λ _, bl_part b xs i (replicate n v)).
  Proof.
    intros Hi Hr. unfold bl_insert_after_n.
    apply (xp_bind _ _ _ _ (λ _ p, ∃ ys, ⌜ys.*2 = replicate n v ∧ p = Some (last_loc (last_loc (bl_head b) (take i xs)) ys)⌝ ∧
      blistP (if decide (pos_at (bl_head b) xs i = bl_tail b) then BL (bl_head b) p else b) (take i xs ++ ys ++ drop i xs))%I).
    - eapply xp_conseq; [apply (xp_insert_n n _ r)|]. intros _ _. iIntros "[%Ht H]". iDestruct (flist_nodup with "H") as %Hnd.
      destruct (flist_at (bl_head b) xs i Hi) as (ns1&l&s&Hp&Hys&Heq&Hr'&_). rewrite Hp.
      assert (l = last_loc (bl_head b) (take i xs)) as Hl.
      { rewrite pos_at_take // in Hp. by injection Hp. }
      iExists ((ns1, l, s, live (drop i xs), None), v). iSplit; [iPureIntro; split; [done|by apply Hr']|].
      iExists emp%I. iSplitR; [done|]. simpl. rewrite Heq. iFrame "H". iSplit.
      + iIntros (p) "_ H". iDestruct "H" as (ys Hv ->) "H". rewrite -live_app -Hys.
        iDestruct (blist_inserted b xs i ys Hi Ht Hnd with "H") as "H". rewrite Hp. iExists ys. rewrite -Hl. iSplit; [done|]. done.
      + iIntros "_ H". iDestruct "H" as (ys k Hk Hv) "H". rewrite -live_app -Hys. by iApply (bl_part_of with "H").
    - intros p. apply xp_of_wp; [destruct (decide (pos_at (bl_head b) xs i = bl_tail b)); cw|]. intros al _ _. iIntros "H". iDestruct "H" as (ys [Hv ->]) "H".
      destruct (decide (pos_at (bl_head b) xs i = bl_tail b)); wstep; iExists ys; (iSplit; [done|]); (iSplit; [done|]); done.
  Qed.
  (** all the values are there; tail_ has not moved *)
  Definition bl_whole (b : blist) xs i (vs : list V) : iProp :=
    (∃ ys, ⌜ys.*2 = vs ∧
        (i < length xs ∨ vs = [] → bl_tail b = Some (last_loc (bl_head b) (take i xs ++ ys ++ drop i xs)))⌝ ∧
       flist (bl_head b) (take i xs ++ ys ++ drop i xs))%I.
  Lemma xp_bl_insert_ext b xs i vs : i ≤ length xs →
    Xp (λ al : A, bl_insert_after_ext b (pos_at (bl_head b) xs i) vs) (λ _ : unit, True) (λ _, blistP b xs)
      (λ _ b', ⌜b' = b⌝ ∧ bl_whole b xs i vs)%I
      (λ _, bl_part b xs i vs).
  Proof.
    intros Hi. unfold bl_insert_after_ext.
    apply (xp_bind _ _ _ _ (λ _ p, bl_whole b xs i vs)%I).
    - eapply xp_conseq; [apply (xp_insert_ext vs)|]. intros _ _. iIntros "[%Ht H]".
      destruct (flist_at (bl_head b) xs i Hi) as (ns1&l&s&Hp&Hys&Heq&Hr'&Hns). rewrite Hp.
      iExists (ns1, l, s, live (drop i xs), None). iSplit; [iPureIntro; done|].
      iExists emp%I. iSplitR; [done|]. simpl. rewrite Heq. iFrame "H". iSplit.
      + iIntros (p) "_ H". iDestruct "H" as (ys Hv ->) "H". rewrite -live_app -Hys. iExists ys. iSplit; [|done].
        iPureIntro. split; [done|]. intros [Hl|Hv']; [by rewrite last_kept|]. rewrite Hv' in Hv. apply fmap_nil_inv in Hv as ->. by rewrite /= take_drop.
      + iIntros "_ H". iDestruct "H" as (ys k Hk Hv) "H". rewrite -live_app -Hys. by iApply (bl_part_of with "H").
    - intros p. apply xp_of_wp; [destruct (decide (pos_at (bl_head b) xs i = bl_tail b)); cw|]. intros al _ _. iIntros "H".
      destruct (decide (pos_at (bl_head b) xs i = bl_tail b)) as [E|_]; wstep; (iSplit; [|done]); [|done]. iPureIntro. rewrite E. by destruct b.
  Qed.
  Lemma th_bl_insert_n b xs n k v : k < n →
    Th (λ al : A, bl_insert_after_n b (Some (last_loc (bl_head b) xs)) n (ExtVal v)) (blistP b xs)
      (∃ ys, ⌜bl_tail b = Some (last_loc (bl_head b) xs) ∧ ys.*2 = replicate k v⌝ ∧ flist (bl_head b) (xs ++ ys))%I.
  Proof.
    intros Hk. unfold bl_insert_after_n. apply (th_now 0 2); [|intros p; tr].
    eapply th_conseq; [apply (th_pure (bl_tail b = Some (last_loc (bl_head b) xs))), (th_fl_insert_n k n _ v Hk (bl_head b) xs eq_refl)|done|].
    iIntros "[%Ht H]". iDestruct "H" as (ys Hys) "H". iExists ys. by iSplit.
  Qed.
  Lemma tr_bl_insert_n b p n (v : V) : Tr 0 2 (λ al : A, bl_insert_after_n b p n (ExtVal v)).
  Proof. tr. Qed.
  (** push_back on a list whose tail_ designates the last node of [xs] *)
  Lemma wp_stale_push `{al : A} b xs ys w : bl_tail b = Some (last_loc (bl_head b) xs) →
    flist (bl_head b) (xs ++ ys) ⊢
    wp (let! b' := bl_push_back b (ExtVal w) in let! x := bl_back b' in ret (b', x))
      (λ '(b', x), ⌜x = w ∧ bl_head b' = bl_head b⌝ ∧ ∃ n, flist (bl_head b) (xs ++ (n, w) :: ys)).
  Proof.
    iIntros (Ht) "H". destruct (flist_at (bl_head b) (xs ++ ys) (length xs)) as (ns1&l&s&Hp&Hys&Heq&Hr'&_); [rewrite app_length; lia|].
    rewrite pos_at_take in Hp; [|rewrite app_length; lia]. rewrite take_app in Hp, Hys. rewrite drop_app in Heq.
    wstep. unfold bl_push_back. rewrite Heq Ht Hp.
    iApply (wp_new_insert_k with "H"); [done|]. iIntros (n) "H". wsteps. unfold bl_back. cbn [bl_tail].
    rewrite (assoc_L (++) ns1 [(l, s)]). iDestruct (cells_focus with "H") as "(H1&Hn&H2)".
    iApply (wp_value_at with "Hn"). iIntros "Hn". wsteps. iSplit; [done|]. iExists n.
    rewrite (Hys ((n, w) :: ys)). iAssert (cells ((ns1 ++ [(l, s)]) ++ (n, Live w) :: live ys) None) with "[H1 Hn H2]" as "H".
    { iApply cells_focus. iFrame. }
    by rewrite -app_assoc.
  Qed.
End backward.
