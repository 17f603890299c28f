(** Running out of memory while an element is inserted in a sorted_vector_map. Proof file. *)
From Verif Require Export FaultSpec FaultLogic FaultThrow.
From Verif Require Import SvmSpec SvmProofs2 SvmHistory SvmRuns.
From iris.proofmode Require Import tactics.

Section svm.
  Context {K T : Type}.
  Context (keq comp : K → K → bool) (dfltT : T) (ulim : nat).
  Notation C := (svcell K T).
  Notation A := (Allocator C).
  Notation E := (K * T)%type.
  Notation iProp := (bi_car (hpropI C)).
  Notation slots := (list (option ptr)).
  Implicit Types (les ms ns : list (loc * E)) (e : E).

  Definition bumped (v : svm) : svm := Svm (sv_arr v) (S (sv_last v)) (sv_end v).
  (** the array after the shift; slot [length ms] holds [r] *)
  Definition tornP (v : svm) ms ns : iProp :=
    (∃ r rest, ⌜sv_last v = length (ms ++ ns) ∧ sv_end v = S (length (ms ++ ns) + length rest)%nat ∧
        (∀ le ns', ns = le :: ns' → r = Some (Some le.1))⌝ ∧
       arrP (sv_arr v) (pl ms ++ r :: pl ns ++ rest) ∗ ents (ms ++ ns))%I.
  Lemma wp_shift_exact `{al : A} fuel p (b : slots) ms r0 rest i o pos :
    pos = length b → i = pos + length ms → o = S i → length ms < fuel →
    arrP p (b ++ pl ms ++ r0 :: rest) ⊢
    wp (C:=C) (shift_slots fuel p i o pos) (λ _, ∃ r, ⌜∀ le ms', ms = le :: ms' → r = Some (Some le.1)⌝ ∧
      arrP p (b ++ r :: pl ms ++ rest)).
  Proof.
    unfold shift_slots. revert fuel r0 rest i o.
    induction ms as [|[l x] ms IH] using rev_ind; intros fuel r0 rest i o -> -> -> Hf; iIntros "Hp";
      (destruct fuel as [|fuel]; [lia|]); cbn [loop].
    - wstep. dF. wsteps. iExists r0. iSplit; [iPureIntro; by intros ??|]. done.
    - rewrite app_length /= in Hf |- *. wstep. dT.
      replace (length b + (length ms + 1)) with (S (length b + length ms)) by lia. cbn beta iota.
      wstep. rewrite pl_app -!app_assoc /=.
      iApply (wp_slot_rd with "Hp").
      { rewrite app_assoc. apply lookup_mid. rewrite app_length pl_length //. }
      iIntros "Hp". wstep. iApply (wp_slot_wr with "Hp"); [rewrite !app_length /= pl_length; lia|].
      replace (b ++ pl ms ++ Some (Some l) :: r0 :: rest) with ((b ++ pl ms ++ [Some (Some l)]) ++ r0 :: rest)
        by rewrite -!app_assoc //.
      rewrite insert_mid; [|rewrite !app_length /= pl_length; lia]. iIntros "Hp". wstep.
      destruct ms as [|[l0 x0] ms0].
      + destruct fuel as [|fuel]; [simpl in Hf; lia|]. cbn [loop]. wstep. dF. wsteps. iExists (Some (Some l)). iSplit; [|by rewrite -!app_assoc].
        iPureIntro. by intros le ms' [= <- <-].
      + iApply (wp_wand with "[Hp]").
        * iApply (IH fuel (Some (Some l)) (Some (Some l) :: rest)); [done|done|done|lia|].
          rewrite -!app_assoc /=. done.
        * iIntros (_) "H". iDestruct "H" as (c0 Hc) "H". iExists c0. iSplit; [|done]. iPureIntro. intros le ms' [= <- <-].
          by eapply Hc.
  Qed.

  Definition insQ v ms ns e (r : svm * nat) : iProp :=
    (∃ l, ⌜r.2 = length ms ∧ sv_end r.1 = newcap (sv_end v) (length (ms ++ ns))⌝ ∧ svmP r.1 (ms ++ (l, e) :: ns))%I.
  Definition insT v ms ns : iProp :=
    (if decide (length (ms ++ ns) = sv_end v) then svmP v (ms ++ ns) ∗ (emp ∨ ∃ l c, l ↦ c) else tornP v ms ns)%I.
  Lemma xp_sv_insert_before fuel v ms ns pos e :
    pos = length ms → length (ms ++ ns) < fuel → sv_end v + 2 < fuel →
    ¬ (length (ms ++ ns) = 1 ∧ sv_end v = 1) →
    Xp (λ al : A, sv_insert_before fuel v pos (EVal e)) (λ _ : unit, True)
      (λ _, svmP v (ms ++ ns)) (λ _, insQ v ms ns e) (λ _, insT v ms ns).
  Proof.
    intros -> Hf1 Hf2 Hcap. rewrite app_length in Hf1, Hcap.
    assert (Tr 0 2 (λ al : A, sv_insert_before fuel v (length ms) (EVal e))) as Htr by tr.
    assert ({sv_last v = length (ms ++ ns) ∧ sv_last v ≤ sv_end v} + {¬ (sv_last v = length (ms ++ ns) ∧ sv_last v ≤ sv_end v)}) as [[Hl He]|Hlast] by apply decide, _.
    2: { destruct Htr as [p [Hp _]]. exists p. split; [exact Hp|]. intros x _. iIntros "H". iDestruct "H" as (rest [Hl He]) "H".
      exfalso. apply Hlast. lia. }
    unfold sv_insert_before, insT.
    assert ({sv_end v - sv_last v < 1} + {¬ sv_end v - sv_last v < 1}) as [Hfull|Hroom] by apply decide, _.
    - destruct (decide (sv_end v - sv_last v < 1)) as [_|?]; [|done].
      destruct (decide (length (ms ++ ns) = sv_end v)) as [_|?]; [|lia].
      set (nc := if decide (sv_end v + sv_end v / 2 = 0) then 2 else sv_end v + sv_end v / 2).
      rewrite app_length in Hl.
      assert (nc = enlarged (sv_end v)) as Hnc.
      { unfold nc, enlarged. destruct (decide (sv_end v = 0)) as [->|]; [done|].
        rewrite decide_False; [done|lia]. }
      assert (sv_end v < nc ≤ 2 * sv_end v + 2) as Hnc2.
      { rewrite Hnc. unfold enlarged. destruct (decide (sv_end v = 0)); [lia|].
        assert (2 ≤ sv_end v) by lia. pose proof (Nat.div_le_mono 2 (sv_end v) 2).
        pose proof (Nat.mul_div_le (sv_end v) 2). change (2 / 2) with 1 in *. lia. }
      apply (xp_bind _ _ _ _ (λ _ q, svmP v (ms ++ ns) ∗ ∃ l, ⌜q = Some l⌝ ∧ arrP q (replicate nc None))%I).
      { eapply xp_throw; [apply (xp_clean 1); [cw|]|].
        - intros al x _. iIntros "H". iApply wp_new_arr. iIntros (q) "Hq". iFrame "H".
          destruct q as [l|]; [by iExists l; iFrame|]. iDestruct "Hq" as "[%Hq _]". exfalso.
          apply (f_equal length) in Hq. rewrite replicate_length /= in Hq. lia.
        - intros x _. iIntros "$". by iLeft. }
      intros q. apply (xp_bind _ _ _ _ (λ _ r, ⌜r = (length ms, length ms)⌝ ∧ svmP v (ms ++ ns) ∗ ∃ l, ⌜q = Some l⌝ ∧ arrP q (pl ms ++ drop (length ms) (replicate nc None)))%I).
      { apply xp_of_wp; [cw|]. intros al x _. iIntros "[H Hq]". iDestruct "Hq" as (ql ->) "Hq". iDestruct "H" as (rest [Hl' He']) "[Ha H]".
        iApply (wp_wand with "[Ha Hq]").
        { iApply (wp_copy_slots fuel (sv_arr v) [] ms (pl ns ++ rest) (Some ql) [] (replicate nc None) 0 (length ms) 0);
            [done|done|done|rewrite replicate_length; lia|lia|]. rewrite /= pl_app -app_assoc. iFrame. }
        iIntros (r) "[-> [Ha Hq]]". iSplit; [done|]. simpl. iSplitR "Hq"; [|by iExists ql; iFrame]. iExists rest. iSplit; [done|].
        rewrite pl_app -app_assoc. iFrame. }
      intros [i o]. cbn [ederef].
      apply (xp_bind (λ _, ret e) _ _ _ (λ _ e', ⌜e' = e⌝ ∧ ⌜(i, o) = (length ms, length ms)⌝ ∧ svmP v (ms ++ ns) ∗ ∃ l, ⌜q = Some l⌝ ∧ arrP q (pl ms ++ drop (length ms) (replicate nc None)))%I).
      { apply xp_ret. intros x _. iIntros "H". by iSplit. }
      intros e'. apply (xp_bind _ _ _ _ (λ _ n, ∃ l, ⌜n = Some l ∧ (i, o) = (length ms, length ms)⌝ ∧ l ↦ CEnt e ∗ svmP v (ms ++ ns) ∗ arrP q (pl ms ++ drop (length ms) (replicate nc None)))%I).
      { eapply xp_throw; [apply (xp_clean 1); [cw|]|].
        - intros al x _. iIntros "[-> [%Hio [H Hq]]]". iDestruct "Hq" as (ql ->) "Hq". iApply wp_new_ent. iIntros (l) "Hl". iExists l. iSplit; [done|]. iFrame.
        - intros x _. iIntros "[-> [%Hio [H Hq]]]". iDestruct "Hq" as (ql ->) "Hq". iFrame "H". iRight. iExists ql, _. iFrame "Hq". }
      intros n. apply xp_of_wp; [cw|]. intros al x _. iIntros "H". iDestruct "H" as (l [-> Hio]) "(Hl&H&Hq)". injection Hio as -> ->.
      iDestruct "H" as (rest [Hl' He']) "[Ha H]". rewrite app_length in Hl', He'. assert (rest = []) as -> by (apply nil_length_inv; lia).
      wstep. iApply (wp_slot_wr with "Hq").
      { rewrite app_length pl_length drop_length replicate_length. lia. }
      destruct (drop (length ms) (replicate nc None)) as [|c0 c] eqn:Hdr.
      { apply (f_equal length) in Hdr. rewrite drop_length replicate_length /= in Hdr. lia. }
      rewrite insert_mid; [|by rewrite pl_length]. iIntros "Hq". wstep.
      apply (f_equal length) in Hdr. rewrite drop_length replicate_length /= in Hdr.
      iApply (wp_wand with "[Ha Hq]").
      { iApply (wp_copy_slots fuel (sv_arr v) (pl ms) ns [] q (pl ms ++ [Some (Some l)]) c (length ms) (sv_last v) (S (length ms)));
          [by rewrite pl_length|lia|rewrite app_length pl_length /=; lia|lia|lia|].
        rewrite -app_assoc /= pl_app -app_assoc. iFrame. }
      iIntros (rr) "[-> [Ha Hq]]". wstep.
      iApply (wp_del_arr with "Ha"). wstep.
      iApply (wp_wand with "[Hq]").
      { iApply (wp_null_slots fuel q ((pl ms ++ [Some (Some l)]) ++ pl ns) (drop (length ns) c)).
        - rewrite !app_length !pl_length /=. lia.
        - rewrite drop_length. unfold nc in *. lia.
        - rewrite drop_length.
          assert (length c - length ns ≤ sv_end v / 2 + 2); [|pose proof (Nat.div_le_upper_bound (sv_end v) 2 (sv_end v)); lia].
          rewrite Hnc in Hdr. unfold enlarged in Hdr. destruct (decide (sv_end v = 0)); lia.
        - rewrite -!app_assoc /=. done. }
      iIntros (_) "Hq". iDestruct "Hq" as (c' Hc') "Hq". wstep. iExists l. iSplit.
      { iPureIntro. split; [done|]. simpl. unfold newcap. rewrite app_length decide_True; [done|lia]. }
      iExists c'. iSplit.
      + iPureIntro. simpl. rewrite app_length /= Hc' drop_length. fold nc. lia.
      + simpl. rewrite pl_app /= -!app_assoc /=. iFrame "Hq".
        rewrite !ents_app ents_cons. iDestruct "H" as "[$ $]". done.
    - destruct (decide (sv_end v - sv_last v < 1)) as [?|_]; [done|].
      destruct (decide (length (ms ++ ns) = sv_end v)) as [?|_]; [lia|].
      rewrite app_length in Hl.
      apply (xp_bind _ _ _ _ (λ _ _, tornP v ms ns)%I).
      { apply xp_of_wp; [cw|]. intros al x _. iIntros "H". iDestruct "H" as (rest [Hl' He']) "[Ha H]". rewrite app_length in Hl', He'.
        destruct rest as [|r0 rest]; [simpl in *; lia|]. iApply (wp_wand with "[Ha]").
        { iApply (wp_shift_exact fuel (sv_arr v) (pl ms) ns r0 rest); [by rewrite pl_length|lia|done|lia|].
          rewrite pl_app -app_assoc. done. }
        iIntros (_) "Ha". iDestruct "Ha" as (r Hr) "Ha". iExists r, rest. iSplit; [iPureIntro; rewrite app_length; split_and!; [lia|simpl in *; lia|done]|]. iFrame. }
      intros _. cbn [ederef].
      apply (xp_bind (λ _, ret e) _ _ _ (λ _ e', ⌜e' = e⌝ ∧ tornP v ms ns)%I).
      { apply xp_ret. intros x _. iIntros "H". by iSplit. }
      intros e'. apply (xp_bind _ _ _ _ (λ _ n, ∃ l, ⌜n = Some l⌝ ∧ l ↦ CEnt e ∗ tornP v ms ns)%I).
      { eapply xp_throw; [apply (xp_clean 1); [cw|]|].
        - intros al x _. iIntros "[-> H]". iApply wp_new_ent. iIntros (l) "Hl". iExists l. iSplit; [done|]. iFrame.
        - intros x _. iIntros "[-> $]". }
      intros n. apply xp_of_wp; [cw|]. intros al x _. iIntros "H". iDestruct "H" as (l ->) "[Hl H]".
      iDestruct "H" as (r rest (Hl'&He'&_)) "[Ha H]". rewrite app_length in Hl', He'.
      wstep. iApply (wp_slot_wr with "Ha"); [rewrite app_length pl_length /=; lia|].
      rewrite insert_mid; [|by rewrite pl_length]. iIntros "Ha". wstep. iExists l. iSplit.
      { iPureIntro. split; [done|]. simpl. unfold newcap. rewrite app_length decide_False; [done|lia]. }
      iExists rest. iSplit.
      + iPureIntro. simpl. rewrite app_length /=. lia.
      + simpl. rewrite pl_app /= -!app_assoc /=. iFrame "Ha".
        rewrite !ents_app ents_cons. iDestruct "H" as "[$ $]". done.
  Qed.

  (** *** Executions that throw *)
  Lemma th_grow fuel v ms ns pos e :
    pos = length ms → length (ms ++ ns) < fuel →
    ¬ (length (ms ++ ns) = 1 ∧ sv_end v = 1) → length (ms ++ ns) = sv_end v →
    Th (λ al : A, sv_insert_before fuel v pos (EVal e)) (svmP v (ms ++ ns)) (svmP v (ms ++ ns) ∗ ∃ l c, l ↦ c)%I.
  Proof.
    intros -> Hf1 Hcap Hend. rewrite app_length in Hf1, Hcap.
    assert (Tr 0 2 (λ al : A, sv_insert_before fuel v (length ms) (EVal e))) as Htr by tr.
    assert ({sv_last v = length (ms ++ ns)} + {sv_last v ≠ length (ms ++ ns)}) as [Hl|Hlast] by apply decide, _.
    2: { eapply th_absurd; [exact Htr|]. iIntros "H". iDestruct "H" as (rest [Hl He]) "H". by exfalso. }
    unfold sv_insert_before. rewrite app_length in Hl, Hend.
    destruct (decide (sv_end v - sv_last v < 1)) as [_|?]; [|lia].
    set (nc := if decide (sv_end v + sv_end v / 2 = 0) then 2 else sv_end v + sv_end v / 2).
    assert (sv_end v < nc) as Hnc2.
    { unfold nc. destruct (decide (sv_end v = 0)) as [->|]; [simpl; lia|]. rewrite decide_False; [|lia].
      assert (2 ≤ sv_end v) by lia. pose proof (Nat.div_le_mono 2 (sv_end v) 2).
      pose proof (Nat.mul_div_le (sv_end v) 2). change (2 / 2) with 1 in *. lia. }
    apply (th_after _ _ _ (λ q, svmP v (ms ++ ns) ∗ ∃ l, ⌜q = Some l⌝ ∧ arrP q (replicate nc None))%I (svmP v (ms ++ ns))).
    { apply (xp_clean 1); [cw|]. intros al x _. iIntros "H". iApply wp_new_arr. iIntros (q) "Hq". iFrame "H".
      destruct q as [l|]; [by iExists l; iFrame|]. iDestruct "Hq" as "[%Hq _]". exfalso.
      apply (f_equal length) in Hq. rewrite replicate_length /= in Hq. lia. }
    intros q. apply (th_after _ _ _ (λ r, svmP v (ms ++ ns) ∗ ∃ l, ⌜q = Some l⌝ ∧ arrP q (pl ms ++ drop (length ms) (replicate nc None)))%I False%I).
    { apply xp_of_wp; [cw|]. intros al x _. iIntros "[H Hq]". iDestruct "Hq" as (ql ->) "Hq". iDestruct "H" as (rest [Hl' He']) "[Ha H]".
      iApply (wp_wand with "[Ha Hq]").
      { iApply (wp_copy_slots fuel (sv_arr v) [] ms (pl ns ++ rest) (Some ql) [] (replicate nc None) 0 (length ms) 0);
          [done|done|done|rewrite replicate_length; lia|lia|]. rewrite /= pl_app -app_assoc. iFrame. }
      iIntros (r) "[-> [Ha Hq]]". simpl. iSplitR "Hq"; [|by iExists ql; iFrame]. iExists rest. iSplit; [done|].
      rewrite pl_app -app_assoc. iFrame. }
    intros [i o]. cbn [ederef].
    apply (th_after (λ _, ret e) _ _ (λ e', svmP v (ms ++ ns) ∗ ∃ l, ⌜q = Some l⌝ ∧ arrP q (pl ms ++ drop (length ms) (replicate nc None)))%I False%I).
    { apply xp_ret. intros x _. iIntros "H". done. }
    intros e'. apply (th_now 0 2); [|intros n; tr]. unfold new_ent. apply (th_now 0 2); [|intros l; tr].
    eapply th_conseq; [apply th_alloc|reflexivity|]. iIntros "[$ Hq]". iDestruct "Hq" as (ql ->) "Hq". iExists ql, _. iFrame "Hq".
  Qed.
  Lemma th_shift fuel v ms ns pos e :
    pos = length ms → length (ms ++ ns) < fuel → length (ms ++ ns) < sv_end v →
    Th (λ al : A, sv_insert_before fuel v pos (EVal e)) (svmP v (ms ++ ns)) (tornP v ms ns)%I.
  Proof.
    intros -> Hf1 Hend. rewrite app_length in Hf1.
    assert (Tr 0 2 (λ al : A, sv_insert_before fuel v (length ms) (EVal e))) as Htr by tr.
    assert ({sv_last v = length (ms ++ ns)} + {sv_last v ≠ length (ms ++ ns)}) as [Hl|Hlast] by apply decide, _.
    2: { eapply th_absurd; [exact Htr|]. iIntros "H". iDestruct "H" as (rest [Hl He]) "H". by exfalso. }
    unfold sv_insert_before. rewrite app_length in Hl, Hend.
    destruct (decide (sv_end v - sv_last v < 1)) as [?|_]; [lia|].
    apply (th_after _ _ _ (λ _, tornP v ms ns)%I False%I).
    { apply xp_of_wp; [cw|]. intros al x _. iIntros "H". iDestruct "H" as (rest [Hl' He']) "[Ha H]". rewrite app_length in Hl', He'.
      destruct rest as [|r0 rest]; [simpl in *; lia|]. iApply (wp_wand with "[Ha]").
      { iApply (wp_shift_exact fuel (sv_arr v) (pl ms) ns r0 rest); [by rewrite pl_length|lia|done|lia|].
        rewrite pl_app -app_assoc. done. }
      iIntros (_) "Ha". iDestruct "Ha" as (r Hr) "Ha". iExists r, rest. iSplit; [iPureIntro; rewrite app_length; split_and!; [lia|simpl in *; lia|done]|]. iFrame. }
    intros _. cbn [ederef].
    apply (th_after (λ _, ret e) _ _ (λ e', tornP v ms ns)%I False%I).
    { apply xp_ret. intros x _. iIntros "H". done. }
    intros e'. apply (th_now 0 2); [|intros n; tr]. unfold new_ent. apply (th_now 0 2); [|intros l; tr]. apply th_alloc.
  Qed.

  (** *** insert *)
  Context (Hko : key_order keq comp).
  Notation asc := (ascending comp).
  Notation lb k les := (length (below comp k les.*2)).
  Notation has k les := (present keq k les.*2).
  Lemma xp_sv_insert fuel v les e :
    asc les.*2 → length les < ulim → (has e.1 les = true ∨ ¬ (length les = 1 ∧ sv_end v = 1)) → sv_end v + 2 < fuel →
    Xp (λ al : A, sv_insert keq comp ulim fuel v (EVal e)) (λ _ : unit, True) (λ _, svmP v les)
      (λ _ '(v', i, fresh), ⌜i = lb e.1 les ∧ fresh = negb (has e.1 les)⌝ ∧
         if has e.1 les then ⌜v' = v⌝ ∧ svmP v les
         else ∃ l, svmP v' (take i les ++ (l, e) :: drop i les))%I
      (λ _, ⌜has e.1 les = false⌝ ∧ insT v (take (lb e.1 les) les) (drop (lb e.1 les) les))%I.
  Proof.
    intros Ha Hlim Hcap Hf.
    assert (Tr 0 2 (λ al : A, sv_insert keq comp ulim fuel v (EVal e))) as Htr by tr.
    assert ({length les ≤ sv_end v} + {¬ length les ≤ sv_end v}) as [He|He] by apply decide, _.
    2: { destruct Htr as [p [Hp _]]. exists p. split; [exact Hp|]. intros x _. iIntros "H". iDestruct "H" as (rest [Hl' He']) "H".
      exfalso. lia. }
    pose proof (probes_le (length les)). pose proof (lb_le comp e.1 les) as Hlb. unfold sv_insert. cbn [ederef].
    apply (xp_bind (λ _, ret e) _ _ _ (λ _ e', ⌜e' = e⌝ ∧ svmP v les)%I).
    { apply xp_ret. intros x _. iIntros "H". by iSplit. }
    intros e'. apply (xp_bind _ _ _ _ (λ _ i, ⌜i = lb e.1 les ∧ e' = e⌝ ∧ svmP v les)%I).
    { apply xp_of_wp; [cw|]. intros al x _. iIntros "[-> H]". iApply (wp_wand with "[H]"); [iApply (wp_sv_pos keq comp ulim Hko with "H"); [done|done|lia]|].
      iIntros (i) "[-> H]". by iSplit. }
    intros i. apply (xp_bind _ _ _ _ (λ _ (b : bool), ⌜i = lb e.1 les ∧ b = has e.1 les⌝ ∧ svmP v les)%I).
    { apply xp_of_wp; [cw|]. intros al x _. iIntros "[%Hi H]". destruct Hi as [-> ->]. iApply (wp_wand with "[H]"); [iApply (wp_key_at with "H"); exact Hlb|].
      iIntros (b) "[%Hb H]". rewrite -(has_lookup keq comp Hko) // in Hb. by iSplit. }
    intros [|].
    { apply xp_ret. intros x _. iIntros "[%Hi H]". destruct Hi as [-> Hp]. rewrite -Hp. simpl. iSplit; [done|]. by iSplit. }
    assert ({i = lb e.1 les ∧ has e.1 les = false} + {¬ (i = lb e.1 les ∧ has e.1 les = false)}) as [[-> Hp]|Hne] by apply decide, _.
    - apply (xp_bind _ _ _ _ (λ _ r, insQ v (take (lb e.1 les) les) (drop (lb e.1 les) les) e r)).
      + assert (¬ (length les = 1 ∧ sv_end v = 1)) as Hcap' by (destruct Hcap; [congruence|done]).
        eapply xp_conseq; [apply (xp_sv_insert_before fuel v (take (lb e.1 les) les) (drop (lb e.1 les) les))|];
          [by rewrite take_length_le|rewrite take_drop; lia|lia|by rewrite take_drop|].
        intros x _. iIntros "[_ H]". iExists tt. iSplit; [done|]. iExists emp%I. iSplitR; [done|]. rewrite take_drop. iFrame "H".
        iSplit; [iIntros (a) "_ $"|]. iIntros "_ H". by iSplit.
      + intros [v' i']. apply xp_ret. intros x _. iIntros "H". iDestruct "H" as (l [Hi _]) "H". simpl in Hi |- *.
        rewrite take_length_le // in Hi. rewrite Hp Hi. iSplit; [done|]. iExists l. done.
    - assert (Tr 0 2 (λ al : A, let! (v0, i0) := sv_insert_before fuel v i (EVal e) in ret (v0, i0, true))) as Htr2 by tr.
      destruct Htr2 as [p [Hp _]]. exists p. split; [exact Hp|]. intros x _. iIntros "[%Hi H]". exfalso. destruct Hi; try congruence; apply Hne; split; congruence.
  Qed.
  Lemma th_sv_insert fuel v les e X :
    asc les.*2 → length les < ulim → has e.1 les = false → length les + 2 < fuel →
    Th (λ al : A, sv_insert_before fuel v (lb e.1 les) (EVal e)) (svmP v les) X →
    Th (λ al : A, sv_insert keq comp ulim fuel v (EVal e)) (svmP v les) X.
  Proof.
    intros Ha Hlim Hno Hf Hth.
    pose proof (probes_le (length les)). pose proof (lb_le comp e.1 les) as Hlb. unfold sv_insert. cbn [ederef].
    apply (th_after (λ _, ret e) _ _ (λ e', ⌜e' = e⌝ ∧ svmP v les)%I False%I).
    { apply xp_ret. intros x _. iIntros "H". by iSplit. }
    intros e'. apply (th_after _ _ _ (λ i, ⌜i = lb e.1 les ∧ e' = e⌝ ∧ svmP v les)%I False%I).
    { apply xp_of_wp; [cw|]. intros al x _. iIntros "[-> H]". iApply (wp_wand with "[H]"); [iApply (wp_sv_pos keq comp ulim Hko with "H"); [done|done|lia]|].
      iIntros (i) "[-> H]". by iSplit. }
    intros i. apply (th_after _ _ _ (λ (b : bool), ⌜i = lb e.1 les ∧ b = has e.1 les⌝ ∧ svmP v les)%I False%I).
    { apply xp_of_wp; [cw|]. intros al x _. iIntros "[%Hi H]". destruct Hi as [-> ->]. iApply (wp_wand with "[H]"); [iApply (wp_key_at with "H"); exact Hlb|].
      iIntros (b) "[%Hb H]". rewrite -(has_lookup keq comp Hko) // in Hb. by iSplit. }
    assert ({i = lb e.1 les} + {i ≠ lb e.1 les}) as [->|Hne] by apply decide, _.
    2: { intros b. eapply (th_absurd 0 2); [tr|]. iIntros "[%Hi H]". exfalso. destruct Hi; try congruence; apply Hne; split; congruence. }
    intros [|].
    { eapply (th_absurd 0 2); [tr|]. iIntros "[%Hi H]". exfalso. destruct Hi; try congruence; apply Hne; split; congruence. }
    apply (th_now 0 2); [|intros r; tr]. eapply th_conseq; [exact Hth| |reflexivity]. iIntros "[_ $]".
  Qed.

  (** *** operator[] *)
  Lemma xp_sv_index fuel v les k :
    asc les.*2 → length les < ulim → (has k les = true ∨ ¬ (length les = 1 ∧ sv_end v = 1)) → sv_end v + 2 < fuel →
    Xp (λ al : A, sv_index keq comp dfltT ulim fuel v k) (λ _ : unit, True) (λ _, svmP v les)
      (λ _ '(v', q), ∃ l, ⌜q = Some l⌝ ∧
         if has k les then ∃ e, ⌜v' = v ∧ les !! lb k les = Some (l, e) ∧ keq e.1 k = true⌝ ∧ svmP v les
         else svmP v' (take (lb k les) les ++ (l, (k, dfltT)) :: drop (lb k les) les))%I
      (λ _, ⌜has k les = false⌝ ∧ insT v (take (lb k les) les) (drop (lb k les) les))%I.
  Proof.
    intros Ha Hlim Hcap Hf.
    assert (Tr 0 2 (λ al : A, sv_index keq comp dfltT ulim fuel v k)) as Htr by tr.
    assert ({length les ≤ sv_end v} + {¬ length les ≤ sv_end v}) as [He|He] by apply decide, _.
    2: { destruct Htr as [p [Hp _]]. exists p. split; [exact Hp|]. intros x _. iIntros "H". iDestruct "H" as (rest [Hl' He']) "H".
      exfalso. lia. }
    pose proof (probes_le (length les)). pose proof (lb_le comp k les) as Hlb. unfold sv_index.
    apply (xp_bind _ _ _ _ (λ _ i, ⌜i = lb k les⌝ ∧ svmP v les)%I).
    { apply xp_of_wp; [cw|]. intros al x _. iIntros "H". iApply (wp_wand with "[H]"); [iApply (wp_sv_pos keq comp ulim Hko with "H"); [done|done|lia]|].
      iIntros (i) "[-> H]". by iSplit. }
    intros i. apply (xp_bind _ _ _ _ (λ _ (b : bool), ⌜i = lb k les ∧ b = has k les⌝ ∧ svmP v les)%I).
    { apply xp_of_wp; [cw|]. intros al x _. iIntros "[-> H]". iApply (wp_wand with "[H]"); [iApply (wp_key_at with "H"); exact Hlb|].
      iIntros (b) "[%Hb H]". rewrite -(has_lookup keq comp Hko) // in Hb. by iSplit. }
    intros [|].
    { apply xp_of_wp; [cw|]. intros al x _. iIntros "[%Hi H]". destruct Hi as [-> Hp]. rewrite -Hp.
      pose proof (has_lookup keq comp Hko k les Ha) as Hh. rewrite -Hp in Hh.
      destruct (les !! lb k les) as [[l e]|] eqn:Hle; [|done]. simpl in Hh.
      wstep. iApply (wp_slot_at with "H"); [done|]. iIntros "H". wstep. iExists l. iSplit; [done|]. iExists e. by iSplit. }
    assert ({i = lb k les ∧ has k les = false} + {¬ (i = lb k les ∧ has k les = false)}) as [[-> Hp]|Hne] by apply decide, _.
    - apply (xp_bind _ _ _ _ (λ _ r, insQ v (take (lb k les) les) (drop (lb k les) les) (k, dfltT) r)).
      + assert (¬ (length les = 1 ∧ sv_end v = 1)) as Hcap' by (destruct Hcap; [congruence|done]).
        eapply xp_conseq; [apply (xp_sv_insert_before fuel v (take (lb k les) les) (drop (lb k les) les))|];
          [by rewrite take_length_le|rewrite take_drop; lia|lia|by rewrite take_drop|].
        intros x _. iIntros "[_ H]". iExists tt. iSplit; [done|]. iExists emp%I. iSplitR; [done|]. rewrite take_drop. iFrame "H".
        iSplit; [iIntros (a) "_ $"|]. iIntros "_ H". by iSplit.
      + intros [v' i']. apply xp_of_wp; [cw|]. intros al x _. iIntros "H". iDestruct "H" as (l [Hi _]) "H". cbn [fst snd] in Hi |- *.
        wstep. iApply (wp_slot_at with "H"); [rewrite Hi; by apply lookup_mid|]. iIntros "H". wstep. rewrite Hp. iExists l. iSplit; done.
    - assert (Tr 0 2 (λ al : A, let! (v0, i0) := sv_insert_before fuel v i (EVal (k, dfltT)) in let! q := slot_rd (sv_arr v0) i0 in ret (v0, q))) as Htr2 by tr.
      destruct Htr2 as [p [Hp _]]. exists p. split; [exact Hp|]. intros x _. iIntros "[%Hi H]". exfalso. destruct Hi; try congruence; apply Hne; split; congruence.
  Qed.
  Lemma th_sv_index fuel v les k X :
    asc les.*2 → length les < ulim → has k les = false → length les + 2 < fuel →
    Th (λ al : A, sv_insert_before fuel v (lb k les) (EVal (k, dfltT))) (svmP v les) X →
    Th (λ al : A, sv_index keq comp dfltT ulim fuel v k) (svmP v les) X.
  Proof.
    intros Ha Hlim Hno Hf Hth.
    pose proof (probes_le (length les)). pose proof (lb_le comp k les) as Hlb. unfold sv_index.
    apply (th_after _ _ _ (λ i, ⌜i = lb k les⌝ ∧ svmP v les)%I False%I).
    { apply xp_of_wp; [cw|]. intros al x _. iIntros "H". iApply (wp_wand with "[H]"); [iApply (wp_sv_pos keq comp ulim Hko with "H"); [done|done|lia]|].
      iIntros (i) "[-> H]". by iSplit. }
    intros i. apply (th_after _ _ _ (λ (b : bool), ⌜i = lb k les ∧ b = has k les⌝ ∧ svmP v les)%I False%I).
    { apply xp_of_wp; [cw|]. intros al x _. iIntros "[-> H]". iApply (wp_wand with "[H]"); [iApply (wp_key_at with "H"); exact Hlb|].
      iIntros (b) "[%Hb H]". rewrite -(has_lookup keq comp Hko) // in Hb. by iSplit. }
    assert ({i = lb k les} + {i ≠ lb k les}) as [->|Hne] by apply decide, _.
    2: { intros b. eapply (th_absurd 0 2); [tr|]. iIntros "[%Hi H]". exfalso. destruct Hi; try congruence; apply Hne; split; congruence. }
    intros [|].
    { eapply (th_absurd 0 2); [tr|]. iIntros "[%Hi H]". exfalso. destruct Hi; try congruence; apply Hne; split; congruence. }
    apply (th_now 0 2); [|intros r; tr]. eapply th_conseq; [exact Hth| |reflexivity]. iIntros "[_ $]".
  Qed.

  (** *** The state after the throw *)
  Lemma torn_plain v ms ns : tornP v ms ns ⊢ Sep.plain (sv_torn (bumped v) (ms ++ ns) (length ms)).
  Proof.
    clear Hko. apply hentails_intro. intros h Hh. apply plain_holds. unfold tornP in Hh.
    apply hexist_unfold in Hh as [r Hh]. apply hexist_unfold in Hh as [rest Hh].
    apply hand_unfold in Hh as [(Hl&He&Hr)%hpure_unfold Hh]. apply hsep_unfold in Hh as (h1&h2&->&Hd&H1&H2).
    apply ents_holds in H2 as [Hn ->]. destruct (sv_arr v) as [a|] eqn:Ha; simpl in H1.
    - pose proof (proj1 (hpto_unfold _ _ _) H1) as ->. apply map_disjoint_singleton_l in Hd.
      exists a, r, rest. unfold bumped. simpl. split_and!; [done|by rewrite Hl|lia|done|by apply ent_heap_inv|..].
      + intros le. rewrite lookup_app_r // Nat.sub_diag. destruct ns as [|le' ns]; [done|]. intros [= <-]. by eapply Hr.
      + rewrite take_app drop_app. by rewrite insert_union_singleton_l.
    - apply hand_unfold in H1 as [H1 H2]. apply hpure_unfold in H1. by apply app_nil in H1 as [_ ?].
  Qed.

  Lemma bind_ok {B D} (m : M (gmap loc C) B) (k : B → M (gmap loc C) D) h b h' : m h = Ok (b, h') → bind m k h = k b h'.
  Proof. unfold bind. by intros ->. Qed.
  Lemma bind_ub {B D} (m : M (gmap loc C) B) (k : B → M (gmap loc C) D) h u : m h = UB u → bind m k h = UB u.
  Proof. unfold bind. by intros ->. Qed.
  Lemma slot_rd_ok p a (b : slots) i q (h : gmap loc C) : p = Some a → h !! a = Some (CArr b) → b !! i = Some (Some q) →
    slot_rd p i h = Ok (q, h).
  Proof. intros -> Ha Hi. unfold slot_rd, bind, addr, ret, load. by rewrite Ha Hi. Qed.
  Lemma del_ent_ok l e (h : gmap loc C) : h !! l = Some (CEnt e) → del_ent (Some l) h = Ok (tt, delete l h).
  Proof. intros Hl. unfold del_ent, bind, load, deallocate. by rewrite !Hl. Qed.
  Lemma destroy_twice (al : A) (v : svm) a (slots : slots) (ms : list loc) (l0 : loc) i fuel (H : gmap loc C) :
    sv_arr v = Some a → a ∉ ms → H !! a = Some (CArr slots) → i + length ms < sv_last v → length ms < fuel →
    NoDup ms → (∀ l, l ∈ ms → ∃ e, H !! l = Some (CEnt e)) →
    (∀ j l, ms !! j = Some l → slots !! (i + j) = Some (Some (Some l))) →
    last ms = Some l0 → slots !! (i + length ms) = Some (Some (Some l0)) →
    loop fuel (λ i, if decide (i ≠ sv_last v) then let! q := slot_rd (sv_arr v) i in del_ent q ;! ret (inl (S i)) else ret (inr tt)) i H
      = UB (A:=unit * _) Dangling.
  Proof.
    clear Hko keq comp dfltT ulim. intros Ha. revert i fuel H. induction ms as [|l ms IH]; intros i fuel H Hal HH Hi Hf Hnd He Hs Hlast Hend; [done|].
    destruct fuel as [|fuel]; [lia|]. cbn [loop]. cbn [length] in Hi, Hf, Hend. destruct (decide (i ≠ sv_last v)) as [_|?]; [|lia].
    destruct (He l) as [e Hle]; [by left|]. apply not_elem_of_cons in Hal as [Hne Hal]. apply NoDup_cons in Hnd as [Hlm Hnd].
    pose proof (Hs 0 l eq_refl) as Hs0. rewrite Nat.add_0_r in Hs0.
    rewrite (bind_ok _ _ _ (inl (S i)) (delete l H)).
    2: { rewrite (bind_ok _ _ _ (Some l) H); [|by eapply slot_rd_ok]. by rewrite (bind_ok _ _ _ tt (delete l H)); [|by eapply del_ent_ok]. }
    destruct ms as [|l1 ms].
    - injection Hlast as ->. destruct fuel as [|fuel]; [simpl in Hf; lia|]. cbn [loop]. destruct (decide (S i ≠ sv_last v)) as [_|?]; [|simpl in Hi; lia].
      rewrite (bind_ub _ _ _ Dangling); [done|]. cbn [length] in Hend. rewrite Nat.add_1_r in Hend.
      rewrite (bind_ok _ _ _ (Some l0) (delete l0 H)); [|eapply slot_rd_ok; [exact Ha|by rewrite lookup_delete_ne|exact Hend]].
      rewrite (bind_ub _ _ _ Dangling); [done|]. unfold del_ent. rewrite (bind_ub _ _ _ Dangling); [done|]. unfold load. by rewrite lookup_delete.
    - apply IH; clear IH.
      + done.
      + by rewrite lookup_delete_ne.
      + lia.
      + lia.
      + done.
      + intros l' Hl'. rewrite lookup_delete_ne; [apply He; by right|]. by intros ->.
      + intros j l' Hj. replace (S i + j) with (i + S j) by lia. by apply Hs.
      + done.
      + by replace (S i + length (l1 :: ms)) with (i + S (length (l1 :: ms))) by lia.
  Qed.
  Lemma destroy_torn `{al : A} fuel (v : svm) les pos :
    pos < length les → length les < fuel → fails (sv_torn v les pos) (sv_destroy fuel v) Dangling.
  Proof.
    clear Hko. intros Hp Hf h hf (a&r&rest&Ha&Hl&He&Hn&Hal&Hr&->) Hd.
    destruct (lookup_lt_is_Some_2 les pos Hp) as [[l0 e0] Hl0]. pose proof (Hr _ Hl0) as ->. cbn [fst] in *.
    assert (length (take (S pos) les) = S pos) as Hlen by (rewrite take_length_le; lia).
    unfold sv_destroy. unfold bind at 1.
    set (slots := _ ++ _) in *.
    rewrite (destroy_twice al v a slots (take (S pos) les).*1 l0 0); [done|done|..].
    - intros Hin. apply Hal. apply elem_of_list_fmap in Hin as (le&->&Hin). apply elem_of_list_fmap. exists le. split; [done|].
      apply elem_of_take in Hin as (j&Hj&_). by eapply elem_of_list_lookup_2.
    - apply lookup_union_Some_l. by rewrite lookup_insert.
    - rewrite fmap_length Hlen. lia.
    - rewrite fmap_length Hlen. lia.
    - clear -Hn. rewrite -(take_drop (S pos) les) fmap_app in Hn. by apply NoDup_app in Hn as [? _].
    - intros l Hin. apply elem_of_list_fmap in Hin as ([l' e]&->&Hin). exists e. apply elem_of_take in Hin as (j&Hj&_).
      apply elem_of_list_lookup_2 in Hj. apply lookup_union_Some_l. rewrite lookup_insert_ne.
      + unfold ent_heap. apply elem_of_list_to_map_1; [by rewrite -list_fmap_compose|]. apply elem_of_list_fmap. by exists (l', e).
      + intros ->. apply Hal. apply elem_of_list_fmap. by exists (l', e).
    - intros j l Hj. apply list_lookup_fmap_inv in Hj as ([l' e]&->&Hj). apply lookup_take_Some in Hj as [Hj Hlt]. simpl.
      unfold slots. assert (j < pos ∨ j = pos) as [Hj'| ->] by lia.
      + apply lookup_app_l_Some. rewrite list_lookup_fmap lookup_take // Hj //.
      + rewrite lookup_mid; [by simplify_eq|]. rewrite fmap_length take_length_le; lia.
    - rewrite fmap_last. erewrite take_S_r; [|exact Hl0]. by rewrite last_snoc.
    - rewrite fmap_length Hlen. unfold slots. simpl. rewrite lookup_app_r; rewrite fmap_length take_length_le; [|lia..].
      replace (S pos - pos) with 1 by lia. simpl. erewrite drop_S; [|exact Hl0]. done.
  Qed.
End svm.
