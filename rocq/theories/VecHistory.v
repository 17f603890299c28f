(** vector: every call of [ve_spec_ok] refines the abstract operation, and so does
    every history. Proof file. *)
From Verif Require Export VecProofs HistoryVLogic.
From iris.proofmode Require Import tactics.

Section history.
  Context {V : Type} `{Allocator (list (option V))} (dflt : V) (eqb : V → V → bool).
  Notation block := (list (option V)).
  Notation iProp := (bi_car (hpropI block)).

  Definition vecR (v : tvec) (s : ve_state V) : iProp := vecP v s.1 s.2.
  Definition vneed (s : ve_state V) : nat := S (S (length s.1)).
  Definition vpost (s' o' : ve_state V) (out : ve_out V) (r : tvec * tvec * ve_out V) : iProp :=
    ⌜r.2 = out⌝ ∧ vecR r.1.1 s' ∗ vecR r.1.2 o'.

  Lemma wp_vdone o (m : M (gmap loc block) tvec) Q :
    wp m (λ b, Q (b, o, VDone)) ⊢ wp (vdone o m) Q.
  Proof. iIntros "Hm". unfold vdone. wstep. iApply (wp_wand with "Hm"). iIntros (?) "H". by wstep. Qed.
  Lemma wp_vpos o (m : M (gmap loc block) (tvec * nat)) Q :
    wp m (λ r, Q (r.1, o, VNat r.2)) ⊢ wp (vpos o m) Q.
  Proof. iIntros "Hm". unfold vpos. wstep. iApply (wp_wand with "Hm"). iIntros ([??]) "H". by wstep. Qed.
  Lemma wp_vobs v o {A} (f : A → ve_out V) (m : M (gmap loc block) A) Q :
    wp m (λ x, Q (v, o, f x)) ⊢ wp (vobs v o f m) Q.
  Proof. iIntros "Hm". unfold vobs. wstep. iApply (wp_wand with "Hm"). iIntros (?) "H". by wstep. Qed.

  Lemma wp_v_eq fuel v xs c w ys d :
    length xs + length ys < fuel →
    vecP v xs c ∗ vecP w ys d ⊢ wp (v_eq eqb fuel v w) (λ r,
      ⌜r = bool_decide (Forall2 (λ x y, eqb x y = true) xs ys)⌝ ∧ vecP v xs c ∗ vecP w ys d).
  Proof.
    iIntros (Hf) "[(%Hl&%He&%Hc&H) (%Hlw&%Hew&%Hcw&Hw)]". unfold v_eq. rewrite Hl Hlw.
    iApply (wp_wand with "[H Hw]"); [by iApply (wp_buf_equal with "[$H $Hw]")|].
    iIntros (r) "[% [H Hw]]". iSplit; [done|]. iSplitL "H"; by do 3 (iSplit; [done|]).
  Qed.

  Ltac vfin := iSplit; [iPureIntro; try done|iFrame].
  Lemma wp_ve_step fuel this other s o op s' o' out :
    ve_spec_ok dflt eqb s o op = Some (s', o', out) →
    vneed s + vneed o + vneed s' + vneed o' < fuel →
    vecR this s ∗ vecR other o ⊢ wp (ve_step dflt eqb fuel this other op) (vpost s' o' out).
  Proof.
    destruct s as [xs c], o as [ys d].
    iIntros (Hspec Hf) "[H Ho]". unfold vecR. simpl. unfold vneed in Hf. simpl in Hf.
    iDestruct (vecP_last with "H") as %(Hl&_&Hc).
    unfold ve_spec_ok in Hspec. destruct (decide _) as [Hok|]; [|done]. unfold ve_spec in Hspec.
    apply bind_Some in Hspec as ([zs out']&Hel&Hspec).
    destruct op; simpl in Hel, Hok; unfold ve_step; cbn beta iota;
      repeat match goal with
        | H : _ ≫= _ = Some _ |- _ => apply bind_Some in H as (?&?&?)
        | H : (if decide _ then _ else _) = Some _ |- _ => case_decide; simplify_eq/=
        end; simplify_eq/=.
    - (* push_back *) iApply wp_vdone.
      iApply (wp_wand with "[H]"); [iApply (wp_v_push_back_ref _ _ _ _ (VExt x) with "H"); [lia|done]|].
      iIntros (v') "[_ H]". vfin.
    - (* push_back own *) iApply wp_vdone.
      iApply (wp_wand with "[H]"); [iApply (wp_v_push_back_ref _ _ _ _ (vown this i) with "H"); [lia|done]|].
      iIntros (v') "[_ H]". vfin.
    - (* pop_back *) iApply wp_vdone.
      destruct xs as [|x xs _] using rev_ind; [done|].
      iApply (wp_wand with "[H]"); [by iApply (wp_v_pop_back with "H")|].
      iIntros (v') "[_ H]". rewrite app_length /= Nat.add_sub take_app. vfin.
    - (* insert *) iApply wp_vpos. unfold v_insert.
      iApply (wp_wand with "[H]").
      { iApply (wp_v_insert_n fuel this xs c i 1 (VExt x) x with "H"); [done|lia|done|done]. }
      iIntros (q) "(%&_&H)". vfin; simpl; by f_equal.
    - (* insert n *) iApply wp_vpos.
      assert (length xs + n < fuel).
      { unfold ins in Hf. rewrite !app_length replicate_length in Hf. lia. }
      iApply (wp_wand with "[H]").
      { iApply (wp_v_insert_n fuel this xs c i n (VExt x) x with "H"); [done|lia|done|done]. }
      iIntros (q) "(%&_&H)". vfin; simpl; by f_equal.
    - (* insert own *) iApply wp_vpos.
      assert (length xs + n < fuel).
      { unfold ins in Hf. rewrite !app_length replicate_length take_length drop_length in Hf. lia. }
      iApply (wp_wand with "[H]").
      { iApply (wp_v_insert_n fuel this xs c i n (vown this j) with "H"); [done|lia|done|done]. }
      iIntros (q) "(%&_&H)". vfin; simpl; by f_equal.
    - (* insert range *) iApply wp_vpos.
      assert (length xs + length xs0 < fuel).
      { unfold ins in Hf. rewrite !app_length take_length drop_length in Hf. lia. }
      iApply (wp_wand with "[H]").
      { iApply (wp_v_insert_range fuel this xs c i xs0 with "H"); [done|lia]. }
      iIntros (q) "(%&_&H)". vfin; simpl; by f_equal.
    - (* insert other *) iApply wp_vpos. iDestruct "Ho" as "(%Hlo&%Heo&%Hco&Ho)".
      iApply (wp_wand with "[H Ho]").
      { iApply (wp_v_insert_other fuel this xs c i with "[$H $Ho]"); [tauto|tauto|lia]. }
      iIntros (q) "(%&_&H&Ho)". vfin; [simpl; by f_equal|]. by do 3 (iSplit; [done|]).
    - (* erase *) iApply wp_vpos. unfold v_erase.
      iApply (wp_wand with "[H]").
      { iApply (wp_v_erase_range fuel this xs c i (S i) with "H"); lia. }
      iIntros (q) "(%&_&H)". vfin; simpl; by f_equal.
    - (* erase range *) iApply wp_vpos.
      iApply (wp_wand with "[H]").
      { iApply (wp_v_erase_range fuel this xs c i j with "H"); [done|done|lia]. }
      iIntros (q) "(%&_&H)". vfin; simpl; by f_equal.
    - (* resize *) iApply wp_vdone.
      assert (length xs + n < fuel).
      { rewrite !app_length replicate_length take_length in Hf. lia. }
      iApply (wp_wand with "[H]"); [by iApply (wp_v_resize with "H")|].
      iIntros (v') "[_ H]". vfin.
    - (* resize to *) iApply wp_vdone.
      assert (length xs + n < fuel).
      { rewrite !app_length replicate_length take_length in Hf. lia. }
      iApply (wp_wand with "[H]"); [by iApply (wp_v_resize_to dflt _ _ _ _ _ (VExt x) x with "H")|].
      iIntros (v') "[_ H]". vfin.
    - (* resize own *) iApply wp_vdone.
      assert (length xs + n < fuel).
      { rewrite !app_length replicate_length take_length in Hf. lia. }
      iApply (wp_wand with "[H]"); [by iApply (wp_v_resize_to dflt _ _ _ _ _ (vown this i) with "H")|].
      iIntros (v') "[_ H]". vfin.
    - (* assign n *) iApply wp_vdone. rewrite replicate_length in Hf.
      iApply (wp_wand with "[H]"); [iApply (wp_v_assign_n with "H"); lia|].
      iIntros (v') "[_ H]". vfin.
    - (* assign range *) iApply wp_vdone.
      iApply (wp_wand with "[H]").
      { iApply (wp_v_assign_range fuel this xs c _ zs emp%I with "[$H]"); [lia|]. apply rng_vals. }
      iIntros (v') "[H _]". vfin.
    - (* assign other *) iApply wp_vdone. iDestruct "Ho" as "(%Hlo&%Heo&%Hco&Ho)".
      iApply (wp_wand with "[H Ho]").
      { iApply (wp_v_assign_range fuel this xs c _ (slice j k ys)
          (blk (v_buf other) (lv ys ++ raw (d - length ys))) with "[$H $Ho]"); [|by apply rng_slice].
        rewrite slice_length in Hf |- *; lia. }
      iIntros (v') "[H Ho]". rewrite slice_length //. vfin. by do 3 (iSplit; [done|]).
    - (* assign from *) iApply wp_vdone.
      iApply (wp_wand with "[H Ho]"); [iApply (wp_v_assign with "[$H $Ho]"); lia|].
      iIntros (v') "(_&H&Ho)". vfin.
    - (* reserve *) iApply wp_vdone.
      iApply (wp_wand with "[H]"); [iApply (wp_v_reserve with "H"); lia|].
      iIntros (v') "[_ H]". vfin.
    - (* clear *) iApply wp_vdone.
      iApply (wp_wand with "[H]"); [iApply (wp_v_clear with "H"); lia|].
      iIntros (v') "[_ H]". vfin.
    - (* swap *) unfold v_swap. wstep. wstep. wstep. vfin.
    - (* recopy *) wstep.
      iApply (wp_wand with "[Ho]"); [iApply (wp_v_destroy with "Ho"); lia|]. iIntros (_) "_". wstep.
      iApply (wp_wand with "[H]"); [iApply (wp_v_copy with "H"); lia|].
      iIntros (v') "[H Ho]". wstep. vfin.
    - (* recreate *) wstep. rewrite replicate_length in Hf.
      iApply (wp_wand with "[H]"); [iApply (wp_v_destroy with "H"); lia|]. iIntros (_) "_".
      iApply wp_vdone.
      iApply (wp_wand with "[]"); [iApply wp_v_new_n; lia|].
      iIntros (v') "H". vfin.
    - (* recreate n *) wstep. rewrite replicate_length in Hf.
      iApply (wp_wand with "[H]"); [iApply (wp_v_destroy with "H"); lia|]. iIntros (_) "_".
      iApply wp_vdone.
      iApply (wp_wand with "[]"); [iApply wp_v_new_n; lia|].
      iIntros (v') "H". vfin.
    - (* recreate range *) wstep.
      iApply (wp_wand with "[H]"); [iApply (wp_v_destroy with "H"); lia|]. iIntros (_) "_".
      iApply wp_vdone.
      iApply (wp_wand with "[]"); [iApply (wp_v_new_range fuel _ zs emp%I); [lia|done|apply rng_vals|done]|].
      iIntros (v') "[H _]". vfin.
    - (* set *) iApply wp_vobs.
      iApply (wp_wand with "[H]"); [by iApply (wp_v_set_at with "H")|].
      iIntros (v') "H". vfin.
    - (* at *) iApply wp_vobs.
      iApply (wp_wand with "[H]"); [by iApply (wp_v_at with "H")|].
      iIntros (v') "[-> H]". vfin.
    - (* front *) iApply wp_vobs.
      iApply (wp_wand with "[H]"); [by iApply (wp_v_front with "H")|].
      iIntros (v') "[-> H]". vfin.
    - (* back *) iApply wp_vobs.
      iApply (wp_wand with "[H]"); [by iApply (wp_v_back with "H")|].
      iIntros (v') "[-> H]". vfin.
    - (* size *) wstep. vfin. simpl. f_equal. done.
    - (* empty *) wstep. vfin. simpl. f_equal. unfold v_empty, v_size. rewrite Hl.
      apply bool_decide_ext. destruct zs; simpl; split; intros; by try lia.
    - (* capacity *) iDestruct (vecP_last with "H") as %(_&He&_). wstep. vfin. simpl. by f_equal.
    - (* contents *) iApply wp_vobs.
      iApply (wp_wand with "[H]"); [iApply (wp_v_contents with "H"); lia|].
      iIntros (v') "[-> H]". vfin.
    - (* equal *) iApply wp_vobs.
      iApply (wp_wand with "[H Ho]"); [iApply (wp_v_eq with "[$H $Ho]"); lia|].
      iIntros (v') "[-> [H Ho]]". vfin.
  Qed.

  Lemma vec_new_R : ⊢ wp v_new (λ a, vecR a ([], 0)).
  Proof. apply wp_v_new. Qed.
  Lemma vec_history_correct ops :
    v_correct v_new v_destroy (ve_step dflt eqb) ([], 0) (ve_spec_ok dflt eqb) (λ _, True) ops.
  Proof.
    apply (v_program_correct _ _ _ _ _ vecR vneed).
    - apply vec_new_R.
    - intros fuel a s _ Hf. iIntros "H". iApply (wp_v_destroy with "H"). unfold vneed in Hf. lia.
    - intros. by eapply wp_ve_step.
  Qed.
  Lemma vec_history_reaches ops :
    v_reaches v_new (ve_step dflt eqb) ([], 0) (ve_spec_ok dflt eqb)
      (λ v s h, v_capacity v = s.2 ∧ is_vec v s.1 h) ops.
  Proof.
    apply (v_prefix_reaches _ _ _ _ vecR vneed).
    - apply vec_new_R.
    - intros. by eapply wp_ve_step.
    - intros v s. iIntros "H". iDestruct (vecP_last with "H") as %(_&He&_).
      unfold vecR. rewrite -He -vec_holds. iSplit; [done|]. done.
  Qed.
End history.
