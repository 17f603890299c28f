(** backward_list: every call of [bl_spec_ok] refines the abstract operation, and
    so does every history. Proof file. *)
From Verif Require Export BackwardProofs.
From iris.proofmode Require Import tactics.

Section history.
  Context {V : Type} (eqb : V → V → bool) `{Allocator (cell V)}.
  Notation C := (cell V).
  Notation iProp := (bi_car (hpropI C)).
  Implicit Types (xs ys : list (loc * V)).

  Definition blR (b : blist) (vs : list V) : iProp := ∃ xs, ⌜xs.*2 = vs⌝ ∧ blistP b xs.

  Lemma wp_bdone o (m : M (gmap loc C) blist) Q :
    wp m (λ b, Q (b, o, ODone)) ⊢ wp (bdone o m) Q.
  Proof.
    iIntros "Hm". unfold bdone. wstep. iApply (wp_wand with "Hm"). iIntros (?) "H". by wstep.
  Qed.
  Definition bpost (s' o' : list V) (out : fl_out V) (r : blist * blist * fl_out V) : iProp :=
    ⌜r.2 = out⌝ ∧ blR r.1.1 s' ∗ blR r.1.2 o'.

  Lemma wp_bl_show (b : blist) xs i Q :
    blistP b xs -∗ (blistP b xs -∗ Q (show_nth xs.*2 i)) -∗
    wp (show_it (pos_at (bl_head b) xs (S i))) Q.
  Proof.
    iIntros "[%Ht H] HQ". iApply (wp_show_it with "H"). iIntros "H". iApply "HQ". by iFrame.
  Qed.
  Lemma wp_bl_at (b : blist) xs i Q :
    i ≤ S (length xs) →
    blistP b xs -∗ (blistP b xs -∗ Q (pos_at (bl_head b) xs i)) -∗
    wp (fl_at (bl_head b) i) Q.
  Proof.
    iIntros (Hi) "[%Ht H] HQ". iApply (wp_fl_at with "H"); [done|]. iIntros "H". iApply "HQ". by iFrame.
  Qed.
  Lemma wp_bl_own (b : blist) xs i l v Q :
    xs !! i = Some (l, v) →
    blistP b xs -∗ (blistP b xs -∗ Q (InNode l)) -∗ wp (own_ref (bl_head b) i) Q.
  Proof.
    iIntros (Hi) "[%Ht H] HQ". iApply (wp_own_ref with "H"); [done|]. iIntros "H". iApply "HQ". by iFrame.
  Qed.

  Lemma wp_bl_step fuel this other (s o : list V) op s' o' out :
    bl_spec_ok eqb s o op = Some (s', o', out) →
    length s + length o + length s' + length o' < fuel →
    blR this s ∗ blR other o ⊢ wp (bl_step eqb fuel this other op) (bpost s' o' out).
  Proof.
    iIntros (Hspec Hf) "[H Ho]".
    iDestruct "H" as (xs <-) "H". iDestruct "Ho" as (ys <-) "Ho".
    unfold bl_spec_ok in Hspec. destruct (decide _) as [Hok|]; [|done].
    assert (∀ i, i ≤ length xs.*2 ↔ i ≤ length xs) as Hlx by (intros; by rewrite fmap_length).
    rewrite !fmap_length in Hf.
    Ltac bfin zs1 zs2 := iSplit; [done|]; cbn [fst snd]; iSplitL "H";
      [iExists zs1; iSplit; [iPureIntro|iFrame] | iExists zs2; iSplit; [iPureIntro; done|iFrame]].
    destruct op; simpl in Hspec, Hok; unfold bl_step; cbn beta iota.
    - (* push_front *) simplify_eq. iApply wp_bdone.
      iApply (wp_wand with "[H]"); [by iApply (wp_bl_push_front _ _ (ExtVal v) with "H")|].
      iIntros (b) "H". iDestruct "H" as (l _) "H". bfin ((l,v)::xs) ys. done.
    - (* push_front own *)
      apply bind_Some in Hspec as (v&Hv&?). simplify_eq. apply lookup_snd in Hv as [l Hl].
      wstep. iApply (wp_bl_own with "H"); [done|]. iIntros "H". iApply wp_bdone.
      iApply (wp_wand with "[H]"); [iApply (wp_bl_push_front _ _ _ v with "H")|].
      { simpl. by eapply elem_of_list_lookup_2. }
      iIntros (b) "H". iDestruct "H" as (l' _) "H". bfin ((l',v)::xs) ys. done.
    - (* push_back *) simplify_eq. iApply wp_bdone.
      iApply (wp_wand with "[H]"); [by iApply (wp_bl_push_back _ _ (ExtVal v) with "H")|].
      iIntros (b) "H". iDestruct "H" as (l _) "H". bfin (xs ++ [(l,v)]) ys. by rewrite fmap_app.
    - (* push_back own *)
      apply bind_Some in Hspec as (v&Hv&?). simplify_eq. apply lookup_snd in Hv as [l Hl].
      wstep. iApply (wp_bl_own with "H"); [done|]. iIntros "H". iApply wp_bdone.
      iApply (wp_wand with "[H]"); [iApply (wp_bl_push_back _ _ _ v with "H")|].
      { simpl. by eapply elem_of_list_lookup_2. }
      iIntros (b) "H". iDestruct "H" as (l' _) "H". bfin (xs ++ [(l',v)]) ys. by rewrite fmap_app.
    - (* pop_front *)
      destruct xs as [|[l v] [|[l2 v2] xs]]; simpl in Hok; try lia. simplify_eq/=.
      iApply wp_bdone.
      iApply (wp_wand with "[H]"); [by iApply (wp_bl_pop_front with "H")|].
      iIntros (b) "[-> H]". bfin ((l2,v2)::xs) ys. done.
    - (* insert_after *)
      case_decide as Hi; simplify_eq. apply Hlx in Hi. wstep.
      iApply (wp_bl_at with "H"); [lia|]. iIntros "H". wstep.
      iApply (wp_wand with "[H]"); [by iApply (wp_bl_insert_after _ _ _ (ExtVal v) v with "H")|].
      iIntros ([b p]) "H". iDestruct "H" as (l Hh Hp) "H". simpl in Hh, Hp. subst p.
      cbn [fst snd]. wstep.
      assert ((take i xs ++ (l, v) :: drop i xs) !! i = Some (l, v)) as Hl.
      { rewrite lookup_app_r take_length; [|lia]. by replace (i - i `min` length xs) with 0 by lia. }
      rewrite -(pos_at_elem (bl_head b) _ _ _ _ Hl).
      iApply (wp_bl_show with "H"). iIntros "H". wstep.
      unfold show_nth. rewrite list_lookup_fmap Hl.
      bfin (take i xs ++ (l, v) :: drop i xs) ys. by rewrite fmap_app fmap_cons fmap_take fmap_drop.
    - (* insert_after n *)
      case_decide as Hi; simplify_eq. apply Hlx in Hi. wstep.
      iApply (wp_bl_at with "H"); [lia|]. iIntros "H". iApply wp_bdone.
      iApply (wp_wand with "[H]"); [by iApply (wp_bl_insert_after_n _ _ _ _ (ExtVal v) v with "H")|].
      iIntros (b) "H". iDestruct "H" as (zs Hzs _) "H".
      bfin (take i xs ++ zs ++ drop i xs) ys. by apply snd_take_drop.
    - (* insert_after n own *)
      apply bind_Some in Hspec as (v&Hv&?). simplify_eq. apply lookup_snd in Hv as [l Hl].
      case_decide as Hi; simplify_eq. apply Hlx in Hi. wstep.
      iApply (wp_bl_at with "H"); [lia|]. iIntros "H". wstep.
      iApply (wp_bl_own with "H"); [done|]. iIntros "H". iApply wp_bdone.
      iApply (wp_wand with "[H]"); [iApply (wp_bl_insert_after_n _ _ _ _ _ v with "H"); [done|]|].
      { simpl. by eapply elem_of_list_lookup_2. }
      iIntros (b) "H". iDestruct "H" as (zs Hzs _) "H".
      bfin (take i xs ++ zs ++ drop i xs) ys. by apply snd_take_drop.
    - (* insert_after range *)
      case_decide as Hi; simplify_eq. apply Hlx in Hi. wstep. rewrite fmap_length in Hok.
      iApply (wp_bl_at with "H"); [lia|]. iIntros "H". iApply wp_bdone.
      iApply (wp_wand with "[H]"); [by iApply (wp_bl_insert_after_ext_ok with "H")|].
      iIntros (b) "H". iDestruct "H" as (zs Hzs _) "H".
      bfin (take i xs ++ zs ++ drop i xs) ys. by apply snd_take_drop.
    - (* erase_after *)
      case_decide as Hi; simplify_eq. rewrite fmap_length in Hi. wstep.
      iApply (wp_bl_at with "H"); [lia|]. iIntros "H". wstep.
      iApply (wp_wand with "[H]"); [by iApply (wp_bl_erase_after with "H")|].
      iIntros ([b p]) "(%Hh&%Hp&H)". simpl in Hh, Hp. subst p. cbn [fst snd]. wstep.
      assert (pos_at (bl_head this) xs (S (S i)) =
              pos_at (bl_head b) (take i xs ++ drop (S i) xs) (S i)) as ->.
      { rewrite !pos_at_S. rewrite drop_app_alt; [done|]. rewrite take_length; lia. }
      iApply (wp_bl_show with "H"). iIntros "H". wstep.
      iSplit; [iPureIntro; simpl|].
      { unfold show_nth. rewrite !list_lookup_fmap.
        rewrite lookup_app_r take_length; [|lia]. rewrite lookup_drop.
        by replace (S i + (i - i `min` length xs)) with (S i) by lia. }
      cbn [fst snd]. iSplitL "H"; iExists _; iFrame; iPureIntro; split; try done.
      by rewrite fmap_app fmap_take fmap_drop.
    - (* erase_after range *)
      case_decide as Hi; simplify_eq. rewrite fmap_length in Hi. wstep.
      iApply (wp_bl_at with "H"); [lia|]. iIntros "H". wstep.
      iApply (wp_bl_at with "H"); [lia|]. iIntros "H". wstep.
      iApply (wp_wand with "[H]"); [iApply (wp_bl_erase_after_range with "H"); lia|].
      iIntros ([b p]) "(%Hh&%Hp&H)". simpl in Hh, Hp. subst p. cbn [fst snd]. wstep.
      assert (pos_at (bl_head this) xs j = pos_at (bl_head b) (take i xs ++ drop (j - 1) xs) (S i)) as ->.
      { replace j with (S (j - 1)) at 1 by lia. rewrite !pos_at_S.
        rewrite drop_app_alt; [done|]. rewrite take_length; lia. }
      iApply (wp_bl_show with "H"). iIntros "H". wstep.
      iSplit; [iPureIntro; simpl|].
      { unfold show_nth. rewrite !list_lookup_fmap.
        rewrite lookup_app_r take_length; [|lia]. rewrite lookup_drop.
        by replace (j - 1 + (i - i `min` length xs)) with (j - 1) by lia. }
      cbn [fst snd]. iSplitL "H"; iExists _; iFrame; iPureIntro; split; try done.
      by rewrite fmap_app fmap_take fmap_drop.
    - (* assign n *) simplify_eq. iApply wp_bdone.
      iApply (wp_wand with "[H]"); [iApply (wp_bl_assign_n with "H"); lia|].
      iIntros (b) "H". iDestruct "H" as (zs Hzs _) "H". bfin zs ys. done.
    - (* assign *) simplify_eq. iApply wp_bdone. iDestruct "H" as "[_ H]".
      iApply (wp_wand with "[H]"); [iApply (wp_bl_assign_ext with "H"); lia|].
      iIntros (b) "H". iDestruct "H" as (zs Hzs Hh Ht) "H".
      destruct zs; [|done]. bfin (@nil (loc * V)) ys; [done|].
      unfold blistP. rewrite Ht Hh. by iFrame.
    - (* clear *) simplify_eq. iApply wp_bdone.
      iApply (wp_wand with "[H]"); [iApply (wp_bl_clear with "H"); lia|].
      iIntros (b) "[_ H]". bfin (@nil (loc * V)) ys. done.
    - (* reverse *) simplify_eq. iApply wp_bdone.
      iApply (wp_wand with "[H]"); [iApply (wp_bl_reverse with "H"); [by destruct xs|lia]|].
      iIntros (b) "[_ H]". bfin (reverse xs) ys. by rewrite fmap_reverse.
    - (* front *)
      destruct xs as [|[l v] xs]; simplify_eq/=. wstep.
      iApply (wp_wand with "[H]"); [by iApply (wp_bl_front with "H")|].
      iIntros (w) "[-> H]". wstep. bfin ((l,v)::xs) ys. done.
    - (* back *)
      apply bind_Some in Hspec as (v&Hv&?). simplify_eq.
      destruct xs as [|[l w] xs _] using rev_ind; [done|].
      rewrite fmap_app last_snoc in Hv. simplify_eq/=. wstep.
      iApply (wp_wand with "[H]"); [by iApply (wp_bl_back with "H")|].
      iIntros (v2) "[-> H]". wstep. bfin (xs ++ [(l,v)]) ys. done.
    - (* empty *)
      simplify_eq. iDestruct (bl_empty_spec with "H") as "[%He H]". wstep.
      rewrite He. iSplit; [iPureIntro; cbn [snd]; f_equal; apply bool_decide_ext; by destruct xs|].
      cbn [fst snd]. iSplitL "H"; iExists _; iFrame; done.
    - (* contents *)
      simplify_eq. iDestruct "H" as "[%Ht H]". wstep.
      iApply (wp_wand with "[H]"); [iApply (wp_fl_contents with "H"); lia|].
      iIntros (vs) "[-> H]". wstep. bfin xs ys; [done|]. done.
    - (* swap *)
      simplify_eq. wstep. iApply (wp_wand with "[H Ho]").
      { iApply (wp_bl_swap this other xs ys); [by destruct xs, Hok|by destruct ys, Hok|iFrame]. }
      iIntros ([a b]) "(_&_&H&Ho)". cbn [fst snd]. wstep. bfin ys xs. done.
    - (* assign from *)
      simplify_eq. destruct ys; [|done]. iApply wp_bdone. iDestruct "H" as "[_ H]".
      iDestruct "Ho" as "[%Ht Ho]".
      iApply (wp_wand with "[H Ho]").
      { iApply (wp_bl_assign_from with "[$H $Ho]"); simpl in *; lia. }
      iIntros (b) "H". iDestruct "H" as (zs Hzs Hh Ht') "[H Ho]".
      destruct zs; [|done]. bfin (@nil (loc * V)) (@nil (loc * V)); [done| |done].
      unfold blistP. rewrite Ht' Hh. by iFrame.
    - (* recopy *)
      simplify_eq. destruct xs; [|done]. wstep.
      iApply (wp_wand with "[Ho]"); [iApply (wp_bl_destroy with "Ho"); simpl in *; lia|].
      iIntros (_) "_". wstep. iDestruct "H" as "[%Ht H]".
      iApply (wp_wand with "[H]").
      { iApply (wp_bl_copy with "H"); simpl in *; lia. }
      iIntros (b) "H". iDestruct "H" as (zs Hzs Ht') "[Ho H]". destruct zs; [|done]. wstep.
      bfin (@nil (loc * V)) (@nil (loc * V)); [done|done|].
      done.
    - (* equal *)
      simplify_eq. wstep. iApply (wp_wand with "[H Ho]").
      { iApply (wp_bl_eq eqb fuel with "[$H $Ho]"). lia. }
      iIntros (e) "[%He [H Ho]]". wstep.
      iSplit; [iPureIntro; cbn [snd]; f_equal|cbn [fst snd]; iSplitL "H"; iExists _; by iFrame].
      destruct e; [rewrite bool_decide_true; tauto|]. rewrite bool_decide_false; [done|].
      intros Hn. by apply He in Hn.
  Qed.

  Lemma bl_history_correct ops :
    v_correct bl_new bl_destroy (bl_step eqb) [] (bl_spec_ok eqb) (λ _, True) ops.
  Proof.
    apply (v_program_correct _ _ _ _ _ blR length).
    - iStartProof. iApply (wp_wand with "[]"); [by iApply wp_bl_new|]. iIntros (b) "H". iExists []. by iFrame.
    - intros fuel a s _ Hf. iIntros "H". iDestruct "H" as (xs <-) "H". rewrite fmap_length in Hf.
      by iApply wp_bl_destroy.
    - intros. by eapply wp_bl_step.
  Qed.
  Lemma bl_history_reaches ops :
    v_reaches bl_new (bl_step eqb) [] (bl_spec_ok eqb)
      (λ b vs h, ∃ xs, xs.*2 = vs ∧ is_blist b xs h) ops.
  Proof.
    apply (v_prefix_reaches _ _ _ _ blR length).
    - iStartProof. iApply (wp_wand with "[]"); [by iApply wp_bl_new|]. iIntros (b) "H". iExists []. by iFrame.
    - intros. by eapply wp_bl_step.
    - intros b vs. iIntros "H". iDestruct "H" as (xs Hxs) "H". iExists xs. iSplit; [done|].
      by rewrite -blist_holds.
  Qed.
End history.
