(** forward_list: every call refines the abstract sequence operation, and so
    does every history. Proof file. *)
From Verif Require Export ForwardProofs ForwardSplice.

Section history.
  Context {V : Type} (eqb : V → V → bool) `{Allocator (cell V)}.
  Notation C := (cell V).
  Notation iProp := (bi_car (hpropI C)).
  Implicit Types (xs ys : list (loc * V)) (this : loc).

  Lemma lookup_snd xs i v : xs.*2 !! i = Some v → ∃ l, xs !! i = Some (l, v).
  Proof.
    rewrite list_lookup_fmap. destruct (xs !! i) as [[l w]|]; simpl; [|done].
    intros [= ->]. eauto.
  Qed.

  Lemma wp_show_it this xs i Q :
    flist this xs -∗ (flist this xs -∗ Q (show_nth xs.*2 i)) -∗
    wp (show_it (pos_at this xs (S i))) Q.
  Proof.
    iIntros "H HQ". unfold show_it, show_nth. rewrite list_lookup_fmap.
    destruct (xs !! i) as [[l v]|] eqn:E.
    - rewrite (pos_at_elem _ _ _ _ _ E). wstep. rewrite -(pos_at_elem this _ _ _ _ E).
      iApply (wp_fl_value with "H"); [done|]. iIntros "H". wstep. by iApply "HQ".
    - rewrite pos_at_S drop_ge; [|by apply lookup_ge_None]. simpl. wstep. by iApply "HQ".
  Qed.
  Lemma wp_done {A} (m : M (gmap loc C) A) Q :
    wp m (λ _, Q ODone) ⊢ wp (done m) Q.
  Proof.
    iIntros "Hm". unfold done. wstep. iApply (wp_wand with "Hm"). iIntros (?) "H". by wstep.
  Qed.

  Definition step_post (this other : loc) (xs' ys' : list V) (out : fl_out V)
      (r : loc * fl_out V) : iProp :=
    ⌜r.2 = out⌝ ∧ ∃ xs1 ys1, ⌜xs1.*2 = xs'⌝ ∧ ⌜ys1.*2 = ys'⌝ ∧
      flist this xs1 ∗ flist r.1 ys1.

  Lemma snd_take_drop xs i vs zs :
    zs.*2 = vs → (take i xs ++ zs ++ drop i xs).*2 = take i xs.*2 ++ vs ++ drop i xs.*2.
  Proof. intros <-. by rewrite !fmap_app fmap_take fmap_drop. Qed.

  Lemma fmap_fmove i j m (xs : list (loc * V)) : (fmove i j m xs).*2 = fmove i j m xs.*2.
  Proof. unfold fmove. case_decide; by rewrite !fmap_app !fmap_take !fmap_drop. Qed.

  Lemma wp_fl_step fuel this other xs ys op (xs' ys' : list V) out :
    fl_spec eqb xs.*2 ys.*2 op = Some (xs', ys', out) →
    length xs + length ys < fuel →
    flist this xs ∗ flist other ys ⊢
    wp (fl_step eqb fuel this other op) (step_post this other xs' ys' out).
  Proof.
    iIntros (Hspec Hf) "[H Ho]". unfold fl_step.
    Ltac fin zs1 zs2 := iSplit; [done|]; iExists zs1, zs2;
      iSplit; [iPureIntro|iSplit; [iPureIntro|iFrame]].
    assert (∀ i, i ≤ length xs.*2 ↔ i ≤ length xs) as Hlx by (intros; by rewrite fmap_length).
    assert (∀ i, i ≤ length ys.*2 ↔ i ≤ length ys) as Hly by (intros; by rewrite fmap_length).
    destruct op; simpl in Hspec.
    - (* push_front *) simplify_eq. wstep. iApply wp_done.
      iApply (wp_wand with "[H]"); [by iApply (wp_fl_push_front with "H")|].
      iIntros (?) "H". iDestruct "H" as (l) "H". wstep. fin ((l,v)::xs) ys; done.
    - (* push_front own *)
      apply bind_Some in Hspec as (v&Hv&?). simplify_eq. apply lookup_snd in Hv as [l Hl].
      wstep. wstep. iApply (wp_own_ref with "H"); [done|]. iIntros "H". iApply wp_done.
      iApply (wp_wand with "[H]"); [iApply (wp_fl_push_front _ _ _ v with "H")|].
      { simpl. by eapply elem_of_list_lookup_2. }
      iIntros (?) "H". iDestruct "H" as (l') "H". wstep. fin ((l',v)::xs) ys; done.
    - (* pop_front *)
      destruct xs as [|[l v] xs]; simplify_eq/=. wstep. iApply wp_done.
      iApply (wp_wand with "[H]"); [by iApply (wp_fl_pop_front with "H")|].
      iIntros (?) "H". wstep. fin xs ys; done.
    - (* insert_after *)
      case_decide as Hi; simplify_eq. apply Hlx in Hi. wstep. wstep.
      iApply (wp_fl_at with "H"); [lia|]. iIntros "H". wstep.
      iApply (wp_wand with "[H]"); [by iApply (wp_fl_insert_after _ _ _ (ExtVal v) v with "H")|].
      iIntros (p) "H". iDestruct "H" as (l ->) "H".
      assert ((take i xs ++ (l, v) :: drop i xs) !! i = Some (l, v)) as Hl.
      { rewrite lookup_app_r take_length; [|lia]. by replace (i - i `min` length xs) with 0 by lia. }
      rewrite -(pos_at_elem this _ _ _ _ Hl).
      iApply (wp_show_it with "H"). iIntros "H". wstep.
      iSplit; [iPureIntro; simpl|].
      { unfold show_nth. by rewrite list_lookup_fmap Hl. }
      iExists _, ys. iFrame. iPureIntro. split; [|done].
      by rewrite fmap_app fmap_cons fmap_take fmap_drop.
    - (* insert_after n own *)
      apply bind_Some in Hspec as (v&Hv&?). simplify_eq. apply lookup_snd in Hv as [l Hl].
      case_decide as Hi; simplify_eq. apply Hlx in Hi. wstep. wstep.
      iApply (wp_fl_at with "H"); [lia|]. iIntros "H". wstep.
      iApply (wp_own_ref with "H"); [done|]. iIntros "H". iApply wp_done.
      iApply (wp_wand with "[H]"); [iApply (wp_fl_insert_after_n _ _ _ _ _ v with "H"); [done|]|].
      { simpl. by eapply elem_of_list_lookup_2. }
      iIntros (p) "H". iDestruct "H" as (zs Hzs ->) "H". wstep.
      fin (take i xs ++ zs ++ drop i xs) ys; [by apply snd_take_drop|done].
    - (* insert_after n *)
      case_decide as Hi; simplify_eq. apply Hlx in Hi. wstep. wstep.
      iApply (wp_fl_at with "H"); [lia|]. iIntros "H". iApply wp_done.
      iApply (wp_wand with "[H]"); [by iApply (wp_fl_insert_after_n _ _ _ _ (ExtVal v) v with "H")|].
      iIntros (p) "H". iDestruct "H" as (zs Hzs ->) "H". wstep.
      fin (take i xs ++ zs ++ drop i xs) ys; [by apply snd_take_drop|done].
    - (* insert_after range *)
      case_decide as Hi; simplify_eq. apply Hlx in Hi. wstep. wstep.
      iApply (wp_fl_at with "H"); [lia|]. iIntros "H". iApply wp_done.
      iApply (wp_wand with "[H]"); [by iApply (wp_fl_insert_after_ext with "H")|].
      iIntros (p) "H". iDestruct "H" as (zs Hzs) "H". wstep.
      fin (take i xs ++ zs ++ drop i xs) ys; [by apply snd_take_drop|done].
    - (* erase_after *)
      case_decide as Hi; simplify_eq. rewrite fmap_length in Hi. wstep. wstep.
      iApply (wp_fl_at with "H"); [lia|]. iIntros "H". wstep.
      destruct (lookup_lt_is_Some_2 xs i Hi) as [[l v] Hl].
      iApply (wp_wand with "[H]"); [by iApply (wp_fl_erase_after with "H")|].
      iIntros (p) "[-> H]".
      assert (pos_at this xs (S (S i)) = pos_at this (take i xs ++ drop (S i) xs) (S i)) as ->.
      { rewrite !pos_at_S. rewrite drop_app_alt; [done|]. rewrite take_length; lia. }
      iApply (wp_show_it with "H"). iIntros "H". wstep.
      iSplit; [iPureIntro; simpl|].
      { unfold show_nth. rewrite !list_lookup_fmap.
        rewrite lookup_app_r take_length; [|lia]. rewrite lookup_drop.
        by replace (S i + (i - i `min` length xs)) with (S i) by lia. }
      iExists _, ys. iFrame. iPureIntro. split; [|done].
      by rewrite fmap_app fmap_take fmap_drop.
    - (* erase_after range *)
      case_decide as Hi; simplify_eq. rewrite fmap_length in Hi. wstep. wstep.
      iApply (wp_fl_at with "H"); [lia|]. iIntros "H". wstep.
      iApply (wp_fl_at with "H"); [lia|]. iIntros "H". wstep.
      iApply (wp_wand with "[H]"); [iApply (wp_fl_erase_after_range with "H"); lia|].
      iIntros (p) "[-> H]".
      assert (pos_at this xs j = pos_at this (take i xs ++ drop (j - 1) xs) (S i)) as ->.
      { replace j with (S (j - 1)) at 1 by lia. rewrite !pos_at_S.
        rewrite drop_app_alt; [done|]. rewrite take_length; lia. }
      iApply (wp_show_it with "H"). iIntros "H". wstep.
      iSplit; [iPureIntro; simpl|].
      { unfold show_nth. rewrite !list_lookup_fmap.
        rewrite lookup_app_r take_length; [|lia]. rewrite lookup_drop.
        by replace (j - 1 + (i - i `min` length xs)) with (j - 1) by lia. }
      iExists _, ys. iFrame. iPureIntro. split; [|done].
      by rewrite fmap_app fmap_take fmap_drop.
    - (* assign *) simplify_eq. wstep. iApply wp_done.
      iApply (wp_wand with "[H]"); [iApply (wp_fl_assign_ext with "H"); lia|].
      iIntros (?) "H". iDestruct "H" as (zs Hzs) "H". wstep. fin zs ys; done.
    - simplify_eq. wstep. iApply wp_done.
      iApply (wp_wand with "[H]"); [iApply (wp_fl_assign_n with "H"); lia|].
      iIntros (?) "H". iDestruct "H" as (zs Hzs) "H". wstep. fin zs ys; done.
    - (* clear *) simplify_eq. wstep. iApply wp_done.
      iApply (wp_wand with "[H]"); [iApply (wp_fl_clear with "H"); lia|].
      iIntros (?) "H". wstep. fin (@nil (loc * V)) ys; done.
    - (* reverse *) simplify_eq. wstep. iApply wp_done.
      iApply (wp_wand with "[H]"); [iApply (wp_fl_reverse with "H"); lia|].
      iIntros (?) "H". wstep. fin (reverse xs) ys; [by rewrite fmap_reverse|done].
    - (* front *) destruct xs as [|[l v] xs]; simplify_eq/=. wstep. wstep.
      iApply (wp_wand with "[H]"); [by iApply (wp_fl_front with "H")|].
      iIntros (w) "[-> H]". wsteps. fin ((l,v)::xs) ys; done.
    - (* empty *) simplify_eq. wstep. wstep.
      iApply (wp_wand with "[H]"); [by iApply (wp_fl_empty with "H")|].
      iIntros (w) "[-> H]". wsteps. iSplit.
      { iPureIntro. simpl. f_equal. apply bool_decide_ext. by destruct xs as [|[]]. }
      iExists xs, ys. by iFrame.
    - (* contents *) simplify_eq. wstep. wstep.
      iApply (wp_wand with "[H]"); [iApply (wp_fl_contents with "H"); lia|].
      iIntros (w) "[-> H]". wsteps. fin xs ys; done.
    - (* swap *) simplify_eq. wstep. iApply wp_done.
      iApply (wp_wand with "[H Ho]"); [iApply wp_fl_swap; iFrame|].
      iIntros (?) "[H Ho]". wsteps. fin ys xs; done.
    - (* assign from *) simplify_eq. wstep. iApply wp_done.
      iApply (wp_wand with "[H Ho]"); [iApply wp_fl_assign_from; [..|iFrame]; lia|].
      iIntros (?) "H". iDestruct "H" as (zs Hzs) "[H Ho]". wsteps. fin zs ys; done.
    - (* recopy *) simplify_eq. wsteps.
      iApply (wp_wand with "[Ho]"); [iApply (wp_fl_destroy with "Ho"); lia|].
      iIntros (?) "_". wstep.
      iApply (wp_wand with "[H]"); [iApply (wp_fl_copy with "H"); lia|].
      iIntros (o) "H". iDestruct "H" as (zs Hzs) "[H Ho]". wsteps. fin xs zs; done.
    - (* equal *) simplify_eq. wstep. wstep.
      iApply (wp_wand with "[H Ho]"); [iApply (wp_fl_eq eqb); [|iFrame]; lia|].
      iIntros (b) "(%Hb&H&Ho)". wsteps. iSplit.
      { iPureIntro. simpl. f_equal. destruct b; symmetry.
        - apply bool_decide_eq_true_2. by apply Hb.
        - apply bool_decide_eq_false_2. intros Hx. by apply Hb in Hx. }
      iExists xs, ys. by iFrame.
    - (* splice all *) case_decide as Hi; simplify_eq. destruct Hi as [Hi Hne].
      apply Hlx in Hi. wstep. wstep.
      iApply (wp_fl_at with "H"); [lia|]. iIntros "H". iApply wp_done.
      iApply (wp_wand with "[H Ho]"); [iApply (wp_fl_splice_all with "[$H $Ho]"); [lia| |lia]|].
      { by intros ->. }
      iIntros (?) "[H Ho]". wsteps. fin (take i xs ++ ys ++ drop i xs) (@nil (loc * V));
        [by apply snd_take_drop|done].
    - (* splice one *)
      apply bind_Some in Hspec as (v&Hv&?). simplify_eq. apply lookup_snd in Hv as [l Hl].
      assert (j < length ys) by (by eapply lookup_lt_Some).
      case_decide as Hi; simplify_eq. apply Hlx in Hi. wstep. wstep.
      iApply (wp_fl_at with "H"); [lia|]. iIntros "H". wstep.
      iApply (wp_fl_at with "Ho"); [lia|]. iIntros "Ho". iApply wp_done.
      iApply (wp_wand with "[H Ho]"); [by iApply (wp_fl_splice_one with "[$H $Ho]")|].
      iIntros (?) "[H Ho]". wsteps. iSplit; [done|]. iExists _, _. iFrame. iPureIntro.
      split; [|split; [|done]].
      + by rewrite fmap_app fmap_cons fmap_take fmap_drop.
      + by rewrite fmap_app fmap_take fmap_drop.
    - (* splice range *)
      case_decide as Hi; simplify_eq. destruct Hi as [Hi Hjk]. apply Hlx in Hi.
      rewrite fmap_length in Hjk. wstep. wstep.
      iApply (wp_fl_at with "H"); [lia|]. iIntros "H". wstep.
      iApply (wp_fl_at with "Ho"); [lia|]. iIntros "Ho". wstep.
      iApply (wp_fl_at with "Ho"); [lia|]. iIntros "Ho". iApply wp_done.
      iApply (wp_wand with "[H Ho]"); [iApply (wp_fl_splice_range with "[$H $Ho]"); lia|].
      iIntros (?) "[H Ho]". wsteps. iSplit; [done|]. iExists _, _. iFrame. iPureIntro.
      split; [|split; [|done]].
      + by rewrite !fmap_app !fmap_take !fmap_drop.
      + by rewrite fmap_app fmap_take fmap_drop.
    - (* move one *)
      case_decide as Hi; simplify_eq. destruct Hi as (Hi&Hj&Hne). rewrite fmap_length in Hi. rewrite fmap_length in Hj.
      destruct (lookup_lt_is_Some_2 xs j Hj) as [x Hx]. wstep. wstep.
      iApply (wp_fl_at with "H"); [lia|]. iIntros "H". wstep.
      iApply (wp_fl_at with "H"); [lia|]. iIntros "H". iApply wp_done.
      iApply (wp_wand with "[H]"); [by iApply (wp_fl_move_one with "H")|].
      iIntros (?) "H". wsteps. iSplit; [done|]. iExists _, _. iFrame. iPureIntro.
      split; [by rewrite fmap_fmove|done].
    - (* move range *)
      case_decide as Hi; simplify_eq. destruct Hi as (Hi&Hjk&Hc). rewrite fmap_length in Hi. rewrite fmap_length in Hjk.
      wstep. wstep.
      iApply (wp_fl_at with "H"); [lia|]. iIntros "H". wstep.
      iApply (wp_fl_at with "H"); [lia|]. iIntros "H". wstep.
      iApply (wp_fl_at with "H"); [lia|]. iIntros "H". iApply wp_done.
      iApply (wp_wand with "[H]"); [iApply (wp_fl_move_range with "H"); [lia..|done|lia]|].
      iIntros (?) "H". wsteps. iSplit; [done|]. iExists _, _. iFrame. iPureIntro.
      split; [by rewrite fmap_fmove|done].
  Qed.

  (** Histories. *)
  Lemma wp_fl_run ops (xs0 ys0 xs' ys' : list V) outs :
    fl_spec_run eqb xs0 ys0 ops = Some (xs', ys', outs) →
    ∃ F, ∀ fuel, F ≤ fuel → ∀ a b xs ys, xs.*2 = xs0 → ys.*2 = ys0 →
    flist a xs ∗ flist b ys ⊢
    wp (fl_run eqb fuel a b ops) (λ '(a', b', outs'), ⌜outs' = outs⌝ ∧
      ∃ xs1 ys1, ⌜xs1.*2 = xs'⌝ ∧ ⌜ys1.*2 = ys'⌝ ∧ flist a' xs1 ∗ flist b' ys1).
  Proof.
    revert xs0 ys0 xs' ys' outs.
    induction ops as [|[side op] ops IH]; intros xs0 ys0 xs' ys' outs Hspec; simpl in Hspec.
    { simplify_eq. exists 0. iIntros (fuel _ a b xs ys <- <-) "H". cbn [fl_run]. wstep.
      iSplit; [done|]. iExists xs, ys. by iFrame. }
    destruct side.
    - apply bind_Some in Hspec as ([[ys1 xs1] r]&Hs&Hspec).
      apply bind_Some in Hspec as ([[xs2 ys2] rs]&Hs'&?). simplify_eq.
      apply IH in Hs' as [F HF]. exists (S (length xs0 + length ys0 + F)).
      iIntros (fuel Hfuel a b xs ys <- <-) "[Ha Hb]". cbn [fl_run]. wstep.
      rewrite !fmap_length in Hfuel.
      iApply (wp_wand with "[Ha Hb]"); [iApply (wp_fl_step _ b a); [done| |iFrame]; lia|].
      iIntros ([a' r']) "[%Hr H]". simpl in Hr. subst r'.
      iDestruct "H" as (ys1' xs1' <- <-) "[Hb Ha]". simpl. wstep.
      iApply (wp_wand with "[Ha Hb]"); [iApply HF; [lia|done|done|iFrame]|].
      iIntros ([[a2 b2] outs']) "[-> H]". wsteps. iSplit; [done|]. done.
    - apply bind_Some in Hspec as ([[xs1 ys1] r]&Hs&Hspec).
      apply bind_Some in Hspec as ([[xs2 ys2] rs]&Hs'&?). simplify_eq.
      apply IH in Hs' as [F HF]. exists (S (length xs0 + length ys0 + F)).
      iIntros (fuel Hfuel a b xs ys <- <-) "[Ha Hb]". cbn [fl_run]. wstep.
      rewrite !fmap_length in Hfuel.
      iApply (wp_wand with "[Ha Hb]"); [iApply (wp_fl_step _ a b); [done| |iFrame]; lia|].
      iIntros ([b' r']) "[%Hr H]". simpl in Hr. subst r'.
      iDestruct "H" as (xs1' ys1' <- <-) "[Ha Hb]". simpl. wstep.
      iApply (wp_wand with "[Ha Hb]"); [iApply HF; [lia|done|done|iFrame]|].
      iIntros ([[a2 b2] outs']) "[-> H]". wsteps. iSplit; [done|]. done.
  Qed.

  Lemma fl_program_runs ops (xs' ys' : list V) outs :
    fl_spec_run eqb [] [] ops = Some (xs', ys', outs) →
    ∃ F, ∀ fuel, F ≤ fuel →
      runs nothing (fl_program eqb fuel ops) (λ outs' h, outs' = outs ∧ nothing h).
  Proof.
    intros Hspec. apply wp_fl_run in Hspec as [F HF].
    exists (S (F + length xs' + length ys')). intros fuel Hfuel. apply runs_of_wp.
    rewrite plain_nothing. iIntros "_". unfold fl_program. wstep.
    iApply (wp_wand with "[]"); [by iApply wp_fl_new|]. iIntros (a) "Ha". wstep.
    iApply (wp_wand with "[]"); [by iApply wp_fl_new|]. iIntros (b) "Hb". wstep.
    iApply (wp_wand with "[Ha Hb]"); [iApply (HF fuel ltac:(lia) a b [] []); [done|done|iFrame]|].
    iIntros ([[a' b'] outs']) "[-> H]". iDestruct "H" as (xs1 ys1 <- <-) "[Ha Hb]".
    rewrite !fmap_length in Hfuel. wstep.
    iApply (wp_wand with "[Ha]"); [iApply (wp_fl_destroy with "Ha"); lia|]. iIntros (_) "_".
    wstep.
    iApply (wp_wand with "[Hb]"); [iApply (wp_fl_destroy with "Hb"); lia|]. iIntros (_) "_".
    wstep. iSplit; [done|]. by rewrite plain_nothing.
  Qed.
End history.
