(** lazy_queue: every call of [lq_spec_ok] refines the abstract operation, and
    so does every history. Proof file. *)
From Verif Require Export LazyProofs.
From iris.proofmode Require Import tactics.

Section history.
  Context {V : Type} `{Allocator (cell V)} (triv : bool).
  Notation C := (cell V).
  Notation iProp := (bi_car (hpropI C)).
  Implicit Types (xs ys : list (loc * V)).

  Definition lqR (q : lqueue) (s : lq_state V) : iProp :=
    ∃ xs (ds : list loc), ⌜xs.*2 = s.1⌝ ∧ ⌜(length xs + length ds = s.2)%nat⌝ ∧ lqueueP q xs ds.

  Lemma wp_qdone o (m : M (gmap loc C) lqueue) Q :
    wp m (λ b, Q (b, o, ODone)) ⊢ wp (qdone o m) Q.
  Proof.
    iIntros "Hm". unfold qdone. wstep. iApply (wp_wand with "Hm"). iIntros (?) "H". by wstep.
  Qed.
  Definition qpost (s' o' : lq_state V) (out : fl_out V) (r : lqueue * lqueue * fl_out V) : iProp :=
    ⌜r.2 = out⌝ ∧ lqR r.1.1 s' ∗ lqR r.1.2 o'.

  Lemma wp_lq_show (q : lqueue) xs ds i Q :
    lqueueP q xs ds -∗ (lqueueP q xs ds -∗ Q (show_nth xs.*2 i)) -∗
    wp (show_it (pos_at (lq_head q) xs (S i))) Q.
  Proof.
    iIntros "[%Ht [H Hp]] HQ". iApply (wp_show_it with "H"). iIntros "H". iApply "HQ". by iFrame.
  Qed.
  Lemma wp_lq_at (q : lqueue) xs ds i Q :
    i ≤ S (length xs) →
    lqueueP q xs ds -∗ (lqueueP q xs ds -∗ Q (pos_at (lq_head q) xs i)) -∗
    wp (fl_at (lq_head q) i) Q.
  Proof.
    iIntros (Hi) "[%Ht [H Hp]] HQ". iApply (wp_fl_at with "H"); [done|].
    iIntros "H". iApply "HQ". by iFrame.
  Qed.
  Lemma wp_lq_own (q : lqueue) xs ds i l v Q :
    xs !! i = Some (l, v) →
    lqueueP q xs ds -∗ (lqueueP q xs ds -∗ Q (InNode l)) -∗ wp (own_ref (lq_head q) i) Q.
  Proof.
    iIntros (Hi) "[%Ht [H Hp]] HQ". iApply (wp_own_ref with "H"); [done|].
    iIntros "H". iApply "HQ". by iFrame.
  Qed.

  Lemma snd_length xs (vs : list V) : xs.*2 = vs → length xs = length vs.
  Proof. intros <-. by rewrite fmap_length. Qed.

  Lemma wp_lq_step fuel this other (s o : lq_state V) op s' o' out :
    lq_spec_ok triv s o op = Some (s', o', out) →
    s.2 + o.2 + s'.2 + o'.2 < fuel →
    lqR this s ∗ lqR other o ⊢ wp (lq_step triv fuel this other op) (qpost s' o' out).
  Proof.
    destruct s as [vs n], o as [ws m], s' as [vs' n'], o' as [ws' m'].
    iIntros (Hspec Hf) "[H Ho]".
    iDestruct "H" as (xs ds Hvs Hn) "H". iDestruct "Ho" as (ys es Hws Hm) "Ho".
    simpl in *. subst vs ws.
    unfold lq_spec_ok, lq_spec in Hspec. destruct (decide _) as [Hok|]; [|done].
    apply bind_Some in Hspec as ([zs out']&Hel&Hspec).
    Ltac qfin zs1 ds1 zs2 ds2 := iSplit; [done|]; cbn [fst snd]; iSplitL "H";
      [iExists zs1, ds1; iSplit; [iPureIntro|iSplit; [iPureIntro|iFrame]]
      |iExists zs2, ds2; iSplit; [iPureIntro; done|iSplit; [iPureIntro|iFrame]]].
    Ltac qlen := cbn [snd]; repeat first
      [ rewrite app_length | rewrite fmap_length | rewrite replicate_length | rewrite take_length
      | rewrite drop_length | rewrite reverse_length | progress simpl ]; lia.
    assert (∀ i, i ≤ length xs.*2 ↔ i ≤ length xs) as Hlx by (intros; by rewrite fmap_length).
    destruct op; simpl in Hel, Hok; unfold lq_step; cbn beta iota.
    - (* push_front *) simplify_eq. iApply wp_qdone.
      iApply (wp_wand with "[H]"); [by iApply (wp_lq_push_front _ _ _ (ExtVal v) with "H")|].
      iIntros (q) "H". iDestruct "H" as (l _ _) "H". qfin ((l,v)::xs) (drop 1 ds) ys es; [done|qlen|done].
    - (* push_front own *)
      apply bind_Some in Hel as (v&Hv&?). simplify_eq. apply lookup_snd in Hv as [l Hl].
      wstep. iApply (wp_lq_own with "H"); [done|]. iIntros "H". iApply wp_qdone.
      iApply (wp_wand with "[H]"); [iApply (wp_lq_push_front _ _ _ _ v with "H")|].
      { simpl. by eapply elem_of_list_lookup_2. }
      iIntros (q) "H". iDestruct "H" as (l' _ _) "H". qfin ((l',v)::xs) (drop 1 ds) ys es; [done|qlen|done].
    - (* push_back *) simplify_eq. iApply wp_qdone.
      iApply (wp_wand with "[H]"); [by iApply (wp_lq_push_back _ _ _ (ExtVal v) with "H")|].
      iIntros (q) "H". iDestruct "H" as (l _ _) "H".
      qfin (xs ++ [(l,v)]) (drop 1 ds) ys es; [by rewrite fmap_app|qlen|done].
    - (* push_back own *)
      apply bind_Some in Hel as (v&Hv&?). simplify_eq. apply lookup_snd in Hv as [l Hl].
      wstep. iApply (wp_lq_own with "H"); [done|]. iIntros "H". iApply wp_qdone.
      iApply (wp_wand with "[H]"); [iApply (wp_lq_push_back _ _ _ _ v with "H")|].
      { simpl. by eapply elem_of_list_lookup_2. }
      iIntros (q) "H". iDestruct "H" as (l' _ _) "H".
      qfin (xs ++ [(l',v)]) (drop 1 ds) ys es; [by rewrite fmap_app|qlen|done].
    - (* pop_front *)
      destruct xs as [|[l v] xs]; simplify_eq/=.
      iApply wp_qdone.
      iApply (wp_wand with "[H]"); [by iApply (wp_lq_pop_front with "H")|].
      iIntros (q) "[_ H]". qfin xs (l :: ds) ys es; [done|qlen|done].
    - (* insert_after *)
      case_decide as Hi; simplify_eq. apply Hlx in Hi. wstep.
      iApply (wp_lq_at with "H"); [lia|]. iIntros "H". wstep.
      iApply (wp_wand with "[H]"); [by iApply (wp_lq_insert_after _ _ _ _ (ExtVal v) v with "H")|].
      iIntros ([q p]) "H". iDestruct "H" as (l Hh Hp _) "H". simpl in Hh, Hp. subst p.
      cbn [fst snd]. wstep.
      assert ((take i xs ++ (l, v) :: drop i xs) !! i = Some (l, v)) as Hl.
      { rewrite lookup_app_r take_length; [|lia]. by replace (i - i `min` length xs) with 0 by lia. }
      rewrite -(pos_at_elem (lq_head q) _ _ _ _ Hl).
      iApply (wp_lq_show with "H"). iIntros "H". wstep.
      unfold show_nth. rewrite list_lookup_fmap Hl.
      qfin (take i xs ++ (l, v) :: drop i xs) (drop 1 ds) ys es; [|qlen|done].
      by rewrite fmap_app fmap_cons fmap_take fmap_drop.
    - (* insert_after n *)
      case_decide as Hi; simplify_eq. apply Hlx in Hi. wstep.
      iApply (wp_lq_at with "H"); [lia|]. iIntros "H". iApply wp_qdone.
      iApply (wp_wand with "[H]"); [by iApply (wp_lq_insert_after_n _ _ _ _ _ (ExtVal v) v with "H")|].
      iIntros (q) "H". iDestruct "H" as (zs Hzs _ _) "H".
      qfin (take i xs ++ zs ++ drop i xs) (drop n0 ds) ys es; [by apply snd_take_drop| |done].
      apply snd_length in Hzs. rewrite replicate_length in Hzs. qlen.
    - (* insert_after n own *)
      apply bind_Some in Hel as (v&Hv&?). simplify_eq. apply lookup_snd in Hv as [l Hl].
      case_decide as Hi; simplify_eq. apply Hlx in Hi. wstep.
      iApply (wp_lq_at with "H"); [lia|]. iIntros "H". wstep.
      iApply (wp_lq_own with "H"); [done|]. iIntros "H". iApply wp_qdone.
      iApply (wp_wand with "[H]"); [iApply (wp_lq_insert_after_n _ _ _ _ _ _ v with "H"); [done|]|].
      { simpl. by eapply elem_of_list_lookup_2. }
      iIntros (q) "H". iDestruct "H" as (zs Hzs _ _) "H".
      qfin (take i xs ++ zs ++ drop i xs) (drop n0 ds) ys es; [by apply snd_take_drop| |done].
      apply snd_length in Hzs. rewrite replicate_length in Hzs. qlen.
    - (* insert_after range *)
      case_decide as Hi; simplify_eq. apply Hlx in Hi. wstep.
      iApply (wp_lq_at with "H"); [lia|]. iIntros "H". iApply wp_qdone.
      iApply (wp_wand with "[H]"); [by iApply (wp_lq_insert_after_ext with "H")|].
      iIntros (q) "H". iDestruct "H" as (zs Hzs _ _) "H".
      qfin (take i xs ++ zs ++ drop i xs) (drop (length vs) ds) ys es; [by apply snd_take_drop| |done].
      apply snd_length in Hzs. qlen.
    - (* insert_after other *)
      case_decide as Hi; simplify_eq. apply Hlx in Hi. wstep.
      iApply (wp_lq_at with "H"); [lia|]. iIntros "H".
      iDestruct "Ho" as "[%Hto [Ho Hpo]]". wstep.
      iApply (wp_fl_begin with "Ho"). iIntros "Ho". iApply wp_qdone.
      iApply (wp_wand with "[H Ho]"); [iApply (wp_lq_insert_after_its with "[$H $Ho]"); lia|].
      iIntros (q) "H". iDestruct "H" as (zs Hzs _ _) "[H Ho]".
      qfin (take i xs ++ zs ++ drop i xs) (drop (length ys) ds) ys es; [by apply snd_take_drop| |done|by iFrame].
      apply snd_length in Hzs. rewrite fmap_length in Hzs. qlen.
    - (* erase_after *)
      case_decide as Hi; simplify_eq. rewrite fmap_length in Hi. wstep.
      iApply (wp_lq_at with "H"); [lia|]. iIntros "H". wstep.
      destruct (lookup_lt_is_Some_2 xs i Hi) as [[l v] Hl].
      iApply (wp_wand with "[H]"); [by iApply (wp_lq_erase_after with "H")|].
      iIntros ([q p]) "(%Hh&%Hp&H)". simpl in Hh, Hp. subst p. cbn [fst snd]. wstep.
      assert (pos_at (lq_head this) xs (S (S i)) =
              pos_at (lq_head q) (take i xs ++ drop (S i) xs) (S i)) as ->.
      { rewrite !pos_at_S. rewrite drop_app_alt; [done|]. rewrite take_length; lia. }
      iApply (wp_lq_show with "H"). iIntros "H". wstep.
      iSplit; [iPureIntro; simpl|].
      { unfold show_nth. rewrite !list_lookup_fmap.
        rewrite lookup_app_r take_length; [|lia]. rewrite lookup_drop.
        by replace (S i + (i - i `min` length xs)) with (S i) by lia. }
      cbn [fst snd]. iSplitL "H"; iExists _, _; iFrame; iPureIntro; split_and!; try done; [|qlen].
      by rewrite fmap_app fmap_take fmap_drop.
    - (* erase_after range *)
      case_decide as Hi; simplify_eq. rewrite fmap_length in Hi. wstep.
      iApply (wp_lq_at with "H"); [lia|]. iIntros "H". wstep.
      iApply (wp_lq_at with "H"); [lia|]. iIntros "H". wstep.
      iApply (wp_wand with "[H]"); [iApply (wp_lq_erase_after_range with "H"); lia|].
      iIntros ([q p]) "(%Hh&%Hp&H)". simpl in Hh, Hp. subst p. cbn [fst snd]. wstep.
      assert (pos_at (lq_head this) xs j = pos_at (lq_head q) (take i xs ++ drop (j - 1) xs) (S i)) as ->.
      { replace j with (S (j - 1)) at 1 by lia. rewrite !pos_at_S.
        rewrite drop_app_alt; [done|]. rewrite take_length; lia. }
      iApply (wp_lq_show with "H"). iIntros "H". wstep.
      iSplit; [iPureIntro; simpl|].
      { unfold show_nth. rewrite !list_lookup_fmap.
        rewrite lookup_app_r take_length; [|lia]. rewrite lookup_drop.
        by replace (j - 1 + (i - i `min` length xs)) with (j - 1) by lia. }
      cbn [fst snd]. iSplitL "H"; iExists _, _; iFrame; iPureIntro; split_and!; try done; [|qlen].
      by rewrite fmap_app fmap_take fmap_drop.
    - (* clear *) simplify_eq. iApply wp_qdone. iDestruct "H" as "[_ H]".
      iApply (wp_wand with "[H]"); [iApply (wp_lq_clear with "H"); lia|].
      iIntros (q) "(_&_&H)". qfin (@nil (loc * V)) (reverse xs.*1 ++ ds) ys es; [done|qlen|done].
    - (* roll *) iApply wp_qdone.
      iApply (wp_wand with "[H]"); [iApply (wp_lq_roll with "H"); lia|].
      iIntros (q) "[_ H]".
      destruct xs as [|[l v] xs]; simplify_eq/=.
      + qfin (@nil (loc * V)) ds ys es; [done|qlen|done].
      + qfin (xs ++ [(l,v)]) ds ys es; [by rewrite fmap_app|qlen|done].
    - (* front *)
      destruct xs as [|[l v] xs]; simplify_eq/=. wstep.
      iApply (wp_wand with "[H]"); [by iApply (wp_lq_front with "H")|].
      iIntros (w) "[-> H]". wstep. qfin ((l,v)::xs) ds ys es; [done|qlen|done].
    - (* back *)
      apply bind_Some in Hel as (v&Hv&?). simplify_eq.
      destruct xs as [|[l w] xs _] using rev_ind; [done|].
      rewrite fmap_app last_snoc in Hv. simplify_eq/=. wstep.
      iApply (wp_wand with "[H]"); [by iApply (wp_lq_back with "H")|].
      iIntros (v2) "[-> H]". wstep. qfin (xs ++ [(l,v)]) ds ys es; [done| |done].
      rewrite app_length /= in Hf |- *. qlen.
    - (* empty *)
      simplify_eq. iDestruct "H" as "[%Ht [H Hp]]". wstep.
      iApply (wp_wand with "[H]"); [by iApply (wp_lq_empty with "H")|].
      iIntros (e) "[-> H]". wstep.
      iSplit; [iPureIntro; cbn [snd]; f_equal; apply bool_decide_ext; by destruct xs|].
      cbn [fst snd]. iSplitL "H Hp"; iExists _, _; iFrame; iPureIntro; split_and!; try done; qlen.
    - (* contents *)
      simplify_eq. iDestruct "H" as "[%Ht [H Hp]]". wstep.
      iApply (wp_wand with "[H]"); [iApply (wp_fl_contents with "H"); lia|].
      iIntros (vs) "[-> H]". wstep. iSplit; [done|].
      cbn [fst snd]. iSplitL "H Hp"; iExists _, _; iFrame; iPureIntro; split_and!; try done; qlen.
    - (* swap *)
      simplify_eq. wstep. iApply (wp_wand with "[H Ho]").
      { iApply (wp_lq_swap this other xs ys); [by destruct xs, Hok|by destruct ys, Hok|iFrame]. }
      iIntros ([a b]) "(_&_&H&Ho)". cbn [fst snd]. wstep. qfin ys ds xs es; [done|qlen|qlen].
    - (* assign from *)
      simplify_eq. iApply wp_qdone. iDestruct "H" as "[_ [H Hp]]".
      iDestruct "Ho" as "[%Ht [Ho Hpo]]". unfold lq_assign_from.
      iApply (wp_wand with "[H Hp Ho]").
      { iApply (wp_lq_assign_from with "[$H $Hp $Ho]"); simpl in *; lia. }
      iIntros (q) "H". iDestruct "H" as (zs Hzs Hh Hre) "[H Ho]".
      qfin zs (drop (length ys) (reverse xs.*1 ++ ds)) ys es; [done| |done|by iFrame].
      apply snd_length in Hzs. rewrite fmap_length in Hzs. qlen.
    - (* recopy *)
      simplify_eq. wstep. iDestruct "Ho" as "[_ Ho]".
      iApply (wp_wand with "[Ho]"); [iApply (wp_lq_destroy with "Ho"); [|lia|lia]|].
      { destruct Hok as [->|Hl]; [by left|right]. simpl in Hl. rewrite fmap_length in Hl.
        destruct es; [done|]. simpl in Hl. lia. }
      iIntros (_) "_". wstep. iDestruct "H" as "[%Ht [H Hp]]".
      iApply (wp_wand with "[H]").
      { iApply (wp_lq_copy with "H"); simpl in *; lia. }
      iIntros (q) "H". iDestruct "H" as (zs Hzs) "[Ho H]". wstep.
      iSplit; [done|]. cbn [fst snd]. iSplitL "H Hp"; iExists _, _; iFrame; iPureIntro; split_and!; try done; try qlen.
      apply snd_length in Hzs. rewrite fmap_length in Hzs. qlen.
    - (* cleanup *)
      simplify_eq. wstep. iDestruct "H" as "[%Ht [H Hp]]".
      iApply (wp_wand with "[Hp]"); [iApply (wp_lq_cleanup with "Hp"); [|lia]|].
      { destruct Hok as [->|Hl]; [by left|right]. simpl in Hl. rewrite fmap_length in Hl.
        destruct ds; [done|]. simpl in Hl. lia. }
      iIntros (_) "Hp". wstep.
      iSplit; [done|]. cbn [fst snd]. iSplitL "H Hp"; iExists _, _; iFrame; iPureIntro; split_and!; try done; qlen.
  Qed.

  Lemma lq_new_R : ⊢ wp lq_new (λ a, lqR a ([], 0)).
  Proof.
    iStartProof. iApply (wp_wand with "[]"); [by iApply wp_lq_new|]. iIntros (q) "H".
    iExists [], []. by iFrame.
  Qed.
  Lemma lq_history_correct ops :
    v_correct lq_new (lq_destroy triv) (lq_step triv) ([], 0) (lq_spec_ok triv) (lq_fin triv) ops.
  Proof.
    apply (v_program_correct _ _ _ _ _ lqR snd).
    - apply lq_new_R.
    - intros fuel a s Hfin Hf. iIntros "H". iDestruct "H" as (xs ds Hxs Hl) "[_ H]".
      iApply (wp_lq_destroy with "H"); [|lia|lia].
      destruct Hfin as [->|Hfin]; [by left|right].
      rewrite -Hxs fmap_length -Hl in Hfin. destruct ds; [done|]. simpl in Hfin. lia.
    - intros. by eapply wp_lq_step.
  Qed.
  Lemma lq_history_reaches ops :
    v_reaches lq_new (lq_step triv) ([], 0) (lq_spec_ok triv)
      (λ q s h, ∃ xs ds, xs.*2 = s.1 ∧ length xs + length ds = s.2 ∧ is_lqueue q xs ds h) ops.
  Proof.
    apply (v_prefix_reaches _ _ _ _ lqR snd).
    - apply lq_new_R.
    - intros. by eapply wp_lq_step.
    - intros q s. iIntros "H". iDestruct "H" as (xs ds Hxs Hl) "H". iExists xs, ds.
      iSplit; [done|]. iSplit; [done|]. by rewrite -lqueue_holds.
  Qed.
End history.
