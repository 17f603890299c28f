(** sorted_vector_map: every call, histories, exact memory. Proof file. *)
From Verif Require Export SvmProofs2.
From iris.proofmode Require Import tactics.

Section svm.
  Context {K T : Type} `{Allocator (svcell K T)}.
  Context (keq comp : K → K → bool) (dfltT : T) (ulim : nat).
  Notation E := (K * T)%type.
  Notation iProp := (bi_car (hpropI (svcell K T))).
  Notation asc := (ascending (T:=T) comp).
  Notation lb k les := (length (below comp k les.*2)).
  Notation has k les := (present keq k les.*2).
  Implicit Types (k : K) (x : T) (e : E) (les los : list (loc * E)) (op : sv_op K T).
  Context (Hko : key_order keq comp).

  Definition sneed (s : sv_state (K:=K) (T:=T)) : nat := length s.1 + s.2 + 3.
  Notation spec := (sv_spec keq comp dfltT ulim).

  Lemma spec_asc s o op s' o' out : spec s o op = Some (s', o', out) → asc s.1 → asc o.1 → asc s'.1 ∧ o' = o.
  Proof.
    intros Hs Ha Ho. destruct op; simpl in Hs;
      repeat first [case_decide | case_match | progress simplify_eq/= | progress simplify_option_eq]; try done.
    - split; [|done]. by apply asc_add.
    - split; [|done]. by apply asc_add.
    - split; [|done]. eapply asc_keys; [symmetry; apply sv_set_keys|]. by apply asc_add.
    - split; [|done]. eapply asc_keys; [symmetry; apply sv_set_keys|]. done.
  Qed.
  Lemma stays_refl les : still_there les les.
  Proof. intros l k x Hi. by exists x. Qed.
  Lemma stays_new les l e : still_there les (with_new comp les l e).
  Proof.
    intros l' k x Hi. exists x. unfold with_new. set (p := length _). rewrite -(take_drop p les) in Hi.
    apply elem_of_app in Hi as [Hi|Hi]; apply elem_of_app; [by left|right; by right].
  Qed.
  Lemma stays_put les i l e x : les !! i = Some (l, e) → still_there les (<[i := (l, (e.1, x))]> les).
  Proof.
    intros Hi l' k y [j Hj]%elem_of_list_lookup. destruct (decide (i = j)) as [<-|Hne].
    - simplify_eq. exists x. apply (elem_of_list_lookup_2 _ i). apply list_lookup_insert. by eapply lookup_lt_Some.
    - exists y. apply (elem_of_list_lookup_2 _ j). by rewrite list_lookup_insert_ne.
  Qed.
  Lemma stays_trans a b c : still_there (K:=K) (T:=T) a b → still_there b c → still_there a c.
  Proof. intros H1 H2 l k x (y&Hy)%H1. by apply H2 in Hy. Qed.

  Lemma wp_sv_step fuel this other les los op s' o' out :
    spec (les.*2, sv_end this) (los.*2, sv_end other) op = Some (s', o', out) → asc les.*2 → asc los.*2 →
    length les + length los + sv_end this + sv_end other + 3 < fuel →
    svmP this les ∗ svmP other los ⊢
    wp (sv_step keq comp dfltT ulim fuel this other op) (λ r, ∃ les',
      ⌜r.2 = out ∧ (les'.*2, sv_end r.1.1) = s' ∧ r.1.2 = other ∧ (keeps_elements op → still_there les les')⌝ ∧
      svmP r.1.1 les' ∗ svmP other los).
  Proof.
    iIntros (Hs Ha Hao Hf) "[H Ho]". pose proof (probes_le (length les)).
    iDestruct (svmP_last with "H") as %[Hl He]. iDestruct (svmP_last with "Ho") as %[Hlo Heo].
    destruct op as [k x|j|k|k x|k|k x|k|k|k|k|k| | | | |n|]; cbn [sv_spec fst snd] in Hs; cbn [sv_step].
    - case_decide as Hroom; [|done]. destruct Hroom as [Hfit Hroom]. unfold sv_fits in Hfit. simpl in Hfit, Hroom.
      rewrite fmap_length in Hfit, Hroom. simplify_eq. wstep. iApply (wp_wand with "[H]").
      { iApply (wp_sv_insert keq comp ulim Hko fuel this les (EVal (k, x)) (k, x) with "H"); [done..|lia]. }
      iIntros ([[v' i] b]) "H". iDestruct "H" as (les' (->&->&Hadd&Hcase)) "H". simpl in *. wstep.
      iExists les'. iSplit; [iPureIntro|iFrame "H Ho"]. split_and!; try done. intros _.
      destruct (has k les); [destruct Hcase as [_ ->]; apply stays_refl|]. destruct Hcase as [l ->]. apply stays_new.
    - apply bind_Some in Hs as (e&Hj&Hs). case_decide as Hfit; [|done]. unfold sv_fits in Hfit. simpl in Hfit.
      rewrite fmap_length in Hfit. simplify_eq. rewrite list_lookup_fmap in Hj.
      apply fmap_Some in Hj as ([l e']&Hj&?). simpl in *. subst e'.
      wstep. iApply (wp_slot_at with "H"); [done|]. iIntros "H". wstep.
      assert (has e.1 les = true) as Hp.
      { apply present_spec. exists e. split; [|by apply (keq_refl keq comp Hko)].
        apply (elem_of_list_lookup_2 _ j). by rewrite list_lookup_fmap Hj. }
      iApply (wp_wand with "[H]").
      { iApply (wp_sv_insert keq comp ulim Hko fuel this les (ERef (Some l)) e with "H"); [done| |done|by left|lia].
        exists l. split; [done|]. by eapply elem_of_list_lookup_2. }
      iIntros ([[v' i] b]) "H". iDestruct "H" as (les' (->&->&Hadd&Hcase)) "H". rewrite Hp in Hcase. destruct Hcase as [-> ->].
      wstep. iExists les. iSplit; [iPureIntro|iFrame "H Ho"]. rewrite Hp. split_and!; try done; [|intros _; apply stays_refl]. simpl. f_equal.
      symmetry. eapply (keq_at_cut keq comp Hko); [done| |by apply (keq_refl keq comp Hko)]. by rewrite list_lookup_fmap Hj.
    - case_decide as Hroom; [|done]. destruct Hroom as [Hfit Hroom]. unfold sv_fits in Hfit. simpl in Hfit, Hroom.
      rewrite fmap_length in Hfit, Hroom. simplify_eq. wstep. iApply (wp_wand with "[H]").
      { iApply (wp_sv_index keq comp dfltT ulim Hko fuel this les k with "H"); [done..|lia]. }
      iIntros ([v' q]) "H". iDestruct "H" as (les' l e (->&Hle&Hk&Hv&Hadd&Hcase)) "H". simpl in *. wstep.
      iApply (wp_ent_at with "H"); [done|]. iIntros "H". wstep.
      iExists les'. iSplit; [iPureIntro|iFrame "H Ho"]. split_and!; try done; [by rewrite /= Hv|]. intros _.
      destruct (has k les); [destruct Hcase as [_ ->]; apply stays_refl|]. destruct Hcase as [l' ->]. apply stays_new.
    - case_decide as Hroom; [|done]. destruct Hroom as [Hfit Hroom]. unfold sv_fits in Hfit. simpl in Hfit, Hroom.
      rewrite fmap_length in Hfit, Hroom. simplify_eq. wstep. iApply (wp_wand with "[H]").
      { iApply (wp_sv_index keq comp dfltT ulim Hko fuel this les k with "H"); [done..|lia]. }
      iIntros ([v' q]) "H". iDestruct "H" as (les' l e (->&Hle&Hk&Hv&Hadd&Hcase)) "H". simpl in *. wstep.
      iApply (wp_ent_put _ _ _ _ _ x with "H"); [done|]. iIntros "H". wstep.
      iExists _. iSplit; [iPureIntro|iFrame "H Ho"]. split; [done|]. split; [|split; [done|]].
      + cbn [fst snd]. rewrite -Hadd. cbn [fst snd]. f_equal. rewrite list_fmap_insert. symmetry.
        eapply (sv_set_at keq comp Hko); [|by rewrite list_lookup_fmap Hle|done].
        pose proof (asc_add keq comp Hko k dfltT (les.*2, sv_end this) Ha) as Ha'. rewrite -Hadd in Ha'. exact Ha'.
      + intros _. eapply stays_trans; [|by apply stays_put].
        destruct (has k les); [destruct Hcase as [_ ->]; apply stays_refl|]. destruct Hcase as [l' ->]. apply stays_new.
    - case_decide as Hfit; [|done]. unfold sv_fits in Hfit. simpl in Hfit. rewrite fmap_length in Hfit.
      apply bind_Some in Hs as (x&Hx&Hs). simplify_eq.
      assert (has k les = true) as Hp by (rewrite value_of_present; apply bool_decide_eq_true; eauto).
      wstep. iApply (wp_wand with "[H]"); [iApply (wp_sv_at keq comp ulim Hko fuel this les k with "H"); [done|done|lia|done]|].
      iIntros (q) "H". iDestruct "H" as (l e (->&Hle&Hk&Hv)) "H". wstep.
      iApply (wp_ent_at with "H"); [done|]. iIntros "H". wstep. iExists les. iSplit; [iPureIntro|iFrame "H Ho"].
      split_and!; try done; [|intros _; apply stays_refl]. simpl. by simplify_eq.
    - case_decide as Hfit; [|done]. unfold sv_fits in Hfit. simpl in Hfit. rewrite fmap_length in Hfit.
      destruct (has k les) eqn:Hp; [|done]. simplify_eq.
      wstep. iApply (wp_wand with "[H]"); [iApply (wp_sv_at keq comp ulim Hko fuel this les k with "H"); [done|done|lia|done]|].
      iIntros (q) "H". iDestruct "H" as (l e (->&Hle&Hk&Hv)) "H". wstep.
      iApply (wp_ent_put _ _ _ _ _ x with "H"); [done|]. iIntros "H". wstep.
      iExists _. iSplit; [iPureIntro|iFrame "H Ho"]. split; [done|]. split; [|split; [done|]].
      + cbn [fst snd]. f_equal. rewrite list_fmap_insert. symmetry.
        eapply (sv_set_at keq comp Hko); [done|by rewrite list_lookup_fmap Hle|done].
      + intros _. by apply stays_put.
    - case_decide as Hfit; [|done]. unfold sv_fits in Hfit. simpl in Hfit. rewrite fmap_length in Hfit. simplify_eq.
      wstep. iApply (wp_wand with "[H]"); [iApply (wp_sv_find keq comp ulim Hko fuel this les k with "H"); [done|done|lia]|].
      iIntros (i) "[-> H]". wstep. iExists les. iSplit; [iPureIntro|iFrame "H Ho"]. split_and!; try done. intros _. apply stays_refl.
    - case_decide as Hfit; [|done]. unfold sv_fits in Hfit. simpl in Hfit. rewrite fmap_length in Hfit. simplify_eq.
      wstep. unfold sv_count. wstep. iApply (wp_wand with "[H]"); [iApply (wp_sv_find keq comp ulim Hko fuel this les k with "H"); [done|done|lia]|].
      iIntros (i) "[-> H]". wstep. wstep. iExists les. iSplit; [iPureIntro|iFrame "H Ho"]. split_and!; try done; [|intros _; apply stays_refl].
      simpl. unfold pos_of. rewrite fmap_length. pose proof (has_lookup keq comp Hko k les Ha) as Hh.
      destruct (has k les) eqn:Hp.
      + rewrite decide_False; [done|]. destruct (les !! lb k les) eqn:Hle; [|done]. apply lookup_lt_Some in Hle. lia.
      + by rewrite decide_True.
    - case_decide as Hfit; [|done]. unfold sv_fits in Hfit. simpl in Hfit. rewrite fmap_length in Hfit. simplify_eq.
      wstep. unfold sv_equal_range. wstep. iApply (wp_wand with "[H]"); [iApply (wp_sv_find keq comp ulim Hko fuel this les k with "H"); [done|done|lia]|].
      iIntros (i) "[-> H]". wstep. wstep. iExists les. iSplit; [iPureIntro|iFrame "H Ho"]. split_and!; try done; [|intros _; apply stays_refl].
      simpl. unfold pos_of. rewrite fmap_length (not_above_length keq comp Hko) //. pose proof (has_lookup keq comp Hko k les Ha) as Hh.
      destruct (has k les) eqn:Hp.
      + rewrite decide_True; [by rewrite Nat.add_1_r|]. destruct (les !! lb k les) eqn:Hle; [|done]. apply lookup_lt_Some in Hle. lia.
      + by rewrite decide_False; [|lia].
    - case_decide as Hfit; [|done]. unfold sv_fits in Hfit. simpl in Hfit. rewrite fmap_length in Hfit. simplify_eq.
      wstep. unfold sv_lower_bound. iApply (wp_wand with "[H]"); [iApply (wp_sv_pos keq comp ulim Hko fuel this les k with "H"); [done|done|lia]|].
      iIntros (i) "[-> H]". wstep. iExists les. iSplit; [iPureIntro|iFrame "H Ho"]. split_and!; try done. intros _. apply stays_refl.
    - case_decide as Hfit; [|done]. unfold sv_fits in Hfit. simpl in Hfit. rewrite fmap_length in Hfit. simplify_eq.
      wstep. iApply (wp_wand with "[H]"); [iApply (wp_sv_upper keq comp ulim Hko fuel this les k with "H"); [done|done|lia]|].
      iIntros (i) "[-> H]". wstep. iExists les. iSplit; [iPureIntro|iFrame "H Ho"]. split_and!; try done. intros _. apply stays_refl.
    - simplify_eq. wstep. iExists les. iSplit; [iPureIntro|iFrame "H Ho"]. split_and!; try done; [|intros _; apply stays_refl].
      simpl. by rewrite /sv_size Hl fmap_length.
    - simplify_eq. wstep. iExists les. iSplit; [iPureIntro|iFrame "H Ho"]. split_and!; try done; [|intros _; apply stays_refl].
      simpl. unfold sv_empty. f_equal. apply bool_decide_ext. rewrite Hl. destruct les; split; done.
    - simplify_eq. wstep. iApply (wp_wand with "[H]"); [iApply (wp_sv_clear with "H"); lia|].
      iIntros (v') "[%Hc H]". wstep. iExists []. iSplit; [iPureIntro|iFrame "H Ho"]. split_and!; try done. by rewrite /= Hc.
    - simplify_eq. wstep. iApply (wp_wand with "[H]"); [iApply (wp_sv_contents with "H"); lia|].
      iIntros (xs) "[-> H]". wstep. iExists les. iSplit; [iPureIntro|iFrame "H Ho"]. split_and!; try done. intros _. apply stays_refl.
    - simplify_eq. wstep. iApply (wp_wand with "[H]"); [iApply (wp_sv_destroy with "H"); lia|]. iIntros (_) "_". wstep.
      iApply (wp_wand with "[]"); [by iApply wp_sv_new_n|]. iIntros (v') "[%Hc H]". wstep.
      iExists []. iSplit; [iPureIntro|iFrame "H Ho"]. split_and!; try done. by rewrite /= Hc.
    - simplify_eq. wstep. iApply (wp_wand with "[H]"); [iApply (wp_sv_destroy with "H"); lia|]. iIntros (_) "_". wstep.
      iApply (wp_wand with "[Ho]"); [iApply (wp_sv_copy with "Ho"); lia|]. iIntros (v') "H".
      iDestruct "H" as (les' [Hc Hv]) "[Ho H]". wstep. iExists les'. iSplit; [iPureIntro|iFrame "H Ho"]. split_and!; try done. by rewrite /= Hc Hv.
  Qed.

  (** *** Histories *)
  Definition svR (v : svm) (s : sv_state (K:=K) (T:=T)) : iProp :=
    (∃ les, ⌜(les.*2, sv_end v) = s ∧ asc s.1⌝ ∧ svmP v les)%I.
  Lemma svR_step fuel this other s o op s' o' out :
    spec s o op = Some (s', o', out) → sneed s + sneed o + sneed s' + sneed o' < fuel →
    svR this s ∗ svR other o ⊢
    wp (sv_step keq comp dfltT ulim fuel this other op) (λ r, ⌜r.2 = out⌝ ∧ svR r.1.1 s' ∗ svR r.1.2 o').
  Proof.
    iIntros (Hs Hf) "[H Ho]". iDestruct "H" as (les [<- Ha]) "H". iDestruct "Ho" as (los [<- Hao]) "Ho".
    unfold sneed in Hf. simpl in Hf. rewrite !fmap_length in Hf.
    destruct (spec_asc _ _ _ _ _ _ Hs Ha Hao) as [Ha' ->].
    iApply (wp_wand with "[H Ho]"); [iApply (wp_sv_step with "[$H $Ho]"); [done..|lia]|].
    iIntros (r) "H". iDestruct "H" as (les' (Hr&Hs'&Hr2&_)) "[H Ho]". iSplit; [done|]. iSplitL "H".
    - iExists les'. by iSplit.
    - iExists los. rewrite Hr2. by iSplit.
  Qed.
  Lemma svR_new : ⊢ wp (C:=svcell K T) sv_new (λ a, svR a ([], 0)).
  Proof.
    iStartProof. iApply (wp_wand with "[]"); [by iApply wp_sv_new|]. iIntros (v) "[%Hc H]". iExists []. iSplit; [|done].
    iPureIntro. rewrite /= Hc. split; [done|]. apply asc_nil.
  Qed.
  Lemma svR_destroy fuel v s : sneed s < fuel → svR v s ⊢ wp (sv_destroy fuel v) (λ _, emp).
  Proof.
    iIntros (Hf) "H". iDestruct "H" as (les [<- Ha]) "H". iApply (wp_sv_destroy with "H").
    unfold sneed in Hf. simpl in Hf. rewrite fmap_length in Hf. lia.
  Qed.
End svm.
