(** map/set: histories. Proof file. *)
From Verif Require Export MapStep.
From Verif Require Import RbFind.

Section setstep.
  Context {K V : Type} (keyof : V → K) (lt eqb : K → K → bool) (veqb : V → V → bool).
  Context (Hord : key_order lt eqb) `{Allocator (rbcell V)}.
  Notation C := (rbcell V).
  Notation heap := (gmap loc C).
  Notation iProp := (bi_car (hpropI C)).
  Notation ascending := (ascending keyof lt).
  Notation s_insert := (s_insert keyof lt eqb).
  Implicit Types (this other : loc) (xs ys : list (loc * V)) (vs ws : list V).

  Definition mrep this vs : iProp :=
    (∃ xs, ⌜xs.*2 = vs ∧ ascending vs⌝ ∧ rbt this xs)%I.
  Definition mneed vs : nat := S (2 * length vs).

  Lemma mrep_open this vs :
    mrep this vs ⊢ ∃ xs, ⌜xs.*2 = vs ∧ ascending vs ∧ asc keyof lt xs ∧ nondesc keyof lt xs ∧ lg xs < mneed vs ∧ length xs < mneed vs⌝ ∧ rbt this xs.
  Proof.
    iIntros "H". iDestruct "H" as (xs) "[%Hx H]". destruct Hx as [<- Hs]. iExists xs.
    iSplit; [iPureIntro|done]. apply asc_values in Hs as Hs'. split_and!; [done|done|done|by eapply (asc_nondesc _ _ eqb)| |].
    - unfold mneed. rewrite fmap_length. pose proof (lg_length xs). lia.
    - unfold mneed. rewrite fmap_length. lia.
  Qed.
  Ltac mopen xs := iDestruct (mrep_open with "H") as (xs) "[%Hx H]";
    lazymatch goal with Hx : _ = _ ∧ ascending _ ∧ _ |- _ => destruct Hx as (Hvs&Hasc&Hasc'&Hnd&Hlg&Hlen) end.
  Lemma mrep_close this xs : ascending xs.*2 → rbt this xs ⊢ mrep this xs.*2.
  Proof. intros Hs. iIntros "H". iExists xs. by iSplit. Qed.

  Lemma fmap_mid (A : list (loc * V)) x (v : V) B : (A ++ (x, v) :: B).*2 = A.*2 ++ v :: B.*2.
  Proof. by rewrite fmap_app fmap_cons. Qed.

  Lemma wp_s_insert this vs (v : V) fuel Q :
    mneed vs ≤ fuel →
    mrep this vs -∗
    (∀ x w b, ⌜(w, b) = match head (matching keyof eqb (keyof v) vs) with Some w => (w, false) | None => (v, true) end⌝ →
       (∃ E1 E2, ⌜(E1 ++ (x, w) :: E2).*2 = s_insert v vs ∧ ascending (s_insert v vs)⌝ ∧ rbt this (E1 ++ (x, w) :: E2)) -∗ Q (Some x, b)) -∗
    wp (m_insert keyof lt eqb fuel this v) Q.
  Proof.
    intros Hf. iIntros "H HQ". mopen xs. subst vs.
    iApply (wp_m_insert _ _ _ Hord with "H"); [done|lia|]. iSplit.
    - iIntros (E1 x w E2) "%Hx H". destruct Hx as [-> He]. rewrite fmap_mid in Hasc.
      iApply ("HQ" $! x w false with "[]").
      { iPureIntro. rewrite fmap_mid (present_matching _ _ _ Hord); done. }
      iExists E1, E2. iSplit; [iPureIntro|done]. rewrite fmap_mid present_insert; done.
    - iIntros (E1 n E2) "%Hx H". destruct Hx as (->&HL&HR). rewrite fmap_app in Hasc.
      apply all_lt_values in HL. apply all_gt_values in HR.
      iApply ("HQ" $! n v true with "[]").
      { iPureIntro. rewrite fmap_app (absent_matching _ _ _ Hord); done. }
      iExists E1, E2. iSplit; [iPureIntro|done]. rewrite fmap_mid fmap_app (absent_insert _ _ _ Hord); [|done|done].
      split; [done|]. by apply ascending_insert_mid.
  Qed.
  Lemma s_insert_length (v : V) vs : length vs ≤ length (s_insert v vs).
  Proof.
    unfold MapSpec.s_insert. destruct (has _ _ _ _) eqn:E; [done|]. rewrite app_length /=.
    enough (length vs ≤ length (below keyof lt (keyof v) vs) + length (above keyof lt (keyof v) vs)) by lia.
    induction vs as [|w vs IH]; [simpl; lia|]. unfold has in E. simpl in E. apply orb_false_iff in E as [E1 E2].
    specialize (IH E2). unfold below, above in *. rewrite !filter_cons.
    destruct (decide (lt (keyof w) (keyof v) = true)), (decide (lt (keyof v) (keyof w) = true)) as [|Hn]; simpl; try lia.
    exfalso. apply not_true_iff_false in Hn. pose proof (three_way _ _ Hord _ _ Hn E1). done.
  Qed.
  Lemma s_inserts_length vs ws : length vs ≤ length (foldl (λ us v, s_insert v us) vs ws).
  Proof.
    revert vs. induction ws as [|w ws IH]; intros vs; simpl; [lia|].
    pose proof (s_insert_length w vs). specialize (IH (s_insert w vs)). lia.
  Qed.
  Lemma wp_s_insert_range this vs ws fuel Q :
    mneed (foldl (λ us v, s_insert v us) vs ws) ≤ fuel →
    mrep this vs -∗ (mrep this (foldl (λ us v, s_insert v us) vs ws) -∗ Q tt) -∗
    wp (m_insert_range keyof lt eqb fuel this ws) Q.
  Proof.
    revert vs. induction ws as [|w ws IH]; intros vs Hf; simpl; iIntros "H HQ".
    - wstep. by iApply "HQ".
    - wstep. iApply (wp_s_insert with "H").
      { pose proof (s_insert_length w vs). simpl in Hf. pose proof (s_inserts_length (s_insert w vs) ws).
        unfold mneed in *. lia. }
      iIntros (x v b) "_ H". iDestruct "H" as (E1 E2) "[%Hx H]". destruct Hx as [Hx Hs].
      iApply (IH with "[H] HQ"); [done|]. iExists _. by iSplit.
  Qed.

  Lemma wp_m_step fuel this other vs ws op vs' ws' out :
    m_spec keyof lt eqb veqb vs ws op = Some (vs', ws', out) →
    mneed vs + mneed ws + mneed vs' + mneed ws' < fuel →
    mrep this vs ∗ mrep other ws ⊢
    wp (m_step keyof lt eqb veqb fuel this other op) (λ r, ⌜r.2 = out⌝ ∧ mrep this vs' ∗ mrep r.1 ws').
  Proof.
    iIntros (Hspec Hf) "[H Ho]". destruct op; simpl in Hspec; simplify_eq; unfold m_step.
    - (* insert *) wstep. iApply (wp_s_insert with "H"); [lia|]. iIntros (x w b) "%Hx H".
      iDestruct "H" as (E1 E2) "[%Hy H]". destruct Hy as [Hy Hs].
      wstep. iApply (wp_data_at with "H"). iIntros "H". wstep. iSplit.
      { iPureIntro. simpl. destruct (head _); congruence. }
      simpl. iFrame. rewrite -Hy. iApply mrep_close; [by rewrite Hy|done].
    - (* insert range *) wstep. iApply (wp_s_insert_range with "H"); [lia|]. iIntros "H". wstep. by iFrame.
    - (* erase *) wstep. mopen xs. subst vs.
      iApply (wp_m_erase _ _ _ Hord with "H"); [by apply asc_lone|lia|]. iSplit.
      + iIntros (E1 E2) "%Hx H". destruct Hx as (Hxs&HL&HR). wstep. rewrite Hxs fmap_app in Hasc |- *.
        apply all_lt_values in HL. apply all_gt_values in HR.
        rewrite (absent_has _ _ _ Hord) // (absent_erase _ _ _ Hord) //.
        iSplit; [done|]. simpl. iFrame. rewrite -fmap_app. iApply mrep_close; [by rewrite fmap_app|done].
      + iIntros (E1 x v E2) "%Hx H". destruct Hx as (->&He). wstep. rewrite fmap_mid in Hasc |- *.
        rewrite present_has // (present_erase _ _ _ Hord) //.
        iSplit; [done|]. simpl. iFrame. rewrite -fmap_app. iApply mrep_close; [|done].
        rewrite fmap_app. by eapply ascending_erase_mid.
    - (* clear *) wstep. mopen xs. iApply (wp_m_clear with "H"); [lia|]. iIntros "H". wstep.
      iSplit; [done|]. simpl. iFrame. iApply (mrep_close _ []); [constructor|done].
    - (* empty *) wstep. mopen xs. iApply (wp_m_empty with "H"). iIntros "H". wstep. subst vs'.
      iSplit; [iPureIntro; simpl|].
      + f_equal. apply bool_decide_ext. split; [by intros ->|]. by destruct xs.
      + simpl. iFrame. by iApply mrep_close.
    - (* find *) wstep. mopen xs. subst vs'. iApply (wp_m_find _ _ _ Hord with "H"); [done|lia|]. iSplit.
      + iIntros (E1 x v E2) "%Hx H". destruct Hx as (->&He). wstep.
        rewrite -(iter_mid this E1 x v E2).
        iApply (wp_m_show with "H"); [rewrite app_length; lia|]. iIntros "H". wstep. iSplit.
        * iPureIntro. simpl. rewrite fmap_mid in Hasc |- *. rewrite (present_matching _ _ _ Hord) //. simpl.
          rewrite lookup_app_r fmap_length //. by rewrite Nat.sub_diag.
        * simpl. iFrame. by iApply mrep_close.
      + iIntros (E1 E2) "%Hx H". destruct Hx as (Hxs&HL&HR). wstep.
        rewrite -{1}(iter_end this xs). iApply (wp_m_show with "H"); [done|]. iIntros "H". wstep. iSplit.
        * iPureIntro. simpl. apply all_lt_values in HL. apply all_gt_values in HR.
          rewrite {3}Hxs fmap_app (absent_matching _ _ _ Hord) //. rewrite lookup_ge_None_2 //. by rewrite fmap_length.
        * simpl. iFrame. by iApply mrep_close.
    - (* count *) wstep. mopen xs. subst vs'. unfold m_count. wstep.
      iDestruct (rbt_nodup with "H") as %Hnd'.
      iApply (wp_m_find _ _ _ Hord with "H"); [done|lia|]. iSplit.
      + iIntros (E1 x v E2) "%Hx H". destruct Hx as (Hxs&He). wstep. wstep.
        rewrite bool_decide_eq_true_2.
        2:{ rewrite Hxs in Hnd'. intros [= ->]. inversion_clear Hnd' as [|?? Hn _]. apply Hn.
            rewrite fmap_app fmap_cons. set_solver. }
        iSplit.
        * iPureIntro. simpl. by rewrite Hxs fmap_mid present_has.
        * simpl. iFrame. by iApply mrep_close.
      + iIntros (E1 E2) "%Hx H". destruct Hx as (Hxs&HL&HR). wstep. wstep.
        rewrite bool_decide_eq_false_2; [|naive_solver]. iSplit.
        * iPureIntro. simpl. apply all_lt_values in HL. apply all_gt_values in HR.
          by rewrite Hxs fmap_app (absent_has _ _ _ Hord).
        * simpl. iFrame. by iApply mrep_close.
    - (* lower bound *) wstep. mopen xs. subst vs'. iApply (wp_m_lower _ _ _ Hord with "H"); [done|lia|].
      iIntros (E1 E2) "%Hx H". destruct Hx as (Hxs&HL&HR). wstep.
      iApply (wp_m_show with "H"); [rewrite Hxs app_length; lia|]. iIntros "H". wstep. iSplit.
      + iPureIntro. simpl. f_equal. apply all_lt_values in HL.
        rewrite {2}Hxs fmap_app (lower_filter keyof lt); [|done|by rewrite Forall_fmap].
        rewrite Hxs fmap_app lookup_app_r fmap_length //. by rewrite Nat.sub_diag head_lookup.
      + simpl. iFrame. by iApply mrep_close.
    - (* forward *) wstep. mopen xs. subst vs'. iApply (wp_m_forward with "H"); [lia|lia|]. iIntros "H". wstep.
      iSplit; [done|]. simpl. iFrame. by iApply mrep_close.
    - (* backward *) wstep. mopen xs. subst vs'. iApply (wp_m_backward with "H"); [lia|lia|]. iIntros "H". wstep.
      iSplit; [done|]. simpl. iFrame. by iApply mrep_close.
    - (* assign *) wstep. mopen xs. subst vs.
      iDestruct (mrep_open with "Ho") as (ys) "[%Hx Ho]". destruct Hx as (<-&Hasc2&Hasc2'&Hnd2&Hlg2&Hlen2).
      iApply (wp_m_assign with "H Ho"); [lia|lia|]. iIntros (zs) "%Hzs H Ho". wstep.
      iSplit; [done|]. simpl. iSplitL "H"; [rewrite -Hzs; iApply mrep_close; [by rewrite Hzs|done]|by iApply mrep_close].
    - (* recopy *) wstep. mopen xs. subst ws'.
      iDestruct (mrep_open with "Ho") as (ys) "[%Hx Ho]". destruct Hx as (<-&Hasc2&Hasc2'&Hnd2&Hlg2&Hlen2).
      iApply (wp_m_destroy with "Ho"); [lia|]. wstep. iApply (wp_m_copy with "H"); [lia|].
      iIntros (o zs) "%Hzs Ho H". wstep.
      iSplit; [done|]. simpl. iSplitL "H"; [by iApply mrep_close|]. rewrite -Hzs. iApply mrep_close; [by rewrite Hzs|done].
    - (* equal *) wstep. mopen xs. subst vs'.
      iDestruct (mrep_open with "Ho") as (ys) "[%Hx Ho]". destruct Hx as (<-&Hasc2&Hasc2'&Hnd2&Hlg2&Hlen2).
      iApply (wp_m_eq with "H Ho"); [lia|lia|lia|]. iIntros "H Ho". wstep.
      iSplit; [done|]. simpl. iSplitL "H"; by iApply mrep_close.
  Qed.

  Lemma wp_m_new_rep : ⊢ wp (rb_new (V:=V)) (λ a, mrep a []).
  Proof. iApply wp_m_new. iIntros (hdr) "H". iApply (mrep_close _ []); [constructor|done]. Qed.
  Lemma wp_m_destroy_rep fuel a vs : mneed vs < fuel → mrep a vs ⊢ wp (rb_destroy fuel a) (λ _, emp).
  Proof. intros Hf. iIntros "H". mopen xs. iApply (wp_m_destroy with "H"); [lia|done]. Qed.

  Lemma mrep_plain a vs : mrep a vs ⊢ plain (λ h, ∃ xs, xs.*2 = vs ∧ is_map keyof lt a xs h)%type.
  Proof.
    iIntros "H". iDestruct "H" as (xs) "[%Hx H]". destruct Hx as [<- Hs]. iExists xs. iSplit; [done|].
    unfold is_map. iSplit; [done|]. change (λ h, is_rbtree a xs h) with (is_rbtree a xs). by rewrite plain_rbt.
  Qed.
  Lemma set_history_reaches ops :
    h_reaches rb_new (m_step keyof lt eqb veqb) [] (m_spec keyof lt eqb veqb)
      (λ a vs h, ∃ xs, xs.*2 = vs ∧ is_map keyof lt a xs h) ops.
  Proof.
    eapply (h_prefix_reaches _ _ _ _ mrep mneed).
    - apply wp_m_new_rep.
    - intros. by apply wp_m_step.
    - apply mrep_plain.
  Qed.
  Lemma set_history_correct ops : set_correct keyof lt eqb veqb ops.
  Proof.
    unfold set_correct. eapply (h_program_correct _ _ _ _ _ mrep mneed).
    - apply wp_m_new_rep.
    - apply wp_m_destroy_rep.
    - apply wp_m_step.
  Qed.
End setstep.

Section mapstep.
  Context {K T : Type} (lt eqb : K → K → bool) (veqb : K * T → K * T → bool) (dflt : T).
  Context (Hord : key_order lt eqb) `{Allocator (rbcell (K * T))}.
  Notation V := (K * T)%type.
  Notation C := (rbcell V).
  Notation iProp := (bi_car (hpropI C)).
  Notation mrep := (mrep (V:=V) fst lt).
  Notation ascending := (ascending (V:=V) fst lt).
  Notation s_insert := (s_insert (V:=V) fst lt eqb).
  Notation matching := (matching (V:=V) fst eqb).
  Implicit Types (this other : loc) (vs ws : list V).

  (** operator[] *)
  Lemma wp_index this vs (key : K) fuel Q :
    mneed vs ≤ fuel →
    mrep this vs -∗
    (∀ E1 x w E2, ⌜(E1 ++ (x, w) :: E2).*2 = s_insert (key, dflt) vs ∧ ascending (s_insert (key, dflt) vs) ∧
        eqb key w.1 = true ∧
        w.2 = match head (matching key vs) with Some w => w.2 | None => dflt end⌝ →
       rbt this (E1 ++ (x, w) :: E2) -∗ Q (Some x)) -∗
    wp (m_index lt eqb dflt fuel this key) Q.
  Proof.
    intros Hf. iIntros "H HQ". unfold m_index. wstep.
    iDestruct (mrep_open _ _ _ Hord with "H") as (xs) "[%Hx H]". destruct Hx as (<-&Hasc&Hasc'&Hnd&Hlg&Hlen).
    iDestruct (rbt_nodup with "H") as %Hnd'.
    iApply (wp_m_find _ _ _ Hord with "H"); [done|lia|]. iSplit.
    - iIntros (E1 x v E2) "%Hx H". destruct Hx as (Hxs&He).
      destruct (decide _) as [Heq|_].
      { exfalso. rewrite Hxs in Hnd'. simplify_eq. inversion_clear Hnd' as [|?? Hn _]. apply Hn.
        rewrite fmap_app fmap_cons. set_solver. }
      wstep. subst xs. rewrite fmap_mid in Hasc.
      iApply ("HQ" $! E1 x v E2 with "[] H"). iPureIntro.
      rewrite !fmap_mid (present_insert fst lt) // (present_matching _ _ _ Hord) //.
    - iIntros (E1 E2) "%Hx H". destruct Hx as (Hxs&HL&HR).
      destruct (decide _) as [_|]; [|done]. wstep.
      iApply (wp_s_insert fst _ _ Hord this xs.*2 (key, dflt) with "[H]"); [done|by iApply mrep_close|].
      iIntros (x w b) "%Hw H". iDestruct "H" as (E1' E2') "[%Hx H]". wstep. destruct Hx as [Hx1 Hx2].
      apply all_lt_values in HL. apply all_gt_values in HR.
      assert (matching key xs.*2 = []) as Hm.
      { rewrite Hxs fmap_app. by apply (absent_matching _ _ _ Hord). }
      simpl in Hw. rewrite Hm in Hw. simpl in Hw. injection Hw as -> ->.
      iApply ("HQ" $! E1' x (key, dflt) E2' with "[] H"). iPureIntro. split_and!; [done|done| |].
      + simpl. apply (ko_eqb _ _ Hord). split; apply (ko_irrefl _ _ Hord).
      + by rewrite Hm.
  Qed.
  Lemma ascending_update key (v : T) vs : ascending vs → ascending (s_update eqb key v vs).
  Proof.
    unfold RbSpec.ascending, s_update. induction 1 as [|w vs _ IH Hf]; simpl; constructor; [done|].
    rewrite Forall_fmap. eapply Forall_impl; [exact Hf|]. intros u Hu. simpl in *.
    destruct (eqb key w.1), (eqb key u.1); done.
  Qed.
  Lemma update_absent key (v : T) vs : has (V:=V) fst eqb key vs = false → s_update eqb key v vs = vs.
  Proof.
    induction vs as [|w vs IH]; [done|]. unfold has, s_update in *. simpl. intros [E1 E2]%orb_false_iff.
    rewrite E1. f_equal. by apply IH.
  Qed.
  Lemma update_present key (v : T) A (w : V) B :
    ascending (A ++ w :: B) → eqb key w.1 = true →
    s_update eqb key v (A ++ w :: B) = A ++ (w.1, v) :: B.
  Proof.
    intros Hs He. destruct (present_parts fst _ _ Hord key A w B Hs He) as [HA HB].
    unfold s_update. rewrite fmap_app fmap_cons He.
    change ((λ w, if eqb key w.1 then (w.1, v) else w) <$> A) with (s_update eqb key v A).
    change ((λ w, if eqb key w.1 then (w.1, v) else w) <$> B) with (s_update eqb key v B).
    rewrite !update_absent; [done|by apply (has_gts _ _ _ Hord)|by apply (has_lts _ _ _ Hord)].
  Qed.

  Lemma wp_map_step fuel this other vs ws op vs' ws' out :
    map_spec lt eqb veqb dflt vs ws op = Some (vs', ws', out) →
    mneed vs + mneed ws + mneed vs' + mneed ws' < fuel →
    mrep this vs ∗ mrep other ws ⊢
    wp (map_step lt eqb veqb dflt fuel this other op) (λ r, ⌜r.2 = out⌝ ∧ mrep this vs' ∗ mrep r.1 ws').
  Proof.
    iIntros (Hspec Hf) "[H Ho]". destruct op as [op|key|key v|key]; simpl in Hspec; unfold map_step.
    - apply bind_Some in Hspec as ([[vs1 ws1] o]&Hs&?). simplify_eq. wstep.
      iApply (wp_wand with "[H Ho]"); [iApply (wp_m_step _ _ _ _ Hord _ _ _ _ _ _ _ _ _ Hs); [done|iFrame]|].
      iIntros ([o1 r]) "[%Hr [H Ho]]". simpl in Hr. subst r. wstep. iSplit; [done|]. iFrame.
    - simplify_eq. wstep. iApply (wp_index with "H"); [lia|]. iIntros (E1 x w E2) "%Hx H".
      destruct Hx as (Hx&Hs&He&Hw). wstep. iApply (wp_data_at with "H"). iIntros "H". wstep.
      iSplit; [iPureIntro; by rewrite /= Hw|]. simpl. iFrame. rewrite -Hx. iApply mrep_close; [by rewrite Hx|done].
    - simplify_eq. wstep. unfold m_store. wstep. iApply (wp_index with "H"); [lia|]. iIntros (E1 x w E2) "%Hx H".
      destruct Hx as (Hx&Hs&He&Hw). wstep. iApply (wp_data_at with "H"). iIntros "H".
      iApply (wp_store_at with "H"). iIntros "H". wstep.
      iSplit; [done|]. simpl. iFrame.
      assert ((E1 ++ (x, (w.1, v)) :: E2).*2 = s_update eqb key v (s_insert (key, dflt) vs)) as Hy.
      { rewrite -Hx !fmap_mid update_present //. by rewrite -(fmap_mid _ x) Hx. }
      rewrite -Hy. iApply mrep_close; [|done]. rewrite Hy. by apply ascending_update.
    - apply bind_Some in Hspec as (w&Hw&?). simplify_eq. wstep. unfold m_at. wstep.
      iDestruct (mrep_open _ _ _ Hord with "H") as (xs) "[%Hx H]". destruct Hx as (<-&Hasc&Hasc'&Hnd&Hlg&Hlen).
      iApply (wp_m_find _ _ _ Hord with "H"); [done|lia|]. iSplit.
      + iIntros (E1 x u E2) "%Hx H". destruct Hx as (->&He). wstep. iApply (wp_data_at with "H").
        iIntros "H". wstep. wstep. rewrite fmap_mid in Hasc. rewrite fmap_mid (present_matching _ _ _ Hord) // in Hw.
        simpl in Hw. simplify_eq. iSplit; [done|]. simpl. iFrame. iApply mrep_close; [by rewrite fmap_mid|done].
      + iIntros (E1 E2) "%Hx H". destruct Hx as (->&HL&HR).
        apply all_lt_values in HL. apply all_gt_values in HR.
        rewrite fmap_app (absent_matching _ _ _ Hord) // in Hw.
  Qed.
  Lemma map_history_reaches ops :
    h_reaches rb_new (map_step lt eqb veqb dflt) [] (map_spec lt eqb veqb dflt)
      (λ a vs h, ∃ xs, xs.*2 = vs ∧ is_map fst lt a xs h) ops.
  Proof.
    eapply (h_prefix_reaches _ _ _ _ mrep mneed).
    - apply wp_m_new_rep.
    - apply wp_map_step.
    - apply mrep_plain.
  Qed.
  Lemma map_history_correct ops : map_correct lt eqb veqb dflt ops.
  Proof.
    unfold map_correct. eapply (h_program_correct _ _ _ _ _ mrep mneed).
    - apply wp_m_new_rep.
    - intros fuel a vs. by apply (wp_m_destroy_rep _ _ _ Hord).
    - apply wp_map_step.
  Qed.
End mapstep.
