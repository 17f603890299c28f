(** Trees with duplicate keys: histories. Proof file. *)
From Verif Require Export MultiSpec MapHistory.
From Verif Require Import RbFind.

Section multistep.
  Context {K V : Type} (keyof : V → K) (lt eqb : K → K → bool).
  Context (Hord : key_order lt eqb) `{Allocator (rbcell V)}.
  Notation C := (rbcell V).
  Notation heap := (gmap loc C).
  Notation iProp := (bi_car (hpropI C)).
  Notation nondescending := (nondescending keyof lt).
  Notation x_insert := (x_insert keyof lt).
  Implicit Types (this other : loc) (xs ys : list (loc * V)) (vs ws : list V).

  Definition xrep this vs : iProp :=
    (∃ xs, ⌜xs.*2 = vs ∧ nondescending vs⌝ ∧ rbt this xs)%I.

  Lemma xrep_open this vs :
    xrep this vs ⊢ ∃ xs, ⌜xs.*2 = vs ∧ nondescending vs ∧ nondesc keyof lt xs ∧ lg xs < mneed vs ∧ length xs < mneed vs⌝ ∧ rbt this xs.
  Proof.
    iIntros "H". iDestruct "H" as (xs) "[%Hx H]". destruct Hx as [<- Hs]. iExists xs.
    iSplit; [iPureIntro|done]. apply nondesc_values in Hs as Hs'. split_and!; [done|done|done| |].
    - unfold mneed. rewrite fmap_length. pose proof (lg_length xs). lia.
    - unfold mneed. rewrite fmap_length. lia.
  Qed.
  Ltac xopen xs := iDestruct (xrep_open with "H") as (xs) "[%Hx H]";
    lazymatch goal with Hx : _ = _ ∧ nondescending _ ∧ _ |- _ => destruct Hx as (Hvs&Hnd&Hnd'&Hlg&Hlen) end.
  Lemma xrep_close this xs : nondescending xs.*2 → rbt this xs ⊢ xrep this xs.*2.
  Proof. intros Hs. iIntros "H". iExists xs. by iSplit. Qed.

  (** ** Pure facts *)
  Lemma x_insert_parts (v : V) A B :
    Forall (λ w, lt (keyof v) (keyof w) = false) A → gts keyof lt (keyof v) B →
    x_insert v (A ++ B) = A ++ v :: B.
  Proof.
    intros HA HB. unfold MultiSpec.x_insert, above. rewrite !filter_app.
    rewrite (filter_all _ A HA) (filter_all _ B HB). f_equal.
    - rewrite filter_none; [by rewrite app_nil_r|]. eapply Forall_impl; [exact HB|].
      intros w Hw. simpl. by rewrite Hw.
    - rewrite filter_none; [done|]. eapply Forall_impl; [exact HA|].
      intros w Hw. simpl. by rewrite Hw.
  Qed.
  Lemma nondescending_insert_mid (v : V) A B :
    nondescending (A ++ B) → Forall (λ w, lt (keyof v) (keyof w) = false) A → gts keyof lt (keyof v) B →
    nondescending (A ++ v :: B).
  Proof.
    intros (HA&HB&HAB)%sorted_app HA' HB'. apply sorted_app. split_and!; [done| |].
    - constructor; [done|]. eapply Forall_impl; [exact HB'|]. simpl. intros w. apply (lt_asym _ _ Hord).
    - rewrite Forall_forall. intros a Ha. constructor.
      + by eapply (proj1 (Forall_forall _ _) HA').
      + rewrite Forall_forall in HAB. auto.
  Qed.
  Lemma nondescending_erase_mid A (w : V) B : nondescending (A ++ w :: B) → nondescending (A ++ B).
  Proof.
    intros (HA&HB&HAB)%sorted_app. apply sorted_app. inversion_clear HB. split_and!; [done|done|].
    eapply Forall_impl; [exact HAB|]. intros a Ha. by inversion Ha.
  Qed.
  Lemma matching_single_erase key A (w : V) B :
    length (matching keyof eqb key (A ++ w :: B)) ≤ 1 → eqb key (keyof w) = true →
    s_erase keyof eqb key (A ++ w :: B) = A ++ B.
  Proof.
    unfold matching, s_erase. rewrite !filter_app !filter_cons. intros Hl He.
    destruct (decide (eqb key (keyof w) = true)) as [_|]; [|done].
    destruct (decide (eqb key (keyof w) = false)) as [E|_]; [congruence|].
    rewrite app_length /= in Hl.
    assert (∀ l : list V, length (filter (λ w, eqb key (keyof w) = true) l) = 0 →
              filter (λ w, eqb key (keyof w) = false) l = l) as Hn.
    { induction l as [|a l IH]; [done|]. rewrite !filter_cons. destruct (eqb key (keyof a)); simpl; [done|].
      intros. by rewrite IH. }
    rewrite !Hn; [done|lia..].
  Qed.
  (** The elements between the bounds are those with the key. *)
  Lemma matching_between key L M R :
    lts keyof lt key L → Forall (λ w, lt (keyof w) key = false ∧ lt key (keyof w) = false) M →
    gts keyof lt key R → matching keyof eqb key (L ++ M ++ R) = M.
  Proof.
    intros HL HM HR. unfold matching. rewrite !filter_app.
    rewrite (filter_none _ L) ?(filter_none _ R) ?(filter_all _ M) ?app_nil_r //.
    - eapply Forall_impl; [exact HM|]. simpl. intros w [??]. by apply (ko_eqb _ _ Hord).
    - eapply Forall_impl; [exact HR|]. simpl. intros w Hw. by rewrite (eqb_false_lt _ _ Hord _ _ Hw).
    - eapply Forall_impl; [exact HL|]. simpl. intros w Hw. by rewrite (eqb_false_gt _ _ Hord _ _ Hw).
  Qed.

  (** ** Walking over part of the tree *)
  Lemma wp_x_walk this xs (i j fuel : nat) Q :
    i ≤ j → j ≤ length xs → lg xs < fuel → length xs < fuel →
    rbt this xs -∗ (rbt this xs -∗ Q (take (j - i) (drop i xs.*2))) -∗
    wp (x_walk fuel (iter_at this xs i) (iter_at this xs j)) Q.
  Proof.
    intros Hij Hj Hf1 Hf2. iIntros "H HQ". unfold x_walk.
    iApply (wp_wand _ (λ z, ⌜z = take (j - i) (drop i xs.*2)⌝ ∧ rbt this xs)%I with "[H]");
      [|iIntros (z) "[-> H]"; by iApply "HQ"].
    iDestruct (rbt_nodup with "H") as %Hnd.
    iApply (wp_loop (λ n z, ∃ k : nat, ⌜i ≤ k ∧ (k + n)%nat = j ∧
       z = (iter_at this xs k, take (k - i) (drop i xs.*2))⌝ ∧ rbt this xs)%I with "[H]").
    2: exact (Nat.le_lt_trans (j - i) (length xs) fuel ltac:(lia) Hf2).
    2:{ iExists i. iSplit; [iPureIntro|done]. split_and!; [done|lia|]. by rewrite Nat.sub_diag. }
    intros n z. iIntros "H". iDestruct "H" as (k) "[%Hx H]". destruct Hx as (Hik&Hk&->).
    destruct (decide (k = j)) as [->|Hne].
    - destruct (decide _) as [|_]; [done|]. wstep. by iSplit.
    - destruct (decide _) as [_|Heq].
      2:{ exfalso. destruct Heq. intros Heq. apply iter_inj in Heq; [done|done|lia|lia]. }
      destruct (lookup_lt_is_Some_2 xs k ltac:(lia)) as [[x v] Hx].
      wstep. iApply (wp_data with "H"); [done|]. iIntros "H".
      wstep. iApply (wp_incr with "H"); [lia|done|]. iIntros "H". wstep.
      iExists (pred n). iSplit; [iPureIntro; lia|]. iExists (S k). iSplit; [iPureIntro|done].
      split_and!; [lia|lia|]. replace (S k - i)%nat with (S (k - i)) by lia.
      rewrite (take_S_r _ _ v) //. rewrite lookup_drop list_lookup_fmap.
      replace (i + (k - i))%nat with k by lia. by rewrite Hx.
  Qed.

  Lemma fmap_has_sym (key : K) xs :
    length (filter (λ a : loc * V, eqb (keyof a.2) key = true) xs) = length (matching keyof eqb key xs.*2).
  Proof.
    unfold matching. induction xs as [|a xs IH]; [done|].
    rewrite fmap_cons !filter_cons.
    assert (eqb key (keyof a.2) = true ↔ eqb (keyof a.2) key = true) as Hsym.
    { rewrite !(ko_eqb _ _ Hord). tauto. }
    destruct (decide (eqb key (keyof a.2) = true)), (decide (eqb (keyof a.2) key = true)); simpl; try lia;
      naive_solver.
  Qed.
  Lemma single_lone key xs :
    x_single keyof eqb key xs.*2 = true → nondesc keyof lt xs → lone keyof lt eqb key xs.
  Proof.
    unfold x_single. intros Hm%bool_decide_eq_true_1 Hnd. split; [done|]. clear Hnd. induction xs as [|a xs IH]; [constructor|].
    rewrite fmap_cons /= /matching filter_cons in Hm.
    constructor.
    - apply IH. unfold matching. destruct (decide _); simpl in Hm; lia.
    - rewrite Forall_forall. intros b Hb He. destruct (eqb key (keyof b.2)) eqn:Eb; [|done]. exfalso.
      destruct (decide _) as [_|Hne]; [|by rewrite He in Hne]. simpl in Hm.
      assert (b.2 ∈ matching keyof eqb key xs.*2) as Hin.
      { unfold matching. apply elem_of_list_filter. split; [done|]. by apply elem_of_list_fmap_1. }
      unfold matching in Hin. destruct (filter _ _); [by apply elem_of_nil in Hin|]. simpl in Hm. lia.
  Qed.

  Lemma wp_x_step fuel this other vs ws op vs' ws' out :
    x_spec keyof lt eqb vs ws op = Some (vs', ws', out) →
    mneed vs + mneed ws + mneed vs' + mneed ws' < fuel →
    xrep this vs ∗ xrep other ws ⊢
    wp (x_step keyof lt eqb fuel this other op) (λ r, ⌜r.2 = out⌝ ∧ xrep this vs' ∗ xrep r.1 ws').
  Proof.
    iIntros (Hspec Hf) "[H Ho]". destruct op; simpl in Hspec; simplify_eq; unfold x_step.
    - (* insert *) wstep. xopen xs. subst vs. iApply (wp_m_insert_equal _ _ _ Hord with "H"); [done|lia|].
      iIntros (E1 n E2) "%Hx H". destruct Hx as (->&HL&HR).
      wstep. iApply (wp_data_at with "H"). iIntros "H". wstep. iSplit; [done|]. simpl. iFrame.
      apply all_gt_values in HR. rewrite fmap_app in Hnd |- *.
      rewrite x_insert_parts; [|by rewrite Forall_fmap|done].
      rewrite -(fmap_mid E1 n v E2). iApply xrep_close; [|done]. rewrite fmap_mid.
      apply nondescending_insert_mid; [done|by rewrite Forall_fmap|done].
    - (* erase *) wstep. xopen xs. subst vs. destruct (x_single _ _ _ _) eqn:Hone; simplify_eq.
      iApply (wp_m_remove _ _ _ Hord with "H"); [by apply single_lone|lia|]. iSplit.
      + iIntros (E1 E2) "%Hx H". destruct Hx as (Hxs&HL&HR). wstep. simpl. wstep. wstep.
        rewrite Hxs fmap_app in Hnd |- *.
        apply all_lt_values in HL. apply all_gt_values in HR.
        rewrite (absent_has _ _ _ Hord) // (absent_erase _ _ _ Hord) //.
        iSplit; [done|]. simpl. iFrame. rewrite -fmap_app. iApply xrep_close; [by rewrite fmap_app|done].
      + iIntros (E1 x v E2 c) "%Hx H Hc". destruct Hx as (->&He&Hd).
        unfold delete_rbnode. wsteps. rewrite Hd. wsteps. simpl.
        unfold x_single in Hone. apply bool_decide_eq_true_1 in Hone. rewrite fmap_mid in Hone, Hnd |- *.
        rewrite present_has // matching_single_erase //.
        iSplit; [done|]. simpl. iFrame. rewrite -fmap_app. iApply xrep_close; [|done].
        rewrite fmap_app. by eapply nondescending_erase_mid.
    - (* clear *) wstep. xopen xs. iApply (wp_m_clear with "H"); [lia|]. iIntros "H". wstep.
      iSplit; [done|]. simpl. iFrame. iApply (xrep_close _ []); [constructor|done].
    - (* empty *) wstep. xopen xs. iApply (wp_m_empty with "H"). iIntros "H". wstep. subst vs'.
      iSplit; [iPureIntro; simpl|].
      + f_equal. apply bool_decide_ext. split; [by intros ->|]. by destruct xs.
      + simpl. iFrame. by iApply xrep_close.
    - (* find *) wstep. xopen xs. subst vs'. iDestruct (rbt_nodup with "H") as %Hnodup.
      iApply (wp_m_find _ _ _ Hord with "H"); [done|lia|]. iSplit.
      + iIntros (E1 x v E2) "%Hx H". destruct Hx as (Hxs&He). wstep. unfold m_end.
        rewrite bool_decide_eq_true_2.
        2:{ rewrite Hxs in Hnodup. intros [= ->]. inversion_clear Hnodup as [|?? Hn _]. apply Hn.
            rewrite fmap_app fmap_cons. set_solver. }
        iSplit.
        * iPureIntro. simpl. by rewrite Hxs fmap_mid present_has.
        * simpl. iFrame. by iApply xrep_close.
      + iIntros (E1 E2) "%Hx H". destruct Hx as (Hxs&HL&HR). wstep. unfold m_end.
        rewrite bool_decide_eq_false_2; [|naive_solver]. iSplit.
        * iPureIntro. simpl. apply all_lt_values in HL. apply all_gt_values in HR.
          by rewrite Hxs fmap_app (absent_has _ _ _ Hord).
        * simpl. iFrame. by iApply xrep_close.
    - (* count *) wstep. xopen xs. subst vs. destruct (x_single _ _ _ _) eqn:Hone; simplify_eq.
      iApply (wp_count _ _ _ Hord with "H"); [done|lia|]. iIntros (c) "%Hx H". wstep. iSplit.
      + iPureIntro. simpl. f_equal. unfold nkey in Hx. rewrite fmap_has_sym in Hx.
        unfold x_single in Hone. apply bool_decide_eq_true_1 in Hone. lia.
      + simpl. iFrame. by iApply xrep_close.
    - (* lower bound *) wstep. xopen xs. subst vs'. iApply (wp_m_lower _ _ _ Hord with "H"); [done|lia|].
      iIntros (E1 E2) "%Hx H". destruct Hx as (Hxs&HL&HR). wstep.
      iApply (wp_m_show with "H"); [rewrite Hxs app_length; lia|]. iIntros "H". wstep. iSplit.
      + iPureIntro. simpl. f_equal. apply all_lt_values in HL.
        rewrite {2}Hxs fmap_app (lower_filter keyof lt); [|done|by rewrite Forall_fmap].
        rewrite Hxs fmap_app lookup_app_r fmap_length //. by rewrite Nat.sub_diag head_lookup.
      + simpl. iFrame. by iApply xrep_close.
    - (* upper bound *) wstep. xopen xs. subst vs'. iApply (wp_m_upper _ _ _ Hord with "H"); [done|lia|].
      iIntros (E1 E2) "%Hx H". destruct Hx as (Hxs&HL&HR). wstep.
      iApply (wp_m_show with "H"); [rewrite Hxs app_length; lia|]. iIntros "H". wstep. iSplit.
      + iPureIntro. simpl. f_equal. apply all_gt_values in HR. unfold above.
        rewrite {2}Hxs fmap_app filter_app (filter_all _ E2.*2) // filter_none.
        2:{ rewrite Forall_fmap. eapply Forall_impl; [exact HL|]. simpl. intros a Ha. by rewrite Ha. }
        rewrite Hxs fmap_app lookup_app_r fmap_length //. by rewrite Nat.sub_diag /= head_lookup.
      + simpl. iFrame. by iApply xrep_close.
    - (* equal range *) wstep. xopen xs. subst vs'. unfold rb_equal_range. wstep.
      iApply (wp_m_lower _ _ _ Hord with "H"); [done|lia|]. iIntros (E1 E2) "%Hx H". wstep.
      iApply (wp_m_upper _ _ _ Hord with "H"); [done|lia|]. iIntros (F1 F2) "%Hy H". wstep.
      destruct Hx as (Hx&HL&HR). destruct Hy as (Hy&HL'&HR').
      assert (length E1 ≤ length F1) as Hle.
      { destruct (decide (length E1 ≤ length F1)) as [|Hgt]; [done|exfalso].
        destruct (lookup_lt_is_Some_2 E1 (length F1) ltac:(lia)) as [a Ha].
        assert (F2 !! 0 = Some a) as Hb.
        { assert (xs !! length F1 = Some a) as Hb by (rewrite Hx lookup_app_l; [done|lia]).
          rewrite Hy lookup_app_r in Hb; [|lia]. by rewrite Nat.sub_diag in Hb. }
        pose proof (Forall_lookup_1 _ _ _ _ HL Ha) as H1. pose proof (Forall_lookup_1 _ _ _ _ HR' Hb) as H2.
        simpl in H1, H2. by rewrite (lt_asym _ _ Hord _ _ H1) in H2. }
      assert (length F1 ≤ length xs) as Hle2 by (rewrite Hy app_length; lia).
      wstep. iApply (wp_x_walk with "H"); [done|done|lia|lia|]. iIntros "H". wstep. iSplit.
      + iPureIntro. simpl. f_equal.
        set (Mid := take (length F1 - length E1) E2).
        assert (F1 = E1 ++ Mid ∧ E2 = Mid ++ F2) as [HF HE].
        { rewrite Hx in Hy. apply (f_equal (take (length F1))) in Hy as Ht. rewrite take_app in Ht.
          rewrite take_app_ge in Ht; [|done]. split; [done|]. subst Mid. rewrite -Ht in Hy.
          rewrite -app_assoc in Hy. apply app_inv_head in Hy. done. }
        assert (xs = E1 ++ Mid ++ F2) as Hxs3 by (rewrite Hx -HE; done).
        rewrite Hxs3 !fmap_app matching_between.
        * rewrite -{2}(fmap_length snd E1) drop_app. rewrite HF app_length.
          replace (length E1 + length Mid - length E1)%nat with (length Mid.*2) by (rewrite fmap_length; lia).
          by rewrite take_app.
        * by apply all_lt_values.
        * rewrite Forall_fmap. rewrite HE in HR. apply Forall_app in HR as [HR _].
          rewrite HF in HL'. apply Forall_app in HL' as [_ HL'].
          apply Forall_forall. intros a Ha. rewrite !Forall_forall in HR HL'. split; [by apply HR|by apply HL'].
        * by apply all_gt_values.
      + simpl. iFrame. by iApply xrep_close.
    - (* forward *) wstep. xopen xs. subst vs'. iApply (wp_m_forward with "H"); [lia|lia|]. iIntros "H". wstep.
      iSplit; [done|]. simpl. iFrame. by iApply xrep_close.
    - (* backward *) wstep. xopen xs. subst vs'. iApply (wp_m_backward with "H"); [lia|lia|]. iIntros "H". wstep.
      iSplit; [done|]. simpl. iFrame. by iApply xrep_close.
    - (* assign *) wstep. xopen xs. subst vs.
      iDestruct (xrep_open with "Ho") as (ys) "[%Hx Ho]". destruct Hx as (<-&Hnd2&Hnd2'&Hlg2&Hlen2).
      iApply (wp_m_assign with "H Ho"); [lia|lia|]. iIntros (zs) "%Hzs H Ho". wstep.
      iSplit; [done|]. simpl. iSplitL "H"; [rewrite -Hzs; iApply xrep_close; [by rewrite Hzs|done]|by iApply xrep_close].
    - (* recopy *) wstep. xopen xs. subst ws'.
      iDestruct (xrep_open with "Ho") as (ys) "[%Hx Ho]". destruct Hx as (<-&Hnd2&Hnd2'&Hlg2&Hlen2).
      iApply (wp_m_destroy with "Ho"); [lia|]. wstep. iApply (wp_m_copy with "H"); [lia|].
      iIntros (o zs) "%Hzs Ho H". wstep.
      iSplit; [done|]. simpl. iSplitL "H"; [by iApply xrep_close|]. rewrite -Hzs. iApply xrep_close; [by rewrite Hzs|done].
  Qed.

  Lemma wp_x_new_rep : ⊢ wp (rb_new (V:=V)) (λ a, xrep a []).
  Proof. iApply wp_m_new. iIntros (hdr) "H". iApply (xrep_close _ []); [constructor|done]. Qed.
  Lemma wp_x_destroy_rep fuel a vs : mneed vs < fuel → xrep a vs ⊢ wp (rb_destroy fuel a) (λ _, emp).
  Proof. intros Hf. iIntros "H". xopen xs. iApply (wp_m_destroy with "H"); [lia|done]. Qed.
  Lemma xrep_plain a vs : xrep a vs ⊢ plain (λ h, ∃ xs, xs.*2 = vs ∧ is_multi keyof lt a xs h)%type.
  Proof.
    iIntros "H". iDestruct "H" as (xs) "[%Hx H]". destruct Hx as [<- Hs]. iExists xs. iSplit; [done|].
    unfold is_multi. iSplit; [done|]. change (λ h, is_rbtree a xs h) with (is_rbtree a xs). by rewrite plain_rbt.
  Qed.
  Lemma multi_history_reaches ops :
    h_reaches rb_new (x_step keyof lt eqb) [] (x_spec keyof lt eqb)
      (λ a vs h, ∃ xs, xs.*2 = vs ∧ is_multi keyof lt a xs h) ops.
  Proof.
    eapply (h_prefix_reaches _ _ _ _ xrep mneed).
    - apply wp_x_new_rep.
    - intros. by apply wp_x_step.
    - apply xrep_plain.
  Qed.
  Lemma multi_history_correct ops : multi_correct keyof lt eqb ops.
  Proof.
    unfold multi_correct. eapply (h_program_correct _ _ _ _ _ xrep mneed).
    - apply wp_x_new_rep.
    - apply wp_x_destroy_rep.
    - apply wp_x_step.
  Qed.
End multistep.
