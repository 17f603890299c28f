(** Every map/set call refines the abstract operation on the ascending sequence.
    Proof file. *)
From Verif Require Export HistoryLogic RbMap.
From Verif Require Import RbFind.

(** ** Pure facts about the abstract operations *)
Section pure.
  Context {K V : Type} (keyof : V → K) (lt eqb : K → K → bool) (Hord : key_order lt eqb).
  Notation ascending := (ascending keyof lt).
  Implicit Types (vs : list V) (key : K).

  Lemma filter_all {A} (P : A → Prop) `{∀ x, Decision (P x)} l : Forall P l → filter P l = l.
  Proof. induction 1 as [|a l Ha _ IH]; [done|]. rewrite filter_cons. destruct (decide (P a)); [by rewrite IH|done]. Qed.
  Lemma filter_none {A} (P : A → Prop) `{∀ x, Decision (P x)} l : Forall (λ a, ¬ P a) l → filter P l = [].
  Proof. induction 1 as [|a l Ha _ IH]; [done|]. rewrite filter_cons. by destruct (decide (P a)). Qed.

  Lemma has_app key vs ws : has keyof eqb key (vs ++ ws) = has keyof eqb key vs || has keyof eqb key ws.
  Proof. apply existsb_app. Qed.
  Definition lts key vs := Forall (λ w, lt (keyof w) key = true) vs.
  Definition gts key vs := Forall (λ w, lt key (keyof w) = true) vs.
  Lemma has_lts key vs : lts key vs → has keyof eqb key vs = false.
  Proof.
    induction 1 as [|w vs Hw _ IH]; [done|]. unfold has in *. simpl.
    rewrite (eqb_false_gt _ _ Hord _ _ Hw). done.
  Qed.
  Lemma has_gts key vs : gts key vs → has keyof eqb key vs = false.
  Proof.
    induction 1 as [|w vs Hw _ IH]; [done|]. unfold has in *. simpl.
    rewrite (eqb_false_lt _ _ Hord _ _ Hw). done.
  Qed.
  Lemma absent_has key A B : lts key A → gts key B → has keyof eqb key (A ++ B) = false.
  Proof. intros HA HB. by rewrite has_app has_lts ?has_gts. Qed.
  Lemma absent_matching key A B : lts key A → gts key B → matching keyof eqb key (A ++ B) = [].
  Proof.
    intros HA HB. unfold matching. apply filter_none, Forall_app. split.
    - eapply Forall_impl; [exact HA|]. intros w Hw. rewrite (eqb_false_gt _ _ Hord _ _ Hw). done.
    - eapply Forall_impl; [exact HB|]. intros w Hw. rewrite (eqb_false_lt _ _ Hord _ _ Hw). done.
  Qed.
  Lemma absent_erase key A B : lts key A → gts key B → s_erase keyof eqb key (A ++ B) = A ++ B.
  Proof.
    intros HA HB. unfold s_erase. apply filter_all, Forall_app. split.
    - eapply Forall_impl; [exact HA|]. intros w Hw. by rewrite (eqb_false_gt _ _ Hord _ _ Hw).
    - eapply Forall_impl; [exact HB|]. intros w Hw. by rewrite (eqb_false_lt _ _ Hord _ _ Hw).
  Qed.
  Lemma absent_insert (v : V) A B :
    lts (keyof v) A → gts (keyof v) B → s_insert keyof lt eqb v (A ++ B) = A ++ v :: B.
  Proof.
    intros HA HB. unfold s_insert. rewrite absent_has; [|done|done]. unfold below, above.
    rewrite !filter_app. rewrite (filter_all _ A HA) (filter_all _ B HB). f_equal.
    - rewrite filter_none; [by rewrite app_nil_r|]. eapply Forall_impl; [exact HB|].
      intros w Hw. simpl. rewrite (lt_asym _ _ Hord _ _ Hw). done.
    - rewrite filter_none; [done|]. eapply Forall_impl; [exact HA|].
      intros w Hw. simpl. rewrite (lt_asym _ _ Hord _ _ Hw). done.
  Qed.

  (** A present key. *)
  Lemma eqb_lts key key' vs : eqb key key' = true → lts key' vs → lts key vs.
  Proof.
    intros [He1 He2]%(ko_eqb _ _ Hord) Hf. eapply Forall_impl; [exact Hf|]. intros w Hw. exact (lt_le_trans _ _ Hord _ _ _ Hw He1).
  Qed.
  Lemma eqb_gts key key' vs : eqb key key' = true → gts key' vs → gts key vs.
  Proof.
    intros [He1 He2]%(ko_eqb _ _ Hord) Hf. eapply Forall_impl; [exact Hf|]. intros w Hw. exact (le_lt_trans _ _ Hord _ _ _ He2 Hw).
  Qed.
  Lemma present_parts key A w B :
    ascending (A ++ w :: B) → eqb key (keyof w) = true → lts key A ∧ gts key B.
  Proof.
    intros [HA HB]%sorted_mid He. split.
    - by eapply eqb_lts.
    - by eapply eqb_gts.
  Qed.
  Lemma present_has key A w B : eqb key (keyof w) = true → has keyof eqb key (A ++ w :: B) = true.
  Proof. intros He. rewrite has_app. unfold has at 2. simpl. rewrite He. by rewrite orb_true_r. Qed.
  Lemma present_matching key A w B :
    ascending (A ++ w :: B) → eqb key (keyof w) = true → matching keyof eqb key (A ++ w :: B) = [w].
  Proof.
    intros Hs He. destruct (present_parts _ _ _ _ Hs He) as [HA HB].
    pose proof (absent_matching key A B HA HB) as Hx. unfold matching in *. rewrite filter_app in Hx.
    apply app_nil in Hx as [HxA HxB]. rewrite filter_app filter_cons HxA HxB.
    by destruct (decide _).
  Qed.
  Lemma present_erase key A w B :
    ascending (A ++ w :: B) → eqb key (keyof w) = true → s_erase keyof eqb key (A ++ w :: B) = A ++ B.
  Proof.
    intros Hs He. destruct (present_parts _ _ _ _ Hs He) as [HA HB].
    rewrite -(absent_erase key A B HA HB). unfold s_erase. rewrite !filter_app filter_cons.
    destruct (decide _) as [Hx|]; [|done]. congruence.
  Qed.
  Lemma present_insert (v : V) A w B :
    eqb (keyof v) (keyof w) = true → s_insert keyof lt eqb v (A ++ w :: B) = A ++ w :: B.
  Proof. intros He. unfold s_insert. by rewrite present_has. Qed.

  Lemma ascending_insert_mid (v : V) A B :
    ascending (A ++ B) → lts (keyof v) A → gts (keyof v) B → ascending (A ++ v :: B).
  Proof.
    intros (HA&HB&HAB)%sorted_app HA' HB'. apply sorted_app. split_and!; [done|by constructor|].
    rewrite Forall_forall. intros a Ha. constructor.
    - by eapply (proj1 (Forall_forall _ _) HA').
    - rewrite Forall_forall in HAB. auto.
  Qed.
  Lemma ascending_erase_mid A (w : V) B : ascending (A ++ w :: B) → ascending (A ++ B).
  Proof.
    intros (HA&HB&HAB)%sorted_app. apply sorted_app. inversion_clear HB. split_and!; [done|done|].
    eapply Forall_impl; [exact HAB|]. intros a Ha. by inversion Ha.
  Qed.
  Lemma asc_values (xs : list (loc * V)) : asc keyof lt xs ↔ ascending xs.*2.
  Proof.
    unfold asc, RbSpec.ascending. induction xs as [|[x v] xs IH]; simpl; [by split; constructor|].
    split; intros Hs; inversion_clear Hs as [|?? Hs' Hf]; constructor; try (by apply IH).
    - by rewrite Forall_fmap.
    - by rewrite Forall_fmap in Hf.
  Qed.
  Lemma nondesc_values (xs : list (loc * V)) : nondesc keyof lt xs ↔ nondescending keyof lt xs.*2.
  Proof.
    unfold nondesc, RbSpec.nondescending. induction xs as [|[x v] xs IH]; simpl; [by split; constructor|].
    split; intros Hs; inversion_clear Hs as [|?? Hs' Hf]; constructor; try (by apply IH).
    - by rewrite Forall_fmap.
    - by rewrite Forall_fmap in Hf.
  Qed.
  Lemma all_lt_values key (xs : list (loc * V)) : all_lt keyof lt key xs ↔ lts key xs.*2.
  Proof. unfold all_lt, lts. by rewrite Forall_fmap. Qed.
  Lemma all_gt_values key (xs : list (loc * V)) : all_gt keyof lt key xs ↔ gts key xs.*2.
  Proof. unfold all_gt, gts. by rewrite Forall_fmap. Qed.
  Lemma lower_filter key (A B : list V) :
    lts key A → Forall (λ w, lt (keyof w) key = false) B →
    filter (λ w, lt (keyof w) key = false) (A ++ B) = B.
  Proof.
    intros HA HB. rewrite filter_app (filter_all _ B HB) filter_none; [done|].
    eapply Forall_impl; [exact HA|]. intros w Hw. simpl. by rewrite Hw.
  Qed.
End pure.

(** ** Client loops *)
Section loops.
  Context {V : Type}.
  Notation C := (rbcell V).
  Notation heap := (gmap loc C).
  Notation iProp := (bi_car (hpropI C)).
  Implicit Types (this hdr : loc) (xs ys : list (loc * V)).

  Lemma iter_end hdr xs : iter_at hdr xs (length xs) = Some hdr.
  Proof. unfold iter_at. rewrite lookup_ge_None_2; [done|]. by rewrite fmap_length. Qed.

  Lemma wp_m_show this xs i Q :
    i ≤ length xs →
    rbt this xs -∗ (rbt this xs -∗ Q (s_show (xs.*2 !! i))) -∗ wp (m_show this (iter_at this xs i)) Q.
  Proof.
    intros Hi. iIntros "H HQ". unfold m_show, m_end. iDestruct (rbt_nodup with "H") as %Hnd.
    destruct (decide (i = length xs)) as [->|Hne].
    - rewrite iter_end. destruct (decide _) as [_|]; [|done]. wstep.
      rewrite (lookup_ge_None_2 xs.*2); [|by rewrite fmap_length]. by iApply "HQ".
    - destruct (decide _) as [Heq|_]; [by apply iter_ne_end in Heq; [|done|lia]|].
      destruct (lookup_lt_is_Some_2 xs i ltac:(lia)) as [[x v] Hx].
      wstep. iApply (wp_data with "H"); [done|]. iIntros "H". wstep.
      rewrite list_lookup_fmap Hx. by iApply "HQ".
  Qed.
  Lemma take_snoc_vals xs i x (v : V) : xs !! i = Some (x, v) → take (S i) xs.*2 = take i xs.*2 ++ [v].
  Proof. intros Hx. apply take_S_r. by rewrite list_lookup_fmap Hx. Qed.
  Lemma wp_m_forward this xs fuel Q :
    lg xs < fuel → length xs < fuel →
    rbt this xs -∗ (rbt this xs -∗ Q xs.*2) -∗ wp (m_forward fuel this) Q.
  Proof.
    intros Hf1 Hf2. iIntros "H HQ". unfold m_forward. wstep. iApply (wp_begin with "H"); [done|].
    iIntros "H".
    iApply (wp_wand _ (λ z, ⌜z = xs.*2⌝ ∧ rbt this xs)%I with "[H]");
      [|iIntros (z) "[-> H]"; by iApply "HQ"].
    iDestruct (rbt_nodup with "H") as %Hnd.
    iApply (wp_loop (λ n z, ∃ i : nat, ⌜(i + n)%nat = length xs ∧ z = (iter_at this xs i, take i xs.*2)⌝ ∧ rbt this xs)%I with "[H]").
    2: exact Hf2.
    2:{ iExists 0. iSplit; [|done]. done. }
    intros n z. iIntros "H". iDestruct "H" as (i) "[%Hx H]". destruct Hx as [Hi ->].
    unfold m_end. destruct (decide (i = length xs)) as [->|Hne].
    - rewrite iter_end. destruct (decide _) as [|_]; [done|]. wstep. iSplit; [|done].
      iPureIntro. apply take_ge. by rewrite fmap_length.
    - destruct (decide _) as [_|Heq]; [|by destruct Heq; apply iter_ne_end; [done|lia]].
      destruct (lookup_lt_is_Some_2 xs i ltac:(lia)) as [[x v] Hx].
      wstep. iApply (wp_data with "H"); [done|]. iIntros "H".
      wstep. iApply (wp_incr with "H"); [lia|done|]. iIntros "H". wstep.
      iExists (pred n). iSplit; [iPureIntro; lia|]. iExists (S i). iSplit; [iPureIntro|done].
      split; [lia|]. by rewrite (take_snoc_vals _ _ _ _ Hx).
  Qed.
  Lemma wp_m_backward this xs fuel Q :
    lg xs < fuel → length xs < fuel →
    rbt this xs -∗ (rbt this xs -∗ Q (reverse xs.*2)) -∗ wp (m_backward fuel this) Q.
  Proof.
    intros Hf1 Hf2. iIntros "H HQ". unfold m_backward.
    iApply (wp_wand _ (λ z, ⌜z = reverse xs.*2⌝ ∧ rbt this xs)%I with "[H]");
      [|iIntros (z) "[-> H]"; by iApply "HQ"].
    iDestruct (rbt_nodup with "H") as %Hnd.
    iApply (wp_loop (λ i z, ⌜i ≤ length xs ∧ z = (iter_at this xs i, reverse (drop i xs.*2))⌝ ∧ rbt this xs)%I with "[H]").
    2: exact Hf2.
    2:{ iSplit; [iPureIntro|done]. rewrite iter_end drop_ge ?fmap_length; done. }
    intros i z. iIntros "[%Hx H]". destruct Hx as [Hi ->].
    wstep. iApply (wp_begin with "H"); [done|]. iIntros "H".
    destruct i as [|i].
    - destruct (decide _) as [|_]; [done|]. wstep. by iSplit.
    - destruct (decide _) as [_|Heq].
      2:{ exfalso. destruct Heq. intros Heq. apply iter_inj in Heq; [done|done|lia|lia]. }
      wstep. iApply (wp_decr with "H"); [lia|done|]. iIntros "H".
      destruct (lookup_lt_is_Some_2 xs i ltac:(lia)) as [[x v] Hx].
      wstep. iApply (wp_data with "H"); [done|]. iIntros "H". wstep.
      iExists i. iSplit; [done|]. iSplit; [iPureIntro|done]. split; [lia|].
      rewrite (drop_S xs.*2 v i); [|by rewrite list_lookup_fmap Hx]. by rewrite reverse_cons.
  Qed.

  Lemma wp_m_eq (veqb : V → V → bool) a b xs ys fuel Q :
    lg xs < fuel → lg ys < fuel → length xs < fuel →
    rbt a xs -∗ rbt b ys -∗
    (rbt a xs -∗ rbt b ys -∗ Q (bool_decide (Forall2 (λ x y, veqb x y = true) xs.*2 ys.*2))) -∗
    wp (m_eq veqb fuel a b) Q.
  Proof.
    intros Hf1 Hf2 Hf3. iIntros "Ha Hb HQ". unfold m_eq.
    wstep. iApply (wp_begin with "Ha"); [done|]. iIntros "Ha".
    wstep. iApply (wp_begin with "Hb"); [done|]. iIntros "Hb".
    iApply (wp_wand _ (λ z, ⌜z = bool_decide (Forall2 (λ x y, veqb x y = true) xs.*2 ys.*2)⌝ ∧ rbt a xs ∗ rbt b ys)%I with "[Ha Hb]");
      [|iIntros (z) "(->&Ha&Hb)"; by iApply ("HQ" with "Ha Hb")].
    iDestruct (rbt_nodup with "Ha") as %Hnda. iDestruct (rbt_nodup with "Hb") as %Hndb.
    iApply (wp_loop (λ n z, ∃ i : nat, ⌜(i + n)%nat = length xs ∧ i ≤ length ys ∧ z = (iter_at a xs i, iter_at b ys i) ∧
      Forall2 (λ x y, veqb x y = true) (take i xs.*2) (take i ys.*2)⌝ ∧ rbt a xs ∗ rbt b ys)%I with "[Ha Hb]").
    2: exact Hf3.
    2:{ iExists 0. iSplit; [iPureIntro|iFrame]. split_and!; [done|lia|done|constructor]. }
    intros n z. iIntros "H". iDestruct "H" as (i) "(%Hx&Ha&Hb)". destruct Hx as (Hi&Hj&->&Hfa).
    unfold m_end.
    assert (∀ i, i ≤ length xs → (iter_at a xs i = Some a ↔ i = length xs)) as Hea.
    { intros j Hj'. split; [|intros ->; apply iter_end]. intros Heq. destruct (decide (j = length xs)); [done|].
      by apply iter_ne_end in Heq; [|done|lia]. }
    assert (∀ i, i ≤ length ys → (iter_at b ys i = Some b ↔ i = length ys)) as Heb.
    { intros j Hj'. split; [|intros ->; apply iter_end]. intros Heq. destruct (decide (j = length ys)); [done|].
      by apply iter_ne_end in Heq; [|done|lia]. }
    destruct (decide (iter_at a xs i ≠ Some a ∧ iter_at b ys i ≠ Some b)) as [[H1 H2]|Hne].
    - rewrite Hea in H1; [|lia]. rewrite Heb in H2; [|lia].
      destruct (lookup_lt_is_Some_2 xs i ltac:(lia)) as [[x v] Hx].
      destruct (lookup_lt_is_Some_2 ys i ltac:(lia)) as [[y w] Hy].
      wstep. iApply (wp_data with "Ha"); [done|]. iIntros "Ha".
      wstep. iApply (wp_data with "Hb"); [done|]. iIntros "Hb".
      destruct (veqb v w) eqn:E.
      + wstep. iApply (wp_incr with "Ha"); [lia|done|]. iIntros "Ha".
        wstep. iApply (wp_incr with "Hb"); [lia|done|]. iIntros "Hb". wstep.
        iExists (pred n). iSplit; [iPureIntro; lia|]. iExists (S i). iSplit; [iPureIntro|iFrame].
        split_and!; [lia|lia|done|]. rewrite (take_snoc_vals _ _ _ _ Hx) (take_snoc_vals _ _ _ _ Hy).
        apply Forall2_app; [done|]. by constructor.
      + wstep. iSplit; [iPureIntro|iFrame]. symmetry. apply bool_decide_eq_false. intros Hall.
        eapply (Forall2_lookup_lr _ _ _ i v w) in Hall; [congruence|by rewrite list_lookup_fmap Hx|by rewrite list_lookup_fmap Hy].
    - wstep. iSplit; [iPureIntro|iFrame]. apply bool_decide_ext. rewrite Hea; [|lia]. rewrite Heb; [|lia].
      assert (i = length xs ∨ i = length ys) as Hor.
      { destruct (decide (i = length xs)); [by left|]. destruct (decide (i = length ys)); [by right|].
        exfalso. apply Hne. rewrite Hea; [|lia]. by rewrite Heb; [|lia]. }
      split.
      + intros [-> Hl]. rewrite !take_ge in Hfa; [done|rewrite fmap_length; lia..].
      + intros Hall. apply Forall2_length in Hall. rewrite !fmap_length in Hall. lia.
  Qed.
End loops.
