(** The operations of map/set as triples on the element list. Proof file. *)
From Verif Require Export RbIter MapSpec.

Section rbmap.
  Context {K V : Type}.
  Notation C := (rbcell V).
  Notation heap := (gmap loc C).
  Notation iProp := (bi_car (hpropI C)).
  Notation tree := (tree V).
  Notation tframe := (@tframe V).
  Implicit Types (t : tree) (x n par hdr : loc) (c : bool) (k : list tframe) (p q : ptr) (f : tframe).
  Implicit Types (xs ys : list (loc * V)).

  Definition lg xs : nat := 2 * Nat.log2 (S (length xs)).
  Lemma lg_length xs : lg xs ≤ 2 * length xs.
  Proof. unfold lg. pose proof (Nat.log2_lt_lin (S (length xs))). lia. Qed.

  Lemma rbt_open hdr xs :
    rbt hdr xs ⊢ ∃ t m, ⌜elems t = xs ∧ isred t = false ∧ balanced t m ∧ height t ≤ lg xs ∧ 2 * m ≤ lg xs⌝ ∧
      rzip hdr [] t.
  Proof.
    unfold rbt. iIntros "H". iDestruct "H" as (t m) "[%Hx H]". destruct Hx as (<-&Hr&Hb).
    iExists t, m. iSplit; [iPureIntro|done]. split_and!; [done|done|done| |].
    - by eapply height_log.
    - pose proof (balanced_size _ _ Hb) as Hs. apply Nat.log2_le_mono in Hs.
      rewrite Nat.log2_pow2 in Hs; unfold lg; lia.
  Qed.
  Lemma rbt_close hdr t m : isred t = false → balanced t m → rzip hdr [] t ⊢ rbt hdr (elems t).
  Proof. intros ??. iIntros "H". iExists t, m. by iSplit. Qed.
  Lemma rbt_close' hdr t : isred t = false → (∃ m, balanced t m) → rzip hdr [] t ⊢ rbt hdr (elems t).
  Proof. intros ? [??]. by eapply rbt_close. Qed.
  Ltac ropen := iDestruct (rbt_open with "H") as (t m) "[%Hx H]";
    lazymatch goal with Hx : elems _ = _ ∧ _ |- _ => destruct Hx as (HE&Hr&Hb&Hh&Hm) end.

  Lemma rbt_nodup hdr xs : rbt hdr xs ⊢ ⌜NoDup (hdr :: xs.*1)⌝.
  Proof. iIntros "H". ropen. subst xs. by iApply rzip_nodup. Qed.

  Lemma iter_first hdr xs i : iter_at hdr xs i = first_of hdr (drop i xs).
  Proof.
    unfold iter_at, first_of. do 2 f_equal. rewrite list_lookup_fmap head_lookup list_lookup_fmap lookup_drop.
    by rewrite Nat.add_0_r.
  Qed.
  Lemma iter_last hdr xs i : i < length xs → iter_at hdr xs i = last_of hdr (take (S i) xs).
  Proof.
    intros Hi. unfold iter_at, last_of. do 2 f_equal.
    destruct (lookup_lt_is_Some_2 xs i Hi) as [y Hy]. rewrite (take_S_r _ _ _ Hy) fmap_app last_app /=.
    by rewrite list_lookup_fmap Hy.
  Qed.
  Lemma iter_mid hdr E1 x (v : V) E2 : iter_at hdr (E1 ++ (x, v) :: E2) (length E1) = Some x.
  Proof. rewrite iter_first drop_app. done. Qed.
  Lemma iter_split xs i : i < length xs → ∃ x v, xs = take i xs ++ (x, v) :: drop (S i) xs.
  Proof.
    intros Hi. destruct (lookup_lt_is_Some_2 xs i Hi) as [[x v] Hy]. exists x, v.
    by rewrite -{1}(take_drop_middle _ _ _ Hy).
  Qed.
  Lemma iter_ne_end hdr xs i : NoDup (hdr :: xs.*1) → i < length xs → iter_at hdr xs i ≠ Some hdr.
  Proof.
    intros Hnd Hi. destruct (iter_split xs i Hi) as (x&v&Hxs). rewrite Hxs in Hnd.
    unfold iter_at. rewrite list_lookup_fmap.
    destruct (lookup_lt_is_Some_2 xs i Hi) as [[y w] Hy]. rewrite Hy. simpl.
    intros [= ->]. rewrite -Hxs in Hnd. inversion_clear Hnd as [|?? Hn _]. apply Hn.
    apply elem_of_list_fmap. exists (hdr, w). split; [done|]. by eapply elem_of_list_lookup_2.
  Qed.
  Lemma iter_inj hdr xs i j : NoDup (hdr :: xs.*1) → i ≤ length xs → j ≤ length xs →
    iter_at hdr xs i = iter_at hdr xs j → i = j.
  Proof.
    intros Hnd Hi Hj Heq.
    destruct (decide (i = length xs)) as [->|Hne].
    { destruct (decide (j = length xs)) as [->|Hne']; [done|].
      exfalso. apply (iter_ne_end hdr xs j Hnd ltac:(lia)). rewrite -Heq. unfold iter_at.
      rewrite lookup_ge_None_2; [done|]. by rewrite fmap_length. }
    destruct (decide (j = length xs)) as [->|Hne'].
    { exfalso. apply (iter_ne_end hdr xs i Hnd ltac:(lia)). rewrite Heq. unfold iter_at.
      rewrite lookup_ge_None_2; [done|]. by rewrite fmap_length. }
    inversion_clear Hnd as [|?? _ Hnd'].
    destruct (lookup_lt_is_Some_2 xs.*1 i) as [y Hy]; [rewrite fmap_length; lia|].
    destruct (lookup_lt_is_Some_2 xs.*1 j) as [z Hz]; [rewrite fmap_length; lia|].
    unfold iter_at in Heq. rewrite Hy Hz in Heq. simpl in Heq. injection Heq as ->.
    by eapply NoDup_lookup.
  Qed.

  (** ** Iterators *)
  Lemma wp_begin hdr xs fuel Q :
    lg xs < fuel → rbt hdr xs -∗ (rbt hdr xs -∗ Q (iter_at hdr xs 0)) -∗ wp (m_begin fuel hdr) Q.
  Proof.
    intros Hf. iIntros "H HQ". ropen. unfold m_begin. iDestruct "H" as "[Hc Ht]". simpl.
    wstep. iApply (wp_getf with "Hc"). iIntros "Hc". cbn [parent].
    iAssert (rzip hdr [] t) with "[Hc Ht]" as "H"; [unfold rzip; simpl; iFrame|].
    rewrite iter_first drop_0. subst xs.
    destruct t as [|c l x v r].
    - simpl. wstep. iApply "HQ". by iApply (rbt_close _ Leaf with "H").
    - change (nonnull (rootp (Node c l x v r))) with true. cbn iota.
      iApply (wp_min_node with "H"); [done|lia|]. iIntros "H". iApply "HQ".
      by iApply (rbt_close _ (Node c l x v r) with "H").
  Qed.
  Lemma wp_incr hdr xs i fuel Q :
    i < length xs → lg xs < fuel →
    rbt hdr xs -∗ (rbt hdr xs -∗ Q (iter_at hdr xs (S i))) -∗ wp (m_incr fuel (iter_at hdr xs i)) Q.
  Proof.
    intros Hi Hf. iIntros "H HQ". ropen. destruct (iter_split xs i Hi) as (x&v&Hxs).
    rewrite (iter_first _ _ (S i)).
    assert (iter_at hdr xs i = Some x) as ->.
    { rewrite iter_first. rewrite {1}Hxs. rewrite drop_app_alt; [done|]. rewrite take_length; lia. }
    iApply (wp_next_node with "H"); [by rewrite HE|lia|]. iIntros "H". iApply "HQ". rewrite -HE.
    by iApply (rbt_close with "H").
  Qed.
  Lemma wp_decr hdr xs i fuel Q :
    i < length xs → lg xs < fuel →
    rbt hdr xs -∗ (rbt hdr xs -∗ Q (iter_at hdr xs i)) -∗ wp (m_decr fuel (iter_at hdr xs (S i))) Q.
  Proof.
    intros Hi Hf. iIntros "H HQ". ropen. rewrite (iter_last _ _ i Hi).
    destruct (decide (S i = length xs)) as [Heq|Hne].
    - rewrite (iter_first _ _ (S i)) Heq drop_all take_ge; [|lia].
      iApply (wp_decr_end with "H"); [lia|]. iIntros "H". rewrite HE. iApply "HQ". rewrite -HE.
      by iApply (rbt_close with "H").
    - destruct (iter_split xs (S i) ltac:(lia)) as (x&v&Hxs).
      assert (iter_at hdr xs (S i) = Some x) as ->.
      { rewrite iter_first. rewrite {1}Hxs. rewrite drop_app_alt; [done|]. rewrite take_length; lia. }
      iApply (wp_decr_elem with "H"); [done|by rewrite HE|lia|]. iIntros "H". iApply "HQ". rewrite -HE.
      by iApply (rbt_close with "H").
  Qed.
  Lemma wp_data_at hdr E1 x (v : V) E2 Q :
    rbt hdr (E1 ++ (x, v) :: E2) -∗ (rbt hdr (E1 ++ (x, v) :: E2) -∗ Q v) -∗ wp (node_data (Some x)) Q.
  Proof.
    iIntros "H HQ". ropen. iDestruct (rzip_nodup with "H") as %Hnd. inversion_clear Hnd as [|?? _ Hnd'].
    destruct (zip_at _ _ _ _ _ HE Hnd') as (k&c&l&r&Hpl&_&_).
    iDestruct (rzip_same _ [] t k (Node c l x v r) with "H") as "H"; [done|].
    iApply (wp_focus_data with "H"). iIntros "H". iApply "HQ". rewrite -HE.
    iApply rbt_close; [done|done|]. by iApply rzip_same.
  Qed.
  Lemma wp_data hdr xs i x (v : V) Q :
    xs !! i = Some (x, v) →
    rbt hdr xs -∗ (rbt hdr xs -∗ Q v) -∗ wp (node_data (iter_at hdr xs i)) Q.
  Proof.
    intros Hi. pose proof (take_drop_middle _ _ _ Hi) as Hxs. iIntros "H HQ".
    unfold iter_at. rewrite list_lookup_fmap Hi. simpl. rewrite -Hxs.
    iApply (wp_data_at with "H HQ").
  Qed.
  Lemma plug_shape k t t' m :
    isred t' = isred t → (∀ m, balanced t m → balanced t' m) → balanced (plug k t) m → balanced (plug k t') m.
  Proof.
    revert t t' m. induction k as [|f k IH]; intros t t' m Hr Hb; simpl; [by apply Hb|].
    apply IH.
    - by destruct f.
    - intros m'. destruct f as [[] y w r|[] l y w]; simpl; rewrite ?Hr; destruct m'; naive_solver.
  Qed.
  Lemma plug_isred k t t' : isred t' = isred t → isred (plug k t') = isred (plug k t).
  Proof.
    revert t t'. induction k as [|f k IH]; intros t t' Hr; simpl; [done|]. apply IH. by destruct f.
  Qed.
  Lemma elems_plug' k t : elems (plug k t) = lefts k ++ elems t ++ rights k.
  Proof.
    revert t. induction k as [|f k IH]; intros t; simpl; [by rewrite app_nil_r|]. rewrite IH.
    destruct f; simpl; by repeat (rewrite -app_assoc; simpl).
  Qed.
  Lemma wp_store_at hdr E1 x (v v' : V) E2 Q :
    rbt hdr (E1 ++ (x, v) :: E2) -∗ (rbt hdr (E1 ++ (x, v') :: E2) -∗ Q tt) -∗
    wp (setf (set_data v') (Some x)) Q.
  Proof.
    iIntros "H HQ". ropen. iDestruct (rzip_nodup with "H") as %Hnd. inversion_clear Hnd as [|?? _ Hnd'].
    destruct (zip_at _ _ _ _ _ HE Hnd') as (k&c&l&r&Hpl&->&->).
    iDestruct (rzip_same _ [] t k (Node c l x v r) with "H") as "H"; [done|].
    iDestruct "H" as "[Hc Ht]". cbn [tree_at]. iDestruct "Ht" as "(Hx&Hl&Hr)".
    iApply (wp_setf with "Hx"). iIntros "Hx". iApply "HQ".
    replace ((lefts k ++ elems l) ++ (x, v') :: elems r ++ rights k)
      with (elems (plug k (Node c l x v' r))).
    2:{ rewrite elems_plug'. simpl. by repeat (rewrite -app_assoc; simpl). }
    iApply (rbt_close _ _ m).
    - rewrite (plug_isred k (Node c l x v r)); [|done]. by rewrite Hpl.
    - eapply (plug_shape k (Node c l x v r)); [done|done|]. by rewrite Hpl.
    - rewrite rzip_plug. unfold rzip. cbn [tree_at]. iFrame.
  Qed.

  Context `{Allocator C}.

  (** ** Whole-container operations *)
  Lemma wp_m_new Q : (∀ hdr, rbt hdr [] -∗ Q hdr) -∗ wp (rb_new (V:=V)) Q.
  Proof.
    iIntros "HQ". iApply wp_rb_new. iIntros (hdr) "H". iApply "HQ". by iApply (rbt_close _ Leaf 0).
  Qed.
  Lemma wp_m_clear hdr xs fuel Q :
    lg xs < fuel → rbt hdr xs -∗ (rbt hdr [] -∗ Q tt) -∗ wp (m_clear fuel hdr) Q.
  Proof.
    intros Hf. iIntros "H HQ". ropen. unfold m_clear. iApply (wp_clear with "H"); [lia|].
    iIntros "H". iApply "HQ". by iApply (rbt_close _ Leaf 0).
  Qed.
  Lemma wp_m_destroy hdr xs fuel Q :
    lg xs < fuel → rbt hdr xs -∗ Q tt -∗ wp (rb_destroy fuel hdr) Q.
  Proof. intros Hf. iIntros "H HQ". ropen. by iApply (wp_destroy with "H"); [lia|]. Qed.
  Lemma wp_m_empty hdr xs Q :
    rbt hdr xs -∗ (rbt hdr xs -∗ Q (bool_decide (xs = []))) -∗ wp (m_empty hdr) Q.
  Proof.
    iIntros "H HQ". ropen. unfold m_empty. iDestruct "H" as "[Hc Ht]". simpl.
    wstep. iApply (wp_getf with "Hc"). iIntros "Hc". cbn [parent].
    iAssert (rzip hdr [] t) with "[Hc Ht]" as "H"; [unfold rzip; simpl; iFrame|]. wstep.
    replace (negb (nonnull (rootp t))) with (bool_decide (xs = [])).
    - iApply "HQ". rewrite -HE. by iApply (rbt_close with "H").
    - rewrite -HE. destruct t; simpl; [done|]. apply bool_decide_eq_false. by destruct (elems t1).
  Qed.
  Lemma wp_m_assign hdr o xs ys fuel Q :
    lg xs < fuel → lg ys < fuel →
    rbt hdr xs -∗ rbt o ys -∗
    (∀ zs, ⌜zs.*2 = ys.*2⌝ → rbt hdr zs -∗ rbt o ys -∗ Q tt) -∗
    wp (m_assign fuel hdr o) Q.
  Proof.
    intros Hf1 Hf2. iIntros "H Ho HQ". unfold m_assign. wstep.
    iApply (wp_m_clear with "H"); [done|]. iIntros "H". ropen.
    iDestruct (rbt_open with "Ho") as (t0 m0) "[%Hx Ho]". destruct Hx as (HE0&Hr0&Hb0&Hh0&Hm0).
    assert (height t = 0) by (destruct t; [done|]; simpl in HE; by destruct (elems t1)).
    iApply (wp_rb_assign with "H Ho"); [lia|lia|]. iIntros (t') "%Hcp H Ho".
    iApply ("HQ" $! (elems t') with "[] [H] [Ho]").
    - iPureIntro. rewrite -HE0. by apply copy_of_vals.
    - iApply (rbt_close with "H"); [by rewrite (copy_of_isred _ _ Hcp)|by eapply copy_of_balanced].
    - rewrite -HE0. by iApply (rbt_close with "Ho").
  Qed.
  Lemma wp_m_copy o ys fuel Q :
    lg ys < fuel →
    rbt o ys -∗
    (∀ hdr zs, ⌜zs.*2 = ys.*2⌝ → rbt hdr zs -∗ rbt o ys -∗ Q hdr) -∗
    wp (m_copy fuel o) Q.
  Proof.
    intros Hf2. iIntros "Ho HQ". unfold m_copy. wstep. iApply wp_rb_new. iIntros (hdr) "H".
    iDestruct (rbt_open with "Ho") as (t0 m0) "[%Hx Ho]". destruct Hx as (HE0&Hr0&Hb0&Hh0&Hm0).
    wstep. iApply (wp_rb_assign with "H Ho"); [simpl; lia|lia|]. iIntros (t') "%Hcp H Ho". wstep.
    iApply ("HQ" $! hdr (elems t') with "[] [H] [Ho]").
    - iPureIntro. rewrite -HE0. by apply copy_of_vals.
    - iApply (rbt_close with "H"); [by rewrite (copy_of_isred _ _ Hcp)|by eapply copy_of_balanced].
    - rewrite -HE0. by iApply (rbt_close with "Ho").
  Qed.
  (** Assigning a container to itself empties it. *)
  Lemma wp_m_assign_self hdr xs fuel Q :
    lg xs < fuel → rbt hdr xs -∗ (rbt hdr [] -∗ Q tt) -∗ wp (m_assign fuel hdr hdr) Q.
  Proof.
    intros Hf. iIntros "H HQ". unfold m_assign. wstep.
    iApply (wp_m_clear with "H"); [done|]. iIntros "H". ropen.
    assert (t = Leaf) as -> by (destruct t; [done|]; simpl in HE; by destruct (elems t1)).
    unfold rb_assign. iDestruct "H" as "[Hc Ht]". simpl.
    wstep. iApply (wp_getf with "Hc"). iIntros "Hc". cbn [parent nonnull]. wsteps.
    iApply (wp_getf with "Hc"). iIntros "Hc". cbn [parent nonnull]. wsteps.
    iApply "HQ". iApply (rbt_close _ Leaf 0); [done|done|]. unfold rzip. simpl. iFrame.
  Qed.

  (** ** Keyed operations *)
  Context (keyof : V → K) (lt eqb : K → K → bool) (Hord : key_order lt eqb).
  Notation all_lt := (all_lt keyof lt).
  Notation all_gt := (all_gt keyof lt).
  Notation asc := (asc keyof lt).
  Notation nondesc := (nondesc keyof lt).
  Implicit Types (key : K).

  Lemma wp_m_insert hdr xs (v : V) fuel Q :
    nondesc xs → lg xs < fuel →
    rbt hdr xs -∗
    ((∀ E1 x w E2, ⌜xs = E1 ++ (x, w) :: E2 ∧ eqb (keyof v) (keyof w) = true⌝ →
       rbt hdr xs -∗ Q (Some x, false)) ∧
     (∀ E1 n E2, ⌜xs = E1 ++ E2 ∧ all_lt (keyof v) E1 ∧ all_gt (keyof v) E2⌝ →
       rbt hdr (E1 ++ (n, v) :: E2) -∗ Q (Some n, true))) -∗
    wp (m_insert keyof lt eqb fuel hdr v) Q.
  Proof.
    intros Hs Hf. iIntros "H HQ". ropen. unfold m_insert.
    iApply (wp_insert_unique _ _ _ Hord with "H"); [by rewrite HE|done|done|lia|].
    iSplit.
    - iIntros (E1 x w E2) "%Hx H". iDestruct "HQ" as "[HQ _]". rewrite HE in Hx.
      iApply ("HQ" with "[//]"). rewrite -HE. by iApply (rbt_close with "H").
    - iIntros (E1 n E2 t') "%Hx H". destruct Hx as (Hx&Ht'&?&?&?&?). iDestruct "HQ" as "[_ HQ]".
      rewrite HE in Hx. iApply ("HQ" $! E1 n E2 with "[//]"). rewrite -Ht'.
      by iApply (rbt_close' with "H").
  Qed.
  Lemma wp_m_insert_equal hdr xs (v : V) fuel Q :
    nondesc xs → lg xs < fuel →
    rbt hdr xs -∗
    (∀ E1 n E2, ⌜xs = E1 ++ E2 ∧ Forall (λ a, lt (keyof v) (keyof a.2) = false) E1 ∧ all_gt (keyof v) E2⌝ →
       rbt hdr (E1 ++ (n, v) :: E2) -∗ Q (Some n)) -∗
    wp (rb_insert_equal keyof lt fuel hdr v) Q.
  Proof.
    intros Hs Hf. iIntros "H HQ". ropen.
    iApply (wp_insert_equal _ _ _ Hord with "H"); [by rewrite HE|done|done|lia|].
    iIntros (E1 n E2 t') "%Hx H". destruct Hx as (Hx&Ht'&?&?&?&?).
    rewrite HE in Hx. iApply ("HQ" $! E1 n E2 with "[//]"). rewrite -Ht'.
    by iApply (rbt_close' with "H").
  Qed.
  Lemma wp_m_remove hdr key xs fuel Q :
    lone keyof lt eqb key xs → lg xs < fuel →
    rbt hdr xs -∗
    ((∀ E1 E2, ⌜xs = E1 ++ E2 ∧ all_lt key E1 ∧ all_gt key E2⌝ → rbt hdr xs -∗ Q None) ∧
     (∀ E1 x v E2 cell, ⌜xs = E1 ++ (x, v) :: E2 ∧ eqb key (keyof v) = true ∧ data cell = Some v⌝ →
        rbt hdr (E1 ++ E2) -∗ x ↦ cell -∗ Q (Some x))) -∗
    wp (rb_remove keyof lt eqb fuel hdr key) Q.
  Proof.
    intros Hs Hf. iIntros "H HQ". ropen.
    iApply (wp_remove _ _ _ Hord with "H"); [by rewrite HE|done|done|lia|].
    iSplit.
    - iIntros (t' E1 E2) "%Hx H". iDestruct "HQ" as "[HQ _]". destruct Hx as (Hx&?&?&Ht'&?&?).
      iApply ("HQ" $! E1 E2 with "[]"); [by rewrite -HE|]. rewrite -HE -Ht'. by iApply (rbt_close' with "H").
    - iIntros (t' E1 x v E2 cell) "%Hx H Hx". iDestruct "HQ" as "[_ HQ]". destruct Hx as (Hx&?&Ht'&?&?&?).
      rewrite HE in Hx. iApply ("HQ" $! E1 x v E2 cell with "[//] [H] Hx"). rewrite -Ht'.
      by iApply (rbt_close' with "H").
  Qed.
  Lemma wp_m_erase hdr key xs fuel Q :
    lone keyof lt eqb key xs → lg xs < fuel →
    rbt hdr xs -∗
    ((∀ E1 E2, ⌜xs = E1 ++ E2 ∧ all_lt key E1 ∧ all_gt key E2⌝ → rbt hdr xs -∗ Q 0) ∧
     (∀ E1 x v E2, ⌜xs = E1 ++ (x, v) :: E2 ∧ eqb key (keyof v) = true⌝ →
        rbt hdr (E1 ++ E2) -∗ Q 1)) -∗
    wp (m_erase keyof lt eqb fuel hdr key) Q.
  Proof.
    intros Hs Hf. iIntros "H HQ". unfold m_erase. wstep. iApply (wp_m_remove with "H"); [done|done|].
    iSplit.
    - iIntros (E1 E2) "%Hx H". iDestruct "HQ" as "[HQ _]". simpl. wsteps. iApply ("HQ" with "[//] H").
    - iIntros (E1 x v E2 cell) "%Hx H Hx". iDestruct "HQ" as "[_ HQ]". destruct Hx as (Hx&?&Hd).
      unfold delete_rbnode. wsteps. rewrite Hd. wsteps. simpl. iApply ("HQ" $! E1 x v E2 with "[//] H").
  Qed.
  Lemma wp_m_find hdr key xs fuel Q :
    nondesc xs → lg xs < fuel →
    rbt hdr xs -∗
    ((∀ E1 x v E2, ⌜xs = E1 ++ (x, v) :: E2 ∧ eqb key (keyof v) = true⌝ → rbt hdr xs -∗ Q (Some x)) ∧
     (∀ E1 E2, ⌜xs = E1 ++ E2 ∧ all_lt key E1 ∧ all_gt key E2⌝ → rbt hdr xs -∗ Q (Some hdr))) -∗
    wp (m_find keyof lt eqb fuel hdr key) Q.
  Proof.
    intros Hs Hf. iIntros "H HQ". ropen. unfold m_find.
    iApply (wp_find _ _ _ Hord with "H"); [by rewrite HE|lia|]. rewrite HE.
    iSplit.
    - iIntros (E1 x v E2) "%Hx H". iDestruct "HQ" as "[HQ _]".
      iApply ("HQ" with "[//]"). rewrite -HE. by iApply (rbt_close with "H").
    - iIntros (E1 E2) "%Hx H". iDestruct "HQ" as "[_ HQ]".
      iApply ("HQ" with "[//]"). rewrite -HE. by iApply (rbt_close with "H").
  Qed.
  Lemma wp_m_lower hdr key xs fuel Q :
    nondesc xs → lg xs < fuel →
    rbt hdr xs -∗
    (∀ E1 E2, ⌜xs = E1 ++ E2 ∧ all_lt key E1 ∧ Forall (λ a, lt (keyof a.2) key = false) E2⌝ →
       rbt hdr xs -∗ Q (iter_at hdr xs (length E1))) -∗
    wp (m_lower_bound keyof lt fuel hdr key) Q.
  Proof.
    intros Hs Hf. iIntros "H HQ". ropen. unfold m_lower_bound.
    iApply (wp_lower_bound with "H"); [|lia|].
    { rewrite HE. by apply (nondesc_parted_lower _ _ _ Hord). }
    iIntros (E1 E2) "%Hx H". rewrite HE in Hx.
    replace (first_of hdr E2) with (iter_at hdr xs (length E1)).
    - iApply ("HQ" with "[//]"). rewrite -HE. by iApply (rbt_close with "H").
    - destruct Hx as [-> _]. by rewrite iter_first drop_app.
  Qed.
  Lemma wp_m_upper hdr key xs fuel Q :
    nondesc xs → lg xs < fuel →
    rbt hdr xs -∗
    (∀ E1 E2, ⌜xs = E1 ++ E2 ∧ Forall (λ a, lt key (keyof a.2) = false) E1 ∧ all_gt key E2⌝ →
       rbt hdr xs -∗ Q (iter_at hdr xs (length E1))) -∗
    wp (rb_upper_bound keyof lt fuel hdr key) Q.
  Proof.
    intros Hs Hf. iIntros "H HQ". ropen.
    iApply (wp_upper_bound with "H"); [|lia|].
    { rewrite HE. by apply (nondesc_parted_upper _ _ _ Hord). }
    iIntros (E1 E2) "%Hx H". rewrite HE in Hx.
    replace (first_of hdr E2) with (iter_at hdr xs (length E1)).
    - iApply ("HQ" with "[//]"). rewrite -HE. by iApply (rbt_close with "H").
    - destruct Hx as [-> _]. by rewrite iter_first drop_app.
  Qed.

  (** ** rbtree::count *)
  Definition nkey key (es : list (loc * V)) : nat := length (filter (λ a, eqb (keyof a.2) key = true) es).
  Lemma nkey_app key es es' : nkey key (es ++ es') = nkey key es + nkey key es'.
  Proof. unfold nkey. by rewrite filter_app app_length. Qed.
  Lemma nkey_lt key es : all_lt key es → nkey key es = 0.
  Proof.
    unfold nkey. induction 1 as [|a es Ha _ IH]; [done|]. rewrite filter_cons.
    destruct (decide _) as [He|]; [|done]. by rewrite (eqb_false_lt _ _ Hord _ _ Ha) in He.
  Qed.
  Lemma nkey_gt key es : all_gt key es → nkey key es = 0.
  Proof.
    unfold nkey. induction 1 as [|a es Ha _ IH]; [done|]. rewrite filter_cons.
    destruct (decide _) as [He|]; [|done]. by rewrite (eqb_false_gt _ _ Hord _ _ Ha) in He.
  Qed.
  Lemma nkey_one key x (v : V) : nkey key [(x, v)] = if eqb (keyof v) key then 1 else 0.
  Proof. unfold nkey. rewrite filter_cons. simpl. destruct (decide _); destruct (eqb _ _); done. Qed.
  Lemma wp_count hdr key xs fuel Q :
    nondesc xs → lg xs < fuel →
    rbt hdr xs -∗
    (∀ z, ⌜z ≤ nkey key xs ∧ (z = 0 → nkey key xs = 0)⌝ → rbt hdr xs -∗ Q z) -∗
    wp (rb_count keyof lt eqb fuel hdr key) Q.
  Proof.
    intros Hs Hf. iIntros "H HQ". ropen. unfold rb_count. iDestruct "H" as "[Hc Ht]". simpl.
    wstep. iApply (wp_getf with "Hc"). iIntros "Hc". cbn [parent].
    iAssert (rzip hdr [] t) with "[Hc Ht]" as "H"; [unfold rzip; simpl; iFrame|].
    iApply (wp_wand _ (λ z, ⌜z ≤ nkey key xs ∧ (z = 0 → nkey key xs = 0)⌝ ∧ rzip hdr [] t)%I with "[H]").
    2:{ iIntros (z) "[%Hx H]". iApply ("HQ" $! z with "[//]"). rewrite -HE. by iApply (rbt_close with "H"). }
    iApply (wp_loop (λ i z, ∃ k t', ⌜height t' ≤ i ∧ z.1 = rootp t' ∧ plug k t' = t ∧ all_lt key (lefts k) ∧
       z.2 ≤ nkey key (rights k) ∧ (z.2 = 0 → nkey key (rights k) = 0)⌝ ∧ rzip hdr k t')%I with "[H]").
    2: exact (Nat.le_lt_trans _ _ _ Hh Hf).
    2:{ iExists [], t. iSplit; [iPureIntro|done]. split_and!; try done. constructor. }
    intros i [q z]. iIntros "H". iDestruct "H" as (k t') "[%Hx H]". simpl in Hx.
    destruct Hx as (Hi&->&Hpl&HL&Hc1&Hc2).
    assert (xs = lefts k ++ elems t' ++ rights k) as Hxs.
    { by rewrite -HE -Hpl elems_plug'. }
    destruct t' as [|ca l x v r].
    - simpl. wstep. iSplit; [iPureIntro|].
      + subst xs. rewrite Hxs. rewrite /= nkey_app (nkey_lt _ _ HL). done.
      + by iApply (rzip_same with "H").
    - cbn [rootp]. wstep. iApply (wp_focus_data with "H"). iIntros "H".
      pose proof Hs as Hs'. rewrite Hxs in Hs'. simpl in Hs'.
      destruct (nondesc_node _ _ _ Hord key _ _ _ _ _ _ Hs') as [Hs1 Hs2].
      destruct (lt (keyof v) key) eqn:Elt.
      + wstep. iApply (wp_focus_right with "H"). iIntros "H". wstep.
        iExists (pred i). simpl in Hi. iSplit; [iPureIntro; lia|].
        iExists (FR ca l x v :: k), r. rewrite rzip_right. iSplit; [iPureIntro|done].
        split_and!; [lia|done|done| |done|done]. simpl. apply Forall_app. split; [done|]. by apply Hs1.
      + wstep. iApply (wp_focus_left with "H"). iIntros "H". wstep.
        iExists (pred i). simpl in Hi. iSplit; [iPureIntro; lia|].
        iExists (FL ca x v r :: k), l. rewrite rzip_left. iSplit; [iPureIntro|done].
        split_and!; [lia|done|done|simpl; by rewrite app_nil_r| |].
        * simpl. rewrite (app_comm_cons _ (rights k)) nkey_app (nkey_app _ [(x, v)] (elems r)) nkey_one.
          destruct (eqb (keyof v) key); lia.
        * simpl. rewrite (app_comm_cons _ (rights k)) nkey_app (nkey_app _ [(x, v)] (elems r)) nkey_one.
          destruct (eqb (keyof v) key) eqn:Ee; [done|]. intros Hc0. rewrite (Hc2 Hc0).
          assert (lt key (keyof v) = true) as Hgt by exact (three_way _ _ Hord _ _ Elt Ee).
          specialize (Hs2 Hgt). inversion_clear Hs2 as [|?? _ Hs2']. rewrite (nkey_gt _ _ Hs2'). done.
  Qed.
End rbmap.
