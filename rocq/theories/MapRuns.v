(** map, set and the multi-key tree: the property lemmas, in the vocabulary of
    Triple.v, RbSpec.v and MapSpec.v only. *)
From Verif Require Import MapHistory RbFind.
(*@HEADER
From Verif Require Import MapSpec MapRuns.

Section map.
  Context {K V : Type} (keyof : V → K) (lt eqb : K → K → bool).
  Context `{Allocator (rbcell V)}.
@*)
(*@FOOTER
End map.
@*)

Section map.
  Context {K V : Type} (keyof : V → K) (lt eqb : K → K → bool).
  Context `{Allocator (rbcell V)}.
  Notation C := (rbcell V).
  Notation heap := (gmap loc C).
  Notation iProp := (bi_car (hpropI C)).

  Lemma plain_map this (xs : list (loc * V)) :
    plain (is_map keyof lt this xs) ⊣⊢ ⌜ascending keyof lt xs.*2⌝ ∧ rbt this xs.
  Proof. unfold is_map. rewrite plain_and plain_pure -plain_rbt. done. Qed.
  Lemma plain_map' this (xs : list (loc * V)) :
    plain (λ h, is_map keyof lt this xs h) ⊣⊢ ⌜ascending keyof lt xs.*2⌝ ∧ rbt this xs.
  Proof. apply plain_map. Qed.
  Lemma plain_multi this (xs : list (loc * V)) :
    plain (is_multi keyof lt this xs) ⊣⊢ ⌜nondescending keyof lt xs.*2⌝ ∧ rbt this xs.
  Proof. unfold is_multi. rewrite plain_and plain_pure -plain_rbt. done. Qed.
  Lemma plain_multi' this (xs : list (loc * V)) :
    plain (λ h, is_multi keyof lt this xs h) ⊣⊢ ⌜nondescending keyof lt xs.*2⌝ ∧ rbt this xs.
  Proof. apply plain_multi. Qed.

  (** Every tree object in memory, however it got there, is shallow. *)
  (*@ C03 Every path of a map/set/tree object with n elements has at most
     2*log2(n+1) nodes. (All operations below keep memory in this shape, and their
     [fuel] hypotheses show that they make O(log n) steps.) *)
  Lemma tree_height_log this (t : tree V) h :
    holds_tree this t h → height t ≤ log_steps (length (elems t)).
  Proof. intros (Hr&[m Hb]&_). by eapply height_log. Qed.

  (*@ C01,C02,C05,C06,C08,C12 Whole programs on two sets (or two maps used without operator[]):
     for every history of insert, range insert, erase, clear, find, count, empty,
     lower_bound, forward and backward traversal, assignment, copy and ==, every
     observation is the one made on the abstract ascending sequences; nothing goes
     wrong, and after both destructors no memory is left over. *)
  Lemma set_history (veqb : V → V → bool) ops :
    key_order lt eqb → set_correct keyof lt eqb veqb ops.
  Proof. intros. by apply set_history_correct. Qed.

  (*@ C01,C02,C03,C04,C05,C06,C08,C12,C13_partial After every history, both objects are well-formed search trees
     (balanced, strictly ascending under Compare) holding exactly the abstract
     values. *)
  Lemma set_reaches (veqb : V → V → bool) ops :
    key_order lt eqb →
    h_reaches rb_new (m_step keyof lt eqb veqb) [] (m_spec keyof lt eqb veqb)
      (λ a vs h, ∃ xs, xs.*2 = vs ∧ is_map keyof lt a xs h) ops.
  Proof. intros. by apply set_history_reaches. Qed.

  Ltac mopen := iDestruct "H" as "[%Hs H]"; lazymatch goal with
    | Hs : ascending _ _ _ |- _ => pose proof (proj2 (asc_values _ _ _) Hs) as Hs';
        lazymatch goal with Hord : key_order _ _ |- _ => pose proof (asc_nondesc _ _ _ Hord _ Hs') as Hnd end
    end.

  (*@ C01,C03,C04,C05 insert(v): if an element with an equal key is present,
     nothing changes and its iterator is returned with false; otherwise exactly one
     new node is added at its place in the order, all others keep their addresses and
     values, and its iterator is returned with true. *)
  Lemma insert_ok fuel this (xs : list (loc * V)) (v : V) :
    key_order lt eqb → log_steps (length xs) < fuel →
    runs (is_map keyof lt this xs) (m_insert keyof lt eqb fuel this v)
      (λ '(p, b) h,
         b = negb (has keyof eqb (keyof v) xs.*2) ∧
         if b then ∃ i n, p = Some n ∧ i ≤ length xs ∧
                    is_map keyof lt this (take i xs ++ (n, v) :: drop i xs) h
         else ∃ i x w, xs !! i = Some (x, w) ∧ eqb (keyof v) (keyof w) = true ∧
                    p = Some x ∧ is_map keyof lt this xs h).
  Proof.
    intros Hord Hf. apply runs_of_wp. rewrite plain_map. iIntros "H". mopen.
    iApply (wp_m_insert _ _ _ Hord with "H"); [done|done|]. iSplit.
    - iIntros (E1 x w E2) "%Hx H". destruct Hx as (->&He). iSplit.
      { iPureIntro. by rewrite fmap_mid (present_has _ _ _ _ _ _ He). }
      iExists (length E1), x, w. iSplit; [iPureIntro; by apply list_lookup_middle|].
      iSplit; [done|]. iSplit; [done|]. rewrite plain_map'. by iSplit.
    - iIntros (E1 n E2) "%Hx H". destruct Hx as (->&HL&HR).
      apply all_lt_values in HL. apply all_gt_values in HR.
      iSplit.
      { iPureIntro. by rewrite fmap_app (absent_has _ _ _ Hord). }
      iExists (length E1), n. iSplit; [done|]. iSplit; [iPureIntro; rewrite app_length; lia|].
      rewrite plain_map' take_app drop_app. iSplit; [|done]. iPureIntro.
      rewrite fmap_mid. apply ascending_insert_mid; [by rewrite -fmap_app|done|done].
  Qed.

  (*@ C01,C03,C04,C05 erase(key): if the key is present exactly its node is freed, all
     others keep their addresses and values, and 1 is returned; otherwise nothing
     changes and 0 is returned. *)
  Lemma erase_ok fuel this (xs : list (loc * V)) (key : K) :
    key_order lt eqb → log_steps (length xs) < fuel →
    runs (is_map keyof lt this xs) (m_erase keyof lt eqb fuel this key)
      (λ r h,
         if has keyof eqb key xs.*2
         then r = 1 ∧ ∃ i x w, xs !! i = Some (x, w) ∧ eqb key (keyof w) = true ∧
                is_map keyof lt this (take i xs ++ drop (S i) xs) h
         else r = 0 ∧ is_map keyof lt this xs h).
  Proof.
    intros Hord Hf. apply runs_of_wp. rewrite plain_map. iIntros "H". mopen.
    iApply (wp_m_erase _ _ _ Hord with "H"); [by apply (asc_lone _ _ _ Hord)|done|]. iSplit.
    - iIntros (E1 E2) "%Hx H". destruct Hx as (->&HL&HR).
      apply all_lt_values in HL. apply all_gt_values in HR.
      rewrite {1}fmap_app (absent_has _ _ _ Hord); [|done|done]. iSplit; [done|].
      rewrite plain_map'. by iSplit.
    - iIntros (E1 x w E2) "%Hx H". destruct Hx as (->&He).
      rewrite {1}fmap_mid (present_has _ _ _ _ _ _ He). iSplit; [done|].
      iExists (length E1), x, w. iSplit; [iPureIntro; by apply list_lookup_middle|].
      iSplit; [done|]. rewrite plain_map' take_app.
      replace (drop (S (length E1)) (E1 ++ (x, w) :: E2)) with E2.
      2:{ rewrite (cons_middle _ E1 E2) app_assoc drop_app_alt; [done|]. rewrite app_length /=. lia. }
      iSplit; [|done]. iPureIntro. rewrite fmap_app. rewrite fmap_mid in Hs. by eapply ascending_erase_mid.
  Qed.

  (*@ C01,C03 find(key): the iterator to the element with that key, end() when there is
     none. *)
  Lemma find_ok fuel this (xs : list (loc * V)) (key : K) :
    key_order lt eqb → log_steps (length xs) < fuel →
    runs (is_map keyof lt this xs) (m_find keyof lt eqb fuel this key)
      (λ p h,
         is_map keyof lt this xs h ∧
         if has keyof eqb key xs.*2
         then ∃ i x w, xs !! i = Some (x, w) ∧ eqb key (keyof w) = true ∧ p = Some x
         else p = m_end this).
  Proof.
    intros Hord Hf. apply runs_of_wp. rewrite plain_map. iIntros "H". mopen.
    iApply (wp_m_find _ _ _ Hord with "H"); [done|done|]. iSplit.
    - iIntros (E1 x w E2) "%Hx H". destruct Hx as (->&He).
      rewrite fmap_mid (present_has _ _ _ _ _ _ He). iSplit.
      { rewrite plain_map'. by iSplit. }
      iPureIntro. exists (length E1), x, w. split; [by apply list_lookup_middle|done].
    - iIntros (E1 E2) "%Hx H". destruct Hx as (->&HL&HR).
      apply all_lt_values in HL. apply all_gt_values in HR.
      rewrite fmap_app (absent_has _ _ _ Hord); [|done|done]. iSplit; [|done].
      rewrite plain_map'. by iSplit.
  Qed.

  (*@ C05 clear() frees every node; the object stays usable. *)
  Lemma clear_ok fuel this (xs : list (loc * V)) :
    log_steps (length xs) < fuel →
    runs (is_map keyof lt this xs) (m_clear fuel this) (λ _ h, is_map keyof lt this [] h).
  Proof.
    intros Hf. apply runs_of_wp. rewrite plain_map. iIntros "H". iDestruct "H" as "[_ H]".
    iApply (wp_m_clear with "H"); [done|]. iIntros "H". rewrite plain_map'. iSplit; [|done].
    iPureIntro. constructor.
  Qed.
  (*@ C05 the destructor frees every node and the object: nothing is left. *)
  Lemma destroy_ok fuel this (xs : list (loc * V)) :
    log_steps (length xs) < fuel →
    runs (is_map keyof lt this xs) (rb_destroy fuel this) (λ _ h, nothing h).
  Proof.
    intros Hf. apply runs_of_wp. rewrite plain_map. iIntros "H". iDestruct "H" as "[_ H]".
    iApply (wp_m_destroy with "H"); [done|]. change (λ h, nothing h) with (@nothing C).
    by rewrite plain_nothing.
  Qed.

  Lemma s_insert_length_le (Hord : key_order lt eqb) v (xs : list V) :
    length (s_insert keyof lt eqb v xs) ≤ S (length xs).
  Proof.
    unfold s_insert. destruct (has _ _ _ _); [lia|].
    rewrite app_length /=. unfold below, above. rewrite Nat.add_succ_r. apply le_n_S.
    induction xs as [|x xs IH]; [simpl; lia|]. rewrite !filter_cons.
    destruct (decide (lt (keyof x) (keyof v) = true)) as [H1|H1], (decide (lt (keyof v) (keyof x) = true)) as [H2|H2];
      simpl; try lia.
    pose proof (ko_trans _ _ Hord _ _ _ H1 H2) as H3. by rewrite (ko_irrefl _ _ Hord) in H3.
  Qed.
  (*@ C01,C05 the range constructor: the elements of the range inserted one after the
     other into an empty container. *)
  Lemma new_range_ok fuel (vs : list V) :
    key_order lt eqb → S (2 * length vs) ≤ fuel →
    runs nothing (m_new_range keyof lt eqb fuel vs)
      (λ this h, ∃ xs, xs.*2 = foldl (λ ws v, s_insert keyof lt eqb v ws) [] vs ∧
         is_map keyof lt this xs h).
  Proof.
    intros Hord Hf. apply runs_of_wp. rewrite plain_nothing. iIntros "_". unfold m_new_range.
    wstep. iApply wp_m_new. iIntros (a) "H". wstep.
    iApply (wp_s_insert_range _ _ _ Hord with "[H]"); [|by iApply (mrep_close _ _ _ []); [constructor|]|].
    { assert (∀ ws, length (foldl (λ ws v, s_insert keyof lt eqb v ws) ws vs) ≤ length ws + length vs) as Hl.
      { clear Hf. induction vs as [|v vs IH]; intros ws; simpl; [lia|].
        specialize (IH (s_insert keyof lt eqb v ws)). pose proof (s_insert_length_le Hord v ws). lia. }
      specialize (Hl []). unfold mneed. change ([].*2) with ([] : list V). cbn [length] in Hl. lia. }
    iIntros "H". wstep. by iApply mrep_plain.
  Qed.

  (*@ C02 begin() is the first element (end() if empty). *)
  Lemma begin_ok fuel this (xs : list (loc * V)) :
    log_steps (length xs) < fuel →
    runs (is_map keyof lt this xs) (m_begin fuel this)
      (λ p h, p = iter_at this xs 0 ∧ is_map keyof lt this xs h).
  Proof.
    intros Hf. apply runs_of_wp. rewrite plain_map. iIntros "H". iDestruct "H" as "[%Hs H]".
    iApply (wp_begin with "H"); [done|]. iIntros "H". iSplit; [done|]. rewrite plain_map'. by iSplit.
  Qed.
  (*@ C02 ++ from element number i leads to element number i+1 (end() after the
     last). *)
  Lemma incr_ok fuel this (xs : list (loc * V)) i :
    i < length xs → log_steps (length xs) < fuel →
    runs (is_map keyof lt this xs) (m_incr fuel (iter_at this xs i))
      (λ p h, p = iter_at this xs (S i) ∧ is_map keyof lt this xs h).
  Proof.
    intros Hi Hf. apply runs_of_wp. rewrite plain_map. iIntros "H". iDestruct "H" as "[%Hs H]".
    iApply (wp_incr with "H"); [done|done|]. iIntros "H". iSplit; [done|]. rewrite plain_map'. by iSplit.
  Qed.
  (*@ C02 -- from element number i+1 (or from end()) leads to element number i. *)
  Lemma decr_ok fuel this (xs : list (loc * V)) i :
    i < length xs → log_steps (length xs) < fuel →
    runs (is_map keyof lt this xs) (m_decr fuel (iter_at this xs (S i)))
      (λ p h, p = iter_at this xs i ∧ is_map keyof lt this xs h).
  Proof.
    intros Hi Hf. apply runs_of_wp. rewrite plain_map. iIntros "H". iDestruct "H" as "[%Hs H]".
    iApply (wp_decr with "H"); [done|done|]. iIntros "H". iSplit; [done|]. rewrite plain_map'. by iSplit.
  Qed.
  (*@ C02 dereferencing the iterator to element number i gives element number i;
     distinct positions have distinct iterators, none of them end(). *)
  Lemma deref_ok this (xs : list (loc * V)) i x v :
    xs !! i = Some (x, v) →
    runs (is_map keyof lt this xs) (node_data (iter_at this xs i))
      (λ w h, w = v ∧ is_map keyof lt this xs h ∧
              ∀ j, j ≤ length xs → iter_at this xs j = iter_at this xs i → j = i).
  Proof.
    intros Hi. apply runs_of_wp. rewrite plain_map. iIntros "H". iDestruct "H" as "[%Hs H]".
    iDestruct (rbt_nodup with "H") as %Hnd.
    iApply (wp_data with "H"); [done|]. iIntros "H". iSplit; [done|]. iSplit; [rewrite plain_map'; by iSplit|].
    iPureIntro. intros j Hj Heq. apply lookup_lt_Some in Hi. eapply iter_inj; [done|lia|lia|done].
  Qed.
  (*@ C02 the full forward traversal. *)
  Lemma forward_ok fuel this (xs : list (loc * V)) :
    log_steps (length xs) < fuel → length xs < fuel →
    runs (is_map keyof lt this xs) (m_forward fuel this)
      (λ vs h, vs = xs.*2 ∧ is_map keyof lt this xs h).
  Proof.
    intros Hf Hf'. apply runs_of_wp. rewrite plain_map. iIntros "H". iDestruct "H" as "[%Hs H]".
    iApply (wp_m_forward with "H"); [done|done|]. iIntros "H". iSplit; [done|]. rewrite plain_map'. by iSplit.
  Qed.
  (*@ C02 the full backward traversal. *)
  Lemma backward_ok fuel this (xs : list (loc * V)) :
    log_steps (length xs) < fuel → length xs < fuel →
    runs (is_map keyof lt this xs) (m_backward fuel this)
      (λ vs h, vs = reverse xs.*2 ∧ is_map keyof lt this xs h).
  Proof.
    intros Hf Hf'. apply runs_of_wp. rewrite plain_map. iIntros "H". iDestruct "H" as "[%Hs H]".
    iApply (wp_m_backward with "H"); [done|done|]. iIntros "H". iSplit; [done|]. rewrite plain_map'. by iSplit.
  Qed.

  (*@ C06 copy construction: equal values, all in new nodes; the source is untouched
     and shares no memory with the copy. *)
  Lemma copy_ok fuel other (xs : list (loc * V)) :
    log_steps (length xs) < fuel →
    runs (is_map keyof lt other xs) (m_copy fuel other)
      (λ this h, ∃ ys, ys.*2 = xs.*2 ∧
         both (is_map keyof lt this ys) (is_map keyof lt other xs) h).
  Proof.
    intros Hf. apply runs_of_wp. rewrite plain_map. iIntros "H". iDestruct "H" as "[%Hs H]".
    iApply (wp_m_copy with "H"); [done|]. iIntros (hdr zs) "%Hz Ha Hb". iExists zs. iSplit; [done|].
    change (λ h, both (is_map keyof lt hdr zs) (is_map keyof lt other xs) h) with
      (both (is_map keyof lt hdr zs) (is_map keyof lt other xs)).
    rewrite plain_both !plain_map. rewrite Hz. iSplitL "Ha"; by iSplit.
  Qed.
  (*@ C06 assignment from another container: the old nodes are freed, equal values
     in new nodes, the source untouched. *)
  Lemma assign_ok fuel this other (xs ys : list (loc * V)) :
    log_steps (length xs) < fuel → log_steps (length ys) < fuel →
    runs (both (is_map keyof lt this xs) (is_map keyof lt other ys)) (m_assign fuel this other)
      (λ _ h, ∃ zs, zs.*2 = ys.*2 ∧
         both (is_map keyof lt this zs) (is_map keyof lt other ys) h).
  Proof.
    intros Hf1 Hf2. apply runs_of_wp. rewrite plain_both !plain_map. iIntros "[H Ho]".
    iDestruct "H" as "[%Hs H]". iDestruct "Ho" as "[%Ho Ho]".
    iApply (wp_m_assign with "H Ho"); [done|done|]. iIntros (zs) "%Hz Ha Hb". iExists zs. iSplit; [done|].
    change (λ h, both (is_map keyof lt this zs) (is_map keyof lt other ys) h) with
      (both (is_map keyof lt this zs) (is_map keyof lt other ys)).
    rewrite plain_both !plain_map. rewrite Hz. iSplitL "Ha"; by iSplit.
  Qed.
  (*@ C07_refuted x = x on a map/set always empties it. *)
  Lemma map_self_assign fuel this (xs : list (loc * V)) :
    log_steps (length xs) < fuel →
    runs (is_map keyof lt this xs) (m_assign fuel this this) (λ _ h, is_map keyof lt this [] h).
  Proof.
    intros Hf. apply runs_of_wp. rewrite plain_map. iIntros "H". iDestruct "H" as "[_ H]".
    iApply (wp_m_assign_self with "H"); [done|]. iIntros "H". rewrite plain_map'. iSplit; [|done].
    iPureIntro. constructor.
  Qed.

  (*@ C12 == on two maps/sets compares the sequences of elements; it modifies
     neither. *)
  Lemma map_eq_ok (veqb : V → V → bool) fuel a b (xs ys : list (loc * V)) :
    log_steps (length xs) < fuel → log_steps (length ys) < fuel → length xs < fuel →
    runs (both (is_map keyof lt a xs) (is_map keyof lt b ys)) (m_eq veqb fuel a b)
      (λ r h, (r = true ↔ Forall2 (λ x y, veqb x y = true) xs.*2 ys.*2) ∧
              both (is_map keyof lt a xs) (is_map keyof lt b ys) h).
  Proof.
    intros Hf1 Hf2 Hf3. apply runs_of_wp. rewrite plain_both !plain_map. iIntros "[Ha Hb]".
    iDestruct "Ha" as "[%Ha Ha]". iDestruct "Hb" as "[%Hb Hb]".
    iApply (wp_m_eq with "Ha Hb"); [done|done|done|]. iIntros "Ha Hb".
    iSplit; [iPureIntro; apply bool_decide_eq_true|].
    change (λ h, both (is_map keyof lt a xs) (is_map keyof lt b ys) h) with
      (both (is_map keyof lt a xs) (is_map keyof lt b ys)).
    rewrite plain_both !plain_map. iSplitL "Ha"; by iSplit.
  Qed.

  (** ** Bounds *)
  (*@ C08 lower_bound(key) is the iterator to the first element whose key is not
     less: everything before it is less, nothing from it on is; end() when all are
     less. *)
  Lemma lower_bound_ok fuel this (xs : list (loc * V)) (key : K) :
    key_order lt eqb → log_steps (length xs) < fuel →
    runs (is_map keyof lt this xs) (m_lower_bound keyof lt fuel this key)
      (λ p h, is_map keyof lt this xs h ∧ ∃ i, p = iter_at this xs i ∧ i ≤ length xs ∧
         (∀ j x v, xs !! j = Some (x, v) → lt (keyof v) key = true ↔ j < i)).
  Proof.
    intros Hord Hf. apply runs_of_wp. rewrite plain_map. iIntros "H". mopen.
    iApply (wp_m_lower _ _ _ Hord with "H"); [done|done|]. iIntros (E1 E2) "%Hx H".
    iSplit; [rewrite plain_map'; by iSplit|]. iPureIntro. exists (length E1). split; [done|].
    destruct Hx as (->&HL&HR). split; [rewrite app_length; lia|]. intros j x v Hj.
    destruct (decide (j < length E1)) as [Hlt|Hge].
    - rewrite lookup_app_l in Hj; [|done]. rewrite (Forall_lookup_1 _ _ _ _ HL Hj). split; intros; first [done|lia].
    - rewrite lookup_app_r in Hj; [|lia]. rewrite (Forall_lookup_1 _ _ _ _ HR Hj). split; intros; first [done|lia].
  Qed.

  Lemma lower_pos_split key (A B : list (loc * V)) :
    all_lt keyof lt key A → Forall (λ a, lt (keyof a.2) key = false) B → lower_pos keyof lt key (A ++ B) = length A.
  Proof.
    intros HA HB. unfold lower_pos. rewrite filter_app app_length filter_all // filter_none /=; [lia|].
    eapply Forall_impl; [exact HB|]. intros a ->. done.
  Qed.

  Lemma wp_m_next_lower this (xs : list (loc * V)) key fuel Q :
    key_order lt eqb → nondesc keyof lt xs → log_steps (length xs) < fuel →
    rbt this xs -∗
    (rbt this xs -∗ Q (iter_at this xs (lower_pos keyof lt key xs), iter_at this xs (S (lower_pos keyof lt key xs)))) -∗
    wp (let! lo := rb_lower_bound keyof lt fuel this key in
        let! up := (if decide (lo ≠ Some this) then next_node fuel lo else ret lo) in
        ret (lo, up)) Q.
  Proof.
    intros Hord Hnd Hf. iIntros "H HQ". wstep.
    iDestruct (rbt_nodup with "H") as %Hdup.
    iApply (wp_m_lower _ _ _ Hord with "H"); [done|done|]. iIntros (E1 E2) "%Hx H".
    destruct Hx as (->&HL&HR). rewrite (lower_pos_split key E1 E2 HL HR).
    wstep. destruct (decide _) as [Hne|He].
    - destruct E2 as [|[x v] E2].
      { exfalso. apply Hne. rewrite app_nil_r. apply iter_end. }
      iApply (wp_incr with "H"); [rewrite app_length /=; lia|done|]. iIntros "H". wstep. by iApply "HQ".
    - apply dec_stable in He. wstep. wstep. rewrite He.
      replace (iter_at this (E1 ++ E2) (S (length E1))) with (Some this); [by iApply "HQ"|].
      destruct E2 as [|[x v] E2].
      + rewrite app_nil_r. unfold iter_at. rewrite lookup_ge_None_2 //. rewrite fmap_length. lia.
      + exfalso. eapply (iter_ne_end this); [exact Hdup| |exact He]. rewrite app_length /=. lia.
  Qed.

  (*@ C09_partial equal_range(key) as implemented, for every key: it returns the lower bound
     and the position after it. *)
  Lemma equal_range_actual fuel this (xs : list (loc * V)) (key : K) :
    key_order lt eqb → log_steps (length xs) < fuel →
    runs (is_map keyof lt this xs) (m_equal_range keyof lt fuel this key)
      (λ r h, r = (iter_at this xs (lower_pos keyof lt key xs), iter_at this xs (S (lower_pos keyof lt key xs))) ∧
              is_map keyof lt this xs h).
  Proof.
    intros Hord Hf. apply runs_of_wp. rewrite plain_map. iIntros "H". mopen.
    unfold m_equal_range. iApply (wp_m_next_lower with "H"); [done|done|done|]. iIntros "H".
    iSplit; [done|]. rewrite plain_map'. by iSplit.
  Qed.
  (*@ C09_partial upper_bound(key) as implemented, for every key: the position after the
     lower bound. *)
  Lemma upper_bound_actual fuel this (xs : list (loc * V)) (key : K) :
    key_order lt eqb → log_steps (length xs) < fuel →
    runs (is_map keyof lt this xs) (m_upper_bound keyof lt fuel this key)
      (λ p h, p = iter_at this xs (S (lower_pos keyof lt key xs)) ∧ is_map keyof lt this xs h).
  Proof.
    intros Hord Hf. apply runs_of_wp. rewrite plain_map. iIntros "H". mopen.
    unfold m_upper_bound. wstep.
    iDestruct (rbt_nodup with "H") as %Hdup.
    iApply (wp_m_lower _ _ _ Hord with "H"); [done|done|]. iIntros (E1 E2) "%Hx H".
    destruct Hx as (->&HL&HR). rewrite (lower_pos_split key E1 E2 HL HR).
    destruct (decide _) as [He|Hne].
    - wstep. iSplit; [iPureIntro|rewrite plain_map'; by iSplit].
      destruct E2 as [|[x v] E2].
      + rewrite app_nil_r. unfold iter_at. rewrite lookup_ge_None_2 //. rewrite fmap_length. lia.
      + exfalso. eapply (iter_ne_end this); [exact Hdup| |exact He]. rewrite app_length /=. lia.
    - destruct E2 as [|[x v] E2].
      { exfalso. apply Hne. rewrite app_nil_r. apply iter_end. }
      iApply (wp_incr with "H"); [rewrite app_length /=; lia|done|]. iIntros "H".
      iSplit; [done|]. rewrite plain_map'. by iSplit.
  Qed.
  (*@ C09_partial the position after the lower bound is the upper bound exactly when
     the key is present or no element is greater: so for these keys, and only these,
     upper_bound and equal_range are right. *)
  Lemma upper_bound_right_iff (xs : list (loc * V)) this (key : K) :
    key_order lt eqb → ascending keyof lt xs.*2 → NoDup (this :: xs.*1) →
    iter_at this xs (S (lower_pos keyof lt key xs)) = iter_at this xs (upper_pos keyof lt key xs) ↔
    has keyof eqb key xs.*2 = true ∨ Forall (λ a, lt (keyof a.2) key = true) xs.
  Proof.
    intros Hord Hs Hdup.
    assert (∃ A B, xs = A ++ B ∧ all_lt keyof lt key A ∧ Forall (λ a, lt (keyof a.2) key = false) B) as (A&B&->&HA&HB).
    { clear Hdup. induction xs as [|a xs IH]; [exists [], []; split_and!; [done|constructor|constructor]|].
      inversion_clear Hs as [|?? Hs' Hall]. destruct (lt (keyof a.2) key) eqn:E.
      - destruct (IH Hs') as (A&B&->&HA&HB). exists (a :: A), B. split_and!; [done|by constructor|done].
      - exists [], (a :: xs). split_and!; [done|constructor|]. constructor; [done|].
        rewrite Forall_fmap in Hall. eapply Forall_impl; [exact Hall|]. simpl. intros b Hab.
        destruct (lt (keyof b.2) key) eqn:E'; [|done].
        by rewrite (ko_trans _ _ Hord _ _ _ Hab E') in E. }
    rewrite (lower_pos_split key A B HA HB).
    assert (Forall (λ a, lt key (keyof a.2) = false) A) as HA'.
    { eapply Forall_impl; [exact HA|]. simpl. intros a. by apply (lt_asym _ _ Hord). }
    unfold upper_pos. rewrite filter_app app_length (filter_all _ A) //.
    rewrite fmap_app has_app (has_lts _ _ _ Hord _ _ (proj1 (all_lt_values _ _ _ _) HA)) /=.
    assert (length B = 0 → iter_at this (A ++ B) (S (length A)) = iter_at this (A ++ B) (length A)) as Hend.
    { destruct B; [|done]. intros _. rewrite app_nil_r iter_end. unfold iter_at.
      rewrite lookup_ge_None_2 //. rewrite fmap_length. lia. }
    destruct B as [|[y w] B].
    { rewrite filter_nil /=. rewrite Nat.add_0_r. split; [|intros _; by apply Hend].
      intros _. right. by rewrite app_nil_r. }
    rewrite fmap_app fmap_cons /= in Hs. apply sorted_app in Hs as (_&HsB&_).
    inversion_clear HsB as [|?? HsB' HallB]. inversion_clear HB as [|?? Hy HB']. simpl in Hy.
    assert (gts keyof lt (keyof w) B.*2) as HgB by exact HallB.
    destruct (lt key (keyof w)) eqn:Ekw.
    - (* absent, something greater *)
      assert (gts keyof lt key B.*2) as HgB'.
      { eapply Forall_impl; [exact HgB|]. intros b. by apply (ko_trans _ _ Hord _ _ _ Ekw). }
      assert (eqb key (keyof w) = false) as Ekw'.
      { destruct (eqb key (keyof w)) eqn:E; [|done]. apply (ko_eqb _ _ Hord) in E as [E _]. congruence. }
      rewrite filter_none.
      2:{ constructor; [simpl; congruence|]. apply (proj1 (Forall_fmap _ _ _)) in HgB'. eapply Forall_impl; [exact HgB'|]. simpl.
          intros b ->. done. }
      rewrite Nat.add_0_r fmap_cons /= Ekw' (has_gts _ _ _ Hord _ _ HgB') /=. split.
      + intros Heq. exfalso.
        enough (S (length A) = length A) by lia. eapply iter_inj; [exact Hdup| | |exact Heq];
          rewrite app_length /=; lia.
      + intros [?|Hall]; [done|]. apply Forall_app in Hall as [_ Hall]. inversion_clear Hall as [|?? Hk _].
        simpl in Hk. congruence.
    - (* present *)
      assert (eqb key (keyof w) = true) as Ee by (apply (ko_eqb _ _ Hord); done).
      assert (gts keyof lt key B.*2) as HgB'.
      { eapply Forall_impl; [exact HgB|]. intros b Hb. destruct (lt key (keyof b)) eqn:E; [done|].
        by rewrite (ko_ntrans _ _ Hord _ _ _ Hy E) in Hb. }
      rewrite filter_cons_True; [|done].
      rewrite (filter_none _ B).
      2:{ apply (proj1 (Forall_fmap _ _ _)) in HgB'. eapply Forall_impl; [exact HgB'|]. simpl. intros b ->. done. }
      simpl. rewrite Ee. replace (length A + 1) with (S (length A)) by lia. split; [intros _; by left|done].
  Qed.

  (** ** rbtree with duplicate keys *)
  Ltac uopen := iDestruct "H" as "[%Hs H]"; lazymatch goal with
    | Hs : nondescending _ _ _ |- _ => pose proof (proj2 (nondesc_values _ _ _) Hs) as Hnd
    end.
  (*@ C10 insert_equal adds one new node after every element whose key is not
     greater and before every greater one; nothing else changes. *)
  Lemma insert_equal_ok fuel this (xs : list (loc * V)) (v : V) :
    key_order lt eqb → log_steps (length xs) < fuel →
    runs (is_multi keyof lt this xs) (rb_insert_equal keyof lt fuel this v)
      (λ p h, ∃ i n, p = Some n ∧ i ≤ length xs ∧
         (∀ j x w, xs !! j = Some (x, w) → lt (keyof v) (keyof w) = true ↔ i ≤ j) ∧
         is_multi keyof lt this (take i xs ++ (n, v) :: drop i xs) h).
  Proof.
    intros Hord Hf. apply runs_of_wp. rewrite plain_multi. iIntros "H". uopen.
    iApply (wp_m_insert_equal _ _ _ Hord with "H"); [done|done|]. iIntros (E1 n E2) "%Hx H".
    destruct Hx as (->&HL&HR). iExists (length E1), n. iSplit; [done|].
    iSplit; [iPureIntro; rewrite app_length; lia|]. iSplit.
    - iPureIntro. intros j x w Hj. destruct (decide (j < length E1)) as [Hlt|Hge].
      + rewrite lookup_app_l in Hj; [|done]. rewrite (Forall_lookup_1 _ _ _ _ HL Hj). split; intros; first [done|lia].
      + rewrite lookup_app_r in Hj; [|lia]. rewrite (Forall_lookup_1 _ _ _ _ HR Hj). split; intros; first [done|lia].
    - rewrite plain_multi' take_app drop_app. iSplit; [|done]. iPureIntro.
      rewrite fmap_mid. unfold nondescending in *. rewrite fmap_app in Hs. apply sorted_app in Hs as (H1&H2&H3).
      apply sorted_app. split_and!; [done| |].
      + constructor; [done|]. rewrite Forall_fmap. eapply Forall_impl; [exact HR|]. simpl.
        intros a. apply (lt_asym _ _ Hord).
      + rewrite Forall_forall. intros a Ha. constructor.
        * apply elem_of_list_fmap in Ha as (b&->&Hb). rewrite Forall_forall in HL. by apply HL.
        * rewrite Forall_forall in H3. by apply H3.
  Qed.
  (*@ C10 lower_bound, upper_bound and equal_range of the tree delimit exactly the
     elements that are neither less nor greater than the key. *)
  Lemma multi_equal_range_ok fuel this (xs : list (loc * V)) (key : K) :
    key_order lt eqb → log_steps (length xs) < fuel →
    runs (is_multi keyof lt this xs) (rb_equal_range keyof lt fuel this key)
      (λ r h, is_multi keyof lt this xs h ∧ ∃ i j,
         r = (iter_at this xs i, iter_at this xs j) ∧ i ≤ length xs ∧ j ≤ length xs ∧
         ∀ k x v, xs !! k = Some (x, v) →
           (lt (keyof v) key = true ↔ k < i) ∧ (lt key (keyof v) = true ↔ j ≤ k)).
  Proof.
    intros Hord Hf. apply runs_of_wp. rewrite plain_multi. iIntros "H". uopen.
    unfold rb_equal_range. wstep.
    iApply (wp_m_lower _ _ _ Hord with "H"); [done|done|]. iIntros (E1 E2) "%Hx H". wstep.
    iApply (wp_m_upper _ _ _ Hord with "H"); [done|done|]. iIntros (F1 F2) "%Hy H". wstep.
    iSplit; [rewrite plain_multi'; by iSplit|]. iPureIntro. exists (length E1), (length F1). split; [done|].
    destruct Hx as (Hx&HL&HR). destruct Hy as (Hy&HL'&HR').
    split; [rewrite Hx app_length; lia|]. split; [rewrite Hy app_length; lia|]. intros k x v Hk. split.
    - rewrite Hx in Hk. destruct (decide (k < length E1)) as [Hlt|Hge].
      + rewrite lookup_app_l in Hk; [|done]. rewrite (Forall_lookup_1 _ _ _ _ HL Hk). split; intros; first [done|lia].
      + rewrite lookup_app_r in Hk; [|lia]. rewrite (Forall_lookup_1 _ _ _ _ HR Hk). split; intros; first [done|lia].
    - rewrite Hy in Hk. destruct (decide (k < length F1)) as [Hlt|Hge].
      + rewrite lookup_app_l in Hk; [|done]. rewrite (Forall_lookup_1 _ _ _ _ HL' Hk). split; intros; first [done|lia].
      + rewrite lookup_app_r in Hk; [|lia]. rewrite (Forall_lookup_1 _ _ _ _ HR' Hk). split; intros; first [done|lia].
  Qed.
  (*@ C10 find on a tree with duplicates returns some element with the key, end()
     exactly when there is none. *)
  Lemma multi_find_ok fuel this (xs : list (loc * V)) (key : K) :
    key_order lt eqb → log_steps (length xs) < fuel →
    runs (is_multi keyof lt this xs) (rb_find keyof lt eqb fuel this key)
      (λ p h, is_multi keyof lt this xs h ∧
         if has keyof eqb key xs.*2
         then ∃ i x w, xs !! i = Some (x, w) ∧ eqb key (keyof w) = true ∧ p = Some x
         else p = Some this).
  Proof.
    intros Hord Hf. apply runs_of_wp. rewrite plain_multi. iIntros "H". uopen.
    iApply (wp_m_find _ _ _ Hord with "H"); [done|done|]. iSplit.
    - iIntros (E1 x w E2) "%Hx H". destruct Hx as (->&He).
      rewrite fmap_mid (present_has _ _ _ _ _ _ He). iSplit.
      { rewrite plain_multi'. by iSplit. }
      iPureIntro. exists (length E1), x, w. split; [by apply list_lookup_middle|done].
    - iIntros (E1 E2) "%Hx H". destruct Hx as (->&HL&HR).
      apply all_lt_values in HL. apply all_gt_values in HR.
      rewrite fmap_app (absent_has _ _ _ Hord); [|done|done]. iSplit; [|done].
      rewrite plain_multi'. by iSplit.
  Qed.
  Lemma at_most_one_lone key (xs : list (loc * V)) :
    at_most_one keyof eqb key xs → nondesc keyof lt xs → lone keyof lt eqb key xs.
  Proof.
    unfold at_most_one. intros Hm Hnd. split; [done|]. clear Hnd. induction xs as [|a xs IH]; [constructor|].
    rewrite fmap_cons /= /matching filter_cons in Hm.
    constructor.
    - apply IH. unfold matching. destruct (decide _); simpl in Hm; lia.
    - rewrite Forall_forall. intros b Hb He. destruct (eqb key (keyof b.2)) eqn:Eb; [|done]. exfalso.
      destruct (decide _) as [_|Hne]; [|by rewrite He in Hne]. simpl in Hm.
      assert (b.2 ∈ matching keyof eqb key xs.*2) as Hin.
      { unfold matching. apply elem_of_list_filter. split; [done|]. by apply elem_of_list_fmap_1. }
      unfold matching in Hin. destruct (filter _ _); [by apply elem_of_nil in Hin|]. simpl in Hm. lia.
  Qed.
  (*@ C10_partial remove(key) when at most one element has that key (for several see
     C10_remove_duplicates_run_refuted): that element is unlinked and handed to the
     caller, still in memory with its value; everything else keeps its address,
     value and order. *)
  Lemma multi_remove_ok fuel this (xs : list (loc * V)) (key : K) :
    key_order lt eqb → at_most_one keyof eqb key xs → log_steps (length xs) < fuel →
    runs (is_multi keyof lt this xs) (rb_remove keyof lt eqb fuel this key)
      (λ p h,
         if has keyof eqb key xs.*2
         then ∃ i x w c, xs !! i = Some (x, w) ∧ eqb key (keyof w) = true ∧ p = Some x ∧ data c = Some w ∧
                both (is_multi keyof lt this (take i xs ++ drop (S i) xs)) (λ h', h' = {[ x := c ]}) h
         else p = None ∧ is_multi keyof lt this xs h).
  Proof.
    intros Hord Hone Hf. apply runs_of_wp. rewrite plain_multi. iIntros "H". uopen.
    iApply (wp_m_remove _ _ _ Hord with "H"); [by apply at_most_one_lone|done|]. iSplit.
    - iIntros (E1 E2) "%Hx H". destruct Hx as (->&HL&HR).
      apply all_lt_values in HL. apply all_gt_values in HR.
      rewrite {1}fmap_app (absent_has _ _ _ Hord); [|done|done]. iSplit; [done|].
      rewrite plain_multi'. by iSplit.
    - iIntros (E1 x w E2 c) "%Hx H Hc". destruct Hx as (->&He&Hd).
      rewrite {1}fmap_mid (present_has _ _ _ _ _ _ He).
      iExists (length E1), x, w, c. iSplit; [iPureIntro; by apply list_lookup_middle|].
      iSplit; [done|]. iSplit; [done|]. iSplit; [done|].
      replace (drop (S (length E1)) (E1 ++ (x, w) :: E2)) with E2.
      2:{ rewrite (cons_middle _ E1 E2) app_assoc drop_app_alt; [done|]. rewrite app_length /=. lia. }
      rewrite take_app.
      change (λ h, both (is_multi keyof lt this (E1 ++ E2)) (λ h', h' = {[ x := c ]}) h) with
        (both (is_multi keyof lt this (E1 ++ E2)) (λ h', h' = {[ x := c ]})).
      rewrite plain_both plain_multi. iSplitL "H"; [|done]. iSplit; [|done]. iPureIntro.
      rewrite fmap_app. rewrite fmap_mid in Hs. unfold nondescending in *.
      apply sorted_app in Hs as (H1&H2&H3). inversion_clear H2 as [|?? H2' _].
      apply sorted_app. split_and!; [done|done|]. eapply Forall_impl; [exact H3|]. simpl. intros b Hb.
      by inversion_clear Hb.
  Qed.
  (*@ C11_partial count(key) never exceeds the number of elements with that key, is 0
     exactly when there is none, hence exact when there is at most one. (With three
     equal keys it can be short: C11_count_short_refuted.) *)
  Lemma multi_count_ok fuel this (xs : list (loc * V)) (key : K) :
    key_order lt eqb → log_steps (length xs) < fuel →
    runs (is_multi keyof lt this xs) (rb_count keyof lt eqb fuel this key)
      (λ c h, let n := length (matching keyof eqb key xs.*2) in
         c ≤ n ∧ (c = 0 ↔ n = 0) ∧ (n ≤ 1 → c = n) ∧ is_multi keyof lt this xs h).
  Proof.
    intros Hord Hf. apply runs_of_wp. rewrite plain_multi. iIntros "H". uopen.
    iApply (wp_count _ _ _ Hord with "H"); [done|done|]. iIntros (c) "%Hx H".
    replace (nkey keyof eqb key xs) with (length (matching keyof eqb key xs.*2)) in Hx.
    2:{ unfold nkey, matching. clear -Hord. induction xs as [|a xs IH]; [done|].
        rewrite fmap_cons !filter_cons.
        assert (eqb key (keyof a.2) = true ↔ eqb (keyof a.2) key = true) as Hsym.
        { rewrite !(ko_eqb _ _ Hord). tauto. }
        destruct (decide (eqb key (keyof a.2) = true)), (decide (eqb (keyof a.2) key = true)); simpl; try lia;
          naive_solver. }
    iSplit; [iPureIntro; lia|]. iSplit; [iPureIntro; lia|]. iSplit; [iPureIntro; lia|].
    rewrite plain_multi'. by iSplit.
  Qed.
End map.

