(** Keys and values passed by reference to map, set and the multi-key tree: the
    argument may be an element of the container itself (C75). *)
From Verif Require Import RbRef MapRuns MappedRuns MapSpec RbSpec.
(*@HEADER
From Verif Require Import MapSpec RbRefModel AliasRuns.

Section alias.
  Context {K V : Type} (keyof : V → K) (lt eqb : K → K → bool).
  Context `{Allocator (rbcell V)}.
@*)
(*@FOOTER
End alias.
@*)

Section alias.
  Context {K V : Type} (keyof : V → K) (lt eqb : K → K → bool).
  Context `{Allocator (rbcell V)}.
  Notation heap := (gmap loc (rbcell V)).

  Lemma tree_heap_none par (t : tree V) (x : loc) : x ∉ (elems t).*1 → tree_heap par t !! x = None.
  Proof.
    revert par. induction t as [|c l IHl n v r IHr]; intros par; simpl; [by rewrite lookup_empty|].
    rewrite fmap_app, fmap_cons. intros Hx. simpl in Hx.
    rewrite lookup_insert_ne by set_solver. apply lookup_union_None. split; [apply IHl|apply IHr]; set_solver.
  Qed.
  Lemma tree_heap_data par (t : tree V) x v :
    NoDup (elems t).*1 → (x, v) ∈ elems t → data_at x v (tree_heap par t).
  Proof.
    revert par. induction t as [|c l IHl n w r IHr]; intros par; simpl.
    - intros _ Hx. by apply elem_of_nil in Hx.
    - rewrite fmap_app, fmap_cons. simpl. intros (Hl&Hn&Hr)%NoDup_app Hx.
      apply NoDup_cons in Hr as [Hnr Hr].
      assert (∀ a, a ∈ elems l ∨ a ∈ elems r → a.1 ≠ n) as Hne.
      { intros a [Ha|Ha] Heq; apply (elem_of_list_fmap_1 fst) in Ha; rewrite Heq in Ha.
        - apply (Hn _ Ha). set_solver.
        - done. }
      apply elem_of_app in Hx as [Hx|Hx].
      + destruct (IHl n Hl Hx) as (c0&Hc&Hd). exists c0. split; [|done].
        rewrite lookup_insert_ne by (intros ->; by apply (Hne (x, v)); [left|]). by apply lookup_union_Some_l.
      + apply elem_of_cons in Hx as [[= -> ->]|Hx].
        * eexists. rewrite lookup_insert. done.
        * destruct (IHr n Hr Hx) as (c0&Hc&Hd). exists c0. split; [|done].
          rewrite lookup_insert_ne by (intros ->; by apply (Hne (x, v)); [right|]).
          rewrite lookup_union_r; [done|]. apply tree_heap_none. intros Hin. apply (Hn _ Hin).
          right. by apply (elem_of_list_fmap_1 fst) in Hx.
  Qed.
  Lemma is_rbtree_data this (xs : list (loc * V)) x v h :
    (x, v) ∈ xs → is_rbtree this xs h → data_at x v h.
  Proof.
    intros Hx (t&<-&_&_&Hnd&->). apply NoDup_cons in Hnd as [Hn Hnd].
    destruct (tree_heap_data this t x v Hnd Hx) as (c&Hc&Hd). exists c. split; [|done].
    rewrite lookup_insert_ne; [done|]. intros ->. apply Hn. by apply (elem_of_list_fmap_1 fst) in Hx.
  Qed.
  Lemma data_at_union x v (h1 h2 : heap) : data_at x v h1 → data_at x v (h1 ∪ h2).
  Proof. intros (c&Hc&Hd). exists c. split; [by apply lookup_union_Some_l|done]. Qed.
  Lemma data_at_union_r x v (h1 h2 : heap) : h1 ##ₘ h2 → data_at x v h2 → data_at x v (h1 ∪ h2).
  Proof. intros Hd (c&Hc&Hdt). exists c. split; [by apply lookup_union_Some_r|done]. Qed.

  (** Transfer of a triple from the by-value to the by-reference version. *)
  Lemma runs_agree {A} x v (P : heap → Prop) (m m' : M heap A) (Q : A → heap → Prop) :
    (∀ h, P h → data_at x v h) → agree x v m m' → runs P m' Q → runs P m Q.
  Proof.
    intros HP Hag Hr h hf Hh Hd. destruct (Hag (h ∪ hf)) as [Heq _]; [by apply data_at_union, HP|].
    rewrite Heq. by apply Hr.
  Qed.

  Lemma eqb_refl (Hord : key_order lt eqb) k : eqb k k = true.
  Proof. apply (ko_eqb _ _ Hord). by rewrite (ko_irrefl _ _ Hord). Qed.
  Lemma own_has (Hord : key_order lt eqb) (xs : list (loc * V)) i x v :
    xs !! i = Some (x, v) → has keyof eqb (keyof v) xs.*2 = true.
  Proof.
    intros Hi. unfold has. apply existsb_exists. exists v. split; [|by apply eqb_refl].
    apply elem_of_list_In. apply elem_of_list_lookup. exists i. by rewrite list_lookup_fmap, Hi.
  Qed.
  Lemma own_pos (Hord : key_order lt eqb) (xs : list (loc * V)) i x v j y w :
    ascending keyof lt xs.*2 → xs !! i = Some (x, v) → xs !! j = Some (y, w) →
    eqb (keyof v) (keyof w) = true → j = i.
  Proof.
    intros Hs Hi Hj He. apply (ko_eqb _ _ Hord) in He as [He1 He2].
    assert (∀ (l : list V) a b v w, ascending keyof lt l → a < b → l !! a = Some v → l !! b = Some w →
              lt (keyof v) (keyof w) = true) as Hlt.
    { clear. intros l a b v w Hs. revert a b. induction Hs as [|u l Hs IH Hall]; intros a b Hab Ha Hb; [done|].
      destruct b as [|b]; [lia|]. destruct a as [|a]; simpl in Ha, Hb.
      - injection Ha as ->. rewrite Forall_forall in Hall. apply Hall. by eapply elem_of_list_lookup_2.
      - apply (IH a b); [lia|done|done]. }
    destruct (Nat.lt_trichotomy i j) as [Hij|[Hij|Hij]]; [|done|].
    - rewrite (Hlt xs.*2 i j v w Hs Hij) in He1; [done|by rewrite list_lookup_fmap, Hi|by rewrite list_lookup_fmap, Hj].
    - rewrite (Hlt xs.*2 j i w v Hs Hij) in He2; [done|by rewrite list_lookup_fmap, Hj|by rewrite list_lookup_fmap, Hi].
  Qed.
  Lemma is_map_asc this (xs : list (loc * V)) h : is_map keyof lt this xs h → ascending keyof lt xs.*2.
  Proof. by intros []. Qed.
  Lemma is_map_data this (xs : list (loc * V)) i x v h :
    xs !! i = Some (x, v) → is_map keyof lt this xs h → data_at x v h.
  Proof. intros Hi [_ Ht]. eapply is_rbtree_data; [|done]. by eapply elem_of_list_lookup_2. Qed.

  (*@ C75 erase(it->first) / erase(it->key): the key argument is the key of an element
     of this container, read again at every comparison. Exactly that element goes
     away; the others keep their nodes and values; 1 is returned. *)
  Lemma erase_own_key fuel this (xs : list (loc * V)) i x v :
    key_order lt eqb → xs !! i = Some (x, v) → log_steps (length xs) < fuel →
    runs (is_map keyof lt this xs) (m_erase_ref keyof lt eqb fuel this (NodeKey x))
      (λ r h, r = 1 ∧ is_map keyof lt this (take i xs ++ drop (S i) xs) h).
  Proof.
    intros Hord Hi Hf h hf Hh Hd.
    destruct (agree_remove keyof lt eqb x v fuel this (h ∪ hf)) as [Heq _].
    { by eapply data_at_union, is_map_data. }
    unfold m_erase_ref, bind at 1. rewrite Heq.
    destruct (erase_ok keyof lt eqb fuel this xs (keyof v) Hord Hf h hf Hh Hd) as (r&h'&Hrun&Hd'&HQ).
    exists r, h'. split; [exact Hrun|]. split; [done|].
    rewrite (own_has Hord _ _ _ _ Hi) in HQ. destruct HQ as (->&j&y&w&Hj&He&Hm). split; [done|].
    by rewrite (own_pos Hord xs i x v j y w (is_map_asc _ _ _ Hh) Hi Hj He) in Hm.
  Qed.
  (*@ C75 insert( *it ) of an element of this container: nothing changes, the iterator
     to that element and false are returned. *)
  Lemma insert_own_value fuel this (xs : list (loc * V)) i x v :
    key_order lt eqb → xs !! i = Some (x, v) → log_steps (length xs) < fuel →
    runs (is_map keyof lt this xs) (m_insert_ref keyof lt eqb fuel this (NodeData x))
      (λ r h, r = (Some x, false) ∧ is_map keyof lt this xs h).
  Proof.
    intros Hord Hi Hf. eapply (runs_agree x v); [by intros; eapply is_map_data|apply agree_insert_unique|].
    intros h hf Hh Hd.
    destruct (insert_ok keyof lt eqb fuel this xs v Hord Hf h hf Hh Hd) as ([p b]&h'&Hrun&Hd'&HQ).
    exists (p, b), h'. split; [exact Hrun|]. split; [done|].
    rewrite (own_has Hord _ _ _ _ Hi) in HQ. destruct HQ as (->&j&y&w&Hj&He&->&Hm). split; [|done].
    assert (j = i) as -> by exact (own_pos Hord xs i x v j y w (is_map_asc _ _ _ Hh) Hi Hj He). rewrite Hi in Hj. injection Hj as -> ->. done.
  Qed.
  (*@ C75 find(it->first) is that element. *)
  Lemma find_own_key fuel this (xs : list (loc * V)) i x v :
    key_order lt eqb → xs !! i = Some (x, v) → log_steps (length xs) < fuel →
    runs (is_map keyof lt this xs) (m_find_ref keyof lt eqb fuel this (NodeKey x))
      (λ p h, p = Some x ∧ is_map keyof lt this xs h).
  Proof.
    intros Hord Hi Hf. eapply (runs_agree x v); [by intros; eapply is_map_data|apply agree_find|].
    intros h hf Hh Hd.
    destruct (find_ok keyof lt eqb fuel this xs (keyof v) Hord Hf h hf Hh Hd) as (p&h'&Hrun&Hd'&Hm&HQ).
    exists p, h'. split; [exact Hrun|]. split; [done|].
    rewrite (own_has Hord _ _ _ _ Hi) in HQ. destruct HQ as (j&y&w&Hj&He&->). split; [|done].
    assert (j = i) as -> by exact (own_pos Hord xs i x v j y w (is_map_asc _ _ _ Hh) Hi Hj He). rewrite Hi in Hj. injection Hj as -> ->. done.
  Qed.
  (*@ C75 count(it->first) is 1. *)
  Lemma count_own_key fuel this (xs : list (loc * V)) i x v :
    key_order lt eqb → xs !! i = Some (x, v) → log_steps (length xs) < fuel →
    runs (is_map keyof lt this xs) (m_count_ref keyof lt eqb fuel this (NodeKey x))
      (λ c h, c = 1 ∧ is_map keyof lt this xs h).
  Proof.
    intros Hord Hi Hf h hf Hh Hd.
    destruct (find_own_key fuel this xs i x v Hord Hi Hf h hf Hh Hd) as (p&h'&Hrun&Hd'&->&Hm).
    exists 1, h'. unfold m_count_ref, bind. unfold m_find_ref in Hrun. rewrite Hrun.
    rewrite bool_decide_eq_true_2; [done|]. intros [= ->].
    destruct Hh as [_ (t&<-&_&_&Hnd&_)]. apply NoDup_cons in Hnd as [Hn _]. apply Hn.
    apply elem_of_list_fmap. exists (this, v). split; [done|]. by eapply elem_of_list_lookup_2.
  Qed.
  (*@ C75 A reference to the key of any element, of this container or another, behaves in every search
     and in erase's removal as a copy of the key does: same result, same memory, same failure. *)
  Lemma key_reference_same fuel this x v (h : gmap loc (rbcell V)) :
    (∃ c, h !! x = Some c ∧ data c = Some v) →
    rb_count_ref keyof lt eqb fuel this (NodeKey x) h = rb_count keyof lt eqb fuel this (keyof v) h ∧
    rb_find_ref keyof lt eqb fuel this (NodeKey x) h = rb_find keyof lt eqb fuel this (keyof v) h ∧
    rb_lower_bound_ref keyof lt fuel this (NodeKey x) h = rb_lower_bound keyof lt fuel this (keyof v) h ∧
    rb_upper_bound_ref keyof lt fuel this (NodeKey x) h = rb_upper_bound keyof lt fuel this (keyof v) h ∧
    rb_remove_ref keyof lt eqb fuel this (NodeKey x) h = rb_remove keyof lt eqb fuel this (keyof v) h ∧
    m_erase_ref keyof lt eqb fuel this (NodeKey x) h = m_erase keyof lt eqb fuel this (keyof v) h ∧
    m_count_ref keyof lt eqb fuel this (NodeKey x) h = m_count keyof lt eqb fuel this (keyof v) h ∧
    m_upper_bound_ref keyof lt fuel this (NodeKey x) h = m_upper_bound keyof lt fuel this (keyof v) h ∧
    m_equal_range_ref keyof lt fuel this (NodeKey x) h = m_equal_range keyof lt fuel this (keyof v) h.
  Proof.
    intros Hh. change (data_at x v h) in Hh.
    pose proof (proj1 (agree_count keyof lt eqb x v fuel this h Hh)) as E1.
    pose proof (proj1 (agree_find keyof lt eqb x v fuel this h Hh)) as E2.
    pose proof (proj1 (agree_lower keyof lt x v fuel this h Hh)) as E3.
    pose proof (proj1 (agree_upper keyof lt x v fuel this h Hh)) as E4.
    pose proof (proj1 (agree_remove keyof lt eqb x v fuel this h Hh)) as E5.
    split_and!; [done..| | | |].
    - unfold m_erase_ref, m_erase, bind at 1 3. by rewrite E5.
    - unfold m_count_ref, m_count, bind. by rewrite E2.
    - unfold m_upper_bound_ref, m_upper_bound, bind. by rewrite E3.
    - unfold m_equal_range_ref, m_equal_range, bind at 1 3. by rewrite E3.
  Qed.
  (*@ C75 A reference to the value of any element behaves in insert and insert_equal as a copy of the
     value does: same result, same memory, same failure. *)
  Lemma value_reference_same fuel this x v (h : gmap loc (rbcell V)) :
    (∃ c, h !! x = Some c ∧ data c = Some v) →
    m_insert_ref keyof lt eqb fuel this (NodeData x) h = m_insert keyof lt eqb fuel this v h ∧
    rb_insert_equal_ref keyof lt fuel this (NodeData x) h = rb_insert_equal keyof lt fuel this v h.
  Proof.
    intros Hh. change (data_at x v h) in Hh. split.
    - exact (proj1 (agree_insert_unique keyof lt eqb x v fuel this h Hh)).
    - exact (proj1 (agree_insert_equal keyof lt x v fuel this h Hh)).
  Qed.
  (*@ C75 lower_bound(it->first) is that element. *)
  Lemma lower_own_key fuel this (xs : list (loc * V)) i x v :
    key_order lt eqb → xs !! i = Some (x, v) → log_steps (length xs) < fuel →
    runs (is_map keyof lt this xs) (m_lower_bound_ref keyof lt fuel this (NodeKey x))
      (λ p h, p = Some x ∧ is_map keyof lt this xs h).
  Proof.
    intros Hord Hi Hf. eapply (runs_agree x v); [by intros; eapply is_map_data|apply agree_lower|].
    intros h hf Hh Hd.
    destruct (lower_bound_ok keyof lt eqb fuel this xs (keyof v) Hord Hf h hf Hh Hd) as (p&h'&Hrun&Hd'&Hm&j&->&Hj&HQ).
    exists (iter_at this xs j), h'. split; [exact Hrun|]. split; [done|]. split; [|done].
    assert (j = i) as ->.
    { destruct (Nat.lt_trichotomy j i) as [Hji|[?|Hji]]; [|done|].
      - exfalso. destruct (lookup_lt_is_Some_2 xs j) as [[y w] Hy]; [apply lookup_lt_Some in Hi; lia|].
        destruct (HQ j y w Hy) as [HQ1 HQ2]. destruct (lt (keyof w) (keyof v)) eqn:E; [specialize (HQ1 eq_refl); lia|].
        assert (¬ eqb (keyof v) (keyof w) = true) as Hne.
        { intros He. pose proof (own_pos Hord xs i x v j y w (is_map_asc _ _ _ Hh) Hi Hy He). lia. }
        destruct (lt (keyof v) (keyof w)) eqn:E2; [|apply Hne; by apply (ko_eqb _ _ Hord)].
        pose proof (is_map_asc _ _ _ Hh) as Hs.
        assert (lt (keyof w) (keyof v) = true) as E3; [|congruence].
        clear -Hs Hy Hi Hji. revert i j Hy Hi Hji. induction xs as [|a xs IH]; intros i j Hy Hi Hji; [done|].
        rewrite fmap_cons in Hs. inversion_clear Hs as [|?? Hs' Hall].
        destruct i as [|i]; [lia|]. destruct j as [|j]; simpl in Hy, Hi.
        + injection Hy as ->. rewrite Forall_forall in Hall. apply Hall.
          apply elem_of_list_lookup. exists i. by rewrite list_lookup_fmap, Hi.
        + eapply (IH Hs' i j); [done|done|lia].
      - exfalso. destruct (HQ i x v Hi) as [_ HQ2]. specialize (HQ2 Hji). by rewrite (ko_irrefl _ _ Hord) in HQ2. }
    unfold iter_at. by rewrite list_lookup_fmap, Hi.
  Qed.

  (*@ C75 a.erase(it->first), the element belonging to another container: as with a
     copy of the key; the other container is untouched. *)
  Lemma erase_others_key fuel this other (xs ys : list (loc * V)) i y w :
    key_order lt eqb → ys !! i = Some (y, w) → log_steps (length xs) < fuel →
    runs (both (is_map keyof lt this xs) (is_map keyof lt other ys))
      (m_erase_ref keyof lt eqb fuel this (NodeKey y))
      (λ r, both (λ h,
         if has keyof eqb (keyof w) xs.*2
         then r = 1 ∧ ∃ j x v, xs !! j = Some (x, v) ∧ eqb (keyof w) (keyof v) = true ∧
                is_map keyof lt this (take j xs ++ drop (S j) xs) h
         else r = 0 ∧ is_map keyof lt this xs h) (is_map keyof lt other ys)).
  Proof.
    intros Hord Hi Hf h hf (h1&h2&->&Hdj&Hh1&Hh2) Hd.
    apply map_disjoint_union_l in Hd as [Hd1 Hd2].
    destruct (agree_remove keyof lt eqb y w fuel this (h1 ∪ h2 ∪ hf)) as [Heq _].
    { apply data_at_union, data_at_union_r; [done|]. by eapply is_map_data. }
    unfold m_erase_ref, bind at 1. rewrite Heq.
    assert (h1 ##ₘ h2 ∪ hf) as Hdu by (apply map_disjoint_union_r; split; done).
    destruct (erase_ok keyof lt eqb fuel this xs (keyof w) Hord Hf h1 (h2 ∪ hf) Hh1 Hdu) as (r&h'&Hrun&Hd'&HQ).
    rewrite (assoc_L (∪) h1 h2 hf) in Hrun. apply map_disjoint_union_r in Hd' as [Hd1' Hd2'].
    rewrite (assoc_L (∪) h' h2 hf) in Hrun. exists r, (h' ∪ h2). split; [exact Hrun|].
    split; [apply map_disjoint_union_l; split; done|]. exists h', h2. done.
  Qed.
  (*@ C75 insert_equal( *it ) of an element of this tree: one more node with an equal
     value, behind all elements that are not greater. *)
  Lemma insert_equal_own_value fuel this (xs : list (loc * V)) i x v :
    key_order lt eqb → xs !! i = Some (x, v) → log_steps (length xs) < fuel →
    runs (is_multi keyof lt this xs) (rb_insert_equal_ref keyof lt fuel this (NodeData x))
      (λ p h, ∃ j n, p = Some n ∧ j ≤ length xs ∧
         (∀ k y w, xs !! k = Some (y, w) → lt (keyof v) (keyof w) = true ↔ j ≤ k) ∧
         is_multi keyof lt this (take j xs ++ (n, v) :: drop j xs) h).
  Proof.
    intros Hord Hi Hf. eapply (runs_agree x v); [|apply agree_insert_equal|by eapply insert_equal_ok].
    intros h [_ Ht]. eapply is_rbtree_data; [|done]. by eapply elem_of_list_lookup_2.
  Qed.
End alias.
