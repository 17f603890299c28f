(** GENERATED by tools/genprops.py from AliasRuns.v: property theorems only.
    Every proof is the lemma of the same statement proved there. *)
From Verif Require Import MapSpec RbRefModel AliasRuns.

Section alias.
  Context {K V : Type} (keyof : V → K) (lt eqb : K → K → bool).
  Context `{Allocator (rbcell V)}.

  (** erase(it->first) / erase(it->key): the key argument is the key of an element
     of this container, read again at every comparison. Exactly that element goes
     away; the others keep their nodes and values; 1 is returned. *)
  Theorem C75_erase_own_key :
    ∀ fuel this (xs : list (loc * V)) i x v,
    key_order lt eqb → xs !! i = Some (x, v) → log_steps (length xs) < fuel →
    runs (is_map keyof lt this xs) (m_erase_ref keyof lt eqb fuel this (NodeKey x))
      (λ r h, r = 1 ∧ is_map keyof lt this (take i xs ++ drop (S i) xs) h).
  Proof. first [exact erase_own_key | apply erase_own_key | intros; eapply erase_own_key; eassumption]. Qed.

  (** insert( *it ) of an element of this container: nothing changes, the iterator
     to that element and false are returned. *)
  Theorem C75_insert_own_value :
    ∀ fuel this (xs : list (loc * V)) i x v,
    key_order lt eqb → xs !! i = Some (x, v) → log_steps (length xs) < fuel →
    runs (is_map keyof lt this xs) (m_insert_ref keyof lt eqb fuel this (NodeData x))
      (λ r h, r = (Some x, false) ∧ is_map keyof lt this xs h).
  Proof. first [exact insert_own_value | apply insert_own_value | intros; eapply insert_own_value; eassumption]. Qed.

  (** find(it->first) is that element. *)
  Theorem C75_find_own_key :
    ∀ fuel this (xs : list (loc * V)) i x v,
    key_order lt eqb → xs !! i = Some (x, v) → log_steps (length xs) < fuel →
    runs (is_map keyof lt this xs) (m_find_ref keyof lt eqb fuel this (NodeKey x))
      (λ p h, p = Some x ∧ is_map keyof lt this xs h).
  Proof. first [exact find_own_key | apply find_own_key | intros; eapply find_own_key; eassumption]. Qed.

  (** count(it->first) is 1. *)
  Theorem C75_count_own_key :
    ∀ fuel this (xs : list (loc * V)) i x v,
    key_order lt eqb → xs !! i = Some (x, v) → log_steps (length xs) < fuel →
    runs (is_map keyof lt this xs) (m_count_ref keyof lt eqb fuel this (NodeKey x))
      (λ c h, c = 1 ∧ is_map keyof lt this xs h).
  Proof. first [exact count_own_key | apply count_own_key | intros; eapply count_own_key; eassumption]. Qed.

  (** A reference to the key of any element, of this container or another, behaves in every search
     and in erase's removal as a copy of the key does: same result, same memory, same failure. *)
  Theorem C75_key_reference_same :
    ∀ fuel this x v (h : gmap loc (rbcell V)),
    (∃ c, h !! x = Some c ∧ data c = Some v) →
    rb_count_ref keyof lt eqb fuel this (NodeKey x) h = rb_count keyof lt eqb fuel this (keyof v) h ∧
    rb_find_ref keyof lt eqb fuel this (NodeKey x) h = rb_find keyof lt eqb fuel this (keyof v) h ∧
    rb_lower_bound_ref keyof lt fuel this (NodeKey x) h = rb_lower_bound keyof lt fuel this (keyof v) h ∧
    rb_upper_bound_ref keyof lt fuel this (NodeKey x) h = rb_upper_bound keyof lt fuel this (keyof v) h ∧
    rb_remove_ref keyof lt eqb fuel this (NodeKey x) h = rb_remove keyof lt eqb fuel this (keyof v) h ∧
    m_erase_ref keyof lt eqb fuel this (NodeKey x) h = m_erase keyof lt eqb fuel this (keyof v) h ∧
    m_count_ref keyof lt eqb fuel this (NodeKey x) h = m_count keyof lt eqb fuel this (keyof v) h ∧
    m_upper_bound_ref keyof lt fuel this (NodeKey x) h = m_upper_bound keyof lt fuel this (keyof v) h ∧
    m_equal_range_ref keyof lt fuel this (NodeKey x) h = m_equal_range keyof lt fuel this (keyof v) h.
  Proof. first [exact key_reference_same | apply key_reference_same | intros; eapply key_reference_same; eassumption]. Qed.

  (** A reference to the value of any element behaves in insert and insert_equal as a copy of the
     value does: same result, same memory, same failure. *)
  Theorem C75_value_reference_same :
    ∀ fuel this x v (h : gmap loc (rbcell V)),
    (∃ c, h !! x = Some c ∧ data c = Some v) →
    m_insert_ref keyof lt eqb fuel this (NodeData x) h = m_insert keyof lt eqb fuel this v h ∧
    rb_insert_equal_ref keyof lt fuel this (NodeData x) h = rb_insert_equal keyof lt fuel this v h.
  Proof. first [exact value_reference_same | apply value_reference_same | intros; eapply value_reference_same; eassumption]. Qed.

  (** lower_bound(it->first) is that element. *)
  Theorem C75_lower_own_key :
    ∀ fuel this (xs : list (loc * V)) i x v,
    key_order lt eqb → xs !! i = Some (x, v) → log_steps (length xs) < fuel →
    runs (is_map keyof lt this xs) (m_lower_bound_ref keyof lt fuel this (NodeKey x))
      (λ p h, p = Some x ∧ is_map keyof lt this xs h).
  Proof. first [exact lower_own_key | apply lower_own_key | intros; eapply lower_own_key; eassumption]. Qed.

  (** a.erase(it->first), the element belonging to another container: as with a
     copy of the key; the other container is untouched. *)
  Theorem C75_erase_others_key :
    ∀ fuel this other (xs ys : list (loc * V)) i y w,
    key_order lt eqb → ys !! i = Some (y, w) → log_steps (length xs) < fuel →
    runs (both (is_map keyof lt this xs) (is_map keyof lt other ys))
      (m_erase_ref keyof lt eqb fuel this (NodeKey y))
      (λ r, both (λ h,
         if has keyof eqb (keyof w) xs.*2
         then r = 1 ∧ ∃ j x v, xs !! j = Some (x, v) ∧ eqb (keyof w) (keyof v) = true ∧
                is_map keyof lt this (take j xs ++ drop (S j) xs) h
         else r = 0 ∧ is_map keyof lt this xs h) (is_map keyof lt other ys)).
  Proof. first [exact erase_others_key | apply erase_others_key | intros; eapply erase_others_key; eassumption]. Qed.

  (** insert_equal( *it ) of an element of this tree: one more node with an equal
     value, behind all elements that are not greater. *)
  Theorem C75_insert_equal_own_value :
    ∀ fuel this (xs : list (loc * V)) i x v,
    key_order lt eqb → xs !! i = Some (x, v) → log_steps (length xs) < fuel →
    runs (is_multi keyof lt this xs) (rb_insert_equal_ref keyof lt fuel this (NodeData x))
      (λ p h, ∃ j n, p = Some n ∧ j ≤ length xs ∧
         (∀ k y w, xs !! k = Some (y, w) → lt (keyof v) (keyof w) = true ↔ j ≤ k) ∧
         is_multi keyof lt this (take j xs ++ (n, v) :: drop j xs) h).
  Proof. first [exact insert_equal_own_value | apply insert_equal_own_value | intros; eapply insert_equal_own_value; eassumption]. Qed.

End alias.

Print Assumptions C75_erase_own_key.
Print Assumptions C75_insert_own_value.
Print Assumptions C75_find_own_key.
Print Assumptions C75_count_own_key.
Print Assumptions C75_key_reference_same.
Print Assumptions C75_value_reference_same.
Print Assumptions C75_lower_own_key.
Print Assumptions C75_erase_others_key.
Print Assumptions C75_insert_equal_own_value.
