(** GENERATED by tools/genprops.py from MapRuns.v: property theorems only.
    Every proof is the lemma of the same statement proved there. *)
From Verif Require Import MapSpec MapRuns.

Section map.
  Context {K V : Type} (keyof : V → K) (lt eqb : K → K → bool).
  Context `{Allocator (rbcell V)}.

  (** Every path of a map/set/tree object with n elements has at most
     2*log2(n+1) nodes. (All operations below keep memory in this shape, and their
     [fuel] hypotheses show that they make O(log n) steps.) *)
  Theorem C03_tree_height_log :
    ∀ this (t : tree V) h,
    holds_tree this t h → height t ≤ log_steps (length (elems t)).
  Proof. first [exact tree_height_log | apply tree_height_log | intros; eapply tree_height_log; eassumption]. Qed.

  (** Whole programs on two sets (or two maps used without operator[]):
     for every history of insert, range insert, erase, clear, find, count, empty,
     lower_bound, forward and backward traversal, assignment, copy and ==, every
     observation is the one made on the abstract ascending sequences; nothing goes
     wrong, and after both destructors no memory is left over. *)
  Theorem C01_set_history :
    ∀ (veqb : V → V → bool) ops,
    key_order lt eqb → set_correct keyof lt eqb veqb ops.
  Proof. first [exact set_history | apply set_history | intros; eapply set_history; eassumption]. Qed.

  (** Whole programs on two sets (or two maps used without operator[]):
     for every history of insert, range insert, erase, clear, find, count, empty,
     lower_bound, forward and backward traversal, assignment, copy and ==, every
     observation is the one made on the abstract ascending sequences; nothing goes
     wrong, and after both destructors no memory is left over. *)
  Theorem C02_set_history :
    ∀ (veqb : V → V → bool) ops,
    key_order lt eqb → set_correct keyof lt eqb veqb ops.
  Proof. first [exact set_history | apply set_history | intros; eapply set_history; eassumption]. Qed.

  (** Whole programs on two sets (or two maps used without operator[]):
     for every history of insert, range insert, erase, clear, find, count, empty,
     lower_bound, forward and backward traversal, assignment, copy and ==, every
     observation is the one made on the abstract ascending sequences; nothing goes
     wrong, and after both destructors no memory is left over. *)
  Theorem C05_set_history :
    ∀ (veqb : V → V → bool) ops,
    key_order lt eqb → set_correct keyof lt eqb veqb ops.
  Proof. first [exact set_history | apply set_history | intros; eapply set_history; eassumption]. Qed.

  (** Whole programs on two sets (or two maps used without operator[]):
     for every history of insert, range insert, erase, clear, find, count, empty,
     lower_bound, forward and backward traversal, assignment, copy and ==, every
     observation is the one made on the abstract ascending sequences; nothing goes
     wrong, and after both destructors no memory is left over. *)
  Theorem C06_set_history :
    ∀ (veqb : V → V → bool) ops,
    key_order lt eqb → set_correct keyof lt eqb veqb ops.
  Proof. first [exact set_history | apply set_history | intros; eapply set_history; eassumption]. Qed.

  (** Whole programs on two sets (or two maps used without operator[]):
     for every history of insert, range insert, erase, clear, find, count, empty,
     lower_bound, forward and backward traversal, assignment, copy and ==, every
     observation is the one made on the abstract ascending sequences; nothing goes
     wrong, and after both destructors no memory is left over. *)
  Theorem C08_set_history :
    ∀ (veqb : V → V → bool) ops,
    key_order lt eqb → set_correct keyof lt eqb veqb ops.
  Proof. first [exact set_history | apply set_history | intros; eapply set_history; eassumption]. Qed.

  (** Whole programs on two sets (or two maps used without operator[]):
     for every history of insert, range insert, erase, clear, find, count, empty,
     lower_bound, forward and backward traversal, assignment, copy and ==, every
     observation is the one made on the abstract ascending sequences; nothing goes
     wrong, and after both destructors no memory is left over. *)
  Theorem C12_set_history :
    ∀ (veqb : V → V → bool) ops,
    key_order lt eqb → set_correct keyof lt eqb veqb ops.
  Proof. first [exact set_history | apply set_history | intros; eapply set_history; eassumption]. Qed.

  (** After every history, both objects are well-formed search trees
     (balanced, strictly ascending under Compare) holding exactly the abstract
     values. *)
  Theorem C01_set_reaches :
    ∀ (veqb : V → V → bool) ops,
    key_order lt eqb →
    h_reaches rb_new (m_step keyof lt eqb veqb) [] (m_spec keyof lt eqb veqb)
      (λ a vs h, ∃ xs, xs.*2 = vs ∧ is_map keyof lt a xs h) ops.
  Proof. first [exact set_reaches | apply set_reaches | intros; eapply set_reaches; eassumption]. Qed.

  (** After every history, both objects are well-formed search trees
     (balanced, strictly ascending under Compare) holding exactly the abstract
     values. *)
  Theorem C02_set_reaches :
    ∀ (veqb : V → V → bool) ops,
    key_order lt eqb →
    h_reaches rb_new (m_step keyof lt eqb veqb) [] (m_spec keyof lt eqb veqb)
      (λ a vs h, ∃ xs, xs.*2 = vs ∧ is_map keyof lt a xs h) ops.
  Proof. first [exact set_reaches | apply set_reaches | intros; eapply set_reaches; eassumption]. Qed.

  (** After every history, both objects are well-formed search trees
     (balanced, strictly ascending under Compare) holding exactly the abstract
     values. *)
  Theorem C03_set_reaches :
    ∀ (veqb : V → V → bool) ops,
    key_order lt eqb →
    h_reaches rb_new (m_step keyof lt eqb veqb) [] (m_spec keyof lt eqb veqb)
      (λ a vs h, ∃ xs, xs.*2 = vs ∧ is_map keyof lt a xs h) ops.
  Proof. first [exact set_reaches | apply set_reaches | intros; eapply set_reaches; eassumption]. Qed.

  (** After every history, both objects are well-formed search trees
     (balanced, strictly ascending under Compare) holding exactly the abstract
     values. *)
  Theorem C04_set_reaches :
    ∀ (veqb : V → V → bool) ops,
    key_order lt eqb →
    h_reaches rb_new (m_step keyof lt eqb veqb) [] (m_spec keyof lt eqb veqb)
      (λ a vs h, ∃ xs, xs.*2 = vs ∧ is_map keyof lt a xs h) ops.
  Proof. first [exact set_reaches | apply set_reaches | intros; eapply set_reaches; eassumption]. Qed.

  (** After every history, both objects are well-formed search trees
     (balanced, strictly ascending under Compare) holding exactly the abstract
     values. *)
  Theorem C05_set_reaches :
    ∀ (veqb : V → V → bool) ops,
    key_order lt eqb →
    h_reaches rb_new (m_step keyof lt eqb veqb) [] (m_spec keyof lt eqb veqb)
      (λ a vs h, ∃ xs, xs.*2 = vs ∧ is_map keyof lt a xs h) ops.
  Proof. first [exact set_reaches | apply set_reaches | intros; eapply set_reaches; eassumption]. Qed.

  (** After every history, both objects are well-formed search trees
     (balanced, strictly ascending under Compare) holding exactly the abstract
     values. *)
  Theorem C06_set_reaches :
    ∀ (veqb : V → V → bool) ops,
    key_order lt eqb →
    h_reaches rb_new (m_step keyof lt eqb veqb) [] (m_spec keyof lt eqb veqb)
      (λ a vs h, ∃ xs, xs.*2 = vs ∧ is_map keyof lt a xs h) ops.
  Proof. first [exact set_reaches | apply set_reaches | intros; eapply set_reaches; eassumption]. Qed.

  (** After every history, both objects are well-formed search trees
     (balanced, strictly ascending under Compare) holding exactly the abstract
     values. *)
  Theorem C08_set_reaches :
    ∀ (veqb : V → V → bool) ops,
    key_order lt eqb →
    h_reaches rb_new (m_step keyof lt eqb veqb) [] (m_spec keyof lt eqb veqb)
      (λ a vs h, ∃ xs, xs.*2 = vs ∧ is_map keyof lt a xs h) ops.
  Proof. first [exact set_reaches | apply set_reaches | intros; eapply set_reaches; eassumption]. Qed.

  (** After every history, both objects are well-formed search trees
     (balanced, strictly ascending under Compare) holding exactly the abstract
     values. *)
  Theorem C12_set_reaches :
    ∀ (veqb : V → V → bool) ops,
    key_order lt eqb →
    h_reaches rb_new (m_step keyof lt eqb veqb) [] (m_spec keyof lt eqb veqb)
      (λ a vs h, ∃ xs, xs.*2 = vs ∧ is_map keyof lt a xs h) ops.
  Proof. first [exact set_reaches | apply set_reaches | intros; eapply set_reaches; eassumption]. Qed.

  (** After every history, both objects are well-formed search trees
     (balanced, strictly ascending under Compare) holding exactly the abstract
     values. *)
  Theorem C13_set_reaches_partial :
    ∀ (veqb : V → V → bool) ops,
    key_order lt eqb →
    h_reaches rb_new (m_step keyof lt eqb veqb) [] (m_spec keyof lt eqb veqb)
      (λ a vs h, ∃ xs, xs.*2 = vs ∧ is_map keyof lt a xs h) ops.
  Proof. first [exact set_reaches | apply set_reaches | intros; eapply set_reaches; eassumption]. Qed.

  (** insert(v): if an element with an equal key is present,
     nothing changes and its iterator is returned with false; otherwise exactly one
     new node is added at its place in the order, all others keep their addresses and
     values, and its iterator is returned with true. *)
  Theorem C01_insert_ok :
    ∀ fuel this (xs : list (loc * V)) (v : V),
    key_order lt eqb → log_steps (length xs) < fuel →
    runs (is_map keyof lt this xs) (m_insert keyof lt eqb fuel this v)
      (λ '(p, b) h,
         b = negb (has keyof eqb (keyof v) xs.*2) ∧
         if b then ∃ i n, p = Some n ∧ i ≤ length xs ∧
                    is_map keyof lt this (take i xs ++ (n, v) :: drop i xs) h
         else ∃ i x w, xs !! i = Some (x, w) ∧ eqb (keyof v) (keyof w) = true ∧
                    p = Some x ∧ is_map keyof lt this xs h).
  Proof. first [exact insert_ok | apply insert_ok | intros; eapply insert_ok; eassumption]. Qed.

  (** insert(v): if an element with an equal key is present,
     nothing changes and its iterator is returned with false; otherwise exactly one
     new node is added at its place in the order, all others keep their addresses and
     values, and its iterator is returned with true. *)
  Theorem C03_insert_ok :
    ∀ fuel this (xs : list (loc * V)) (v : V),
    key_order lt eqb → log_steps (length xs) < fuel →
    runs (is_map keyof lt this xs) (m_insert keyof lt eqb fuel this v)
      (λ '(p, b) h,
         b = negb (has keyof eqb (keyof v) xs.*2) ∧
         if b then ∃ i n, p = Some n ∧ i ≤ length xs ∧
                    is_map keyof lt this (take i xs ++ (n, v) :: drop i xs) h
         else ∃ i x w, xs !! i = Some (x, w) ∧ eqb (keyof v) (keyof w) = true ∧
                    p = Some x ∧ is_map keyof lt this xs h).
  Proof. first [exact insert_ok | apply insert_ok | intros; eapply insert_ok; eassumption]. Qed.

  (** insert(v): if an element with an equal key is present,
     nothing changes and its iterator is returned with false; otherwise exactly one
     new node is added at its place in the order, all others keep their addresses and
     values, and its iterator is returned with true. *)
  Theorem C04_insert_ok :
    ∀ fuel this (xs : list (loc * V)) (v : V),
    key_order lt eqb → log_steps (length xs) < fuel →
    runs (is_map keyof lt this xs) (m_insert keyof lt eqb fuel this v)
      (λ '(p, b) h,
         b = negb (has keyof eqb (keyof v) xs.*2) ∧
         if b then ∃ i n, p = Some n ∧ i ≤ length xs ∧
                    is_map keyof lt this (take i xs ++ (n, v) :: drop i xs) h
         else ∃ i x w, xs !! i = Some (x, w) ∧ eqb (keyof v) (keyof w) = true ∧
                    p = Some x ∧ is_map keyof lt this xs h).
  Proof. first [exact insert_ok | apply insert_ok | intros; eapply insert_ok; eassumption]. Qed.

  (** insert(v): if an element with an equal key is present,
     nothing changes and its iterator is returned with false; otherwise exactly one
     new node is added at its place in the order, all others keep their addresses and
     values, and its iterator is returned with true. *)
  Theorem C05_insert_ok :
    ∀ fuel this (xs : list (loc * V)) (v : V),
    key_order lt eqb → log_steps (length xs) < fuel →
    runs (is_map keyof lt this xs) (m_insert keyof lt eqb fuel this v)
      (λ '(p, b) h,
         b = negb (has keyof eqb (keyof v) xs.*2) ∧
         if b then ∃ i n, p = Some n ∧ i ≤ length xs ∧
                    is_map keyof lt this (take i xs ++ (n, v) :: drop i xs) h
         else ∃ i x w, xs !! i = Some (x, w) ∧ eqb (keyof v) (keyof w) = true ∧
                    p = Some x ∧ is_map keyof lt this xs h).
  Proof. first [exact insert_ok | apply insert_ok | intros; eapply insert_ok; eassumption]. Qed.

  (** erase(key): if the key is present exactly its node is freed, all
     others keep their addresses and values, and 1 is returned; otherwise nothing
     changes and 0 is returned. *)
  Theorem C01_erase_ok :
    ∀ fuel this (xs : list (loc * V)) (key : K),
    key_order lt eqb → log_steps (length xs) < fuel →
    runs (is_map keyof lt this xs) (m_erase keyof lt eqb fuel this key)
      (λ r h,
         if has keyof eqb key xs.*2
         then r = 1 ∧ ∃ i x w, xs !! i = Some (x, w) ∧ eqb key (keyof w) = true ∧
                is_map keyof lt this (take i xs ++ drop (S i) xs) h
         else r = 0 ∧ is_map keyof lt this xs h).
  Proof. first [exact erase_ok | apply erase_ok | intros; eapply erase_ok; eassumption]. Qed.

  (** erase(key): if the key is present exactly its node is freed, all
     others keep their addresses and values, and 1 is returned; otherwise nothing
     changes and 0 is returned. *)
  Theorem C03_erase_ok :
    ∀ fuel this (xs : list (loc * V)) (key : K),
    key_order lt eqb → log_steps (length xs) < fuel →
    runs (is_map keyof lt this xs) (m_erase keyof lt eqb fuel this key)
      (λ r h,
         if has keyof eqb key xs.*2
         then r = 1 ∧ ∃ i x w, xs !! i = Some (x, w) ∧ eqb key (keyof w) = true ∧
                is_map keyof lt this (take i xs ++ drop (S i) xs) h
         else r = 0 ∧ is_map keyof lt this xs h).
  Proof. first [exact erase_ok | apply erase_ok | intros; eapply erase_ok; eassumption]. Qed.

  (** erase(key): if the key is present exactly its node is freed, all
     others keep their addresses and values, and 1 is returned; otherwise nothing
     changes and 0 is returned. *)
  Theorem C04_erase_ok :
    ∀ fuel this (xs : list (loc * V)) (key : K),
    key_order lt eqb → log_steps (length xs) < fuel →
    runs (is_map keyof lt this xs) (m_erase keyof lt eqb fuel this key)
      (λ r h,
         if has keyof eqb key xs.*2
         then r = 1 ∧ ∃ i x w, xs !! i = Some (x, w) ∧ eqb key (keyof w) = true ∧
                is_map keyof lt this (take i xs ++ drop (S i) xs) h
         else r = 0 ∧ is_map keyof lt this xs h).
  Proof. first [exact erase_ok | apply erase_ok | intros; eapply erase_ok; eassumption]. Qed.

  (** erase(key): if the key is present exactly its node is freed, all
     others keep their addresses and values, and 1 is returned; otherwise nothing
     changes and 0 is returned. *)
  Theorem C05_erase_ok :
    ∀ fuel this (xs : list (loc * V)) (key : K),
    key_order lt eqb → log_steps (length xs) < fuel →
    runs (is_map keyof lt this xs) (m_erase keyof lt eqb fuel this key)
      (λ r h,
         if has keyof eqb key xs.*2
         then r = 1 ∧ ∃ i x w, xs !! i = Some (x, w) ∧ eqb key (keyof w) = true ∧
                is_map keyof lt this (take i xs ++ drop (S i) xs) h
         else r = 0 ∧ is_map keyof lt this xs h).
  Proof. first [exact erase_ok | apply erase_ok | intros; eapply erase_ok; eassumption]. Qed.

  (** find(key): the iterator to the element with that key, end() when there is
     none. *)
  Theorem C01_find_ok :
    ∀ fuel this (xs : list (loc * V)) (key : K),
    key_order lt eqb → log_steps (length xs) < fuel →
    runs (is_map keyof lt this xs) (m_find keyof lt eqb fuel this key)
      (λ p h,
         is_map keyof lt this xs h ∧
         if has keyof eqb key xs.*2
         then ∃ i x w, xs !! i = Some (x, w) ∧ eqb key (keyof w) = true ∧ p = Some x
         else p = m_end this).
  Proof. first [exact find_ok | apply find_ok | intros; eapply find_ok; eassumption]. Qed.

  (** find(key): the iterator to the element with that key, end() when there is
     none. *)
  Theorem C03_find_ok :
    ∀ fuel this (xs : list (loc * V)) (key : K),
    key_order lt eqb → log_steps (length xs) < fuel →
    runs (is_map keyof lt this xs) (m_find keyof lt eqb fuel this key)
      (λ p h,
         is_map keyof lt this xs h ∧
         if has keyof eqb key xs.*2
         then ∃ i x w, xs !! i = Some (x, w) ∧ eqb key (keyof w) = true ∧ p = Some x
         else p = m_end this).
  Proof. first [exact find_ok | apply find_ok | intros; eapply find_ok; eassumption]. Qed.

  (** clear() frees every node; the object stays usable. *)
  Theorem C05_clear_ok :
    ∀ fuel this (xs : list (loc * V)),
    log_steps (length xs) < fuel →
    runs (is_map keyof lt this xs) (m_clear fuel this) (λ _ h, is_map keyof lt this [] h).
  Proof. first [exact clear_ok | apply clear_ok | intros; eapply clear_ok; eassumption]. Qed.

  (** the destructor frees every node and the object: nothing is left. *)
  Theorem C05_destroy_ok :
    ∀ fuel this (xs : list (loc * V)),
    log_steps (length xs) < fuel →
    runs (is_map keyof lt this xs) (rb_destroy fuel this) (λ _ h, nothing h).
  Proof. first [exact destroy_ok | apply destroy_ok | intros; eapply destroy_ok; eassumption]. Qed.

  (** the range constructor: the elements of the range inserted one after the
     other into an empty container. *)
  Theorem C01_new_range_ok :
    ∀ fuel (vs : list V),
    key_order lt eqb → S (2 * length vs) ≤ fuel →
    runs nothing (m_new_range keyof lt eqb fuel vs)
      (λ this h, ∃ xs, xs.*2 = foldl (λ ws v, s_insert keyof lt eqb v ws) [] vs ∧
         is_map keyof lt this xs h).
  Proof. first [exact new_range_ok | apply new_range_ok | intros; eapply new_range_ok; eassumption]. Qed.

  (** the range constructor: the elements of the range inserted one after the
     other into an empty container. *)
  Theorem C05_new_range_ok :
    ∀ fuel (vs : list V),
    key_order lt eqb → S (2 * length vs) ≤ fuel →
    runs nothing (m_new_range keyof lt eqb fuel vs)
      (λ this h, ∃ xs, xs.*2 = foldl (λ ws v, s_insert keyof lt eqb v ws) [] vs ∧
         is_map keyof lt this xs h).
  Proof. first [exact new_range_ok | apply new_range_ok | intros; eapply new_range_ok; eassumption]. Qed.

  (** begin() is the first element (end() if empty). *)
  Theorem C02_begin_ok :
    ∀ fuel this (xs : list (loc * V)),
    log_steps (length xs) < fuel →
    runs (is_map keyof lt this xs) (m_begin fuel this)
      (λ p h, p = iter_at this xs 0 ∧ is_map keyof lt this xs h).
  Proof. first [exact begin_ok | apply begin_ok | intros; eapply begin_ok; eassumption]. Qed.

  (** ++ from element number i leads to element number i+1 (end() after the
     last). *)
  Theorem C02_incr_ok :
    ∀ fuel this (xs : list (loc * V)) i,
    i < length xs → log_steps (length xs) < fuel →
    runs (is_map keyof lt this xs) (m_incr fuel (iter_at this xs i))
      (λ p h, p = iter_at this xs (S i) ∧ is_map keyof lt this xs h).
  Proof. first [exact incr_ok | apply incr_ok | intros; eapply incr_ok; eassumption]. Qed.

  (** -- from element number i+1 (or from end()) leads to element number i. *)
  Theorem C02_decr_ok :
    ∀ fuel this (xs : list (loc * V)) i,
    i < length xs → log_steps (length xs) < fuel →
    runs (is_map keyof lt this xs) (m_decr fuel (iter_at this xs (S i)))
      (λ p h, p = iter_at this xs i ∧ is_map keyof lt this xs h).
  Proof. first [exact decr_ok | apply decr_ok | intros; eapply decr_ok; eassumption]. Qed.

  (** dereferencing the iterator to element number i gives element number i;
     distinct positions have distinct iterators, none of them end(). *)
  Theorem C02_deref_ok :
    ∀ this (xs : list (loc * V)) i x v,
    xs !! i = Some (x, v) →
    runs (is_map keyof lt this xs) (node_data (iter_at this xs i))
      (λ w h, w = v ∧ is_map keyof lt this xs h ∧
              ∀ j, j ≤ length xs → iter_at this xs j = iter_at this xs i → j = i).
  Proof. first [exact deref_ok | apply deref_ok | intros; eapply deref_ok; eassumption]. Qed.

  (** the full forward traversal. *)
  Theorem C02_forward_ok :
    ∀ fuel this (xs : list (loc * V)),
    log_steps (length xs) < fuel → length xs < fuel →
    runs (is_map keyof lt this xs) (m_forward fuel this)
      (λ vs h, vs = xs.*2 ∧ is_map keyof lt this xs h).
  Proof. first [exact forward_ok | apply forward_ok | intros; eapply forward_ok; eassumption]. Qed.

  (** the full backward traversal. *)
  Theorem C02_backward_ok :
    ∀ fuel this (xs : list (loc * V)),
    log_steps (length xs) < fuel → length xs < fuel →
    runs (is_map keyof lt this xs) (m_backward fuel this)
      (λ vs h, vs = reverse xs.*2 ∧ is_map keyof lt this xs h).
  Proof. first [exact backward_ok | apply backward_ok | intros; eapply backward_ok; eassumption]. Qed.

  (** copy construction: equal values, all in new nodes; the source is untouched
     and shares no memory with the copy. *)
  Theorem C06_copy_ok :
    ∀ fuel other (xs : list (loc * V)),
    log_steps (length xs) < fuel →
    runs (is_map keyof lt other xs) (m_copy fuel other)
      (λ this h, ∃ ys, ys.*2 = xs.*2 ∧
         both (is_map keyof lt this ys) (is_map keyof lt other xs) h).
  Proof. first [exact copy_ok | apply copy_ok | intros; eapply copy_ok; eassumption]. Qed.

  (** assignment from another container: the old nodes are freed, equal values
     in new nodes, the source untouched. *)
  Theorem C06_assign_ok :
    ∀ fuel this other (xs ys : list (loc * V)),
    log_steps (length xs) < fuel → log_steps (length ys) < fuel →
    runs (both (is_map keyof lt this xs) (is_map keyof lt other ys)) (m_assign fuel this other)
      (λ _ h, ∃ zs, zs.*2 = ys.*2 ∧
         both (is_map keyof lt this zs) (is_map keyof lt other ys) h).
  Proof. first [exact assign_ok | apply assign_ok | intros; eapply assign_ok; eassumption]. Qed.

  (** x = x on a map/set always empties it. *)
  Theorem C07_map_self_assign_refuted :
    ∀ fuel this (xs : list (loc * V)),
    log_steps (length xs) < fuel →
    runs (is_map keyof lt this xs) (m_assign fuel this this) (λ _ h, is_map keyof lt this [] h).
  Proof. first [exact map_self_assign | apply map_self_assign | intros; eapply map_self_assign; eassumption]. Qed.

  (** == on two maps/sets compares the sequences of elements; it modifies
     neither. *)
  Theorem C12_map_eq_ok :
    ∀ (veqb : V → V → bool) fuel a b (xs ys : list (loc * V)),
    log_steps (length xs) < fuel → log_steps (length ys) < fuel → length xs < fuel →
    runs (both (is_map keyof lt a xs) (is_map keyof lt b ys)) (m_eq veqb fuel a b)
      (λ r h, (r = true ↔ Forall2 (λ x y, veqb x y = true) xs.*2 ys.*2) ∧
              both (is_map keyof lt a xs) (is_map keyof lt b ys) h).
  Proof. first [exact map_eq_ok | apply map_eq_ok | intros; eapply map_eq_ok; eassumption]. Qed.

  (** lower_bound(key) is the iterator to the first element whose key is not
     less: everything before it is less, nothing from it on is; end() when all are
     less. *)
  Theorem C08_lower_bound_ok :
    ∀ fuel this (xs : list (loc * V)) (key : K),
    key_order lt eqb → log_steps (length xs) < fuel →
    runs (is_map keyof lt this xs) (m_lower_bound keyof lt fuel this key)
      (λ p h, is_map keyof lt this xs h ∧ ∃ i, p = iter_at this xs i ∧ i ≤ length xs ∧
         (∀ j x v, xs !! j = Some (x, v) → lt (keyof v) key = true ↔ j < i)).
  Proof. first [exact lower_bound_ok | apply lower_bound_ok | intros; eapply lower_bound_ok; eassumption]. Qed.

  (** equal_range(key) as implemented, for every key: it returns the lower bound
     and the position after it. *)
  Theorem C09_equal_range_actual_partial :
    ∀ fuel this (xs : list (loc * V)) (key : K),
    key_order lt eqb → log_steps (length xs) < fuel →
    runs (is_map keyof lt this xs) (m_equal_range keyof lt fuel this key)
      (λ r h, r = (iter_at this xs (lower_pos keyof lt key xs), iter_at this xs (S (lower_pos keyof lt key xs))) ∧
              is_map keyof lt this xs h).
  Proof. first [exact equal_range_actual | apply equal_range_actual | intros; eapply equal_range_actual; eassumption]. Qed.

  (** upper_bound(key) as implemented, for every key: the position after the
     lower bound. *)
  Theorem C09_upper_bound_actual_partial :
    ∀ fuel this (xs : list (loc * V)) (key : K),
    key_order lt eqb → log_steps (length xs) < fuel →
    runs (is_map keyof lt this xs) (m_upper_bound keyof lt fuel this key)
      (λ p h, p = iter_at this xs (S (lower_pos keyof lt key xs)) ∧ is_map keyof lt this xs h).
  Proof. first [exact upper_bound_actual | apply upper_bound_actual | intros; eapply upper_bound_actual; eassumption]. Qed.

  (** the position after the lower bound is the upper bound exactly when
     the key is present or no element is greater: so for these keys, and only these,
     upper_bound and equal_range are right. *)
  Theorem C09_upper_bound_right_iff_partial :
    ∀ (xs : list (loc * V)) this (key : K),
    key_order lt eqb → ascending keyof lt xs.*2 → NoDup (this :: xs.*1) →
    iter_at this xs (S (lower_pos keyof lt key xs)) = iter_at this xs (upper_pos keyof lt key xs) ↔
    has keyof eqb key xs.*2 = true ∨ Forall (λ a, lt (keyof a.2) key = true) xs.
  Proof. first [exact upper_bound_right_iff | apply upper_bound_right_iff | intros; eapply upper_bound_right_iff; eassumption]. Qed.

  (** insert_equal adds one new node after every element whose key is not
     greater and before every greater one; nothing else changes. *)
  Theorem C10_insert_equal_ok :
    ∀ fuel this (xs : list (loc * V)) (v : V),
    key_order lt eqb → log_steps (length xs) < fuel →
    runs (is_multi keyof lt this xs) (rb_insert_equal keyof lt fuel this v)
      (λ p h, ∃ i n, p = Some n ∧ i ≤ length xs ∧
         (∀ j x w, xs !! j = Some (x, w) → lt (keyof v) (keyof w) = true ↔ i ≤ j) ∧
         is_multi keyof lt this (take i xs ++ (n, v) :: drop i xs) h).
  Proof. first [exact insert_equal_ok | apply insert_equal_ok | intros; eapply insert_equal_ok; eassumption]. Qed.

  (** lower_bound, upper_bound and equal_range of the tree delimit exactly the
     elements that are neither less nor greater than the key. *)
  Theorem C10_multi_equal_range_ok :
    ∀ fuel this (xs : list (loc * V)) (key : K),
    key_order lt eqb → log_steps (length xs) < fuel →
    runs (is_multi keyof lt this xs) (rb_equal_range keyof lt fuel this key)
      (λ r h, is_multi keyof lt this xs h ∧ ∃ i j,
         r = (iter_at this xs i, iter_at this xs j) ∧ i ≤ length xs ∧ j ≤ length xs ∧
         ∀ k x v, xs !! k = Some (x, v) →
           (lt (keyof v) key = true ↔ k < i) ∧ (lt key (keyof v) = true ↔ j ≤ k)).
  Proof. first [exact multi_equal_range_ok | apply multi_equal_range_ok | intros; eapply multi_equal_range_ok; eassumption]. Qed.

  (** find on a tree with duplicates returns some element with the key, end()
     exactly when there is none. *)
  Theorem C10_multi_find_ok :
    ∀ fuel this (xs : list (loc * V)) (key : K),
    key_order lt eqb → log_steps (length xs) < fuel →
    runs (is_multi keyof lt this xs) (rb_find keyof lt eqb fuel this key)
      (λ p h, is_multi keyof lt this xs h ∧
         if has keyof eqb key xs.*2
         then ∃ i x w, xs !! i = Some (x, w) ∧ eqb key (keyof w) = true ∧ p = Some x
         else p = Some this).
  Proof. first [exact multi_find_ok | apply multi_find_ok | intros; eapply multi_find_ok; eassumption]. Qed.

  (** remove(key) when at most one element has that key (for several see
     C10_remove_duplicates_run_refuted): that element is unlinked and handed to the
     caller, still in memory with its value; everything else keeps its address,
     value and order. *)
  Theorem C10_multi_remove_ok_partial :
    ∀ fuel this (xs : list (loc * V)) (key : K),
    key_order lt eqb → at_most_one keyof eqb key xs → log_steps (length xs) < fuel →
    runs (is_multi keyof lt this xs) (rb_remove keyof lt eqb fuel this key)
      (λ p h,
         if has keyof eqb key xs.*2
         then ∃ i x w c, xs !! i = Some (x, w) ∧ eqb key (keyof w) = true ∧ p = Some x ∧ data c = Some w ∧
                both (is_multi keyof lt this (take i xs ++ drop (S i) xs)) (λ h', h' = {[ x := c ]}) h
         else p = None ∧ is_multi keyof lt this xs h).
  Proof. first [exact multi_remove_ok | apply multi_remove_ok | intros; eapply multi_remove_ok; eassumption]. Qed.

  (** count(key) never exceeds the number of elements with that key, is 0
     exactly when there is none, hence exact when there is at most one. (With three
     equal keys it can be short: C11_count_short_refuted.) *)
  Theorem C11_multi_count_ok_partial :
    ∀ fuel this (xs : list (loc * V)) (key : K),
    key_order lt eqb → log_steps (length xs) < fuel →
    runs (is_multi keyof lt this xs) (rb_count keyof lt eqb fuel this key)
      (λ c h, let n := length (matching keyof eqb key xs.*2) in
         c ≤ n ∧ (c = 0 ↔ n = 0) ∧ (n ≤ 1 → c = n) ∧ is_multi keyof lt this xs h).
  Proof. first [exact multi_count_ok | apply multi_count_ok | intros; eapply multi_count_ok; eassumption]. Qed.

End map.

Print Assumptions C03_tree_height_log.
Print Assumptions C01_set_history.
Print Assumptions C02_set_history.
Print Assumptions C05_set_history.
Print Assumptions C06_set_history.
Print Assumptions C08_set_history.
Print Assumptions C12_set_history.
Print Assumptions C01_set_reaches.
Print Assumptions C02_set_reaches.
Print Assumptions C03_set_reaches.
Print Assumptions C04_set_reaches.
Print Assumptions C05_set_reaches.
Print Assumptions C06_set_reaches.
Print Assumptions C08_set_reaches.
Print Assumptions C12_set_reaches.
Print Assumptions C13_set_reaches_partial.
Print Assumptions C01_insert_ok.
Print Assumptions C03_insert_ok.
Print Assumptions C04_insert_ok.
Print Assumptions C05_insert_ok.
Print Assumptions C01_erase_ok.
Print Assumptions C03_erase_ok.
Print Assumptions C04_erase_ok.
Print Assumptions C05_erase_ok.
Print Assumptions C01_find_ok.
Print Assumptions C03_find_ok.
Print Assumptions C05_clear_ok.
Print Assumptions C05_destroy_ok.
Print Assumptions C01_new_range_ok.
Print Assumptions C05_new_range_ok.
Print Assumptions C02_begin_ok.
Print Assumptions C02_incr_ok.
Print Assumptions C02_decr_ok.
Print Assumptions C02_deref_ok.
Print Assumptions C02_forward_ok.
Print Assumptions C02_backward_ok.
Print Assumptions C06_copy_ok.
Print Assumptions C06_assign_ok.
Print Assumptions C07_map_self_assign_refuted.
Print Assumptions C12_map_eq_ok.
Print Assumptions C08_lower_bound_ok.
Print Assumptions C09_equal_range_actual_partial.
Print Assumptions C09_upper_bound_actual_partial.
Print Assumptions C09_upper_bound_right_iff_partial.
Print Assumptions C10_insert_equal_ok.
Print Assumptions C10_multi_equal_range_ok.
Print Assumptions C10_multi_find_ok.
Print Assumptions C10_multi_remove_ok_partial.
Print Assumptions C11_multi_count_ok_partial.
