(** GENERATED by tools/genprops.py from ForwardRuns.v: property theorems only.
    Every proof is the lemma of the same statement proved there. *)
From Verif Require Import ForwardSpec ForwardRuns.

Section forward.
  Context {V : Type} `{Allocator (cell V)}.

  (** Whole programs: for every history of calls on two forward_lists that
     respects the preconditions of [fl_spec], every observation (returned
     iterators, front, empty, contents, ==) is the one made on plain sequences,
     nothing goes wrong, and after both destructors no memory is left over. *)
  Theorem C22_fl_history :
    ∀ (eqb : V → V → bool) ops xs ys outs,
    fl_spec_run eqb [] [] ops = Some (xs, ys, outs) →
    ∃ F, ∀ fuel, F ≤ fuel →
      runs nothing (fl_program eqb fuel ops) (λ outs' h, outs' = outs ∧ nothing h).
  Proof. first [exact fl_history | apply fl_history | intros; eapply fl_history; eassumption]. Qed.

  (** Whole programs: for every history of calls on two forward_lists that
     respects the preconditions of [fl_spec], every observation (returned
     iterators, front, empty, contents, ==) is the one made on plain sequences,
     nothing goes wrong, and after both destructors no memory is left over. *)
  Theorem C23_fl_history_partial :
    ∀ (eqb : V → V → bool) ops xs ys outs,
    fl_spec_run eqb [] [] ops = Some (xs, ys, outs) →
    ∃ F, ∀ fuel, F ≤ fuel →
      runs nothing (fl_program eqb fuel ops) (λ outs' h, outs' = outs ∧ nothing h).
  Proof. first [exact fl_history | apply fl_history | intros; eapply fl_history; eassumption]. Qed.

  (** push_front adds one new node at the front; every other node stays
     where it is. [r] may refer to an element of the list itself. *)
  Theorem C22_fl_push_front_ok :
    ∀ this (xs : list (loc * V)) r v,
    refers xs r v →
    runs (is_flist this xs) (fl_push_front this r)
      (λ _ h, ∃ l, is_flist this ((l, v) :: xs) h).
  Proof. first [exact fl_push_front_ok | apply fl_push_front_ok | intros; eapply fl_push_front_ok; eassumption]. Qed.

  (** pop_front frees exactly the first node. *)
  Theorem C22_fl_pop_front_ok :
    ∀ this l v (xs : list (loc * V)),
    runs (is_flist this ((l, v) :: xs)) (fl_pop_front this) (λ _ h, is_flist this xs h).
  Proof. first [exact fl_pop_front_ok | apply fl_pop_front_ok | intros; eapply fl_pop_front_ok; eassumption]. Qed.

  (** insert_after returns an iterator to the one new node. *)
  Theorem C22_fl_insert_after_ok :
    ∀ this (xs : list (loc * V)) i r v,
    i ≤ length xs → refers xs r v →
    runs (is_flist this xs) (fl_insert_after (pos_at this xs i) r)
      (λ p h, ∃ l, p = Some l ∧ is_flist this (take i xs ++ (l, v) :: drop i xs) h).
  Proof. first [exact fl_insert_after_ok | apply fl_insert_after_ok | intros; eapply fl_insert_after_ok; eassumption]. Qed.

  (** insert_after(pos, n, value). *)
  Theorem C22_fl_insert_after_n_ok :
    ∀ this (xs : list (loc * V)) i n r v,
    i ≤ length xs → refers xs r v →
    runs (is_flist this xs) (fl_insert_after_n (pos_at this xs i) n r)
      (λ _ h, ∃ ys, ys.*2 = replicate n v ∧ is_flist this (take i xs ++ ys ++ drop i xs) h).
  Proof. first [exact fl_insert_after_n_ok | apply fl_insert_after_n_ok | intros; eapply fl_insert_after_n_ok; eassumption]. Qed.

  (** insert_after(pos, first, last). *)
  Theorem C22_fl_insert_after_range_ok :
    ∀ this (xs : list (loc * V)) i vs,
    i ≤ length xs →
    runs (is_flist this xs) (fl_insert_after_ext (pos_at this xs i) vs)
      (λ _ h, ∃ ys, ys.*2 = vs ∧ is_flist this (take i xs ++ ys ++ drop i xs) h).
  Proof. first [exact fl_insert_after_range_ok | apply fl_insert_after_range_ok | intros; eapply fl_insert_after_range_ok; eassumption]. Qed.

  (** erase_after frees exactly the node after pos and returns the
     iterator to the one that follows it. *)
  Theorem C22_fl_erase_after_ok :
    ∀ this (xs : list (loc * V)) i,
    i < length xs →
    runs (is_flist this xs) (fl_erase_after (pos_at this xs i))
      (λ p h, p = pos_at this xs (S (S i)) ∧ is_flist this (take i xs ++ drop (S i) xs) h).
  Proof. first [exact fl_erase_after_ok | apply fl_erase_after_ok | intros; eapply fl_erase_after_ok; eassumption]. Qed.

  (** erase_after(pos, last) frees exactly the nodes strictly between. *)
  Theorem C22_fl_erase_after_range_ok :
    ∀ fuel this (xs : list (loc * V)) i j,
    i < j ≤ S (length xs) → length xs < fuel →
    runs (is_flist this xs) (fl_erase_after_range fuel (pos_at this xs i) (pos_at this xs j))
      (λ p h, p = pos_at this xs j ∧ is_flist this (take i xs ++ drop (j - 1) xs) h).
  Proof. first [exact fl_erase_after_range_ok | apply fl_erase_after_range_ok | intros; eapply fl_erase_after_range_ok; eassumption]. Qed.

  (** clear frees every node and keeps the object usable. *)
  Theorem C22_fl_clear_ok :
    ∀ fuel this (xs : list (loc * V)),
    length xs < fuel →
    runs (is_flist this xs) (fl_clear fuel this) (λ _ h, is_flist this [] h).
  Proof. first [exact fl_clear_ok | apply fl_clear_ok | intros; eapply fl_clear_ok; eassumption]. Qed.

  (** the destructor releases every node and the object: nothing is left. *)
  Theorem C22_fl_destroy_ok :
    ∀ fuel this (xs : list (loc * V)),
    length xs < fuel →
    runs (is_flist this xs) (fl_destroy fuel this) (λ _ h, nothing h).
  Proof. first [exact fl_destroy_ok | apply fl_destroy_ok | intros; eapply fl_destroy_ok; eassumption]. Qed.

  (** reverse relinks the same nodes. *)
  Theorem C22_fl_reverse_ok :
    ∀ fuel this (xs : list (loc * V)),
    length xs < fuel →
    runs (is_flist this xs) (fl_reverse fuel this) (λ _ h, is_flist this (reverse xs) h).
  Proof. first [exact fl_reverse_ok | apply fl_reverse_ok | intros; eapply fl_reverse_ok; eassumption]. Qed.

  (** swap exchanges the node chains, moving no element. *)
  Theorem C22_fl_swap_ok :
    ∀ a b (xs ys : list (loc * V)),
    runs (both (is_flist a xs) (is_flist b ys)) (fl_swap a b)
      (λ _ h, both (is_flist a ys) (is_flist b xs) h).
  Proof. first [exact fl_swap_ok | apply fl_swap_ok | intros; eapply fl_swap_ok; eassumption]. Qed.

  (** swapping a list with itself changes nothing. *)
  Theorem C22_fl_swap_self_ok :
    ∀ a (xs : list (loc * V)),
    runs (is_flist a xs) (fl_swap a a) (λ _ h, is_flist a xs h).
  Proof. first [exact fl_swap_self_ok | apply fl_swap_self_ok | intros; eapply fl_swap_self_ok; eassumption]. Qed.

  (** copy construction: equal values in new nodes, source untouched. *)
  Theorem C22_fl_copy_ok :
    ∀ fuel other (xs : list (loc * V)),
    length xs < fuel →
    runs (is_flist other xs) (fl_copy fuel other)
      (λ this h, ∃ ys, ys.*2 = xs.*2 ∧ both (is_flist this ys) (is_flist other xs) h).
  Proof. first [exact fl_copy_ok | apply fl_copy_ok | intros; eapply fl_copy_ok; eassumption]. Qed.

  (** assignment from another list: all old nodes freed, equal values in
     new nodes, source untouched. *)
  Theorem C22_fl_assign_from_ok :
    ∀ fuel this other (xs ys : list (loc * V)),
    length xs < fuel → length ys < fuel →
    runs (both (is_flist this xs) (is_flist other ys)) (fl_assign_from fuel this other)
      (λ _ h, ∃ zs, zs.*2 = ys.*2 ∧ both (is_flist this zs) (is_flist other ys) h).
  Proof. first [exact fl_assign_from_ok | apply fl_assign_from_ok | intros; eapply fl_assign_from_ok; eassumption]. Qed.

  (** == compares the two sequences element by element. *)
  Theorem C22_fl_eq_ok :
    ∀ (eqb : V → V → bool) fuel a b (xs ys : list (loc * V)),
    length xs < fuel →
    runs (both (is_flist a xs) (is_flist b ys)) (fl_eq eqb fuel a b)
      (λ r h, (r = true ↔ Forall2 (λ x y, eqb x y = true) xs.*2 ys.*2) ∧
              both (is_flist a xs) (is_flist b ys) h).
  Proof. first [exact fl_eq_ok | apply fl_eq_ok | intros; eapply fl_eq_ok; eassumption]. Qed.

  (** splice_after(pos, other) for a non-empty other: all its nodes
     move behind pos, none is copied. (An empty other breaks the list:
     C23_fl_splice_all_empty_refuted.) *)
  Theorem C23_fl_splice_all_ok_partial :
    ∀ fuel this other (xs ys : list (loc * V)) i,
    i ≤ length xs → ys ≠ [] → length ys < fuel →
    runs (both (is_flist this xs) (is_flist other ys))
      (fl_splice_all fuel (pos_at this xs i) other)
      (λ _ h, both (is_flist this (take i xs ++ ys ++ drop i xs)) (is_flist other []) h).
  Proof. first [exact fl_splice_all_ok | apply fl_splice_all_ok | intros; eapply fl_splice_all_ok; eassumption]. Qed.

  (** splice_after(pos, other, it): the node after it moves behind pos. *)
  Theorem C23_fl_splice_one_ok_partial :
    ∀ this other (xs ys : list (loc * V)) i j l v,
    i ≤ length xs → ys !! j = Some (l, v) →
    runs (both (is_flist this xs) (is_flist other ys))
      (fl_splice_one (pos_at this xs i) (pos_at other ys j))
      (λ _ h, both (is_flist this (take i xs ++ (l, v) :: drop i xs))
                   (is_flist other (take j ys ++ drop (S j) ys)) h).
  Proof. first [exact fl_splice_one_ok | apply fl_splice_one_ok | intros; eapply fl_splice_one_ok; eassumption]. Qed.

  (** splice_after(pos, other, first, last) for a non-empty open range. *)
  Theorem C23_fl_splice_range_ok_partial :
    ∀ fuel this other (xs ys : list (loc * V)) i j k,
    i ≤ length xs → S j < k ≤ S (length ys) → length ys < fuel →
    runs (both (is_flist this xs) (is_flist other ys))
      (fl_splice_range fuel (pos_at this xs i) (pos_at other ys j) (pos_at other ys k))
      (λ _ h, both (is_flist this (take i xs ++ take (k - 1 - j) (drop j ys) ++ drop i xs))
                   (is_flist other (take j ys ++ drop (k - 1) ys)) h).
  Proof. first [exact fl_splice_range_ok | apply fl_splice_range_ok | intros; eapply fl_splice_range_ok; eassumption]. Qed.

  (** within one list, the moved element lying behind pos. *)
  Theorem C23_fl_splice_one_fwd_ok_partial :
    ∀ this (xs1 xs2 : list (loc * V)) l v xs3,
    xs2 ≠ [] →
    runs (is_flist this (xs1 ++ xs2 ++ (l, v) :: xs3))
      (fl_splice_one (pos_at this (xs1 ++ xs2 ++ (l, v) :: xs3) (length xs1))
         (pos_at this (xs1 ++ xs2 ++ (l, v) :: xs3) (length xs1 + length xs2)))
      (λ _ h, is_flist this (xs1 ++ (l, v) :: xs2 ++ xs3) h).
  Proof. first [exact fl_splice_one_fwd_ok | apply fl_splice_one_fwd_ok | intros; eapply fl_splice_one_fwd_ok; eassumption]. Qed.

  (** within one list, the moved element lying before pos (pos not
     being that element itself). *)
  Theorem C23_fl_splice_one_bwd_ok_partial :
    ∀ this (xs1 xs2 : list (loc * V)) l v xs3,
    xs2 ≠ [] →
    runs (is_flist this (xs1 ++ (l, v) :: xs2 ++ xs3))
      (fl_splice_one (pos_at this (xs1 ++ (l, v) :: xs2 ++ xs3) (length xs1 + 1 + length xs2))
         (pos_at this (xs1 ++ (l, v) :: xs2 ++ xs3) (length xs1)))
      (λ _ h, is_flist this (xs1 ++ xs2 ++ (l, v) :: xs3) h).
  Proof. first [exact fl_splice_one_bwd_ok | apply fl_splice_one_bwd_ok | intros; eapply fl_splice_one_bwd_ok; eassumption]. Qed.

  (** it == pos is a no-op. *)
  Theorem C23_fl_splice_one_same_ok_partial :
    ∀ this (xs : list (loc * V)) i,
    runs (is_flist this xs) (fl_splice_one (pos_at this xs i) (pos_at this xs i))
      (λ _ h, is_flist this xs h).
  Proof. first [exact fl_splice_one_same_ok | apply fl_splice_one_same_ok | intros; eapply fl_splice_one_same_ok; eassumption]. Qed.

  (** within one list, splice_after(pos, *this, first, last): the elements strictly between
     first and last (at least one) move behind pos, which lies before first, or at or behind last;
     everything else keeps its order. *)
  Theorem C23_fl_splice_own_range_ok_partial :
    ∀ fuel this (xs : list (loc * V)) i j k,
    S j < k ≤ S (length xs) → i < j ∨ k ≤ i ≤ length xs → length xs < fuel →
    runs (is_flist this xs)
      (fl_splice_range fuel (pos_at this xs i) (pos_at this xs j) (pos_at this xs k))
      (λ _ h, is_flist this
        (if decide (i < j)
         then take i xs ++ take (k - 1 - j) (drop j xs) ++ take (j - i) (drop i xs) ++ drop (k - 1) xs
         else take j xs ++ take (i - (k - 1)) (drop (k - 1) xs) ++ take (k - 1 - j) (drop j xs) ++ drop i xs) h).
  Proof. first [exact fl_splice_own_range_ok | apply fl_splice_own_range_ok | intros; eapply fl_splice_own_range_ok; eassumption]. Qed.

  (** within one list, the empty range just behind pos: nothing happens. *)
  Theorem C23_fl_splice_own_nothing_ok_partial :
    ∀ fuel this (xs : list (loc * V)) i,
    i ≤ length xs → length xs < fuel →
    runs (is_flist this xs)
      (fl_splice_range fuel (pos_at this xs i) (pos_at this xs i) (pos_at this xs (S i)))
      (λ _ h, is_flist this xs h).
  Proof. first [exact fl_splice_own_nothing_ok | apply fl_splice_own_nothing_ok | intros; eapply fl_splice_own_nothing_ok; eassumption]. Qed.

  (** every splice_after of an empty list cuts the destination at
     pos: only the elements up to pos remain, the nodes of the others are
     lost (still allocated, reachable from neither list). *)
  Theorem C23_fl_splice_all_empty_refuted :
    ∀ fuel this other (xs : list (loc * V)) i,
    i ≤ length xs → 0 < fuel →
    runs (both (is_flist this xs) (is_flist other []))
      (fl_splice_all fuel (pos_at this xs i) other)
      (λ _ h, both (is_flist this (take i xs))
                (both (is_flist other [])
                      (λ h, NoDup (drop i xs).*1 ∧ h = list_heap (live (drop i xs)) None)) h).
  Proof. first [exact fl_splice_all_empty | apply fl_splice_all_empty | intros; eapply fl_splice_all_empty; eassumption]. Qed.

  (** splice_after(pos, *this, it) with pos == ++it, the element that is already in place:
     it is unlinked, points to itself and belongs to no list any more. *)
  Theorem C23_fl_splice_one_in_place_refuted :
    ∀ this (xs : list (loc * V)) j l v,
    xs !! j = Some (l, v) →
    runs (is_flist this xs) (fl_splice_one (pos_at this xs (S j)) (pos_at this xs j))
      (λ _ h, both (is_flist this (take j xs ++ drop (S j) xs))
                (λ h', h' = {[ l := Cell (Some l) (Live v) ]}) h).
  Proof. first [exact fl_splice_one_in_place | apply fl_splice_one_in_place | intros; eapply fl_splice_one_in_place; eassumption]. Qed.

  (** splice_after(pos, *this, pos, last) of a non-empty range, which is already in place:
     the range is unlinked; its nodes are still allocated and belong to no list. *)
  Theorem C23_fl_splice_range_in_place_refuted :
    ∀ fuel this (xs : list (loc * V)) j k,
    S j < k ≤ S (length xs) → length xs < fuel →
    runs (is_flist this xs)
      (fl_splice_range fuel (pos_at this xs j) (pos_at this xs j) (pos_at this xs k))
      (λ _ h, both (is_flist this (take j xs ++ drop (k - 1) xs))
                (λ h', dom h' = list_to_set ((take (k - 1 - j) (drop j xs)).*1)) h).
  Proof. first [exact fl_splice_range_in_place | apply fl_splice_range_in_place | intros; eapply fl_splice_range_in_place; eassumption]. Qed.

  (** splice_after(pos, *this, it, ++it), an empty range, with pos before it: the elements
     behind pos up to it are unlinked; their nodes are still allocated and belong to no list. *)
  Theorem C23_fl_splice_own_empty_behind_refuted :
    ∀ fuel this (xs : list (loc * V)) i j,
    i < j ≤ length xs → 0 < fuel →
    runs (is_flist this xs)
      (fl_splice_range fuel (pos_at this xs i) (pos_at this xs j) (pos_at this xs (S j)))
      (λ _ h, both (is_flist this (take i xs ++ drop j xs))
                (λ h', dom h' = list_to_set ((take (j - i) (drop i xs)).*1)) h).
  Proof. first [exact fl_splice_own_empty_behind | apply fl_splice_own_empty_behind | intros; eapply fl_splice_own_empty_behind; eassumption]. Qed.

  (** splice_after(pos, *this, it, ++it) with it before pos: iterating the list afterwards
     never ends. *)
  Theorem C23_fl_splice_own_empty_before_refuted :
    ∀ fuel fuel' this (xs : list (loc * V)) i j,
    j < i ≤ length xs → 0 < fuel →
    hangs (is_flist this xs)
      (fl_splice_range fuel (pos_at this xs i) (pos_at this xs j) (pos_at this xs (S j)) ;!
       fl_contents fuel' this).
  Proof. first [exact fl_splice_own_empty_before | apply fl_splice_own_empty_before | intros; eapply fl_splice_own_empty_before; eassumption]. Qed.

  (** splice_after(pos, other, it, ++it), an empty range of another list: the elements
     behind pos are gone from the list, and in their place it shows everything other has
     behind it, while other keeps all of it. *)
  Theorem C23_fl_splice_range_empty_refuted :
    ∀ fuel this other (xs ys : list (loc * V)) i j,
    i ≤ length xs → j ≤ length ys → length xs + length ys < fuel →
    runs (both (is_flist this xs) (is_flist other ys))
      (fl_splice_range fuel (pos_at this xs i) (pos_at other ys j) (pos_at other ys (S j)) ;!
       let! cs := fl_contents fuel this in let! ds := fl_contents fuel other in ret (cs, ds))
      (λ r _, r = ((take i xs).*2 ++ (drop j ys).*2, ys.*2)).
  Proof. first [exact fl_splice_range_empty | apply fl_splice_range_empty | intros; eapply fl_splice_range_empty; eassumption]. Qed.

  (** assigning a forward_list to itself empties it. *)
  Theorem C07_fl_self_assign_refuted :
    ∀ fuel this (xs : list (loc * V)),
    length xs < fuel →
    runs (is_flist this xs) (fl_assign_from fuel this this) (λ _ h, is_flist this [] h).
  Proof. first [exact fl_self_assign | apply fl_self_assign | intros; eapply fl_self_assign; eassumption]. Qed.

End forward.

Print Assumptions C22_fl_history.
Print Assumptions C23_fl_history_partial.
Print Assumptions C22_fl_push_front_ok.
Print Assumptions C22_fl_pop_front_ok.
Print Assumptions C22_fl_insert_after_ok.
Print Assumptions C22_fl_insert_after_n_ok.
Print Assumptions C22_fl_insert_after_range_ok.
Print Assumptions C22_fl_erase_after_ok.
Print Assumptions C22_fl_erase_after_range_ok.
Print Assumptions C22_fl_clear_ok.
Print Assumptions C22_fl_destroy_ok.
Print Assumptions C22_fl_reverse_ok.
Print Assumptions C22_fl_swap_ok.
Print Assumptions C22_fl_swap_self_ok.
Print Assumptions C22_fl_copy_ok.
Print Assumptions C22_fl_assign_from_ok.
Print Assumptions C22_fl_eq_ok.
Print Assumptions C23_fl_splice_all_ok_partial.
Print Assumptions C23_fl_splice_one_ok_partial.
Print Assumptions C23_fl_splice_range_ok_partial.
Print Assumptions C23_fl_splice_one_fwd_ok_partial.
Print Assumptions C23_fl_splice_one_bwd_ok_partial.
Print Assumptions C23_fl_splice_one_same_ok_partial.
Print Assumptions C23_fl_splice_own_range_ok_partial.
Print Assumptions C23_fl_splice_own_nothing_ok_partial.
Print Assumptions C23_fl_splice_all_empty_refuted.
Print Assumptions C23_fl_splice_one_in_place_refuted.
Print Assumptions C23_fl_splice_range_in_place_refuted.
Print Assumptions C23_fl_splice_own_empty_behind_refuted.
Print Assumptions C23_fl_splice_own_empty_before_refuted.
Print Assumptions C23_fl_splice_range_empty_refuted.
Print Assumptions C07_fl_self_assign_refuted.
