(** GENERATED by tools/genprops.py from DlistRuns.v: property theorems only.
    Every proof is the lemma of the same statement proved there. *)
From Verif Require Import DlistSpec DlistRuns.

Section list.
  Context {V : Type} `{Allocator (dcell V)} (eqb : V → V → bool) (rfirst : bool).

  (** Whole programs on two lists, for every history of push_front, push_back, pop_front,
     pop_back, insert (one, n, own element, range, range of the other list), erase(pos),
     remove, remove_if, unique, reverse, resize (not to 0), copy / count / range
     construction, assignment through iterators and all observers, forward and backward
     traversal: every observation is the one std::list's sequence semantics prescribes,
     nothing goes wrong and no memory is left. *)
  Theorem C29_list_basic_history :
    ∀ ops,
    h_correct dl_new dl_destroy (dl_step eqb rfirst) [] (dl_basic_spec eqb) ops.
  Proof. first [exact list_basic_history | apply list_basic_history | intros; eapply list_basic_history; eassumption]. Qed.

  (** After every such history both lists are rings of pairwise distinct nodes holding
     exactly the prescribed values, and they own nothing else. *)
  Theorem C29_list_basic_reaches :
    ∀ ops,
    h_reaches dl_new (dl_step eqb rfirst) [] (dl_basic_spec eqb)
      (λ this vs h, ∃ xs, xs.*2 = vs ∧ is_dlist this xs h) ops.
  Proof. first [exact list_basic_reaches | apply list_basic_reaches | intros; eapply list_basic_reaches; eassumption]. Qed.

  (** Whole programs that also use clear,
     assignment, swap, splice and merge, for every history whose calls stay within [dl_ok]:
     after clear() of a non-empty list it may be iterated, measured, searched, cleared,
     swapped with a non-empty list and destroyed (but not inserted into). *)
  Theorem C29_list_history :
    ∀ ops,
    h_correct dl_new dl_destroy (dl_step eqb rfirst) ([], false) (dl_spec eqb) ops.
  Proof. first [exact list_history | apply list_history | intros; eapply list_history; eassumption]. Qed.

  (** Whole programs that also use clear,
     assignment, swap, splice and merge, for every history whose calls stay within [dl_ok]:
     after clear() of a non-empty list it may be iterated, measured, searched, cleared,
     swapped with a non-empty list and destroyed (but not inserted into). *)
  Theorem C30_list_history_partial :
    ∀ ops,
    h_correct dl_new dl_destroy (dl_step eqb rfirst) ([], false) (dl_spec eqb) ops.
  Proof. first [exact list_history | apply list_history | intros; eapply list_history; eassumption]. Qed.

  (** Whole programs that also use clear,
     assignment, swap, splice and merge, for every history whose calls stay within [dl_ok]:
     after clear() of a non-empty list it may be iterated, measured, searched, cleared,
     swapped with a non-empty list and destroyed (but not inserted into). *)
  Theorem C31_list_history_partial :
    ∀ ops,
    h_correct dl_new dl_destroy (dl_step eqb rfirst) ([], false) (dl_spec eqb) ops.
  Proof. first [exact list_history | apply list_history | intros; eapply list_history; eassumption]. Qed.

  (** Whole programs that also use clear,
     assignment, swap, splice and merge, for every history whose calls stay within [dl_ok]:
     after clear() of a non-empty list it may be iterated, measured, searched, cleared,
     swapped with a non-empty list and destroyed (but not inserted into). *)
  Theorem C32_list_history_partial :
    ∀ ops,
    h_correct dl_new dl_destroy (dl_step eqb rfirst) ([], false) (dl_spec eqb) ops.
  Proof. first [exact list_history | apply list_history | intros; eapply list_history; eassumption]. Qed.

  (** Whole programs that also use clear,
     assignment, swap, splice and merge, for every history whose calls stay within [dl_ok]:
     after clear() of a non-empty list it may be iterated, measured, searched, cleared,
     swapped with a non-empty list and destroyed (but not inserted into). *)
  Theorem C33_list_history :
    ∀ ops,
    h_correct dl_new dl_destroy (dl_step eqb rfirst) ([], false) (dl_spec eqb) ops.
  Proof. first [exact list_history | apply list_history | intros; eapply list_history; eassumption]. Qed.

  (** Whole programs that also use clear,
     assignment, swap, splice and merge, for every history whose calls stay within [dl_ok]:
     after clear() of a non-empty list it may be iterated, measured, searched, cleared,
     swapped with a non-empty list and destroyed (but not inserted into). *)
  Theorem C34_list_history_partial :
    ∀ ops,
    h_correct dl_new dl_destroy (dl_step eqb rfirst) ([], false) (dl_spec eqb) ops.
  Proof. first [exact list_history | apply list_history | intros; eapply list_history; eassumption]. Qed.

  (** Whole programs that also use clear,
     assignment, swap, splice and merge, for every history whose calls stay within [dl_ok]:
     after clear() of a non-empty list it may be iterated, measured, searched, cleared,
     swapped with a non-empty list and destroyed (but not inserted into). *)
  Theorem C35_list_history_partial :
    ∀ ops,
    h_correct dl_new dl_destroy (dl_step eqb rfirst) ([], false) (dl_spec eqb) ops.
  Proof. first [exact list_history | apply list_history | intros; eapply list_history; eassumption]. Qed.

  (** ... and the memory after every such
     history. *)
  Theorem C29_list_reaches :
    ∀ ops,
    h_reaches dl_new (dl_step eqb rfirst) ([], false) (dl_spec eqb) dl_holds ops.
  Proof. first [exact list_reaches | apply list_reaches | intros; eapply list_reaches; eassumption]. Qed.

  (** ... and the memory after every such
     history. *)
  Theorem C30_list_reaches_partial :
    ∀ ops,
    h_reaches dl_new (dl_step eqb rfirst) ([], false) (dl_spec eqb) dl_holds ops.
  Proof. first [exact list_reaches | apply list_reaches | intros; eapply list_reaches; eassumption]. Qed.

  (** ... and the memory after every such
     history. *)
  Theorem C32_list_reaches_partial :
    ∀ ops,
    h_reaches dl_new (dl_step eqb rfirst) ([], false) (dl_spec eqb) dl_holds ops.
  Proof. first [exact list_reaches | apply list_reaches | intros; eapply list_reaches; eassumption]. Qed.

  (** ... and the memory after every such
     history. *)
  Theorem C33_list_reaches :
    ∀ ops,
    h_reaches dl_new (dl_step eqb rfirst) ([], false) (dl_spec eqb) dl_holds ops.
  Proof. first [exact list_reaches | apply list_reaches | intros; eapply list_reaches; eassumption]. Qed.

  (** ... and the memory after every such
     history. *)
  Theorem C34_list_reaches_partial :
    ∀ ops,
    h_reaches dl_new (dl_step eqb rfirst) ([], false) (dl_spec eqb) dl_holds ops.
  Proof. first [exact list_reaches | apply list_reaches | intros; eapply list_reaches; eassumption]. Qed.

  (** ... and the memory after every such
     history. *)
  Theorem C35_list_reaches_partial :
    ∀ ops,
    h_reaches dl_new (dl_step eqb rfirst) ([], false) (dl_spec eqb) dl_holds ops.
  Proof. first [exact list_reaches | apply list_reaches | intros; eapply list_reaches; eassumption]. Qed.

  (** insert(pos, x), also for a reference to an own element: one new node; all others
     keep address and value. *)
  Theorem C29_list_insert :
    ∀ this (xs : list (loc * V)) i r v,
    i ≤ length xs → drefers xs r v →
    runs (is_dlist this xs) (dl_insert (dpos this xs i) r)
      (λ p h, ∃ l, p = Some l ∧ is_dlist this (take i xs ++ (l, v) :: drop i xs) h).
  Proof. first [exact list_insert | apply list_insert | intros; eapply list_insert; eassumption]. Qed.

  (** erase(pos): exactly that node is freed; the successor is returned. *)
  Theorem C29_list_erase :
    ∀ this (xs : list (loc * V)) i,
    i < length xs →
    runs (is_dlist this xs) (dl_erase (dpos this xs i))
      (λ p h, p = dpos this xs (S i) ∧ is_dlist this (take i xs ++ drop (S i) xs) h).
  Proof. first [exact list_erase | apply list_erase | intros; eapply list_erase; eassumption]. Qed.

  (** remove(x), x outside the list: exactly the equal elements go, the others keep
     their addresses. *)
  Theorem C29_list_remove :
    ∀ fuel this (xs : list (loc * V)) v,
    length xs < fuel →
    runs (is_dlist this xs) (dl_remove eqb fuel this (DExt v))
      (λ _ h, is_dlist this (filter (λ x, eqb x.2 v = false) xs) h).
  Proof. first [exact list_remove | apply list_remove | intros; eapply list_remove; eassumption]. Qed.

  (** remove_if(f) *)
  Theorem C29_list_remove_if :
    ∀ fuel this (xs : list (loc * V)) f,
    length xs < fuel →
    runs (is_dlist this xs) (dl_remove_if fuel this f)
      (λ _ h, is_dlist this (filter (λ x, f x.2 = false) xs) h).
  Proof. first [exact list_remove_if | apply list_remove_if | intros; eapply list_remove_if; eassumption]. Qed.

  (** unique(f): exactly the elements x with f(x, last kept element) go. *)
  Theorem C29_list_unique :
    ∀ fuel this (xs : list (loc * V)) f,
    length xs < fuel →
    runs (is_dlist this xs) (dl_unique fuel this f)
      (λ _ h, is_dlist this (uniq (λ x y, f x.2 y.2) xs) h).
  Proof. first [exact list_unique | apply list_unique | intros; eapply list_unique; eassumption]. Qed.

  (** reverse relinks the same nodes. *)
  Theorem C29_list_reverse :
    ∀ fuel this (xs : list (loc * V)),
    length xs < fuel →
    runs (is_dlist this xs) (dl_reverse fuel this) (λ _ h, is_dlist this (reverse xs) h).
  Proof. first [exact list_reverse | apply list_reverse | intros; eapply list_reverse; eassumption]. Qed.

  (** copy construction: equal values in new nodes; the source is untouched. *)
  Theorem C29_list_copy :
    ∀ fuel other (xs : list (loc * V)),
    length xs < fuel →
    runs (is_dlist other xs) (dl_copy fuel other)
      (λ this h, ∃ ys, ys.*2 = xs.*2 ∧ both (is_dlist this ys) (is_dlist other xs) h).
  Proof. first [exact list_copy | apply list_copy | intros; eapply list_copy; eassumption]. Qed.

  (** the destructor frees every node and the header. *)
  Theorem C29_list_destroy :
    ∀ fuel this (xs : list (loc * V)),
    length xs < fuel → runs (is_dlist this xs) (dl_destroy fuel this) (λ _ h, nothing h).
  Proof. first [exact list_destroy | apply list_destroy | intros; eapply list_destroy; eassumption]. Qed.

  (** clear() frees every node; only a list that was already empty is like new: of a
     non-empty one the header keeps pointing back at its (deleted) last node. *)
  Theorem C30_list_clear_partial :
    ∀ fuel this (xs : list (loc * V)),
    length xs < fuel →
    runs (is_dlist this xs) (dl_clear fuel this)
      (λ _ h, match last xs with None => is_dlist this [] h | Some x => is_cleared this x.1 h end).
  Proof. first [exact list_clear | apply list_clear | intros; eapply list_clear; eassumption]. Qed.

  (** A cleared list can be cleared, and destroyed without leak. *)
  Theorem C30_list_cleared_destroy_partial :
    ∀ fuel this d,
    0 < fuel → runs (is_cleared (V:=V) this d) (dl_destroy fuel this) (λ _ h, nothing h).
  Proof. first [exact list_cleared_destroy | apply list_cleared_destroy | intros; eapply list_cleared_destroy; eassumption]. Qed.

  (** push_back on a list that was cleared, in any memory in which the deleted node
     is not (again) allocated: either undefined behaviour, or - when the allocator hands
     out the deleted node's address again - the list stays empty and the new element is
     lost. *)
  Theorem C30_list_push_after_clear_refuted :
    ∀ this d v (h : gmap loc (dcell V)),
    d ≠ this → h !! d = None → h !! this = Some (DCell (Some d) (Some this) DHdr) →
    dl_push_back this (DExt v) h = UB Dangling ∨
    ∃ h', dl_push_back this (DExt v) h = Ok (tt, h') ∧ size h' = S (size h) ∧
      ∀ fuel, 0 < fuel → dl_contents fuel this h' = Ok ([], h').
  Proof. first [exact list_push_after_clear | apply list_push_after_clear | intros; eapply list_push_after_clear; eassumption]. Qed.

  (** self-assignment empties the list (and leaves it in the state of C30). *)
  Theorem C07_list_self_assign_refuted :
    ∀ fuel this (xs : list (loc * V)),
    length xs < fuel →
    runs (is_dlist this xs) (dl_assign_from fuel this this)
      (λ _ h, match last xs with None => is_dlist this [] h | Some x => is_cleared this x.1 h end).
  Proof. first [exact list_self_assign | apply list_self_assign | intros; eapply list_self_assign; eassumption]. Qed.

  (** erase(first, last) of a non-empty range [i, j): it frees all of the range but
     its last element, which stays in the list; last is returned. *)
  Theorem C31_list_erase_range_partial :
    ∀ fuel this (xs : list (loc * V)) i j,
    i < j ≤ length xs → length xs < fuel →
    runs (is_dlist this xs) (dl_erase_range fuel (dpos this xs i) (dpos this xs j))
      (λ p h, p = dpos this xs j ∧ is_dlist this (take i xs ++ drop (j - 1) xs) h).
  Proof. first [exact list_erase_range | apply list_erase_range | intros; eapply list_erase_range; eassumption]. Qed.

  (** erase(first, last) of a non-empty range [i, j): it frees all of the range but
     its last element, which stays in the list; last is returned. *)
  Theorem C31_list_erase_range_refuted :
    ∀ fuel this (xs : list (loc * V)) i j,
    i < j ≤ length xs → length xs < fuel →
    runs (is_dlist this xs) (dl_erase_range fuel (dpos this xs i) (dpos this xs j))
      (λ p h, p = dpos this xs j ∧ is_dlist this (take i xs ++ drop (j - 1) xs) h).
  Proof. first [exact list_erase_range | apply list_erase_range | intros; eapply list_erase_range; eassumption]. Qed.

  (** erase(p, p) on a non-empty list deletes everything from p to the end and then
     the header itself, as if it were a node. *)
  Theorem C31_list_erase_empty_range_refuted :
    ∀ fuel this (xs : list (loc * V)) i,
    i ≤ length xs → xs ≠ [] → length xs < fuel →
    fails (is_dlist this xs) (dl_erase_range fuel (dpos this xs i) (dpos this xs i)) BadCast.
  Proof. first [exact list_erase_empty_range | apply list_erase_empty_range | intros; eapply list_erase_empty_range; eassumption]. Qed.

  (** splice(pos, other) with a non-empty other: all of its nodes move, in order, before
     pos; other is a well-formed empty list. *)
  Theorem C32_list_splice_all_partial :
    ∀ this other (xs ys : list (loc * V)) i,
    i ≤ length xs → ys ≠ [] →
    runs (both (is_dlist this xs) (is_dlist other ys)) (dl_splice_all (dpos this xs i) other)
      (λ _ h, both (is_dlist this (take i xs ++ ys ++ drop i xs)) (is_dlist other []) h).
  Proof. first [exact list_splice_all | apply list_splice_all | intros; eapply list_splice_all; eassumption]. Qed.

  (** splice(pos, other, it) *)
  Theorem C32_list_splice_one_partial :
    ∀ this other (xs ys : list (loc * V)) i j x,
    i ≤ length xs → ys !! j = Some x →
    runs (both (is_dlist this xs) (is_dlist other ys)) (dl_splice_one (dpos this xs i) (dpos other ys j))
      (λ _ h, both (is_dlist this (take i xs ++ [x] ++ drop i xs))
                   (is_dlist other (take j ys ++ drop (S j) ys)) h).
  Proof. first [exact list_splice_one | apply list_splice_one | intros; eapply list_splice_one; eassumption]. Qed.

  (** splice(pos, other, first, last) of a non-empty range *)
  Theorem C32_list_splice_range_partial :
    ∀ this other (xs ys : list (loc * V)) i j k,
    i ≤ length xs → j < k ≤ length ys →
    runs (both (is_dlist this xs) (is_dlist other ys))
      (dl_splice_range (dpos this xs i) (dpos other ys j) (dpos other ys k))
      (λ _ h, both (is_dlist this (take i xs ++ take (k - j) (drop j ys) ++ drop i xs))
                   (is_dlist other (take j ys ++ drop k ys)) h).
  Proof. first [exact list_splice_range | apply list_splice_range | intros; eapply list_splice_range; eassumption]. Qed.

  (** splice(pos, *this, it) within one list, unless the element already precedes pos *)
  Theorem C32_list_splice_own_partial :
    ∀ this (xs : list (loc * V)) i j x,
    i ≤ length xs → xs !! j = Some x → i ≠ S j →
    runs (is_dlist this xs) (dl_splice_one (dpos this xs i) (dpos this xs j))
      (λ _ h, is_dlist this
        (if decide (i ≤ j) then take i xs ++ [x] ++ take (j - i) (drop i xs) ++ drop (S j) xs
         else take j xs ++ take (i - S j) (drop (S j) xs) ++ [x] ++ drop i xs) h).
  Proof. first [exact list_splice_own | apply list_splice_own | intros; eapply list_splice_own; eassumption]. Qed.

  (** splice(pos, *this, first, last) of a non-empty range to a position before it, or
     more than its own end behind it: exactly the range moves, nothing else changes its order. *)
  Theorem C32_list_splice_own_range_partial :
    ∀ this (xs : list (loc * V)) i j k,
    j < k ≤ length xs → i < j ∨ k < i ≤ length xs →
    runs (is_dlist this xs)
      (dl_splice_range (dpos this xs i) (dpos this xs j) (dpos this xs k))
      (λ _ h, is_dlist this
        (if decide (i < j)
         then take i xs ++ take (k - j) (drop j xs) ++ take (j - i) (drop i xs) ++ drop k xs
         else take j xs ++ take (i - k) (drop k xs) ++ take (k - j) (drop j xs) ++ drop i xs) h).
  Proof. first [exact list_splice_own_range | apply list_splice_own_range | intros; eapply list_splice_own_range; eassumption]. Qed.

  (** splice(pos, *this, pos, pos): nothing happens. *)
  Theorem C32_list_splice_own_nothing_partial :
    ∀ this (xs : list (loc * V)) i,
    i ≤ length xs →
    runs (is_dlist this xs)
      (dl_splice_range (dpos this xs i) (dpos this xs i) (dpos this xs i))
      (λ _ h, is_dlist this xs h).
  Proof. first [exact list_splice_own_nothing | apply list_splice_own_nothing | intros; eapply list_splice_own_nothing; eassumption]. Qed.

  (** splice(pos, other) with an empty other, and any splice of the empty range at
     other's end: the position's list then ends at other's header; iterating it reads that
     header as a node. *)
  Theorem C32_list_splice_empty_refuted :
    ∀ fuel this other (xs : list (loc * V)) i,
    i ≤ length xs → length xs < fuel →
    fails (both (is_dlist this xs) (is_dlist (V:=V) other []))
      (dl_splice_all (dpos this xs i) other ;! dl_contents fuel this) BadCast.
  Proof. first [exact list_splice_empty | apply list_splice_empty | intros; eapply list_splice_empty; eassumption]. Qed.

  (** splice(pos, *this, it) where the element already precedes pos: it is unlinked
     and leaked. *)
  Theorem C32_list_splice_in_place_refuted :
    ∀ this (xs : list (loc * V)) j l v,
    xs !! j = Some (l, v) →
    runs (is_dlist this xs) (dl_splice_one (dpos this xs (S j)) (dpos this xs j))
      (λ _ h, both (is_dlist this (take j xs ++ drop (S j) xs))
        (λ h', h' = {[ l := DCell (Some l) (Some l) (DLive v) ]}) h).
  Proof. first [exact list_splice_in_place | apply list_splice_in_place | intros; eapply list_splice_in_place; eassumption]. Qed.

  (** splice(pos, *this, first, pos), a non-empty range that is already in place: the
     whole range is unlinked; its nodes are still allocated and belong to no list. *)
  Theorem C32_list_splice_range_in_place_refuted :
    ∀ this (xs : list (loc * V)) j k,
    j < k ≤ length xs →
    runs (is_dlist this xs)
      (dl_splice_range (dpos this xs k) (dpos this xs j) (dpos this xs k))
      (λ _ h, both (is_dlist this (take j xs ++ drop k xs))
        (λ h', dom h' = list_to_set ((take (k - j) (drop j xs)).*1)) h).
  Proof. first [exact list_splice_range_in_place | apply list_splice_range_in_place | intros; eapply list_splice_range_in_place; eassumption]. Qed.

  (** splice(pos, *this, it, it), an empty range, with pos before it: the elements from
     pos up to it are unlinked; their nodes are still allocated and belong to no list. *)
  Theorem C32_list_splice_own_empty_behind_refuted :
    ∀ this (xs : list (loc * V)) i j,
    i < j ≤ length xs →
    runs (is_dlist this xs)
      (dl_splice_range (dpos this xs i) (dpos this xs j) (dpos this xs j))
      (λ _ h, both (is_dlist this (take i xs ++ drop j xs))
        (λ h', dom h' = list_to_set ((take (j - i) (drop i xs)).*1)) h).
  Proof. first [exact list_splice_own_empty_behind | apply list_splice_own_empty_behind | intros; eapply list_splice_own_empty_behind; eassumption]. Qed.

  (** splice(pos, *this, it, it) with it before pos: iterating the list afterwards never
     reaches end(). *)
  Theorem C32_list_splice_own_empty_before_refuted :
    ∀ fuel this (xs : list (loc * V)) i j,
    j < i ≤ length xs →
    hangs (is_dlist this xs)
      (dl_splice_range (dpos this xs i) (dpos this xs j) (dpos this xs j) ;! dl_contents fuel this).
  Proof. first [exact list_splice_own_empty_before | apply list_splice_own_empty_before | intros; eapply list_splice_own_empty_before; eassumption]. Qed.

  (** splice(pos, other, it, it), an empty range anywhere in another list: iterating the
     list afterwards runs on into other and reads other's header as a node. *)
  Theorem C32_list_splice_empty_range_refuted :
    ∀ fuel this other (xs ys : list (loc * V)) i k,
    i ≤ length xs → k ≤ length ys → length xs + length ys < fuel →
    fails (both (is_dlist this xs) (is_dlist other ys))
      (dl_splice_range (dpos this xs i) (dpos other ys k) (dpos other ys k) ;! dl_contents fuel this) BadCast.
  Proof. first [exact list_splice_empty_range | apply list_splice_empty_range | intros; eapply list_splice_empty_range; eassumption]. Qed.

  (** merge of two sorted lists: the destination holds the nodes of both (same addresses,
     same values), in the order of the specification's [merge_into]; the source is a
     well-formed empty list. *)
  Theorem C33_list_merge :
    ∀ cmp fuel this other (xs ys : list (loc * V)),
    length xs + 2 * length ys < fuel → dsorted cmp ys.*2 →
    runs (both (is_dlist this xs) (is_dlist other ys)) (dl_merge cmp fuel this other)
      (λ _ h, both (is_dlist this (merge_into (λ z1 z2, cmp z1.2 z2.2) xs ys)) (is_dlist other []) h).
  Proof. first [exact list_merge | apply list_merge | intros; eapply list_merge; eassumption]. Qed.

  (** and for a strict weak order that is the sorted, stable merge: all nodes of both lists,
     no element before a smaller one, equivalent ones in their old order with those of
     the destination first. *)
  Theorem C33_list_merge_stable :
    ∀ cmp fuel this other (xs ys : list (loc * V)),
    weak_order cmp → dsorted cmp xs.*2 → dsorted cmp ys.*2 → length xs + 2 * length ys < fuel →
    runs (both (is_dlist this xs) (is_dlist other ys)) (dl_merge cmp fuel this other)
      (λ _ h, ∃ rs, stable_merge (λ z1 z2, cmp z1.2 z2.2) xs ys rs ∧
        stable_merge cmp xs.*2 ys.*2 rs.*2 ∧ both (is_dlist this rs) (is_dlist other []) h).
  Proof. first [exact list_merge_stable | apply list_merge_stable | intros; eapply list_merge_stable; eassumption]. Qed.

  (** swap of two lists that are not both empty *)
  Theorem C34_list_swap_partial :
    ∀ a b (xs ys : list (loc * V)),
    xs ≠ [] ∨ ys ≠ [] →
    runs (both (is_dlist a xs) (is_dlist b ys)) (dl_swap rfirst a b)
      (λ _ h, both (is_dlist a ys) (is_dlist b xs) h).
  Proof. first [exact list_swap | apply list_swap | intros; eapply list_swap; eassumption]. Qed.

  (** swap of two empty lists, in both orders of evaluation: the first one's header
     ends up linked to the second one's, so that what is pushed to it appears in the other
     list, reading which then reads a header as a node. *)
  Theorem C34_list_swap_empty_refuted :
    ∀ a b fuel v,
    1 < fuel →
    fails (both (is_dlist (V:=V) a []) (is_dlist (V:=V) b []))
      (dl_swap rfirst a b ;! dl_push_back a (DExt v) ;! dl_contents fuel b) BadCast.
  Proof. first [exact list_swap_empty | apply list_swap_empty | intros; eapply list_swap_empty; eassumption]. Qed.

  (** resize(n, x), n not 0: surviving nodes keep their addresses; x may be an
     element of the list. *)
  Theorem C35_list_resize_partial :
    ∀ fuel this (xs : list (loc * V)) n r v,
    n ≠ 0 → length xs < fuel → n < fuel → drefers xs r v →
    runs (is_dlist this xs) (dl_resize fuel this n r)
      (λ _ h, ∃ zs, zs.*2 = replicate (n - length xs) v ∧ is_dlist this (take n xs ++ zs) h).
  Proof. first [exact list_resize | apply list_resize | intros; eapply list_resize; eassumption]. Qed.

  (** resize(0) changes nothing. *)
  Theorem C35_list_resize_0_refuted :
    ∀ fuel this (xs : list (loc * V)) r,
    length xs < fuel →
    runs (is_dlist this xs) (dl_resize fuel this 0 r) (λ _ h, is_dlist this xs h).
  Proof. first [exact list_resize_0 | apply list_resize_0 | intros; eapply list_resize_0; eassumption]. Qed.

  (** remove(x) with x an element of the list that is not the last one: x is deleted
     and then read. *)
  Theorem C60_list_remove_own_refuted :
    ∀ fuel this (xs : list (loc * V)) i l v,
    xs !! i = Some (l, v) → S i < length xs → length xs < fuel → eqb v v = true →
    fails (is_dlist this xs) (dl_remove eqb fuel this (DNode l)) Dangling.
  Proof. first [exact list_remove_own | apply list_remove_own | intros; eapply list_remove_own; eassumption]. Qed.

  (** ... the last element may be given; then exactly the elements equal to it go. *)
  Theorem C60_list_remove_own_last_partial :
    ∀ fuel this (xs : list (loc * V)) l v,
    last xs = Some (l, v) → length xs < fuel →
    runs (is_dlist this xs) (dl_remove eqb fuel this (DNode l))
      (λ _ h, is_dlist this (filter (λ x, eqb x.2 v = false) xs) h).
  Proof. first [exact list_remove_own_last | apply list_remove_own_last | intros; eapply list_remove_own_last; eassumption]. Qed.

End list.

Print Assumptions C29_list_basic_history.
Print Assumptions C29_list_basic_reaches.
Print Assumptions C29_list_history.
Print Assumptions C30_list_history_partial.
Print Assumptions C31_list_history_partial.
Print Assumptions C32_list_history_partial.
Print Assumptions C33_list_history.
Print Assumptions C34_list_history_partial.
Print Assumptions C35_list_history_partial.
Print Assumptions C29_list_reaches.
Print Assumptions C30_list_reaches_partial.
Print Assumptions C32_list_reaches_partial.
Print Assumptions C33_list_reaches.
Print Assumptions C34_list_reaches_partial.
Print Assumptions C35_list_reaches_partial.
Print Assumptions C29_list_insert.
Print Assumptions C29_list_erase.
Print Assumptions C29_list_remove.
Print Assumptions C29_list_remove_if.
Print Assumptions C29_list_unique.
Print Assumptions C29_list_reverse.
Print Assumptions C29_list_copy.
Print Assumptions C29_list_destroy.
Print Assumptions C30_list_clear_partial.
Print Assumptions C30_list_cleared_destroy_partial.
Print Assumptions C30_list_push_after_clear_refuted.
Print Assumptions C07_list_self_assign_refuted.
Print Assumptions C31_list_erase_range_partial.
Print Assumptions C31_list_erase_range_refuted.
Print Assumptions C31_list_erase_empty_range_refuted.
Print Assumptions C32_list_splice_all_partial.
Print Assumptions C32_list_splice_one_partial.
Print Assumptions C32_list_splice_range_partial.
Print Assumptions C32_list_splice_own_partial.
Print Assumptions C32_list_splice_own_range_partial.
Print Assumptions C32_list_splice_own_nothing_partial.
Print Assumptions C32_list_splice_empty_refuted.
Print Assumptions C32_list_splice_in_place_refuted.
Print Assumptions C32_list_splice_range_in_place_refuted.
Print Assumptions C32_list_splice_own_empty_behind_refuted.
Print Assumptions C32_list_splice_own_empty_before_refuted.
Print Assumptions C32_list_splice_empty_range_refuted.
Print Assumptions C33_list_merge.
Print Assumptions C33_list_merge_stable.
Print Assumptions C34_list_swap_partial.
Print Assumptions C34_list_swap_empty_refuted.
Print Assumptions C35_list_resize_partial.
Print Assumptions C35_list_resize_0_refuted.
Print Assumptions C60_list_remove_own_refuted.
Print Assumptions C60_list_remove_own_last_partial.
