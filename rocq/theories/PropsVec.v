(** GENERATED by tools/genprops.py from VecRuns.v: property theorems only.
    Every proof is the lemma of the same statement proved there. *)
From Verif Require Import VecSpec VecRuns.

Section vector.
  Context {V : Type} `{Allocator (list (option V))} (dflt : V) (eqb : V → V → bool).

  (** Whole programs on two vectors: every history whose calls stay within
     [ve_ok] (erase(p,p) only at the end; insert(pos, n, v[j]) with j >= pos only if it
     reallocates) observes exactly what the abstract sequences and capacities prescribe,
     has no undefined behaviour - so constructors run only on raw slots, destructors only
     on live objects, buffers are released only when empty - and leaves no memory.
     Missing: the calls excluded by [ve_ok], on which the code is wrong (see _refuted). *)
  Theorem C14_vec_history :
    ∀ ops,
    v_correct v_new v_destroy (ve_step dflt eqb) ([], 0) (ve_spec_ok dflt eqb) (λ _, True) ops.
  Proof. first [exact vec_history | apply vec_history | intros; eapply vec_history; eassumption]. Qed.

  (** Whole programs on two vectors: every history whose calls stay within
     [ve_ok] (erase(p,p) only at the end; insert(pos, n, v[j]) with j >= pos only if it
     reallocates) observes exactly what the abstract sequences and capacities prescribe,
     has no undefined behaviour - so constructors run only on raw slots, destructors only
     on live objects, buffers are released only when empty - and leaves no memory.
     Missing: the calls excluded by [ve_ok], on which the code is wrong (see _refuted). *)
  Theorem C15_vec_history :
    ∀ ops,
    v_correct v_new v_destroy (ve_step dflt eqb) ([], 0) (ve_spec_ok dflt eqb) (λ _, True) ops.
  Proof. first [exact vec_history | apply vec_history | intros; eapply vec_history; eassumption]. Qed.

  (** Whole programs on two vectors: every history whose calls stay within
     [ve_ok] (erase(p,p) only at the end; insert(pos, n, v[j]) with j >= pos only if it
     reallocates) observes exactly what the abstract sequences and capacities prescribe,
     has no undefined behaviour - so constructors run only on raw slots, destructors only
     on live objects, buffers are released only when empty - and leaves no memory.
     Missing: the calls excluded by [ve_ok], on which the code is wrong (see _refuted). *)
  Theorem C16_vec_history_partial :
    ∀ ops,
    v_correct v_new v_destroy (ve_step dflt eqb) ([], 0) (ve_spec_ok dflt eqb) (λ _, True) ops.
  Proof. first [exact vec_history | apply vec_history | intros; eapply vec_history; eassumption]. Qed.

  (** Whole programs on two vectors: every history whose calls stay within
     [ve_ok] (erase(p,p) only at the end; insert(pos, n, v[j]) with j >= pos only if it
     reallocates) observes exactly what the abstract sequences and capacities prescribe,
     has no undefined behaviour - so constructors run only on raw slots, destructors only
     on live objects, buffers are released only when empty - and leaves no memory.
     Missing: the calls excluded by [ve_ok], on which the code is wrong (see _refuted). *)
  Theorem C17_vec_history_partial :
    ∀ ops,
    v_correct v_new v_destroy (ve_step dflt eqb) ([], 0) (ve_spec_ok dflt eqb) (λ _, True) ops.
  Proof. first [exact vec_history | apply vec_history | intros; eapply vec_history; eassumption]. Qed.

  (** Whole programs on two vectors: every history whose calls stay within
     [ve_ok] (erase(p,p) only at the end; insert(pos, n, v[j]) with j >= pos only if it
     reallocates) observes exactly what the abstract sequences and capacities prescribe,
     has no undefined behaviour - so constructors run only on raw slots, destructors only
     on live objects, buffers are released only when empty - and leaves no memory.
     Missing: the calls excluded by [ve_ok], on which the code is wrong (see _refuted). *)
  Theorem C18_vec_history :
    ∀ ops,
    v_correct v_new v_destroy (ve_step dflt eqb) ([], 0) (ve_spec_ok dflt eqb) (λ _, True) ops.
  Proof. first [exact vec_history | apply vec_history | intros; eapply vec_history; eassumption]. Qed.

  (** After every such history, each vector owns one buffer of the prescribed
     capacity in which exactly the first size() slots hold live objects, with the
     values of the abstract sequence; there is no other memory. *)
  Theorem C14_vec_reaches :
    ∀ ops,
    v_reaches v_new (ve_step dflt eqb) ([], 0) (ve_spec_ok dflt eqb)
      (λ v (s : ve_state V) h, v_capacity v = s.2 ∧ is_vec v s.1 h) ops.
  Proof. first [exact vec_reaches | apply vec_reaches | intros; eapply vec_reaches; eassumption]. Qed.

  (** After every such history, each vector owns one buffer of the prescribed
     capacity in which exactly the first size() slots hold live objects, with the
     values of the abstract sequence; there is no other memory. *)
  Theorem C15_vec_reaches :
    ∀ ops,
    v_reaches v_new (ve_step dflt eqb) ([], 0) (ve_spec_ok dflt eqb)
      (λ v (s : ve_state V) h, v_capacity v = s.2 ∧ is_vec v s.1 h) ops.
  Proof. first [exact vec_reaches | apply vec_reaches | intros; eapply vec_reaches; eassumption]. Qed.

  (** After every such history, each vector owns one buffer of the prescribed
     capacity in which exactly the first size() slots hold live objects, with the
     values of the abstract sequence; there is no other memory. *)
  Theorem C18_vec_reaches :
    ∀ ops,
    v_reaches v_new (ve_step dflt eqb) ([], 0) (ve_spec_ok dflt eqb)
      (λ v (s : ve_state V) h, v_capacity v = s.2 ∧ is_vec v s.1 h) ops.
  Proof. first [exact vec_reaches | apply vec_reaches | intros; eapply vec_reaches; eassumption]. Qed.

  (** The same for the full specification, for histories without erase of an empty
     range and without insert of an own element. *)
  Theorem C14_vec_history_all :
    ∀ ops,
    Forall (λ o, match o.2 with EEraseRange i j => i < j | EInsertOwn _ _ _ => False | _ => True end) ops →
    v_correct v_new v_destroy (ve_step dflt eqb) ([], 0) (ve_spec dflt eqb) (λ _, True) ops.
  Proof. first [exact vec_history_all | apply vec_history_all | intros; eapply vec_history_all; eassumption]. Qed.

  (** The same for the full specification, for histories without erase of an empty
     range and without insert of an own element. *)
  Theorem C15_vec_history_all :
    ∀ ops,
    Forall (λ o, match o.2 with EEraseRange i j => i < j | EInsertOwn _ _ _ => False | _ => True end) ops →
    v_correct v_new v_destroy (ve_step dflt eqb) ([], 0) (ve_spec dflt eqb) (λ _, True) ops.
  Proof. first [exact vec_history_all | apply vec_history_all | intros; eapply vec_history_all; eassumption]. Qed.

  (** The same for the full specification, for histories without erase of an empty
     range and without insert of an own element. *)
  Theorem C18_vec_history_all :
    ∀ ops,
    Forall (λ o, match o.2 with EEraseRange i j => i < j | EInsertOwn _ _ _ => False | _ => True end) ops →
    v_correct v_new v_destroy (ve_step dflt eqb) ([], 0) (ve_spec dflt eqb) (λ _, True) ops.
  Proof. first [exact vec_history_all | apply vec_history_all | intros; eapply vec_history_all; eassumption]. Qed.

  (** push_back appends; the argument may refer to an element of the vector
     itself, also when the call reallocates. Below capacity the buffer stays. *)
  Theorem C14_vec_push_back_ok :
    ∀ fuel v (xs : list V) r x,
    vrefers v xs r x → length xs + 1 < fuel →
    runs (is_vec v xs) (v_push_back fuel v r)
      (λ v' h, v_capacity v' = grown xs (v_capacity v) 1 ∧
         (length xs < v_capacity v → v_buf v' = v_buf v) ∧ is_vec v' (xs ++ [x]) h).
  Proof. first [exact vec_push_back_ok | apply vec_push_back_ok | intros; eapply vec_push_back_ok; eassumption]. Qed.

  (** push_back appends; the argument may refer to an element of the vector
     itself, also when the call reallocates. Below capacity the buffer stays. *)
  Theorem C17_vec_push_back_ok :
    ∀ fuel v (xs : list V) r x,
    vrefers v xs r x → length xs + 1 < fuel →
    runs (is_vec v xs) (v_push_back fuel v r)
      (λ v' h, v_capacity v' = grown xs (v_capacity v) 1 ∧
         (length xs < v_capacity v → v_buf v' = v_buf v) ∧ is_vec v' (xs ++ [x]) h).
  Proof. first [exact vec_push_back_ok | apply vec_push_back_ok | intros; eapply vec_push_back_ok; eassumption]. Qed.

  (** push_back appends; the argument may refer to an element of the vector
     itself, also when the call reallocates. Below capacity the buffer stays. *)
  Theorem C18_vec_push_back_ok :
    ∀ fuel v (xs : list V) r x,
    vrefers v xs r x → length xs + 1 < fuel →
    runs (is_vec v xs) (v_push_back fuel v r)
      (λ v' h, v_capacity v' = grown xs (v_capacity v) 1 ∧
         (length xs < v_capacity v → v_buf v' = v_buf v) ∧ is_vec v' (xs ++ [x]) h).
  Proof. first [exact vec_push_back_ok | apply vec_push_back_ok | intros; eapply vec_push_back_ok; eassumption]. Qed.

  (** pop_back destroys the last element. *)
  Theorem C14_vec_pop_back_ok :
    ∀ v (xs : list V) x,
    runs (is_vec v (xs ++ [x])) (v_pop_back v)
      (λ v' h, v_capacity v' = v_capacity v ∧ v_buf v' = v_buf v ∧ is_vec v' xs h).
  Proof. first [exact vec_pop_back_ok | apply vec_pop_back_ok | intros; eapply vec_pop_back_ok; eassumption]. Qed.

  (** insert(pos, n, x) inserts n copies of x before pos and returns pos. [r] may
     refer to an own element unless that element is shifted in place. Within the
     capacity the buffer stays. Missing: own elements at or after pos when the call does
     not reallocate (refuted below). *)
  Theorem C14_vec_insert_n_ok :
    ∀ fuel v (xs : list V) pos n r x,
    pos ≤ length xs → vrefers v xs r x → length xs + n < fuel →
    match r with VExt _ => True | VSlot _ j => n = 0 ∨ j < pos ∨ v_capacity v < length xs + n end →
    runs (is_vec v xs) (v_insert_n fuel v pos n r)
      (λ '(v', i) h, i = pos ∧ v_capacity v' = grown xs (v_capacity v) n ∧
         (length xs + n ≤ v_capacity v → v_buf v' = v_buf v) ∧
         is_vec v' (take pos xs ++ replicate n x ++ drop pos xs) h).
  Proof. first [exact vec_insert_n_ok | apply vec_insert_n_ok | intros; eapply vec_insert_n_ok; eassumption]. Qed.

  (** insert(pos, n, x) inserts n copies of x before pos and returns pos. [r] may
     refer to an own element unless that element is shifted in place. Within the
     capacity the buffer stays. Missing: own elements at or after pos when the call does
     not reallocate (refuted below). *)
  Theorem C17_vec_insert_n_ok_partial :
    ∀ fuel v (xs : list V) pos n r x,
    pos ≤ length xs → vrefers v xs r x → length xs + n < fuel →
    match r with VExt _ => True | VSlot _ j => n = 0 ∨ j < pos ∨ v_capacity v < length xs + n end →
    runs (is_vec v xs) (v_insert_n fuel v pos n r)
      (λ '(v', i) h, i = pos ∧ v_capacity v' = grown xs (v_capacity v) n ∧
         (length xs + n ≤ v_capacity v → v_buf v' = v_buf v) ∧
         is_vec v' (take pos xs ++ replicate n x ++ drop pos xs) h).
  Proof. first [exact vec_insert_n_ok | apply vec_insert_n_ok | intros; eapply vec_insert_n_ok; eassumption]. Qed.

  (** insert(pos, n, x) inserts n copies of x before pos and returns pos. [r] may
     refer to an own element unless that element is shifted in place. Within the
     capacity the buffer stays. Missing: own elements at or after pos when the call does
     not reallocate (refuted below). *)
  Theorem C18_vec_insert_n_ok :
    ∀ fuel v (xs : list V) pos n r x,
    pos ≤ length xs → vrefers v xs r x → length xs + n < fuel →
    match r with VExt _ => True | VSlot _ j => n = 0 ∨ j < pos ∨ v_capacity v < length xs + n end →
    runs (is_vec v xs) (v_insert_n fuel v pos n r)
      (λ '(v', i) h, i = pos ∧ v_capacity v' = grown xs (v_capacity v) n ∧
         (length xs + n ≤ v_capacity v → v_buf v' = v_buf v) ∧
         is_vec v' (take pos xs ++ replicate n x ++ drop pos xs) h).
  Proof. first [exact vec_insert_n_ok | apply vec_insert_n_ok | intros; eapply vec_insert_n_ok; eassumption]. Qed.

  (** insert(pos, first, last). *)
  Theorem C14_vec_insert_range_ok :
    ∀ fuel v (xs : list V) pos vs,
    pos ≤ length xs → length xs + length vs < fuel →
    runs (is_vec v xs) (v_insert_range fuel v pos (RVals vs))
      (λ '(v', i) h, i = pos ∧ v_capacity v' = grown xs (v_capacity v) (length vs) ∧
         (length xs + length vs ≤ v_capacity v → v_buf v' = v_buf v) ∧
         is_vec v' (take pos xs ++ vs ++ drop pos xs) h).
  Proof. first [exact vec_insert_range_ok | apply vec_insert_range_ok | intros; eapply vec_insert_range_ok; eassumption]. Qed.

  (** insert(pos, first, last). *)
  Theorem C18_vec_insert_range_ok :
    ∀ fuel v (xs : list V) pos vs,
    pos ≤ length xs → length xs + length vs < fuel →
    runs (is_vec v xs) (v_insert_range fuel v pos (RVals vs))
      (λ '(v', i) h, i = pos ∧ v_capacity v' = grown xs (v_capacity v) (length vs) ∧
         (length xs + length vs ≤ v_capacity v → v_buf v' = v_buf v) ∧
         is_vec v' (take pos xs ++ vs ++ drop pos xs) h).
  Proof. first [exact vec_insert_range_ok | apply vec_insert_range_ok | intros; eapply vec_insert_range_ok; eassumption]. Qed.

  (** erase(first, last) of a non-empty range (or at the end) removes exactly these
     elements, returns first and stays in the buffer. *)
  Theorem C14_vec_erase_range_ok :
    ∀ fuel v (xs : list V) i j,
    i ≤ j ≤ length xs → i < j ∨ i = length xs → length xs < fuel →
    runs (is_vec v xs) (v_erase_range fuel v i j)
      (λ '(v', k) h, k = i ∧ v_capacity v' = v_capacity v ∧ v_buf v' = v_buf v ∧
         is_vec v' (take i xs ++ drop j xs) h).
  Proof. first [exact vec_erase_range_ok | apply vec_erase_range_ok | intros; eapply vec_erase_range_ok; eassumption]. Qed.

  (** erase(first, last) of a non-empty range (or at the end) removes exactly these
     elements, returns first and stays in the buffer. *)
  Theorem C16_vec_erase_range_ok_partial :
    ∀ fuel v (xs : list V) i j,
    i ≤ j ≤ length xs → i < j ∨ i = length xs → length xs < fuel →
    runs (is_vec v xs) (v_erase_range fuel v i j)
      (λ '(v', k) h, k = i ∧ v_capacity v' = v_capacity v ∧ v_buf v' = v_buf v ∧
         is_vec v' (take i xs ++ drop j xs) h).
  Proof. first [exact vec_erase_range_ok | apply vec_erase_range_ok | intros; eapply vec_erase_range_ok; eassumption]. Qed.

  (** resize(n, x), x possibly an own element. *)
  Theorem C14_vec_resize_ok :
    ∀ fuel v (xs : list V) n r x,
    vrefers v xs r x → length xs + n < fuel →
    runs (is_vec v xs) (v_resize_to dflt fuel v n r)
      (λ v' h, v_size v' = n ∧ (n ≤ v_capacity v → v_buf v' = v_buf v) ∧
         v_capacity v' = grown xs (v_capacity v) (n - length xs) ∧
         is_vec v' (take n xs ++ replicate (n - length xs) x) h).
  Proof. first [exact vec_resize_ok | apply vec_resize_ok | intros; eapply vec_resize_ok; eassumption]. Qed.

  (** resize(n, x), x possibly an own element. *)
  Theorem C18_vec_resize_ok :
    ∀ fuel v (xs : list V) n r x,
    vrefers v xs r x → length xs + n < fuel →
    runs (is_vec v xs) (v_resize_to dflt fuel v n r)
      (λ v' h, v_size v' = n ∧ (n ≤ v_capacity v → v_buf v' = v_buf v) ∧
         v_capacity v' = grown xs (v_capacity v) (n - length xs) ∧
         is_vec v' (take n xs ++ replicate (n - length xs) x) h).
  Proof. first [exact vec_resize_ok | apply vec_resize_ok | intros; eapply vec_resize_ok; eassumption]. Qed.

  (** reserve(n): capacity() becomes max(capacity(), n), the contents stay; below the
     capacity nothing happens at all. *)
  Theorem C18_vec_reserve_ok :
    ∀ fuel v (xs : list V) n,
    length xs < fuel →
    runs (is_vec v xs) (v_reserve fuel v n)
      (λ v' h, v_capacity v' = v_capacity v `max` n ∧ (n < v_capacity v → v' = v) ∧
         is_vec v' xs h).
  Proof. first [exact vec_reserve_ok | apply vec_reserve_ok | intros; eapply vec_reserve_ok; eassumption]. Qed.

  (** size() <= capacity() for every vector object. *)
  Theorem C18_vec_size_capacity :
    ∀ v (xs : list V) h,
 is_vec v xs h → v_size v = length xs ∧ v_size v ≤ v_capacity v.
  Proof. first [exact vec_size_capacity | apply vec_size_capacity | intros; eapply vec_size_capacity; eassumption]. Qed.

  (** assignment copies the elements and leaves the source unchanged. *)
  Theorem C14_vec_assign_ok :
    ∀ fuel v (xs : list V) w ys,
    length xs + length ys < fuel →
    runs (both (is_vec v xs) (is_vec w ys)) (v_assign fuel v w)
      (λ v' h, v_capacity v' = v_capacity v `max` v_capacity w ∧
         both (is_vec v' ys) (is_vec w ys) h).
  Proof. first [exact vec_assign_ok | apply vec_assign_ok | intros; eapply vec_assign_ok; eassumption]. Qed.

  (** assignment copies the elements and leaves the source unchanged. *)
  Theorem C15_vec_assign_ok :
    ∀ fuel v (xs : list V) w ys,
    length xs + length ys < fuel →
    runs (both (is_vec v xs) (is_vec w ys)) (v_assign fuel v w)
      (λ v' h, v_capacity v' = v_capacity v `max` v_capacity w ∧
         both (is_vec v' ys) (is_vec w ys) h).
  Proof. first [exact vec_assign_ok | apply vec_assign_ok | intros; eapply vec_assign_ok; eassumption]. Qed.

  (** copy construction allocates exactly size() slots. *)
  Theorem C14_vec_copy_ok :
    ∀ fuel v (xs : list V),
    length xs < fuel →
    runs (is_vec v xs) (v_copy fuel v)
      (λ v' h, v_capacity v' = length xs ∧ both (is_vec v xs) (is_vec v' xs) h).
  Proof. first [exact vec_copy_ok | apply vec_copy_ok | intros; eapply vec_copy_ok; eassumption]. Qed.

  (** copy construction allocates exactly size() slots. *)
  Theorem C15_vec_copy_ok :
    ∀ fuel v (xs : list V),
    length xs < fuel →
    runs (is_vec v xs) (v_copy fuel v)
      (λ v' h, v_capacity v' = length xs ∧ both (is_vec v xs) (is_vec v' xs) h).
  Proof. first [exact vec_copy_ok | apply vec_copy_ok | intros; eapply vec_copy_ok; eassumption]. Qed.

  (** the destructor destroys every element and releases the buffer. *)
  Theorem C15_vec_destroy_ok :
    ∀ fuel v (xs : list V),
    length xs < fuel → runs (is_vec v xs) (v_destroy fuel v) (λ _ h, nothing h).
  Proof. first [exact vec_destroy_ok | apply vec_destroy_ok | intros; eapply vec_destroy_ok; eassumption]. Qed.

  (** clear destroys every element and keeps the buffer. *)
  Theorem C15_vec_clear_ok :
    ∀ fuel v (xs : list V),
    length xs < fuel →
    runs (is_vec v xs) (v_clear fuel v)
      (λ v' h, v_capacity v' = v_capacity v ∧ v_buf v' = v_buf v ∧ is_vec v' [] h).
  Proof. first [exact vec_clear_ok | apply vec_clear_ok | intros; eapply vec_clear_ok; eassumption]. Qed.

  (** operator[] reads and operator[] = writes exactly the i-th element. *)
  Theorem C14_vec_at_ok :
    ∀ v (xs : list V) i x,
    xs !! i = Some x → runs (is_vec v xs) (v_at v i) (λ y h, y = x ∧ is_vec v xs h).
  Proof. first [exact vec_at_ok | apply vec_at_ok | intros; eapply vec_at_ok; eassumption]. Qed.

  (** erase(p, p) in front of the end: the loop that closes the gap constructs
     every following element on top of itself. *)
  Theorem C16_vec_erase_empty_fails_refuted :
    ∀ fuel v (xs : list V) i,
    i < length xs → 1 < fuel → fails (is_vec v xs) (v_erase_range fuel v i i) LiveOverwrite.
  Proof. first [exact vec_erase_empty_fails | apply vec_erase_empty_fails | intros; eapply vec_erase_empty_fails; eassumption]. Qed.

  (** insert(pos, n, v[j]) without reallocation, pos <= j < pos + n: the referenced
     element has been moved away and its slot is raw when it is copied. *)
  Theorem C17_vec_insert_own_fails_refuted :
    ∀ fuel v (xs : list V) pos n j,
    pos ≤ j < length xs → j < pos + n → length xs + n ≤ v_capacity v → length xs < fuel →
    fails (is_vec v xs) (v_insert_n fuel v pos n (VSlot (v_buf v) j)) NoObject.
  Proof. first [exact vec_insert_own_fails | apply vec_insert_own_fails | intros; eapply vec_insert_own_fails; eassumption]. Qed.

  (** insert(pos, n, v[j]) without reallocation, j >= pos + n: the copies inserted
     are of the element n places before v[j]. *)
  Theorem C17_vec_insert_own_wrong_refuted :
    ∀ fuel v (xs : list V) pos n j y,
    0 < n → pos + n ≤ j < length xs → length xs + n ≤ v_capacity v → length xs + n < fuel →
    xs !! (j - n) = Some y →
    runs (is_vec v xs) (v_insert_n fuel v pos n (VSlot (v_buf v) j))
      (λ '(v', i) h, i = pos ∧ is_vec v' (take pos xs ++ replicate n y ++ drop pos xs) h).
  Proof. first [exact vec_insert_own_wrong | apply vec_insert_own_wrong | intros; eapply vec_insert_own_wrong; eassumption]. Qed.

  (** assigning a vector to itself empties it. *)
  Theorem C07_vec_self_assign_refuted :
    ∀ fuel v (xs : list V),
    length xs < fuel →
    runs (is_vec v xs) (v_assign_self fuel v) (λ v' h, is_vec v' [] h).
  Proof. first [exact vec_self_assign | apply vec_self_assign | intros; eapply vec_self_assign; eassumption]. Qed.

End vector.

Print Assumptions C14_vec_history.
Print Assumptions C15_vec_history.
Print Assumptions C16_vec_history_partial.
Print Assumptions C17_vec_history_partial.
Print Assumptions C18_vec_history.
Print Assumptions C14_vec_reaches.
Print Assumptions C15_vec_reaches.
Print Assumptions C18_vec_reaches.
Print Assumptions C14_vec_history_all.
Print Assumptions C15_vec_history_all.
Print Assumptions C18_vec_history_all.
Print Assumptions C14_vec_push_back_ok.
Print Assumptions C17_vec_push_back_ok.
Print Assumptions C18_vec_push_back_ok.
Print Assumptions C14_vec_pop_back_ok.
Print Assumptions C14_vec_insert_n_ok.
Print Assumptions C17_vec_insert_n_ok_partial.
Print Assumptions C18_vec_insert_n_ok.
Print Assumptions C14_vec_insert_range_ok.
Print Assumptions C18_vec_insert_range_ok.
Print Assumptions C14_vec_erase_range_ok.
Print Assumptions C16_vec_erase_range_ok_partial.
Print Assumptions C14_vec_resize_ok.
Print Assumptions C18_vec_resize_ok.
Print Assumptions C18_vec_reserve_ok.
Print Assumptions C18_vec_size_capacity.
Print Assumptions C14_vec_assign_ok.
Print Assumptions C15_vec_assign_ok.
Print Assumptions C14_vec_copy_ok.
Print Assumptions C15_vec_copy_ok.
Print Assumptions C15_vec_destroy_ok.
Print Assumptions C15_vec_clear_ok.
Print Assumptions C14_vec_at_ok.
Print Assumptions C16_vec_erase_empty_fails_refuted.
Print Assumptions C17_vec_insert_own_fails_refuted.
Print Assumptions C17_vec_insert_own_wrong_refuted.
Print Assumptions C07_vec_self_assign_refuted.
