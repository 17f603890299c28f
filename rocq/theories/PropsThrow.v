(** GENERATED by tools/genprops.py from ThrowRuns.v: property theorems only.
    Every proof is the lemma of the same statement proved there. *)
From Verif Require Import VecSpec FixedSpec ThrowSpec ThrowRuns.

Section throwing.
  Context {V : Type} `{Allocator (list (option V))} (dflt : V) (N : nat).

  (** push_back at full capacity, when copy number k + 1 throws: the exception leaves the
     vector as it was - members, contents, capacity - but the new buffer and the k elements
     copied into it stay in memory. Missing: without that buffer. *)
  Theorem C92_vec_push_back_grow_throws_partial :
    ∀ fuel v (xs : list V) r x k,
    vrefers v xs r x → length xs + 1 < fuel → v_capacity v = length xs → k ≤ length xs →
    runs (is_vec v xs) (xv_push_back fuel r v (Some k))
      (λ q h, q = XThrew v ∧ both (is_vec v xs) (lost_buffer (take k (xs ++ [x])) (length xs + 1 - k)) h).
  Proof. first [exact vec_push_back_grow_throws | apply vec_push_back_grow_throws | intros; eapply vec_push_back_grow_throws; eassumption]. Qed.

  (** insert of n values beyond the capacity. *)
  Theorem C92_vec_insert_n_grow_throws_partial :
    ∀ fuel v (xs : list V) pos n r x k,
    pos ≤ length xs → vrefers v xs r x → length xs + n < fuel →
    v_capacity v < length xs + n → k < length xs + n →
    runs (is_vec v xs) (xv_insert_n fuel pos n r v (Some k))
      (λ q h, q = XThrew v ∧
         both (is_vec v xs) (lost_buffer (take k (take pos xs ++ replicate n x ++ drop pos xs)) (length xs + n - k)) h).
  Proof. first [exact vec_insert_n_grow_throws | apply vec_insert_n_grow_throws | intros; eapply vec_insert_n_grow_throws; eassumption]. Qed.

  (** insert of a range beyond the capacity. *)
  Theorem C92_vec_insert_range_grow_throws_partial :
    ∀ fuel v (xs : list V) pos vs k,
    pos ≤ length xs → length xs + length vs < fuel →
    v_capacity v < length xs + length vs → k < length xs + length vs →
    runs (is_vec v xs) (xv_insert_range fuel pos (RVals vs) v (Some k))
      (λ q h, q = XThrew v ∧
         both (is_vec v xs) (lost_buffer (take k (take pos xs ++ vs ++ drop pos xs)) (length xs + length vs - k)) h).
  Proof. first [exact vec_insert_range_grow_throws | apply vec_insert_range_grow_throws | intros; eapply vec_insert_range_grow_throws; eassumption]. Qed.

  (** reserve. *)
  Theorem C92_vec_reserve_throws_partial :
    ∀ fuel v (xs : list V) n k,
    length xs < fuel → v_capacity v ≤ n → k < length xs →
    runs (is_vec v xs) (xv_reserve fuel n v (Some k))
      (λ q h, q = XThrew v ∧ both (is_vec v xs) (lost_buffer (take k xs) (n - k)) h).
  Proof. first [exact vec_reserve_throws | apply vec_reserve_throws | intros; eapply vec_reserve_throws; eassumption]. Qed.

  (** so even after the destructor of the vector that buffer, with live objects in it, is
     left over: push_back. *)
  Theorem C92_vec_push_back_leaks_refuted :
    ∀ fuel v (xs : list V) r x k,
    vrefers v xs r x → length xs + 1 < fuel → v_capacity v = length xs → k ≤ length xs →
    runs (is_vec v xs) (let! v' := caught (xv_push_back fuel r) v (Some k) in v_destroy fuel v')
      (λ _ h, lost_buffer (take k (xs ++ [x])) (length xs + 1 - k) h).
  Proof. first [exact vec_push_back_leaks | apply vec_push_back_leaks | intros; eapply vec_push_back_leaks; eassumption]. Qed.

  (** reserve. *)
  Theorem C92_vec_reserve_leaks_refuted :
    ∀ fuel v (xs : list V) n k,
    length xs < fuel → v_capacity v ≤ n → k < length xs →
    runs (is_vec v xs) (let! v' := caught (xv_reserve fuel n) v (Some k) in v_destroy fuel v')
      (λ _ h, lost_buffer (take k xs) (n - k) h).
  Proof. first [exact vec_reserve_leaks | apply vec_reserve_leaks | intros; eapply vec_reserve_leaks; eassumption]. Qed.

  (** push_back below the capacity, when the copy throws: last_ has been incremented, so
     the destructor of the vector destroys an object that was never constructed. *)
  Theorem C92_vec_push_back_torn_refuted :
    ∀ fuel v (xs : list V) r x,
    vrefers v xs r x → length xs < v_capacity v → length xs + 1 < fuel →
    fails (is_vec v xs) (let! v' := caught (xv_push_back fuel r) v (Some 0) in v_destroy fuel v') NoObject.
  Proof. first [exact vec_push_back_torn | apply vec_push_back_torn | intros; eapply vec_push_back_torn; eassumption]. Qed.

  (** insert of n values within the capacity, whichever of its copies throws (those that
     move the elements behind the position, or those of the value). *)
  Theorem C92_vec_insert_n_torn_refuted :
    ∀ fuel v (xs : list V) pos n r x k,
    pos ≤ length xs → 0 < n → vrefers v xs r x → length xs + n < fuel → length xs + n ≤ v_capacity v →
    match r with VExt _ => True | VSlot _ j => j < pos end →
    k < length xs - pos + n →
    fails (is_vec v xs) (let! v' := caught (xv_insert_n fuel pos n r) v (Some k) in v_destroy fuel v') NoObject.
  Proof. first [exact vec_insert_n_torn | apply vec_insert_n_torn | intros; eapply vec_insert_n_torn; eassumption]. Qed.

  (** insert of a range within the capacity. *)
  Theorem C92_vec_insert_range_torn_refuted :
    ∀ fuel v (xs : list V) pos vs k,
    pos ≤ length xs → vs ≠ [] → length xs + length vs < fuel → length xs + length vs ≤ v_capacity v →
    k < length xs - pos + length vs →
    fails (is_vec v xs) (let! v' := caught (xv_insert_range fuel pos (RVals vs)) v (Some k) in v_destroy fuel v') NoObject.
  Proof. first [exact vec_insert_range_torn | apply vec_insert_range_torn | intros; eapply vec_insert_range_torn; eassumption]. Qed.

  (** erase of a range that does not reach the end. *)
  Theorem C92_vec_erase_torn_refuted :
    ∀ fuel v (xs : list V) i j k,
    i < j ≤ length xs → k < length xs - j → length xs < fuel →
    fails (is_vec v xs) (let! v' := caught (xv_erase_range fuel i j) v (Some k) in v_destroy fuel v') NoObject.
  Proof. first [exact vec_erase_torn | apply vec_erase_torn | intros; eapply vec_erase_torn; eassumption]. Qed.

  (** assign(n, x). *)
  Theorem C92_vec_assign_n_torn_refuted :
    ∀ fuel v (xs : list V) n x k,
    k < n → length xs + n < fuel →
    fails (is_vec v xs) (let! v' := caught (xv_assign_n fuel n (VExt x)) v (Some k) in v_destroy fuel v') NoObject.
  Proof. first [exact vec_assign_n_torn | apply vec_assign_n_torn | intros; eapply vec_assign_n_torn; eassumption]. Qed.

  (** operator=. *)
  Theorem C92_vec_assign_torn_refuted :
    ∀ fuel v (xs : list V) other ys k,
    k < length ys → length xs + length ys < fuel →
    fails (both (is_vec v xs) (is_vec other ys))
      (let! v' := caught (xv_assign fuel other) v (Some k) in v_destroy fuel v') NoObject.
  Proof. first [exact vec_assign_torn | apply vec_assign_torn | intros; eapply vec_assign_torn; eassumption]. Qed.

  (** resize within the capacity. *)
  Theorem C92_vec_resize_torn_refuted :
    ∀ fuel v (xs : list V) n k,
    n ≤ v_capacity v → k < n - length xs → n < fuel →
    fails (is_vec v xs) (let! v' := caught (xv_resize dflt fuel n) v (Some k) in v_destroy fuel v') NoObject.
  Proof. first [exact vec_resize_torn | apply vec_resize_torn | intros; eapply vec_resize_torn; eassumption]. Qed.

  (** a constructor that throws leaves its buffer and the elements it has made behind - no
     destructor runs for an object whose constructor threw: vector(n, x). *)
  Theorem C92_vec_new_n_leaks_refuted :
    ∀ fuel v0 n x k,
    k < n → n < fuel →
    runs nothing (xv_new_n fuel n (VExt x) v0 (Some k))
      (λ q h, (∃ v, q = XThrew v) ∧ lost_buffer (replicate k x) (n - k) h).
  Proof. first [exact vec_new_n_leaks | apply vec_new_n_leaks | intros; eapply vec_new_n_leaks; eassumption]. Qed.

  (** the copy constructor. *)
  Theorem C92_vec_copy_leaks_refuted :
    ∀ fuel v0 v (xs : list V) k,
    k < length xs → length xs < fuel →
    runs (is_vec v xs) (xv_copy fuel v v0 (Some k))
      (λ q h, (∃ w, q = XThrew w) ∧ both (is_vec v xs) (lost_buffer (take k xs) (length xs - k)) h).
  Proof. first [exact vec_copy_leaks | apply vec_copy_leaks | intros; eapply vec_copy_leaks; eassumption]. Qed.

  (** fixed_vector: push_back when it is not full. *)
  Theorem C92_fvec_push_back_torn_refuted :
    ∀ fuel v (xs : list V) r x,
    frefers v xs r x → length xs < N → N < fuel →
    fails (is_fvec N v xs) (let! v' := caught (xf_push_back N r) v (Some 0) in fv_destroy fuel v') NoObject.
  Proof. first [exact fvec_push_back_torn | apply fvec_push_back_torn | intros; eapply fvec_push_back_torn; eassumption]. Qed.

  (** fixed_vector: insert of n values; the elements behind the position that still fit
     are copied, then as many values as fit. *)
  Theorem C92_fvec_insert_n_torn_refuted :
    ∀ fuel v (xs : list V) pos n r x k,
    pos ≤ length xs → 0 < n → frefers v xs r x → N < fuel →
    match r with VExt _ => True | VSlot _ j => j < pos ∨ pos = length xs end →
    k < (N - pos - n) `min` (length xs - pos) + n `min` (N - pos) →
    fails (is_fvec N v xs) (let! v' := caught (xf_insert_n N fuel pos n r) v (Some k) in fv_destroy fuel v') NoObject.
  Proof. first [exact fvec_insert_n_torn | apply fvec_insert_n_torn | intros; eapply fvec_insert_n_torn; eassumption]. Qed.

  (** fixed_vector: insert of a range. *)
  Theorem C92_fvec_insert_range_torn_refuted :
    ∀ fuel v (xs : list V) pos vs k,
    pos ≤ length xs → vs ≠ [] → N < fuel →
    k < (N - pos - length vs) `min` (length xs - pos) + length vs `min` (N - pos) →
    fails (is_fvec N v xs) (let! v' := caught (xf_insert_range N fuel pos (RVals vs)) v (Some k) in fv_destroy fuel v') NoObject.
  Proof. first [exact fvec_insert_range_torn | apply fvec_insert_range_torn | intros; eapply fvec_insert_range_torn; eassumption]. Qed.

  (** fixed_vector: erase of a range that does not reach the end. *)
  Theorem C92_fvec_erase_torn_refuted :
    ∀ fuel v (xs : list V) i j k,
    i < j ≤ length xs → k < length xs - j → N < fuel →
    fails (is_fvec N v xs) (let! v' := caught (xf_erase_range fuel i j) v (Some k) in fv_destroy fuel v') NoObject.
  Proof. first [exact fvec_erase_torn | apply fvec_erase_torn | intros; eapply fvec_erase_torn; eassumption]. Qed.

  (** fixed_vector: assign(n, x). *)
  Theorem C92_fvec_assign_n_torn_refuted :
    ∀ fuel v (xs : list V) n x k,
    k < n `min` N → N < fuel →
    fails (is_fvec N v xs) (let! v' := caught (xf_assign_n N fuel n (VExt x)) v (Some k) in fv_destroy fuel v') NoObject.
  Proof. first [exact fvec_assign_n_torn | apply fvec_assign_n_torn | intros; eapply fvec_assign_n_torn; eassumption]. Qed.

  (** fixed_vector: assign(first, last). *)
  Theorem C92_fvec_assign_range_torn_refuted :
    ∀ fuel v (xs : list V) vs k,
    k < length vs `min` N → N < fuel →
    fails (is_fvec N v xs) (let! v' := caught (xf_assign_range N fuel (RVals vs)) v (Some k) in fv_destroy fuel v') NoObject.
  Proof. first [exact fvec_assign_range_torn | apply fvec_assign_range_torn | intros; eapply fvec_assign_range_torn; eassumption]. Qed.

  (** fixed_vector: operator=. *)
  Theorem C92_fvec_assign_torn_refuted :
    ∀ fuel v (xs : list V) other ys k,
    k < length ys → N < fuel →
    fails (both (is_fvec N v xs) (is_fvec N other ys))
      (let! v' := caught (xf_assign fuel other) v (Some k) in fv_destroy fuel v') NoObject.
  Proof. first [exact fvec_assign_torn | apply fvec_assign_torn | intros; eapply fvec_assign_torn; eassumption]. Qed.

  (** fixed_vector: resize. *)
  Theorem C92_fvec_resize_torn_refuted :
    ∀ fuel v (xs : list V) n k,
    k < n `min` N - length xs → N < fuel →
    fails (is_fvec N v xs) (let! v' := caught (xf_resize N dflt fuel n) v (Some k) in fv_destroy fuel v') NoObject.
  Proof. first [exact fvec_resize_torn | apply fvec_resize_torn | intros; eapply fvec_resize_torn; eassumption]. Qed.

  (** When no copy throws, these functions are exactly those of the other claims, so the
     failures above come from the exceptions: vector. *)
  Theorem C92_vec_no_throw_partial :
    ∀ fuel v,
    (∀ r : vref V, same (xv_push_back fuel r) v (v_push_back fuel v r) (λ v', (v', tt))) ∧
    (∀ pos n (r : vref V), same (xv_insert_n fuel pos n r) v (v_insert_n fuel v pos n r) (λ q, q)) ∧
    (∀ pos (g : vrange V), same (xv_insert_range fuel pos g) v (v_insert_range fuel v pos g) (λ q, q)) ∧
    (∀ n, same (V:=V) (xv_reserve fuel n) v (v_reserve fuel v n) (λ v', (v', tt))) ∧
    (∀ n, same (xv_resize dflt fuel n) v (v_resize dflt fuel v n) (λ v', (v', tt))) ∧
    (∀ n (r : vref V), same (xv_resize_to dflt fuel n r) v (v_resize_to dflt fuel v n r) (λ v', (v', tt))) ∧
    (∀ n (r : vref V), same (xv_assign_n fuel n r) v (v_assign_n fuel v n r) (λ v', (v', tt))) ∧
    (∀ g : vrange V, same (xv_assign_range fuel g) v (v_assign_range fuel v g) (λ v', (v', tt))) ∧
    (∀ w, same (V:=V) (xv_assign fuel w) v (v_assign fuel v w) (λ v', (v', tt))) ∧
    (∀ i j, same (V:=V) (xv_erase_range fuel i j) v (v_erase_range fuel v i j) (λ q, q)) ∧
    (∀ n (r : vref V), same (xv_new_n fuel n r) v (v_new_n fuel n r) (λ v', (v', tt))) ∧
    (∀ w, same (V:=V) (xv_copy fuel w) v (v_copy fuel w) (λ v', (v', tt))) ∧
    (∀ g : vrange V, same (xv_new_range fuel g) v (v_new_range fuel g) (λ v', (v', tt))).
  Proof. first [exact vec_no_throw | apply vec_no_throw | intros; eapply vec_no_throw; eassumption]. Qed.

  (** fixed_vector. *)
  Theorem C92_fvec_no_throw_partial :
    ∀ fuel v,
    (∀ r : vref V, same (xf_push_back N r) v (fv_push_back N v r) (λ v', (v', tt))) ∧
    (∀ pos n (r : vref V), same (xf_insert_n N fuel pos n r) v (fv_insert_n N fuel v pos n r) (λ q, q)) ∧
    (∀ pos (g : vrange V), same (xf_insert_range N fuel pos g) v (fv_insert_range N fuel v pos g) (λ q, q)) ∧
    (∀ n, same (xf_resize N dflt fuel n) v (fv_resize N dflt fuel v n) (λ v', (v', tt))) ∧
    (∀ n (r : vref V), same (xf_assign_n N fuel n r) v (fv_assign_n N fuel v n r) (λ v', (v', tt))) ∧
    (∀ g : vrange V, same (xf_assign_range N fuel g) v (fv_assign_range N fuel v g) (λ v', (v', tt))) ∧
    (∀ w, same (V:=V) (xf_assign fuel w) v (fv_assign fuel v w) (λ v', (v', tt))) ∧
    (∀ i j, same (V:=V) (xf_erase_range fuel i j) v (fv_erase_range fuel v i j) (λ q, q)) ∧
    (∀ n (r : vref V), same (xf_new_n N fuel n r) v (fv_new_n N fuel n r) (λ v', (v', tt))) ∧
    (∀ w, same (V:=V) (xf_copy N fuel w) v (fv_copy N fuel w) (λ v', (v', tt))).
  Proof. first [exact fvec_no_throw | apply fvec_no_throw | intros; eapply fvec_no_throw; eassumption]. Qed.

End throwing.

Print Assumptions C92_vec_push_back_grow_throws_partial.
Print Assumptions C92_vec_insert_n_grow_throws_partial.
Print Assumptions C92_vec_insert_range_grow_throws_partial.
Print Assumptions C92_vec_reserve_throws_partial.
Print Assumptions C92_vec_push_back_leaks_refuted.
Print Assumptions C92_vec_reserve_leaks_refuted.
Print Assumptions C92_vec_push_back_torn_refuted.
Print Assumptions C92_vec_insert_n_torn_refuted.
Print Assumptions C92_vec_insert_range_torn_refuted.
Print Assumptions C92_vec_erase_torn_refuted.
Print Assumptions C92_vec_assign_n_torn_refuted.
Print Assumptions C92_vec_assign_torn_refuted.
Print Assumptions C92_vec_resize_torn_refuted.
Print Assumptions C92_vec_new_n_leaks_refuted.
Print Assumptions C92_vec_copy_leaks_refuted.
Print Assumptions C92_fvec_push_back_torn_refuted.
Print Assumptions C92_fvec_insert_n_torn_refuted.
Print Assumptions C92_fvec_insert_range_torn_refuted.
Print Assumptions C92_fvec_erase_torn_refuted.
Print Assumptions C92_fvec_assign_n_torn_refuted.
Print Assumptions C92_fvec_assign_range_torn_refuted.
Print Assumptions C92_fvec_assign_torn_refuted.
Print Assumptions C92_fvec_resize_torn_refuted.
Print Assumptions C92_vec_no_throw_partial.
Print Assumptions C92_fvec_no_throw_partial.
