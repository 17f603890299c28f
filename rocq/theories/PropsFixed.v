(** GENERATED by tools/genprops.py from FixedRuns.v: property theorems only.
    Every proof is the lemma of the same statement proved there. *)
From Verif Require Import FixedSpec FixedRuns.

Section fixed.
  Context {V : Type} `{Allocator (list (option V))} (N : nat) (dflt : V) (eqb : V → V → bool).

  (** Whole programs on two fixed_vectors of N slots, every history of calls within the
     documented preconditions: the program either completes, with the prescribed
     observations and no memory left behind, or stops at the first call that goes wrong
     with exactly the undefined behaviour given by [fx_code]. *)
  Theorem C19_fixed_history :
    ∀ ops,
    x_exact (fv_new N) fv_destroy (fx_step N dflt eqb) [] (fx_code N dflt eqb) ops.
  Proof. first [exact fixed_history | apply fixed_history | intros; eapply fixed_history; eassumption]. Qed.

  (** ... and whichever it is, no slot outside the N slots of the storage is touched, and
     no freed memory. *)
  Theorem C19_fixed_in_bounds :
    ∀ ops r,
    x_spec (fx_code N dflt eqb) [] [] ops = Some r →
    ∃ F, ∀ fuel, F ≤ fuel → ∀ h u,
      v_program (fv_new N) fv_destroy (fx_step N dflt eqb) fuel ops h = UB u →
      u = NoObject ∨ u = LiveOverwrite.
  Proof. first [exact fixed_in_bounds | apply fixed_in_bounds | intros; eapply fixed_in_bounds; eassumption]. Qed.

  (** After every history that completes, each object has size() <= N and owns exactly its
     N slots, the first size() of them live. *)
  Theorem C19_fixed_reaches :
    ∀ ops,
    v_reaches (fv_new N) (fx_step N dflt eqb) [] (fx_does N dflt eqb) (is_fvec N) ops.
  Proof. first [exact fixed_reaches | apply fixed_reaches | intros; eapply fixed_reaches; eassumption]. Qed.

  (** size() is the number of live elements, at most N; full() iff it is N. *)
  Theorem C19_fixed_size :
    ∀ v (xs : list V) h,
    is_fvec N v xs h → fv_size v = length xs ∧ fv_size v ≤ N ∧ (fv_full N v = true ↔ length xs = N).
  Proof. first [exact fixed_size | apply fixed_size | intros; eapply fixed_size; eassumption]. Qed.

  (** Whole programs whose calls stay within [fx_ok]: after every call
     the vector holds the first N elements of what vector would hold. Missing: the calls
     excluded by [fx_ok] - erase(p,p) before the end, insert of an own element at or
     behind pos, swap with a shorter vector - on which the code is wrong. *)
  Theorem C20_fixed_history_ok_partial :
    ∀ ops,
    v_correct (fv_new N) fv_destroy (fx_step N dflt eqb) [] (fx_spec_ok N dflt eqb) (λ _, True) ops.
  Proof. first [exact fixed_history_ok | apply fixed_history_ok | intros; eapply fixed_history_ok; eassumption]. Qed.

  (** Whole programs whose calls stay within [fx_ok]: after every call
     the vector holds the first N elements of what vector would hold. Missing: the calls
     excluded by [fx_ok] - erase(p,p) before the end, insert of an own element at or
     behind pos, swap with a shorter vector - on which the code is wrong. *)
  Theorem C21_fixed_history_ok_partial :
    ∀ ops,
    v_correct (fv_new N) fv_destroy (fx_step N dflt eqb) [] (fx_spec_ok N dflt eqb) (λ _, True) ops.
  Proof. first [exact fixed_history_ok | apply fixed_history_ok | intros; eapply fixed_history_ok; eassumption]. Qed.

  (** push_back, of any value or own element. *)
  Theorem C20_fixed_push_back_ok :
    ∀ v (xs : list V) r x,
    frefers v xs r x →
    runs (is_fvec N v xs) (fv_push_back N v r)
      (λ v' h, fv_buf v' = fv_buf v ∧ is_fvec N v' (take N (xs ++ [x])) h).
  Proof. first [exact fixed_push_back_ok | apply fixed_push_back_ok | intros; eapply fixed_push_back_ok; eassumption]. Qed.

  (** insert(pos, n, x). Missing: own elements at or behind pos. *)
  Theorem C20_fixed_insert_n_ok_partial :
    ∀ fuel v (xs : list V) pos n r x,
    pos ≤ length xs → frefers v xs r x → N < fuel →
    match r with VExt _ => True | VSlot _ j => n = 0 ∨ j < pos ∨ pos = length xs end →
    runs (is_fvec N v xs) (fv_insert_n N fuel v pos n r)
      (λ '(v', i) h, i = pos ∧ fv_buf v' = fv_buf v ∧
         is_fvec N v' (take N (take pos xs ++ replicate n x ++ drop pos xs)) h).
  Proof. first [exact fixed_insert_n_ok | apply fixed_insert_n_ok | intros; eapply fixed_insert_n_ok; eassumption]. Qed.

  (** insert(pos, x) of a value that is not an element of the vector. *)
  Theorem C20_fixed_insert_ok :
    ∀ fuel v (xs : list V) pos x,
    pos ≤ length xs → N < fuel →
    runs (is_fvec N v xs) (fv_insert N fuel v pos (VExt x))
      (λ '(v', i) h, i = pos ∧ fv_buf v' = fv_buf v ∧
         is_fvec N v' (take N (take pos xs ++ x :: drop pos xs)) h).
  Proof. first [exact fixed_insert_ok | apply fixed_insert_ok | intros; eapply fixed_insert_ok; eassumption]. Qed.

  (** insert(pos, first, last). *)
  Theorem C20_fixed_insert_range_ok :
    ∀ fuel v (xs : list V) pos vs,
    pos ≤ length xs → N < fuel →
    runs (is_fvec N v xs) (fv_insert_range N fuel v pos (RVals vs))
      (λ '(v', i) h, i = pos ∧ fv_buf v' = fv_buf v ∧
         is_fvec N v' (take N (take pos xs ++ vs ++ drop pos xs)) h).
  Proof. first [exact fixed_insert_range_ok | apply fixed_insert_range_ok | intros; eapply fixed_insert_range_ok; eassumption]. Qed.

  (** resize(n). *)
  Theorem C20_fixed_resize_ok :
    ∀ fuel v (xs : list V) n,
    N < fuel →
    runs (is_fvec N v xs) (fv_resize N dflt fuel v n)
      (λ v' h, fv_size v' = N `min` n ∧ is_fvec N v' (take N (take n xs ++ replicate (n - length xs) dflt)) h).
  Proof. first [exact fixed_resize_ok | apply fixed_resize_ok | intros; eapply fixed_resize_ok; eassumption]. Qed.

  (** resize(n, x), x any value or own element. *)
  Theorem C20_fixed_resize_to_ok :
    ∀ fuel v (xs : list V) n r x,
    frefers v xs r x → N < fuel →
    runs (is_fvec N v xs) (fv_resize_to N dflt fuel v n r)
      (λ v' h, fv_size v' = N `min` n ∧ is_fvec N v' (take N (take n xs ++ replicate (n - length xs) x)) h).
  Proof. first [exact fixed_resize_to_ok | apply fixed_resize_to_ok | intros; eapply fixed_resize_to_ok; eassumption]. Qed.

  (** assign(n, x) and assign(first, last). *)
  Theorem C20_fixed_assign_n_ok :
    ∀ fuel v (xs : list V) n x,
    N < fuel →
    runs (is_fvec N v xs) (fv_assign_n N fuel v n (VExt x))
      (λ v' h, is_fvec N v' (take N (replicate n x)) h).
  Proof. first [exact fixed_assign_n_ok | apply fixed_assign_n_ok | intros; eapply fixed_assign_n_ok; eassumption]. Qed.

  (** ... *)
  Theorem C20_fixed_assign_range_ok :
    ∀ fuel v (xs : list V) vs,
    N < fuel →
    runs (is_fvec N v xs) (fv_assign_range N fuel v (RVals vs))
      (λ v' h, is_fvec N v' (take N vs) h).
  Proof. first [exact fixed_assign_range_ok | apply fixed_assign_range_ok | intros; eapply fixed_assign_range_ok; eassumption]. Qed.

  (** the constructors. *)
  Theorem C20_fixed_new_range_ok :
    ∀ fuel vs,
    N < fuel → runs nothing (fv_new_range N fuel (RVals vs)) (λ v h, is_fvec N v (take N vs) h).
  Proof. first [exact fixed_new_range_ok | apply fixed_new_range_ok | intros; eapply fixed_new_range_ok; eassumption]. Qed.

  (** ... *)
  Theorem C20_fixed_new_n_ok :
    ∀ fuel n x,
    N < fuel → runs nothing (fv_new_n N fuel n (VExt x)) (λ v h, is_fvec N v (take N (replicate n x)) h).
  Proof. first [exact fixed_new_n_ok | apply fixed_new_n_ok | intros; eapply fixed_new_n_ok; eassumption]. Qed.

  (** copy construction and assignment copy everything and leave the source alone. *)
  Theorem C20_fixed_copy_ok :
    ∀ fuel v (xs : list V),
    N < fuel →
    runs (is_fvec N v xs) (fv_copy N fuel v) (λ v' h, both (is_fvec N v' xs) (is_fvec N v xs) h).
  Proof. first [exact fixed_copy_ok | apply fixed_copy_ok | intros; eapply fixed_copy_ok; eassumption]. Qed.

  (** ... *)
  Theorem C20_fixed_assign_ok :
    ∀ fuel v (xs : list V) w ys,
    N < fuel →
    runs (both (is_fvec N v xs) (is_fvec N w ys)) (fv_assign fuel v w)
      (λ v' h, fv_buf v' = fv_buf v ∧ both (is_fvec N v' ys) (is_fvec N w ys) h).
  Proof. first [exact fixed_assign_ok | apply fixed_assign_ok | intros; eapply fixed_assign_ok; eassumption]. Qed.

  (** erase of a non-empty range. Missing: erase(p, p) (refuted). *)
  Theorem C20_fixed_erase_range_ok_partial :
    ∀ fuel v (xs : list V) i j,
    i ≤ j ≤ length xs → i < j ∨ i = length xs → N < fuel →
    runs (is_fvec N v xs) (fv_erase_range fuel v i j)
      (λ '(v', k) h, k = i ∧ fv_buf v' = fv_buf v ∧ is_fvec N v' (take i xs ++ drop j xs) h).
  Proof. first [exact fixed_erase_range_ok | apply fixed_erase_range_ok | intros; eapply fixed_erase_range_ok; eassumption]. Qed.

  (** the destructor ends the life of every element and of the storage. *)
  Theorem C19_fixed_destroy_ok :
    ∀ fuel v (xs : list V),
    N < fuel → runs (is_fvec N v xs) (fv_destroy fuel v) (λ _ h, nothing h).
  Proof. first [exact fixed_destroy_ok | apply fixed_destroy_ok | intros; eapply fixed_destroy_ok; eassumption]. Qed.

  (** the destructor ends the life of every element and of the storage. *)
  Theorem C20_fixed_destroy_ok :
    ∀ fuel v (xs : list V),
    N < fuel → runs (is_fvec N v xs) (fv_destroy fuel v) (λ _ h, nothing h).
  Proof. first [exact fixed_destroy_ok | apply fixed_destroy_ok | intros; eapply fixed_destroy_ok; eassumption]. Qed.

  (** equality of the sequences. *)
  Theorem C20_fixed_eq_ok :
    ∀ fuel v (xs : list V) w ys,
    N + N < fuel →
    runs (both (is_fvec N v xs) (is_fvec N w ys)) (fv_eq eqb fuel v w)
      (λ r h, (r = true ↔ Forall2 (λ x y, eqb x y = true) xs ys) ∧
         both (is_fvec N v xs) (is_fvec N w ys) h).
  Proof. first [exact fixed_eq_ok | apply fixed_eq_ok | intros; eapply fixed_eq_ok; eassumption]. Qed.

  (** insert(pos, n, v[j]) with pos <= j < pos + n: the element has been moved away. *)
  Theorem C20_fixed_insert_own_fails_refuted :
    ∀ fuel v (xs : list V) pos n j,
    pos ≤ j < length xs → j < pos + n → N < fuel →
    fails (is_fvec N v xs) (fv_insert_n N fuel v pos n (VSlot (Some (fv_buf v)) j)) NoObject.
  Proof. first [exact fixed_insert_own_fails | apply fixed_insert_own_fails | intros; eapply fixed_insert_own_fails; eassumption]. Qed.

  (** erase(p, p) before the end. *)
  Theorem C20_fixed_erase_empty_fails_refuted :
    ∀ fuel v (xs : list V) i,
    i < length xs → 1 < fuel → fails (is_fvec N v xs) (fv_erase_range fuel v i i) LiveOverwrite.
  Proof. first [exact fixed_erase_empty_fails | apply fixed_erase_empty_fails | intros; eapply fixed_erase_empty_fails; eassumption]. Qed.

  (** a.swap(b) exchanges the contents if a.size() <= b.size(). Missing: the other
     case (refuted). *)
  Theorem C21_fixed_swap_ok_partial :
    ∀ fuel v (xs : list V) w ys,
    length xs ≤ length ys → N < fuel →
    runs (both (is_fvec N v xs) (is_fvec N w ys)) (fv_swap fuel v w)
      (λ '(v', w') h, fv_buf v' = fv_buf v ∧ fv_buf w' = fv_buf w ∧
         both (is_fvec N v' ys) (is_fvec N w' xs) h).
  Proof. first [exact fixed_swap_ok | apply fixed_swap_ok | intros; eapply fixed_swap_ok; eassumption]. Qed.

  (** a.swap(b) with a.size() > b.size() reads an element that does not exist. *)
  Theorem C21_fixed_swap_fails_refuted :
    ∀ fuel v (xs : list V) w ys,
    length ys < length xs → N < fuel →
    fails (both (is_fvec N v xs) (is_fvec N w ys)) (fv_swap fuel v w) NoObject.
  Proof. first [exact fixed_swap_fails | apply fixed_swap_fails | intros; eapply fixed_swap_fails; eassumption]. Qed.

  (** assigning a fixed_vector to itself empties it. *)
  Theorem C07_fixed_self_assign_refuted :
    ∀ fuel v (xs : list V),
    N < fuel → runs (is_fvec N v xs) (fv_assign_self fuel v) (λ v' h, is_fvec N v' [] h).
  Proof. first [exact fixed_self_assign | apply fixed_self_assign | intros; eapply fixed_self_assign; eassumption]. Qed.

End fixed.

Print Assumptions C19_fixed_history.
Print Assumptions C19_fixed_in_bounds.
Print Assumptions C19_fixed_reaches.
Print Assumptions C19_fixed_size.
Print Assumptions C20_fixed_history_ok_partial.
Print Assumptions C21_fixed_history_ok_partial.
Print Assumptions C20_fixed_push_back_ok.
Print Assumptions C20_fixed_insert_n_ok_partial.
Print Assumptions C20_fixed_insert_ok.
Print Assumptions C20_fixed_insert_range_ok.
Print Assumptions C20_fixed_resize_ok.
Print Assumptions C20_fixed_resize_to_ok.
Print Assumptions C20_fixed_assign_n_ok.
Print Assumptions C20_fixed_assign_range_ok.
Print Assumptions C20_fixed_new_range_ok.
Print Assumptions C20_fixed_new_n_ok.
Print Assumptions C20_fixed_copy_ok.
Print Assumptions C20_fixed_assign_ok.
Print Assumptions C20_fixed_erase_range_ok_partial.
Print Assumptions C19_fixed_destroy_ok.
Print Assumptions C20_fixed_destroy_ok.
Print Assumptions C20_fixed_eq_ok.
Print Assumptions C20_fixed_insert_own_fails_refuted.
Print Assumptions C20_fixed_erase_empty_fails_refuted.
Print Assumptions C21_fixed_swap_ok_partial.
Print Assumptions C21_fixed_swap_fails_refuted.
Print Assumptions C07_fixed_self_assign_refuted.
