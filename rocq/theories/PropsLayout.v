(** GENERATED by tools/genprops.py from LayoutRuns.v: property theorems only.
    Every proof is the lemma of the same statement proved there. *)
From Verif Require Import LayoutModel LayoutRuns State.

  (** The N elements of a fixed_vector, and end_of_elements(), lie inside the object, before
   last_, and different elements do not overlap. *)
  Theorem C19_fixed_storage :
    ∀ (sz palign psize n base i j : nat),
  0 < palign → i < n → j < n → i ≠ j →
  base ≤ elem_addr sz base i ∧
  elem_addr sz base i + sz ≤ end_addr sz n base ∧
  end_addr sz n base ≤ base + last_off sz palign n ∧
  base + last_off sz palign n + psize ≤ base + fv_sizeof sz palign psize n ∧
  (elem_addr sz base i + sz ≤ elem_addr sz base j ∨ elem_addr sz base j + sz ≤ elem_addr sz base i) ∧
  end_addr sz n base = elem_addr sz base n.
  Proof. first [exact fixed_storage | apply fixed_storage | intros; eapply fixed_storage; eassumption]. Qed.

  (** If the alignment of T divides that of a pointer, every element of every
   properly placed fixed_vector is properly aligned. (sizeof(T) is a multiple of alignof(T).)
   Missing: the other types, for which it is false. *)
  Theorem C77_fixed_aligned_partial :
    ∀ (sz al palign base i : nat),
  Nat.divide al sz → Nat.divide al palign → Nat.divide (fv_align palign) base → 0 < palign →
  Nat.divide al (elem_addr sz base i).
  Proof. first [exact fixed_aligned | apply fixed_aligned | intros; eapply fixed_aligned; eassumption]. Qed.

  (** For every other alignment there is a proper place for the fixed_vector at which no
   element is properly aligned. *)
  Theorem C77_fixed_misaligned_refuted :
    ∀ (sz al palign : nat),
  Nat.divide al sz → ¬ Nat.divide al palign → 0 < palign →
  ∃ base, Nat.divide (fv_align palign) base ∧ ∀ i, ¬ Nat.divide al (elem_addr sz base i).
  Proof. first [exact fixed_misaligned | apply fixed_misaligned | intros; eapply fixed_misaligned; eassumption]. Qed.

  (** vector(n) and vector(n, x) construct n objects inside the buffer, if n * sizeof(T) is a
   size_t. Missing: other n, for which it is false. *)
  Theorem C78_vector_request_fits_partial :
    ∀ (B sz n fuel : nat),
  n * sz < 2 ^ B → n < fuel → vec_new_bytes B sz fuel n () = Ok (n * sz, ()).
  Proof. first [exact vector_request_fits | apply vector_request_fits | intros; eapply vector_request_fits; eassumption]. Qed.

  (** For every size_t n for which it is not, the multiplication wraps around and
   vector(n) constructs objects outside the buffer. *)
  Theorem C78_vector_request_wraps_refuted :
    ∀ (B sz n fuel : nat),
  2 ^ B ≤ n * sz → n < 2 ^ B → n < fuel → goes_wrong (vec_new_bytes B sz fuel n) () OutOfBounds.
  Proof. first [exact vector_request_wraps | apply vector_request_wraps | intros; eapply vector_request_wraps; eassumption]. Qed.

  (** insert(pos, n, x) inserts n elements if n is a ptrdiff_t. *)
  Theorem C78_vector_insert_size_fits_partial :
    ∀ {V : Type} `{Allocator (list (option V))} (B n fuel pos : nat) v (r : vref V) h,
  n < 2 ^ (B - 1) → v_insert_size B fuel v pos n r h = v_insert_n fuel v pos n r h.
  Proof. first [exact vector_insert_size_fits | apply vector_insert_size_fits | intros; eapply vector_insert_size_fits; eassumption]. Qed.

  (** insert(pos, n, x), and so resize(n, x), silently does nothing if n is a size_t but no
   ptrdiff_t. *)
  Theorem C78_vector_insert_size_ignored_refuted :
    ∀ {V : Type} `{Allocator (list (option V))} (B n fuel pos : nat) v (r : vref V) (xs : list V),
  2 ^ (B - 1) ≤ n → n < 2 ^ B →
  runs (is_vec v xs) (v_insert_size B fuel v pos n r) (λ '(v', i) h, v' = v ∧ i = pos ∧ is_vec v xs h).
  Proof. first [exact vector_insert_size_ignored | apply vector_insert_size_ignored | intros; eapply vector_insert_size_ignored; eassumption]. Qed.

  (** vector::resize(n): the new elements have the value T(). *)
  Theorem C76_vector_resize_values :
    ∀ {V : Type} `{Allocator (list (option (option V)))} (zero : V) fuel v (xs : list (option V)) n,
  length xs + n < fuel →
  runs (is_vec v xs) (v_resize (value_init zero) fuel v n)
    (λ v' h, is_vec v' (take n xs ++ replicate (n - length xs) (Some zero)) h).
  Proof. first [exact vector_resize_values | apply vector_resize_values | intros; eapply vector_resize_values; eassumption]. Qed.

  (** fixed_vector::resize(n): likewise (up to the capacity). *)
  Theorem C76_fixed_resize_values :
    ∀ {V : Type} `{Allocator (list (option (option V)))} (zero : V) N fuel v (xs : list (option V)) n,
  N < fuel →
  runs (is_fvec N v xs) (fv_resize N (value_init zero) fuel v n)
    (λ v' h, is_fvec N v' (take N (take n xs ++ replicate (n - length xs) (Some zero))) h).
  Proof. first [exact fixed_resize_values | apply fixed_resize_values | intros; eapply fixed_resize_values; eassumption]. Qed.

  (** list::resize(n), n not 0, of a class type: likewise. Missing: scalar types, for which it is
   false (and n = 0, see C35). *)
  Theorem C76_list_resize_values_partial :
    ∀ {V : Type} `{Allocator (dcell (option V))} (scalar : bool) (zero : V) fuel this (xs : list (loc * option V)) n,
  scalar = false → n ≠ 0 → length xs < fuel → n < fuel →
  runs (is_dlist this xs) (dl_resize_n scalar zero fuel this n)
    (λ _ h, ∃ zs, zs.*2 = replicate (n - length xs) (Some zero) ∧ is_dlist this (take n xs ++ zs) h).
  Proof. first [exact list_resize_values | apply list_resize_values | intros; eapply list_resize_values; eassumption]. Qed.

  (** list::resize(n) of a scalar type: the values of all new elements are
   indeterminate. *)
  Theorem C76_list_resize_indeterminate_refuted :
    ∀ {V : Type} `{Allocator (dcell (option V))} (scalar : bool) (zero : V) fuel this (xs : list (loc * option V)) n,
  scalar = true → n ≠ 0 → length xs < fuel → n < fuel →
  runs (is_dlist this xs) (dl_resize_n scalar zero fuel this n)
    (λ _ h, ∃ zs, zs.*2 = replicate (n - length xs) None ∧ is_dlist this (take n xs ++ zs) h).
  Proof. first [exact list_resize_indeterminate | apply list_resize_indeterminate | intros; eapply list_resize_indeterminate; eassumption]. Qed.



Print Assumptions C19_fixed_storage.
Print Assumptions C77_fixed_aligned_partial.
Print Assumptions C77_fixed_misaligned_refuted.
Print Assumptions C78_vector_request_fits_partial.
Print Assumptions C78_vector_request_wraps_refuted.
Print Assumptions C78_vector_insert_size_fits_partial.
Print Assumptions C78_vector_insert_size_ignored_refuted.
Print Assumptions C76_vector_resize_values.
Print Assumptions C76_fixed_resize_values.
Print Assumptions C76_list_resize_values_partial.
Print Assumptions C76_list_resize_indeterminate_refuted.
