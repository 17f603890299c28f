(** GENERATED by tools/genprops.py from AlgRuns.v: property theorems only.
    Every proof is the lemma of the same statement proved there. *)
From Verif Require Import AlgSpec AlgRuns.
Local Open Scope general_if_scope.

Section algorithms.
  Context {A : Type} (aeq alt : A → A → bool) (moved : A → A) (imax : Z).
  Implicit Types (xs ys : list A) (m : amem A).

  (** find returns the position of the first element equal to the value, or last. The value may be
     an element of the range. *)
  Theorem C49_find_first :
    ∀ fuel first xs (r : cref A) v m,
 holds m first xs → refers m r v → length xs < fuel →
    gives (a_find aeq fuel first (first + length xs) r) m (λ i m',
      m' = m ∧ ∃ k, i = first + k ∧ first_such (at_sat (λ x, aeq x v) xs) (length xs) k).
  Proof. first [exact find_first | apply find_first | intros; eapply find_first; eassumption]. Qed.

  (** find returns the position of the first element equal to the value, or last. The value may be
     an element of the range. *)
  Theorem C65_find_first_partial :
    ∀ fuel first xs (r : cref A) v m,
 holds m first xs → refers m r v → length xs < fuel →
    gives (a_find aeq fuel first (first + length xs) r) m (λ i m',
      m' = m ∧ ∃ k, i = first + k ∧ first_such (at_sat (λ x, aeq x v) xs) (length xs) k).
  Proof. first [exact find_first | apply find_first | intros; eapply find_first; eassumption]. Qed.

  (** find_if and find_if_not. *)
  Theorem C49_find_if_first :
    ∀ fuel first xs (p : A → bool) m,
 holds m first xs → length xs < fuel →
    gives (a_find_if fuel first (first + length xs) p) m (λ i m',
      m' = m ∧ ∃ k, i = first + k ∧ first_such (at_sat p xs) (length xs) k) ∧
    gives (a_find_if_not fuel first (first + length xs) p) m (λ i m',
      m' = m ∧ ∃ k, i = first + k ∧ first_such (λ j, ∃ x, xs !! j = Some x ∧ p x = false) (length xs) k).
  Proof. first [exact find_if_first | apply find_if_first | intros; eapply find_if_first; eassumption]. Qed.

  (** adjacent_find, with == and with a predicate. *)
  Theorem C49_adjacent_find_first :
    ∀ fuel first xs (p : A → A → bool) m,
 holds m first xs → length xs < fuel →
    gives (a_adjacent_find aeq fuel first (first + length xs)) m (λ i m',
      m' = m ∧ ∃ k, i = first + k ∧ first_such (adjacent aeq xs) (length xs) k) ∧
    gives (a_adjacent_find_p p fuel first (first + length xs)) m (λ i m',
      m' = m ∧ ∃ k, i = first + k ∧ first_such (adjacent p xs) (length xs) k).
  Proof. first [exact adjacent_find_first | apply adjacent_find_first | intros; eapply adjacent_find_first; eassumption]. Qed.

  (** all_of, any_of, none_of. *)
  Theorem C49_quantifiers_decide :
    ∀ fuel first xs (p : A → bool) m,
 holds m first xs → length xs < fuel →
    gives (a_all_of fuel first (first + length xs) p) m (λ b m', m' = m ∧ (b = true ↔ Forall (λ x, p x = true) xs)) ∧
    gives (a_any_of fuel first (first + length xs) p) m (λ b m', m' = m ∧ (b = true ↔ Exists (λ x, p x = true) xs)) ∧
    gives (a_none_of fuel first (first + length xs) p) m (λ b m', m' = m ∧ (b = true ↔ Forall (λ x, p x = false) xs)).
  Proof. first [exact quantifiers_decide | apply quantifiers_decide | intros; eapply quantifiers_decide; eassumption]. Qed.

  (** count and count_if, when the number of matches fits in an int. *)
  Theorem C49_count_matches :
    ∀ fuel first xs (r : cref A) v m,
 holds m first xs → refers m r v → length xs < fuel →
    (Z.of_nat (length (filter (λ x, aeq x v = true) xs)) ≤ imax)%Z →
    gives (a_count aeq imax fuel first (first + length xs) r) m (λ z m',
      m' = m ∧ z = Z.of_nat (length (filter (λ x, aeq x v = true) xs))).
  Proof. first [exact count_matches | apply count_matches | intros; eapply count_matches; eassumption]. Qed.

  (** count and count_if, when the number of matches fits in an int. *)
  Theorem C65_count_matches_partial :
    ∀ fuel first xs (r : cref A) v m,
 holds m first xs → refers m r v → length xs < fuel →
    (Z.of_nat (length (filter (λ x, aeq x v = true) xs)) ≤ imax)%Z →
    gives (a_count aeq imax fuel first (first + length xs) r) m (λ z m',
      m' = m ∧ z = Z.of_nat (length (filter (λ x, aeq x v = true) xs))).
  Proof. first [exact count_matches | apply count_matches | intros; eapply count_matches; eassumption]. Qed.

  (** count and count_if, when the number of matches fits in an int. *)
  Theorem C67_count_matches_partial :
    ∀ fuel first xs (r : cref A) v m,
 holds m first xs → refers m r v → length xs < fuel →
    (Z.of_nat (length (filter (λ x, aeq x v = true) xs)) ≤ imax)%Z →
    gives (a_count aeq imax fuel first (first + length xs) r) m (λ z m',
      m' = m ∧ z = Z.of_nat (length (filter (λ x, aeq x v = true) xs))).
  Proof. first [exact count_matches | apply count_matches | intros; eapply count_matches; eassumption]. Qed.

  (**  *)
  Theorem C49_count_if_matches :
    ∀ fuel first xs (p : A → bool) m,
 holds m first xs → length xs < fuel →
    (Z.of_nat (length (filter (λ x, p x = true) xs)) ≤ imax)%Z →
    gives (a_count_if imax fuel first (first + length xs) p) m (λ z m',
      m' = m ∧ z = Z.of_nat (length (filter (λ x, p x = true) xs))).
  Proof. first [exact count_if_matches | apply count_if_matches | intros; eapply count_if_matches; eassumption]. Qed.

  (**  *)
  Theorem C67_count_if_matches_partial :
    ∀ fuel first xs (p : A → bool) m,
 holds m first xs → length xs < fuel →
    (Z.of_nat (length (filter (λ x, p x = true) xs)) ≤ imax)%Z →
    gives (a_count_if imax fuel first (first + length xs) p) m (λ z m',
      m' = m ∧ z = Z.of_nat (length (filter (λ x, p x = true) xs))).
  Proof. first [exact count_if_matches | apply count_if_matches | intros; eapply count_if_matches; eassumption]. Qed.

  (** More than INT_MAX matches overflow the int counter. *)
  Theorem C67_count_overflows_refuted :
    ∀ fuel first xs (r : cref A) v m,
 holds m first xs → refers m r v → length xs < fuel → (0 ≤ imax)%Z →
    (imax < Z.of_nat (length (filter (λ x, aeq x v = true) xs)))%Z →
    goes_wrong (a_count aeq imax fuel first (first + length xs) r) m IntOverflow.
  Proof. first [exact count_overflows | apply count_overflows | intros; eapply count_overflows; eassumption]. Qed.

  (**  *)
  Theorem C67_count_if_overflows_refuted :
    ∀ fuel first xs (p : A → bool) m,
 holds m first xs → length xs < fuel → (0 ≤ imax)%Z →
    (imax < Z.of_nat (length (filter (λ x, p x = true) xs)))%Z →
    goes_wrong (a_count_if imax fuel first (first + length xs) p) m IntOverflow.
  Proof. first [exact count_if_overflows | apply count_if_overflows | intros; eapply count_if_overflows; eassumption]. Qed.

  (** distance is the number of steps for up to INT_MAX of them, and wrong for every larger one. *)
  Theorem C67_distance_exact :
    ∀ first last,
 (0 ≤ imax)%Z → first ≤ last →
    (a_distance imax first last = Z.of_nat (last - first) ↔ (Z.of_nat (last - first) ≤ imax)%Z).
  Proof. first [exact distance_exact | apply distance_exact | intros; eapply distance_exact; eassumption]. Qed.

  (** search, with == and with a predicate. *)
  Theorem C50_search_first :
    ∀ fuel first xs sub ys (p : A → A → bool) m,
 holds m first xs → holds m sub ys →
    length xs < fuel → length ys < fuel →
    gives (a_search aeq fuel first (first + length xs) sub (sub + length ys)) m (λ i m',
      m' = m ∧ ∃ k, i = first + k ∧ first_such (occurs aeq xs ys) (length xs) k) ∧
    gives (a_search_p p fuel first (first + length xs) sub (sub + length ys)) m (λ i m',
      m' = m ∧ ∃ k, i = first + k ∧ first_such (occurs p xs ys) (length xs) k).
  Proof. first [exact search_first | apply search_first | intros; eapply search_first; eassumption]. Qed.

  (** search_n with ==: every count (also zero and negative ones). *)
  Theorem C51_search_n_first :
    ∀ fuel first xs count (r : cref A) v m,
 holds m first xs → refers m r v → length xs < fuel →
    gives (a_search_n aeq fuel first (first + length xs) count r) m (λ i m',
      m' = m ∧ ∃ k, i = first + k ∧ first_such (run_of (λ x, aeq x v) xs count) (length xs) k).
  Proof. first [exact search_n_first | apply search_n_first | intros; eapply search_n_first; eassumption]. Qed.

  (** search_n with ==: every count (also zero and negative ones). *)
  Theorem C65_search_n_first_partial :
    ∀ fuel first xs count (r : cref A) v m,
 holds m first xs → refers m r v → length xs < fuel →
    gives (a_search_n aeq fuel first (first + length xs) count r) m (λ i m',
      m' = m ∧ ∃ k, i = first + k ∧ first_such (run_of (λ x, aeq x v) xs count) (length xs) k).
  Proof. first [exact search_n_first | apply search_n_first | intros; eapply search_n_first; eassumption]. Qed.

  (** search_n with a predicate, when the predicate and == agree on the elements of the range. *)
  Theorem C51_search_n_pred_first_partial :
    ∀ fuel first xs count (r : cref A) v (p : A → A → bool) m,
 holds m first xs → refers m r v →
    (∀ x, x ∈ xs → aeq x v = p x v) → length xs < fuel →
    gives (a_search_n_p aeq p fuel first (first + length xs) count r) m (λ i m',
      m' = m ∧ ∃ k, i = first + k ∧ first_such (run_of (λ x, p x v) xs count) (length xs) k).
  Proof. first [exact search_n_pred_first | apply search_n_pred_first | intros; eapply search_n_pred_first; eassumption]. Qed.

  (** search_n with a predicate finds nothing when no element is == to the value, even if every element
     satisfies the predicate. *)
  Theorem C51_search_n_pred_wrong_refuted :
    ∀ fuel first xs count (r : cref A) v (p : A → A → bool) m,
 holds m first xs → refers m r v →
    (0 < count ≤ Z.of_nat (length xs))%Z → (∀ x, x ∈ xs → aeq x v = false) → (∀ x, x ∈ xs → p x v = true) → length xs < fuel →
    gives (a_search_n_p aeq p fuel first (first + length xs) count r) m (λ i m', m' = m ∧ i = first + length xs) ∧
    run_of (λ x, p x v) xs count 0 ∧ first ≠ first + length xs.
  Proof. first [exact search_n_pred_wrong | apply search_n_pred_wrong | intros; eapply search_n_pred_wrong; eassumption]. Qed.

  (** equal with three iterators, with == and with a predicate. *)
  Theorem C57_equal3_decides :
    ∀ fuel f1 xs f2 ys (p : A → A → bool) m,
 holds m f1 xs → holds m f2 ys →
    length xs ≤ length ys → length xs < fuel →
    gives (a_equal3 aeq fuel f1 (f1 + length xs) f2) m (λ b m',
      m' = m ∧ (b = true ↔ Forall2 (λ x y, aeq x y = true) xs (take (length xs) ys))) ∧
    gives (a_equal3_p p fuel f1 (f1 + length xs) f2) m (λ b m',
      m' = m ∧ (b = true ↔ Forall2 (λ x y, p x y = true) xs (take (length xs) ys))).
  Proof. first [exact equal3_decides | apply equal3_decides | intros; eapply equal3_decides; eassumption]. Qed.

  (** equal with four iterators: any lengths. *)
  Theorem C57_equal4_decides :
    ∀ fuel f1 xs f2 ys (p : A → A → bool) m,
 holds m f1 xs → holds m f2 ys → length xs < fuel →
    gives (a_equal4 aeq fuel f1 (f1 + length xs) f2 (f2 + length ys)) m (λ b m',
      m' = m ∧ (b = true ↔ Forall2 (λ x y, aeq x y = true) xs ys)) ∧
    gives (a_equal4_p p fuel f1 (f1 + length xs) f2 (f2 + length ys)) m (λ b m',
      m' = m ∧ (b = true ↔ Forall2 (λ x y, p x y = true) xs ys)).
  Proof. first [exact equal4_decides | apply equal4_decides | intros; eapply equal4_decides; eassumption]. Qed.

  (** mismatch with three iterators. *)
  Theorem C57_mismatch3_first :
    ∀ fuel f1 xs f2 ys (p : A → A → bool) m,
 holds m f1 xs → holds m f2 ys →
    length xs ≤ length ys → length xs < fuel →
    gives (a_mismatch3 aeq fuel f1 (f1 + length xs) f2) m (λ r m',
      m' = m ∧ ∃ k, r = (f1 + k, f2 + k) ∧ first_such (differs aeq xs ys) (length xs) k) ∧
    gives (a_mismatch3_p p fuel f1 (f1 + length xs) f2) m (λ r m',
      m' = m ∧ ∃ k, r = (f1 + k, f2 + k) ∧ first_such (differs p xs ys) (length xs) k).
  Proof. first [exact mismatch3_first | apply mismatch3_first | intros; eapply mismatch3_first; eassumption]. Qed.

  (** mismatch with four iterators: any lengths. *)
  Theorem C57_mismatch4_first :
    ∀ fuel f1 xs f2 ys (p : A → A → bool) m,
 holds m f1 xs → holds m f2 ys → length xs < fuel →
    gives (a_mismatch4 aeq fuel f1 (f1 + length xs) f2 (f2 + length ys)) m (λ r m',
      m' = m ∧ ∃ k, r = (f1 + k, f2 + k) ∧ first_such (differs aeq xs ys) (length xs `min` length ys) k) ∧
    gives (a_mismatch4_p p fuel f1 (f1 + length xs) f2 (f2 + length ys)) m (λ r m',
      m' = m ∧ ∃ k, r = (f1 + k, f2 + k) ∧ first_such (differs p xs ys) (length xs `min` length ys) k).
  Proof. first [exact mismatch4_first | apply mismatch4_first | intros; eapply mismatch4_first; eassumption]. Qed.

  (** lower_bound, with < and with a comparison: at most floor(log2 n) + 1 probes. *)
  Theorem C52_lower_bound_point :
    ∀ fuel first xs comp (r : cref A) v k m,
 holds m first xs → refers m r v →
    (Z.of_nat (length xs) ≤ imax)%Z → 1 + Nat.log2 (length xs) < fuel →
    (partition_at (λ x, alt x v) xs k →
     gives (a_lower_bound alt imax fuel first (first + length xs) r) m (λ i m', m' = m ∧ i = first + k)) ∧
    (partition_at (λ x, comp x v) xs k →
     gives (a_lower_bound_c imax comp fuel first (first + length xs) r) m (λ i m', m' = m ∧ i = first + k)).
  Proof. first [exact lower_bound_point | apply lower_bound_point | intros; eapply lower_bound_point; eassumption]. Qed.

  (** lower_bound, with < and with a comparison: at most floor(log2 n) + 1 probes. *)
  Theorem C65_lower_bound_point_partial :
    ∀ fuel first xs comp (r : cref A) v k m,
 holds m first xs → refers m r v →
    (Z.of_nat (length xs) ≤ imax)%Z → 1 + Nat.log2 (length xs) < fuel →
    (partition_at (λ x, alt x v) xs k →
     gives (a_lower_bound alt imax fuel first (first + length xs) r) m (λ i m', m' = m ∧ i = first + k)) ∧
    (partition_at (λ x, comp x v) xs k →
     gives (a_lower_bound_c imax comp fuel first (first + length xs) r) m (λ i m', m' = m ∧ i = first + k)).
  Proof. first [exact lower_bound_point | apply lower_bound_point | intros; eapply lower_bound_point; eassumption]. Qed.

  (** upper_bound, with < and with a comparison: at most floor(log2 n) + 1 probes. *)
  Theorem C52_upper_bound_point :
    ∀ fuel first xs comp (r : cref A) v k m,
 holds m first xs → refers m r v →
    (Z.of_nat (length xs) ≤ imax)%Z → 1 + Nat.log2 (length xs) < fuel →
    (partition_at (λ x, negb (alt v x)) xs k →
     gives (a_upper_bound alt imax fuel first (first + length xs) r) m (λ i m', m' = m ∧ i = first + k)) ∧
    (partition_at (λ x, negb (comp v x)) xs k →
     gives (a_upper_bound_c imax comp fuel first (first + length xs) r) m (λ i m', m' = m ∧ i = first + k)).
  Proof. first [exact upper_bound_point | apply upper_bound_point | intros; eapply upper_bound_point; eassumption]. Qed.

  (** upper_bound, with < and with a comparison: at most floor(log2 n) + 1 probes. *)
  Theorem C65_upper_bound_point_partial :
    ∀ fuel first xs comp (r : cref A) v k m,
 holds m first xs → refers m r v →
    (Z.of_nat (length xs) ≤ imax)%Z → 1 + Nat.log2 (length xs) < fuel →
    (partition_at (λ x, negb (alt v x)) xs k →
     gives (a_upper_bound alt imax fuel first (first + length xs) r) m (λ i m', m' = m ∧ i = first + k)) ∧
    (partition_at (λ x, negb (comp v x)) xs k →
     gives (a_upper_bound_c imax comp fuel first (first + length xs) r) m (λ i m', m' = m ∧ i = first + k)).
  Proof. first [exact upper_bound_point | apply upper_bound_point | intros; eapply upper_bound_point; eassumption]. Qed.

  (** binary_search tells whether an equivalent element exists. *)
  Theorem C52_binary_search_decides :
    ∀ fuel first xs comp (r : cref A) v k k2 m,
 holds m first xs → refers m r v →
    partition_at (λ x, comp x v) xs k → partition_at (λ x, negb (comp v x)) xs k2 →
    (Z.of_nat (length xs) ≤ imax)%Z → 1 + Nat.log2 (length xs) < fuel →
    gives (a_binary_search_c imax comp fuel first (first + length xs) r) m (λ b m', m' = m ∧
      (b = true ↔ ∃ x, x ∈ xs ∧ equivalent comp x v)).
  Proof. first [exact binary_search_decides | apply binary_search_decides | intros; eapply binary_search_decides; eassumption]. Qed.

  (** equal_range returns both partition points. *)
  Theorem C52_equal_range_points :
    ∀ fuel first xs comp (r : cref A) v k k2 m,
 holds m first xs → refers m r v →
    partition_at (λ x, comp x v) xs k → partition_at (λ x, negb (comp v x)) xs k2 →
    (∀ x, x ∈ xs → comp x v = true → comp v x = false) →
    (Z.of_nat (length xs) ≤ imax)%Z → 1 + Nat.log2 (length xs) < fuel →
    gives (a_equal_range_c imax comp fuel first (first + length xs) r) m (λ p m', m' = m ∧ p = (first + k, first + k2)).
  Proof. first [exact equal_range_points | apply equal_range_points | intros; eapply equal_range_points; eassumption]. Qed.

  (** A sorted range is partitioned with respect to every value; all four functions on a sorted range, with
     the < of the elements. *)
  Theorem C52_binary_searches_sorted :
    ∀ fuel first xs (r : cref A) v m,
 weak_order alt → in_order alt xs →
    holds m first xs → refers m r v → (Z.of_nat (length xs) ≤ imax)%Z → 1 + Nat.log2 (length xs) < fuel →
    ∃ lo up, lo ≤ up ≤ length xs ∧
      (∀ i x, xs !! i = Some x → (i < lo → alt x v = true) ∧ (lo ≤ i < up → equivalent alt x v) ∧ (up ≤ i → alt v x = true)) ∧
      gives (a_lower_bound alt imax fuel first (first + length xs) r) m (λ i m', m' = m ∧ i = first + lo) ∧
      gives (a_upper_bound alt imax fuel first (first + length xs) r) m (λ i m', m' = m ∧ i = first + up) ∧
      gives (a_equal_range alt imax fuel first (first + length xs) r) m (λ p m', m' = m ∧ p = (first + lo, first + up)) ∧
      gives (a_binary_search alt imax fuel first (first + length xs) r) m (λ b m', m' = m ∧ (b = true ↔ lo < up)).
  Proof. first [exact binary_searches_sorted | apply binary_searches_sorted | intros; eapply binary_searches_sorted; eassumption]. Qed.

  (** lower_bound on more than INT_MAX elements, all less than the value: never last. *)
  Theorem C53_lower_bound_too_long_refuted :
    ∀ fuel first xs comp (r : cref A) v m,
 holds m first xs → refers m r v → (0 ≤ imax)%Z →
    (∀ x, x ∈ xs → comp x v = true) → (imax < Z.of_nat (length xs))%Z → 1 + Nat.log2 (length xs) < fuel →
    partition_at (λ x, comp x v) xs (length xs) ∧
    gives (a_lower_bound_c imax comp fuel first (first + length xs) r) m (λ i m', m' = m ∧ i ≠ first + length xs).
  Proof. first [exact lower_bound_too_long | apply lower_bound_too_long | intros; eapply lower_bound_too_long; eassumption]. Qed.

  (** The result for every length: the partition point of the elements the int count covers. *)
  Theorem C53_lower_bound_any_length_partial :
    ∀ fuel first last xs comp (r : cref A) v k m,
 holds m first xs → refers m r v →
    partition_at (λ x, comp x v) xs k → to_int imax (Z.of_nat last - Z.of_nat first) = Z.of_nat (length xs) →
    1 + Nat.log2 (length xs) < fuel →
    gives (a_lower_bound_c imax comp fuel first last r) m (λ i m', m' = m ∧ i = first + k).
  Proof. first [exact lower_bound_any_length | apply lower_bound_any_length | intros; eapply lower_bound_any_length; eassumption]. Qed.

  (** The output is the stable merge; nothing else changes. *)
  Theorem C54_merge_stable :
    ∀ fuel f1 xs f2 ys o m,
 weak_order alt → in_order alt xs → in_order alt ys →
    holds m f1 xs → holds m f2 ys → live m o (length xs + length ys) →
    apart f1 (length xs) o (length xs + length ys) → apart f2 (length ys) o (length xs + length ys) →
    length xs + length ys < fuel →
    gives (a_merge alt fuel f1 (f1 + length xs) f2 (f2 + length ys) o) m (λ r m',
      r = o + (length xs + length ys) ∧ ∃ zs, stable_merge alt xs ys zs ∧ written m o zs m').
  Proof. first [exact merge_stable | apply merge_stable | intros; eapply merge_stable; eassumption]. Qed.

  (** remove: the kept elements in order at the front, nothing outside the range changes, and the cells behind
     still hold objects. The value is not an element of the range (for that see C65). *)
  Theorem C55_remove_compacts :
    ∀ fuel first xs (rv : cref A) v m,
 holds m first xs → refers m rv v →
    outside rv first (length xs) → length xs < fuel →
    gives (a_remove aeq moved fuel first (first + length xs) rv) m (λ r m',
      r = first + length (filter (λ x, aeq x v = false) xs) ∧ holds m' first (filter (λ x, aeq x v = false) xs) ∧
      same_outside m first (length xs) m' ∧ live m' first (length xs)).
  Proof. first [exact remove_compacts | apply remove_compacts | intros; eapply remove_compacts; eassumption]. Qed.

  (** remove_if. *)
  Theorem C55_remove_if_compacts :
    ∀ p fuel first xs m,
 holds m first xs → length xs < fuel →
    gives (a_remove_if moved p fuel first (first + length xs)) m (λ r m',
      r = first + length (filter (λ x, p x = false) xs) ∧ holds m' first (filter (λ x, p x = false) xs) ∧
      same_outside m first (length xs) m' ∧ live m' first (length xs)).
  Proof. first [exact remove_if_compacts | apply remove_if_compacts | intros; eapply remove_if_compacts; eassumption]. Qed.

  (** copy_if and remove_copy_if write exactly the elements selected; the destination starts at or before the
     source, or after it. *)
  Theorem C55_copy_if_selects :
    ∀ p fuel first xs d m,
 holds m first xs → d ≤ first ∨ first + length xs ≤ d → length xs < fuel →
    (live m d (length (filter (λ x, p x = true) xs)) →
     gives (a_copy_if p fuel first (first + length xs) d) m (λ r m',
      r = d + length (filter (λ x, p x = true) xs) ∧ written m d (filter (λ x, p x = true) xs) m')) ∧
    (live m d (length (filter (λ x, p x = false) xs)) →
     gives (a_remove_copy_if p fuel first (first + length xs) d) m (λ r m',
      r = d + length (filter (λ x, p x = false) xs) ∧ written m d (filter (λ x, p x = false) xs) m')).
  Proof. first [exact copy_if_selects | apply copy_if_selects | intros; eapply copy_if_selects; eassumption]. Qed.

  (** remove_copy; the value is not overwritten by the output. *)
  Theorem C55_remove_copy_selects :
    ∀ fuel first xs d (rv : cref A) v m,
 holds m first xs →
    live m d (length (filter (λ x, aeq x v = false) xs)) → d ≤ first ∨ first + length xs ≤ d →
    refers m rv v → outside rv d (length (filter (λ x, aeq x v = false) xs)) → length xs < fuel →
    gives (a_remove_copy aeq fuel first (first + length xs) d rv) m (λ r m',
      r = d + length (filter (λ x, aeq x v = false) xs) ∧ written m d (filter (λ x, aeq x v = false) xs) m').
  Proof. first [exact remove_copy_selects | apply remove_copy_selects | intros; eapply remove_copy_selects; eassumption]. Qed.

  (** copy and copy_n, also to an overlapping destination that starts before the source. *)
  Theorem C56_copy_copies :
    ∀ fuel first xs d n m,
 holds m first xs → live m d (length xs) →
    d ≤ first ∨ first + length xs ≤ d → length xs < fuel →
    gives (a_copy fuel first (first + length xs) d) m (λ r m', r = d + length xs ∧ written m d xs m') ∧
    (Z.to_nat n = length xs →
     gives (a_copy_n fuel first n d) m (λ r m', r = d + length xs ∧ written m d xs m')).
  Proof. first [exact copy_copies | apply copy_copies | intros; eapply copy_copies; eassumption]. Qed.

  (** copy_backward to [d, d + n), also overlapping when it ends behind the source. *)
  Theorem C56_copy_backward_copies :
    ∀ fuel first xs d m,
 holds m first xs → live m d (length xs) →
    d + length xs ≤ first ∨ first ≤ d → length xs < fuel →
    gives (a_copy_backward fuel first (first + length xs) (d + length xs)) m (λ r m', r = d ∧ written m d xs m').
  Proof. first [exact copy_backward_copies | apply copy_backward_copies | intros; eapply copy_backward_copies; eassumption]. Qed.

  (** swap (also of a cell with itself), iter_swap. *)
  Theorem C56_swap_swaps :
    ∀ m a b (x y : A),
 m !! a = Some (Some x) → m !! b = Some (Some y) →
    gives (a_iter_swap a b) m (λ _ m', m' !! a = Some (Some y) ∧ m' !! b = Some (Some x) ∧
      length m' = length m ∧ ∀ j, j ≠ a → j ≠ b → m' !! j = m !! j).
  Proof. first [exact swap_swaps | apply swap_swaps | intros; eapply swap_swaps; eassumption]. Qed.

  (** swap_ranges exchanges two disjoint ranges. *)
  Theorem C56_swap_ranges_swaps :
    ∀ fuel f1 xs f2 ys m,
 holds m f1 xs → holds m f2 ys → length xs = length ys →
    apart f1 (length xs) f2 (length ys) → length xs < fuel →
    gives (a_swap_ranges fuel f1 (f1 + length xs) f2) m (λ r m', r = f2 + length ys ∧
      holds m' f1 ys ∧ holds m' f2 xs ∧ length m' = length m ∧
      ∀ j, (j < f1 ∨ f1 + length xs ≤ j) → (j < f2 ∨ f2 + length ys ≤ j) → m' !! j = m !! j).
  Proof. first [exact swap_ranges_swaps | apply swap_ranges_swaps | intros; eapply swap_ranges_swaps; eassumption]. Qed.

  (** reverse. *)
  Theorem C56_reverse_reverses :
    ∀ fuel first xs m,
 holds m first xs → length xs < fuel →
    gives (a_reverse fuel first (first + length xs)) m (λ _ m', written m first (rev xs) m').
  Proof. first [exact reverse_reverses | apply reverse_reverses | intros; eapply reverse_reverses; eassumption]. Qed.

  (** reverse_copy to a disjoint destination. *)
  Theorem C56_reverse_copy_reverses :
    ∀ fuel first xs d m,
 holds m first xs → live m d (length xs) →
    apart first (length xs) d (length xs) → length xs < fuel →
    gives (a_reverse_copy fuel first (first + length xs) d) m (λ r m', r = d + length xs ∧ written m d (rev xs) m').
  Proof. first [exact reverse_copy_reverses | apply reverse_copy_reverses | intros; eapply reverse_copy_reverses; eassumption]. Qed.

  (** fill and fill_n (any count), also with an element of the range as the value. *)
  Theorem C56_fill_fills :
    ∀ fuel first n c (r : cref A) v m,
 refers m r v →
    (live m first n → n < fuel →
     gives (a_fill fuel first (first + n) r) m (λ _ m', written m first (replicate n v) m')) ∧
    (live m first (Z.to_nat c) → Z.to_nat c < fuel →
     gives (a_fill_n fuel first c r) m (λ i m', i = first + Z.to_nat c ∧ written m first (replicate (Z.to_nat c) v) m')).
  Proof. first [exact fill_fills | apply fill_fills | intros; eapply fill_fills; eassumption]. Qed.

  (** fill and fill_n (any count), also with an element of the range as the value. *)
  Theorem C65_fill_fills_partial :
    ∀ fuel first n c (r : cref A) v m,
 refers m r v →
    (live m first n → n < fuel →
     gives (a_fill fuel first (first + n) r) m (λ _ m', written m first (replicate n v) m')) ∧
    (live m first (Z.to_nat c) → Z.to_nat c < fuel →
     gives (a_fill_n fuel first c r) m (λ i m', i = first + Z.to_nat c ∧ written m first (replicate (Z.to_nat c) v) m')).
  Proof. first [exact fill_fills | apply fill_fills | intros; eapply fill_fills; eassumption]. Qed.

  (** generate and generate_n (any count): one call of the generator per element, in order. *)
  Theorem C56_generate_generates :
    ∀ {St} (g : St → St * A) fuel first n c s m,
    (live m first n → n < fuel →
     gives (a_generate g fuel first (first + n) s) m (λ _ m', written m first (generated g s n) m')) ∧
    (live m first (Z.to_nat c) → Z.to_nat c < fuel →
     gives (a_generate_n g fuel first c s) m (λ r m', r = first + Z.to_nat c ∧ written m first (generated g s (Z.to_nat c)) m')).
  Proof. first [exact generate_generates | apply generate_generates | intros; eapply generate_generates; eassumption]. Qed.

  (** replace_if and replace; the new value may be an element of the range, the old one not. *)
  Theorem C56_replace_replaces :
    ∀ p fuel first xs (ro r : cref A) o v m,
 holds m first xs → refers m r v → length xs < fuel →
    gives (a_replace_if p fuel first (first + length xs) r) m (λ _ m', written m first ((λ x, if p x then v else x) <$> xs) m') ∧
    (refers m ro o → outside ro first (length xs) →
     gives (a_replace aeq fuel first (first + length xs) ro r) m (λ _ m', written m first ((λ x, if aeq x o then v else x) <$> xs) m')).
  Proof. first [exact replace_replaces | apply replace_replaces | intros; eapply replace_replaces; eassumption]. Qed.

  (** replace_if and replace; the new value may be an element of the range, the old one not. *)
  Theorem C65_replace_replaces_partial :
    ∀ p fuel first xs (ro r : cref A) o v m,
 holds m first xs → refers m r v → length xs < fuel →
    gives (a_replace_if p fuel first (first + length xs) r) m (λ _ m', written m first ((λ x, if p x then v else x) <$> xs) m') ∧
    (refers m ro o → outside ro first (length xs) →
     gives (a_replace aeq fuel first (first + length xs) ro r) m (λ _ m', written m first ((λ x, if aeq x o then v else x) <$> xs) m')).
  Proof. first [exact replace_replaces | apply replace_replaces | intros; eapply replace_replaces; eassumption]. Qed.

  (** replace_copy and replace_copy_if; the values are not overwritten by the output. *)
  Theorem C56_replace_copy_replaces :
    ∀ p fuel first xs d (ro r : cref A) o v m,
 holds m first xs → live m d (length xs) →
    d ≤ first ∨ first + length xs ≤ d → refers m r v → outside r d (length xs) → length xs < fuel →
    gives (a_replace_copy_if p fuel first (first + length xs) d r) m (λ i m',
      i = d + length xs ∧ written m d ((λ x, if p x then v else x) <$> xs) m') ∧
    (refers m ro o → outside ro d (length xs) →
     gives (a_replace_copy aeq fuel first (first + length xs) d ro r) m (λ i m',
      i = d + length xs ∧ written m d ((λ x, if aeq x o then v else x) <$> xs) m')).
  Proof. first [exact replace_copy_replaces | apply replace_copy_replaces | intros; eapply replace_copy_replaces; eassumption]. Qed.

  (** transform of one range, also in place. *)
  Theorem C56_transform1_transforms :
    ∀ op fuel first xs d m,
 holds m first xs → live m d (length xs) →
    d ≤ first ∨ first + length xs ≤ d → length xs < fuel →
    gives (a_transform1 op fuel first (first + length xs) d) m (λ r m', r = d + length xs ∧ written m d (op <$> xs) m').
  Proof. first [exact transform1_transforms | apply transform1_transforms | intros; eapply transform1_transforms; eassumption]. Qed.

  (** transform of two ranges, also in place. *)
  Theorem C56_transform2_transforms :
    ∀ op fuel f1 xs f2 ys d m,
 holds m f1 xs → holds m f2 ys → length xs ≤ length ys → live m d (length xs) →
    d ≤ f1 ∨ f1 + length xs ≤ d → d ≤ f2 ∨ f2 + length xs ≤ d → length xs < fuel →
    gives (a_transform2 op fuel f1 (f1 + length xs) f2 d) m (λ r m', r = d + length xs ∧ written m d (zip_with op xs ys) m').
  Proof. first [exact transform2_transforms | apply transform2_transforms | intros; eapply transform2_transforms; eassumption]. Qed.

  (** for_each calls the function once per element, in order, and returns the function object. *)
  Theorem C56_for_each_calls :
    ∀ {St} (f : St → A → St * A) fuel first xs s m,
 holds m first xs → length xs < fuel →
    gives (a_for_each f fuel first (first + length xs) s) m (λ s' m', s' = (each f s xs).1 ∧ written m first (each f s xs).2 m').
  Proof. first [exact for_each_calls | apply for_each_calls | intros; eapply for_each_calls; eassumption]. Qed.

  (** iota and accumulate. *)
  Theorem C56_iota_accumulate :
    ∀ {B} incr (add : B → A → B) fuel first n xs v b m,
    (live m first n → n < fuel →
     gives (a_iota incr fuel first (first + n) v) m (λ _ m', written m first ((λ k, Nat.iter k incr v) <$> seq 0 n) m')) ∧
    (holds m first xs → length xs < fuel →
     gives (a_accumulate add fuel first (first + length xs) b) m (λ r m', m' = m ∧ r = foldl add b xs)).
  Proof. first [exact iota_accumulate | apply iota_accumulate | intros; eapply iota_accumulate; eassumption]. Qed.

  (** remove with the first element of the range as the value: the reference is overwritten, and a later
     element equal to it survives. *)
  Theorem C65_remove_aliased_wrong_refuted :
    ∀ fuel first (x y : A) m,
 aeq x x = true → aeq y x = false → aeq x y = false →
    holds m first [x; y; x] → 3 < fuel →
    gives (a_remove aeq moved fuel first (first + 3) (At first)) m (λ r m',
      r = first + 2 ∧ holds m' first [y; x]) ∧
    filter (λ z, aeq z x = false) [x; y; x] = [y].
  Proof. first [exact remove_aliased_wrong | apply remove_aliased_wrong | intros; eapply remove_aliased_wrong; eassumption]. Qed.

  (** replace with the first element of the range as the old value: later equal elements stay. *)
  Theorem C65_replace_aliased_wrong_refuted :
    ∀ fuel first (x y : A) m,
 aeq x x = true → aeq x y = false →
    holds m first [x; x] → 2 < fuel →
    gives (a_replace aeq fuel first (first + 2) (At first) (Val y)) m (λ _ m', holds m' first [y; x]).
  Proof. first [exact replace_aliased_wrong | apply replace_aliased_wrong | intros; eapply replace_aliased_wrong; eassumption]. Qed.

  (** min and max return one of the two references: to a smallest resp. largest of the two values. *)
  Theorem C58_min_max_pick :
    ∀ comp (a b : cref A) x y m,
 weak_order comp → refers m a x → refers m b y →
    gives (a_min_c comp a b) m (λ r m', m' = m ∧ (r = a ∨ r = b) ∧ ∃ z, refers m r z ∧ comp x z = false ∧ comp y z = false) ∧
    gives (a_max_c comp a b) m (λ r m', m' = m ∧ (r = a ∨ r = b) ∧ ∃ z, refers m r z ∧ comp z x = false ∧ comp z y = false).
  Proof. first [exact min_max_pick | apply min_max_pick | intros; eapply min_max_pick; eassumption]. Qed.

  (** the forms of min, max and minmax without a comparison use < ; minmax returns the smaller, then the larger. *)
  Theorem C58_min_max_default :
    ∀ (a b : cref A) x y m,
 weak_order alt → refers m a x → refers m b y →
    gives (a_min alt a b) m (λ r m', m' = m ∧ (r = a ∨ r = b) ∧ ∃ z, refers m r z ∧ alt x z = false ∧ alt y z = false) ∧
    gives (a_max alt a b) m (λ r m', m' = m ∧ (r = a ∨ r = b) ∧ ∃ z, refers m r z ∧ alt z x = false ∧ alt z y = false) ∧
    gives (a_minmax alt a b) m (λ r m', m' = m ∧ (r = (a, b) ∧ alt y x = false ∨ r = (b, a) ∧ alt x y = false)).
  Proof. first [exact min_max_default | apply min_max_default | intros; eapply min_max_default; eassumption]. Qed.

  (** max returns the first argument, and minmax the arguments in order, if they are equivalent. *)
  Theorem C58_max_minmax_ties :
    ∀ comp (a b : cref A) x y m,
 weak_order comp → refers m a x → refers m b y →
    gives (a_max_c comp a b) m (λ r m', m' = m ∧ r = if comp x y then b else a) ∧
    gives (a_minmax_c comp a b) m (λ r m', m' = m ∧ r = if comp y x then (b, a) else (a, b)).
  Proof. first [exact max_minmax_ties | apply max_minmax_ties | intros; eapply max_minmax_ties; eassumption]. Qed.

  (** max returns the first argument, and minmax the arguments in order, if they are equivalent. *)
  Theorem C66_max_minmax_ties_partial :
    ∀ comp (a b : cref A) x y m,
 weak_order comp → refers m a x → refers m b y →
    gives (a_max_c comp a b) m (λ r m', m' = m ∧ r = if comp x y then b else a) ∧
    gives (a_minmax_c comp a b) m (λ r m', m' = m ∧ r = if comp y x then (b, a) else (a, b)).
  Proof. first [exact max_minmax_ties | apply max_minmax_ties | intros; eapply max_minmax_ties; eassumption]. Qed.

  (** min returns the second argument if they are equivalent. *)
  Theorem C66_min_tie_wrong_refuted :
    ∀ comp (a b : cref A) x y m,
 refers m a x → refers m b y → equivalent comp x y →
    gives (a_min_c comp a b) m (λ r m', m' = m ∧ r = b).
  Proof. first [exact min_tie_wrong | apply min_tie_wrong | intros; eapply min_tie_wrong; eassumption]. Qed.

  (** min_element returns the first smallest element, last for an empty range. *)
  Theorem C58_min_element_first :
    ∀ fuel first xs m,
 weak_order alt → holds m first xs → length xs < fuel →
    gives (a_min_element alt fuel first (first + length xs)) m (λ r m', m' = m ∧ ∃ k, r = first + k ∧
      match xs !! k with
      | None => xs = [] ∧ k = 0
      | Some x => ∀ j y, xs !! j = Some y → alt y x = false ∧ (j < k → alt x y = true)
      end).
  Proof. first [exact min_element_first | apply min_element_first | intros; eapply min_element_first; eassumption]. Qed.

  (** min_element returns the first smallest element, last for an empty range. *)
  Theorem C66_min_element_first_partial :
    ∀ fuel first xs m,
 weak_order alt → holds m first xs → length xs < fuel →
    gives (a_min_element alt fuel first (first + length xs)) m (λ r m', m' = m ∧ ∃ k, r = first + k ∧
      match xs !! k with
      | None => xs = [] ∧ k = 0
      | Some x => ∀ j y, xs !! j = Some y → alt y x = false ∧ (j < k → alt x y = true)
      end).
  Proof. first [exact min_element_first | apply min_element_first | intros; eapply min_element_first; eassumption]. Qed.

  (** max_element returns the first largest element, last for an empty range. *)
  Theorem C58_max_element_first :
    ∀ fuel first xs m,
 weak_order alt → holds m first xs → length xs < fuel →
    gives (a_max_element alt fuel first (first + length xs)) m (λ r m', m' = m ∧ ∃ k, r = first + k ∧
      match xs !! k with
      | None => xs = [] ∧ k = 0
      | Some x => ∀ j y, xs !! j = Some y → alt x y = false ∧ (j < k → alt y x = true)
      end).
  Proof. first [exact max_element_first | apply max_element_first | intros; eapply max_element_first; eassumption]. Qed.

  (** max_element returns the first largest element, last for an empty range. *)
  Theorem C66_max_element_first_partial :
    ∀ fuel first xs m,
 weak_order alt → holds m first xs → length xs < fuel →
    gives (a_max_element alt fuel first (first + length xs)) m (λ r m', m' = m ∧ ∃ k, r = first + k ∧
      match xs !! k with
      | None => xs = [] ∧ k = 0
      | Some x => ∀ j y, xs !! j = Some y → alt x y = false ∧ (j < k → alt y x = true)
      end).
  Proof. first [exact max_element_first | apply max_element_first | intros; eapply max_element_first; eassumption]. Qed.

  (** minmax_element returns what min_element and max_element return. *)
  Theorem C58_minmax_element_both :
    ∀ fuel first xs m,
 weak_order alt → holds m first xs → length xs < fuel →
    gives (a_minmax_element alt fuel first (first + length xs)) m (λ r m', m' = m ∧ ∃ k l, r = (first + k, first + l) ∧
      match xs !! k, xs !! l with
      | Some x, Some y => ∀ j z, xs !! j = Some z →
          (alt z x = false ∧ (j < k → alt x z = true)) ∧ (alt y z = false ∧ (j < l → alt z y = true))
      | _, _ => xs = [] ∧ k = 0 ∧ l = 0
      end).
  Proof. first [exact minmax_element_both | apply minmax_element_both | intros; eapply minmax_element_both; eassumption]. Qed.

  (** minmax_element returns the first of two equivalent largest elements, not the last. *)
  Theorem C66_minmax_element_tie_wrong_refuted :
    ∀ fuel first (x y : A) m,
 weak_order alt → equivalent alt x y → holds m first [x; y] → 2 < fuel →
    gives (a_minmax_element alt fuel first (first + 2)) m (λ r m', m' = m ∧ r = (first, first)).
  Proof. first [exact minmax_element_tie_wrong | apply minmax_element_tie_wrong | intros; eapply minmax_element_tie_wrong; eassumption]. Qed.

  (** is_sorted_until returns the end of the longest sorted prefix. *)
  Theorem C58_is_sorted_until_end :
    ∀ fuel first xs m,
 weak_order alt → holds m first xs → length xs < fuel →
    gives (a_is_sorted_until alt fuel first (first + length xs)) m (λ r m', m' = m ∧ ∃ k, r = first + k ∧ k ≤ length xs ∧
      in_order alt (take k xs) ∧ (k < length xs → ¬ in_order alt (take (S k) xs))).
  Proof. first [exact is_sorted_until_end | apply is_sorted_until_end | intros; eapply is_sorted_until_end; eassumption]. Qed.

  (** is_sorted decides sortedness. *)
  Theorem C58_is_sorted_decides :
    ∀ fuel first xs m,
 weak_order alt → holds m first xs → length xs < fuel →
    gives (a_is_sorted alt fuel first (first + length xs)) m (λ b m', m' = m ∧ (b = true ↔ in_order alt xs)).
  Proof. first [exact is_sorted_decides | apply is_sorted_decides | intros; eapply is_sorted_decides; eassumption]. Qed.

  (** fill. *)
  Theorem C59_array_fill :
    ∀ fuel n a (r : cref A) v m,
 live m a n → refers m r v → n < fuel →
    gives (arr_fill fuel n a r) m (λ _ m', written m a (replicate n v) m').
  Proof. first [exact array_fill | apply array_fill | intros; eapply array_fill; eassumption]. Qed.

  (** swap of two array objects (which do not overlap). *)
  Theorem C59_array_swap :
    ∀ fuel n a b xs ys m,
 holds m a xs → holds m b ys → length xs = n → length ys = n →
    apart a (arr_cells n) b (arr_cells n) → n < fuel →
    gives (arr_swap fuel n a b) m (λ _ m', holds m' a ys ∧ holds m' b xs ∧ length m' = length m ∧
      ∀ j, (j < a ∨ a + n ≤ j) → (j < b ∨ b + n ≤ j) → m' !! j = m !! j).
  Proof. first [exact array_swap | apply array_swap | intros; eapply array_swap; eassumption]. Qed.

  (** swap of an array with itself. *)
  Theorem C59_array_swap_self :
    ∀ fuel a xs m,
 holds m a xs → length xs < fuel →
    gives (arr_swap fuel (length xs) a a) m (λ _ m', m' = m).
  Proof. first [exact array_swap_self | apply array_swap_self | intros; eapply array_swap_self; eassumption]. Qed.

  (** operator== and operator!=. *)
  Theorem C59_array_eq :
    ∀ fuel n a b xs ys m,
 holds m a xs → holds m b ys → length xs = n → length ys = n → n < fuel →
    gives (arr_eq aeq fuel n a b) m (λ r m', m' = m ∧ (r = true ↔ Forall2 (λ x y, aeq x y = true) xs ys)) ∧
    gives (arr_ne aeq fuel n a b) m (λ r m', m' = m ∧ (r = true ↔ ¬ Forall2 (λ x y, aeq x y = true) xs ys)).
  Proof. first [exact array_eq | apply array_eq | intros; eapply array_eq; eassumption]. Qed.

  (** Element access: at(i) and operator[] designate element i, front the first and back the last; size and
     empty; front and back of an array of size 0 stay inside the object. *)
  Theorem C59_array_access :
    ∀ n a xs m,
 holds m a xs → length xs = n →
    arr_size n = length xs ∧ (arr_empty n = true ↔ xs = []) ∧
    arr_begin a = a ∧ arr_end n a = a + length xs ∧
    (∀ i x, xs !! i = Some x → m !! arr_at n a i = Some (Some x)) ∧
    (∀ x, head xs = Some x → m !! arr_front n a = Some (Some x)) ∧
    (∀ x, last xs = Some x → m !! arr_back n a = Some (Some x)) ∧
    a ≤ arr_front n a < a + arr_cells n ∧ a ≤ arr_back n a < a + arr_cells n ∧
    (n ≠ 0 → arr_cells n = n).
  Proof. first [exact array_access | apply array_access | intros; eapply array_access; eassumption]. Qed.

End algorithms.

Print Assumptions C49_find_first.
Print Assumptions C65_find_first_partial.
Print Assumptions C49_find_if_first.
Print Assumptions C49_adjacent_find_first.
Print Assumptions C49_quantifiers_decide.
Print Assumptions C49_count_matches.
Print Assumptions C65_count_matches_partial.
Print Assumptions C67_count_matches_partial.
Print Assumptions C49_count_if_matches.
Print Assumptions C67_count_if_matches_partial.
Print Assumptions C67_count_overflows_refuted.
Print Assumptions C67_count_if_overflows_refuted.
Print Assumptions C67_distance_exact.
Print Assumptions C50_search_first.
Print Assumptions C51_search_n_first.
Print Assumptions C65_search_n_first_partial.
Print Assumptions C51_search_n_pred_first_partial.
Print Assumptions C51_search_n_pred_wrong_refuted.
Print Assumptions C57_equal3_decides.
Print Assumptions C57_equal4_decides.
Print Assumptions C57_mismatch3_first.
Print Assumptions C57_mismatch4_first.
Print Assumptions C52_lower_bound_point.
Print Assumptions C65_lower_bound_point_partial.
Print Assumptions C52_upper_bound_point.
Print Assumptions C65_upper_bound_point_partial.
Print Assumptions C52_binary_search_decides.
Print Assumptions C52_equal_range_points.
Print Assumptions C52_binary_searches_sorted.
Print Assumptions C53_lower_bound_too_long_refuted.
Print Assumptions C53_lower_bound_any_length_partial.
Print Assumptions C54_merge_stable.
Print Assumptions C55_remove_compacts.
Print Assumptions C55_remove_if_compacts.
Print Assumptions C55_copy_if_selects.
Print Assumptions C55_remove_copy_selects.
Print Assumptions C56_copy_copies.
Print Assumptions C56_copy_backward_copies.
Print Assumptions C56_swap_swaps.
Print Assumptions C56_swap_ranges_swaps.
Print Assumptions C56_reverse_reverses.
Print Assumptions C56_reverse_copy_reverses.
Print Assumptions C56_fill_fills.
Print Assumptions C65_fill_fills_partial.
Print Assumptions C56_generate_generates.
Print Assumptions C56_replace_replaces.
Print Assumptions C65_replace_replaces_partial.
Print Assumptions C56_replace_copy_replaces.
Print Assumptions C56_transform1_transforms.
Print Assumptions C56_transform2_transforms.
Print Assumptions C56_for_each_calls.
Print Assumptions C56_iota_accumulate.
Print Assumptions C65_remove_aliased_wrong_refuted.
Print Assumptions C65_replace_aliased_wrong_refuted.
Print Assumptions C58_min_max_pick.
Print Assumptions C58_min_max_default.
Print Assumptions C58_max_minmax_ties.
Print Assumptions C66_max_minmax_ties_partial.
Print Assumptions C66_min_tie_wrong_refuted.
Print Assumptions C58_min_element_first.
Print Assumptions C66_min_element_first_partial.
Print Assumptions C58_max_element_first.
Print Assumptions C66_max_element_first_partial.
Print Assumptions C58_minmax_element_both.
Print Assumptions C66_minmax_element_tie_wrong_refuted.
Print Assumptions C58_is_sorted_until_end.
Print Assumptions C58_is_sorted_decides.
Print Assumptions C59_array_fill.
Print Assumptions C59_array_swap.
Print Assumptions C59_array_swap_self.
Print Assumptions C59_array_eq.
Print Assumptions C59_array_access.
