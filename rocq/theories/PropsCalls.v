(** GENERATED by tools/genprops.py from CallsRuns.v: property theorems only.
    Every proof is the lemma of the same statement proved there. *)
From Verif Require Import CallsSpec CallsRuns.
Local Open Scope general_if_scope.

Section calls.
  Context {A : Type} (moved : A → A) (imax : Z).
  Implicit Types (xs ys : list A) (m : amem A).

  (** find_if, find_if_not, all_of, any_of, none_of call the predicate once for each element, in order, up to and including
     the one that decides. *)
  Theorem C89_quantifiers_call :
    ∀ (p : list A → A → bool) fuel first xs m h,
 holds m first xs → length xs < fuel →
    gives (c_find_if p fuel first (first + length xs)) (m, h) (λ r s, ∃ k, r = first + k ∧
      first_answer p h xs true k ∧ s = (m, h ++ take (S k) xs)) ∧
    gives (c_find_if_not p fuel first (first + length xs)) (m, h) (λ r s, ∃ k, r = first + k ∧
      first_answer p h xs false k ∧ s = (m, h ++ take (S k) xs)) ∧
    gives (c_all_of p fuel first (first + length xs)) (m, h) (λ r s, (r = true ↔ Forall (λ a, a = true) (answers p h xs)) ∧
      ∃ k, first_answer p h xs false k ∧ s = (m, h ++ take (S k) xs)) ∧
    gives (c_any_of p fuel first (first + length xs)) (m, h) (λ r s, (r = true ↔ true ∈ answers p h xs) ∧
      ∃ k, first_answer p h xs true k ∧ s = (m, h ++ take (S k) xs)) ∧
    gives (c_none_of p fuel first (first + length xs)) (m, h) (λ r s, (r = true ↔ Forall (λ a, a = false) (answers p h xs)) ∧
      ∃ k, first_answer p h xs true k ∧ s = (m, h ++ take (S k) xs)).
  Proof. first [exact quantifiers_call | apply quantifiers_call | intros; eapply quantifiers_call; eassumption]. Qed.

  (** find compares each element with the value, in order, up to and including the first match. *)
  Theorem C89_find_calls :
    ∀ (p : list (A * A) → A * A → bool) fuel first xs (r : cref A) v m h,
 holds m first xs → refers m r v → length xs < fuel →
    gives (c_find p fuel first (first + length xs) r) (m, h) (λ i s, ∃ k, i = first + k ∧
      first_answer p h (against v xs) true k ∧ s = (m, h ++ take (S k) (against v xs))).
  Proof. first [exact find_calls | apply find_calls | intros; eapply find_calls; eassumption]. Qed.

  (** count_if and count make exactly one call for each element, in order, and count the answers. *)
  Theorem C89_count_calls :
    ∀ fuel first xs m,
 holds m first xs → length xs < fuel →
    (∀ (p : list A → A → bool) h, (Z.of_nat (length (filter (λ a, a = true) (answers p h xs))) ≤ imax)%Z →
     gives (c_count_if imax p fuel first (first + length xs)) (m, h) (λ r s,
       r = Z.of_nat (length (filter (λ a, a = true) (answers p h xs))) ∧ s = (m, h ++ xs))) ∧
    (∀ (p : list (A * A) → A * A → bool) h (r : cref A) v, refers m r v →
     (Z.of_nat (length (filter (λ a, a = true) (answers p h (against v xs)))) ≤ imax)%Z →
     gives (c_count imax p fuel first (first + length xs) r) (m, h) (λ i s,
       i = Z.of_nat (length (filter (λ a, a = true) (answers p h (against v xs)))) ∧ s = (m, h ++ against v xs))).
  Proof. first [exact count_calls | apply count_calls | intros; eapply count_calls; eassumption]. Qed.

  (** adjacent_find compares neighbours in order up to and including the first match; is_sorted_until and is_sorted the
     later one with the earlier one. *)
  Theorem C89_neighbours_call :
    ∀ (p : list (A * A) → A * A → bool) fuel first xs m h,
 holds m first xs → length xs < fuel →
    gives (c_adjacent_find p fuel first (first + length xs)) (m, h) (λ i s, ∃ k,
      first_answer p h (neighbours xs) true k ∧ s = (m, h ++ take (S k) (neighbours xs)) ∧
      i = if decide (k = pred (length xs)) then first + length xs else first + k) ∧
    gives (c_is_sorted_until p fuel first (first + length xs)) (m, h) (λ i s, ∃ k,
      first_answer p h (neighbours_back xs) true k ∧ s = (m, h ++ take (S k) (neighbours_back xs)) ∧
      i = if decide (k = pred (length xs)) then first + length xs else S (first + k)) ∧
    gives (c_is_sorted p fuel first (first + length xs)) (m, h) (λ b s,
      (b = true ↔ Forall (λ a, a = false) (answers p h (neighbours_back xs))) ∧ ∃ k,
      first_answer p h (neighbours_back xs) true k ∧ s = (m, h ++ take (S k) (neighbours_back xs))).
  Proof. first [exact neighbours_call | apply neighbours_call | intros; eapply neighbours_call; eassumption]. Qed.

  (** equal and mismatch compare the elements pairwise, in order, up to and including the first difference. *)
  Theorem C89_comparisons_call :
    ∀ (p : list (A * A) → A * A → bool) fuel f1 xs f2 ys m h,
 holds m f1 xs → holds m f2 ys → length xs < fuel →
    (length xs ≤ length ys →
     gives (c_equal3 p fuel f1 (f1 + length xs) f2) (m, h) (λ b s, (b = true ↔ Forall (λ a, a = true) (answers p h (zip xs ys))) ∧
       ∃ k, first_answer p h (zip xs ys) false k ∧ s = (m, h ++ take (S k) (zip xs ys))) ∧
     gives (c_mismatch3 p fuel f1 (f1 + length xs) f2) (m, h) (λ r s, ∃ k, r = (f1 + k, f2 + k) ∧
       first_answer p h (zip xs ys) false k ∧ s = (m, h ++ take (S k) (zip xs ys)))) ∧
    gives (c_equal4 p fuel f1 (f1 + length xs) f2 (f2 + length ys)) (m, h) (λ b s,
      (b = true ↔ length xs = length ys ∧ Forall (λ a, a = true) (answers p h (zip xs ys))) ∧
      ∃ k, first_answer p h (zip xs ys) false k ∧ s = (m, h ++ take (S k) (zip xs ys))) ∧
    gives (c_mismatch4 p fuel f1 (f1 + length xs) f2 (f2 + length ys)) (m, h) (λ r s, ∃ k, r = (f1 + k, f2 + k) ∧
      first_answer p h (zip xs ys) false k ∧ s = (m, h ++ take (S k) (zip xs ys))).
  Proof. first [exact comparisons_call | apply comparisons_call | intros; eapply comparisons_call; eassumption]. Qed.

  (** search makes at most length * length comparisons, each of an element of the range with one of the subsequence. *)
  Theorem C89_search_calls :
    ∀ (p : list (A * A) → A * A → bool) fuel first xs sub ys m h,
 holds m first xs → holds m sub ys → length xs < fuel →
    gives (c_search p fuel first (first + length xs) sub (sub + length ys)) (m, h) (λ r s,
      first ≤ r ≤ first + length xs ∧ ∃ cs, s = (m, h ++ cs) ∧ length cs ≤ length xs * length ys ∧
        ∀ x y, (x, y) ∈ cs → x ∈ xs ∧ y ∈ ys).
  Proof. first [exact search_calls | apply search_calls | intros; eapply search_calls; eassumption]. Qed.

  (** search_n, with == and with a predicate: every element is tested at most once, in order. *)
  Theorem C89_search_n_calls :
    ∀ (q p : list (A * A) → A * A → bool) fuel first xs count (r : cref A) v m h,
 holds m first xs → refers m r v → length xs < fuel →
    gives (c_search_n p fuel first (first + length xs) count r) (m, h) (λ i s,
      first ≤ i ≤ first + length xs ∧ ∃ k, k ≤ length xs ∧ s = (m, h ++ take k (against v xs))) ∧
    gives (c_search_n_p q p fuel first (first + length xs) count r) (m, h) (λ i s,
      first ≤ i ≤ first + length xs ∧ ∃ k, k ≤ length xs ∧ s = (m, h ++ take k (against v xs))).
  Proof. first [exact search_n_calls | apply search_n_calls | intros; eapply search_n_calls; eassumption]. Qed.

  (** copy_if and remove_copy_if make exactly one call for each element, in order, and copy those selected by the answers. *)
  Theorem C89_copy_if_calls :
    ∀ (p : list A → A → bool) fuel first xs d m h,
 holds m first xs → d ≤ first ∨ first + length xs ≤ d → length xs < fuel →
    (live m d (length (where_is true (answers p h xs) xs)) →
     gives (c_copy_if p fuel first (first + length xs) d) (m, h) (λ r s, r = d + length (where_is true (answers p h xs) xs) ∧
       written m d (where_is true (answers p h xs) xs) s.1 ∧ s.2 = h ++ xs)) ∧
    (live m d (length (where_is false (answers p h xs) xs)) →
     gives (c_remove_copy_if p fuel first (first + length xs) d) (m, h) (λ r s, r = d + length (where_is false (answers p h xs) xs) ∧
       written m d (where_is false (answers p h xs) xs) s.1 ∧ s.2 = h ++ xs)).
  Proof. first [exact copy_if_calls | apply copy_if_calls | intros; eapply copy_if_calls; eassumption]. Qed.

  (** remove_copy compares each element with the value exactly once, in order. *)
  Theorem C89_remove_copy_calls :
    ∀ (p : list (A * A) → A * A → bool) fuel first xs d (rv : cref A) v m h,
 holds m first xs →
    live m d (length (where_is false (answers p h (against v xs)) xs)) →
    d ≤ first ∨ first + length xs ≤ d → refers m rv v → outside rv d (length (where_is false (answers p h (against v xs)) xs)) → length xs < fuel →
    gives (c_remove_copy p fuel first (first + length xs) d rv) (m, h) (λ r s, r = d + length (where_is false (answers p h (against v xs)) xs) ∧
      written m d (where_is false (answers p h (against v xs)) xs) s.1 ∧ s.2 = h ++ against v xs).
  Proof. first [exact remove_copy_calls | apply remove_copy_calls | intros; eapply remove_copy_calls; eassumption]. Qed.

  (** remove_if and remove make exactly one call for each element, in order, although they work in two phases. *)
  Theorem C89_remove_calls :
    ∀ fuel first xs m,
 holds m first xs → length xs < fuel →
    (∀ (p : list A → A → bool) h,
     gives (c_remove_if moved p fuel first (first + length xs)) (m, h) (λ r s,
       r = first + length (where_is false (answers p h xs) xs) ∧ holds s.1 first (where_is false (answers p h xs) xs) ∧
       same_outside m first (length xs) s.1 ∧ live s.1 first (length xs) ∧ s.2 = h ++ xs)) ∧
    (∀ (p : list (A * A) → A * A → bool) h (rv : cref A) v, refers m rv v → outside rv first (length xs) →
     gives (c_remove moved p fuel first (first + length xs) rv) (m, h) (λ r s,
       r = first + length (where_is false (answers p h (against v xs)) xs) ∧ holds s.1 first (where_is false (answers p h (against v xs)) xs) ∧
       same_outside m first (length xs) s.1 ∧ live s.1 first (length xs) ∧ s.2 = h ++ against v xs)).
  Proof. first [exact remove_calls | apply remove_calls | intros; eapply remove_calls; eassumption]. Qed.

  (** replace_if and replace_copy_if make exactly one call for each element, in order. *)
  Theorem C89_replace_if_calls :
    ∀ (p : list A → A → bool) fuel first xs d (r : cref A) v m h,
 holds m first xs → refers m r v → length xs < fuel →
    gives (c_replace_if p fuel first (first + length xs) r) (m, h) (λ _ s,
      written m first (put_where v (answers p h xs) xs) s.1 ∧ s.2 = h ++ xs) ∧
    (live m d (length xs) → d ≤ first ∨ first + length xs ≤ d → outside r d (length xs) →
     gives (c_replace_copy_if p fuel first (first + length xs) d r) (m, h) (λ i s, i = d + length xs ∧
       written m d (put_where v (answers p h xs) xs) s.1 ∧ s.2 = h ++ xs)).
  Proof. first [exact replace_if_calls | apply replace_if_calls | intros; eapply replace_if_calls; eassumption]. Qed.

  (** replace and replace_copy compare each element with the old value exactly once, in order. *)
  Theorem C89_replace_calls :
    ∀ (p : list (A * A) → A * A → bool) fuel first xs d (ro : cref A) o (r : cref A) v m h,
 holds m first xs →
    refers m ro o → refers m r v → length xs < fuel →
    (outside ro first (length xs) →
     gives (c_replace p fuel first (first + length xs) ro r) (m, h) (λ _ s,
       written m first (put_where v (answers p h (against o xs)) xs) s.1 ∧ s.2 = h ++ against o xs)) ∧
    (live m d (length xs) → d ≤ first ∨ first + length xs ≤ d → outside ro d (length xs) → outside r d (length xs) →
     gives (c_replace_copy p fuel first (first + length xs) d ro r) (m, h) (λ i s, i = d + length xs ∧
       written m d (put_where v (answers p h (against o xs)) xs) s.1 ∧ s.2 = h ++ against o xs)).
  Proof. first [exact replace_calls | apply replace_calls | intros; eapply replace_calls; eassumption]. Qed.

  (** transform calls the operation exactly once for each element or pair of elements, in order, and writes the results in
     that order. *)
  Theorem C89_transform_calls :
    ∀ fuel f1 xs d m,
 holds m f1 xs → live m d (length xs) → d ≤ f1 ∨ f1 + length xs ≤ d → length xs < fuel →
    (∀ (op : list A → A → A) h,
     gives (c_transform1 op fuel f1 (f1 + length xs) d) (m, h) (λ r s, r = d + length xs ∧
       written m d (answers op h xs) s.1 ∧ s.2 = h ++ xs)) ∧
    (∀ (op : list (A * A) → A * A → A) h f2 ys, holds m f2 ys → length xs ≤ length ys → d ≤ f2 ∨ f2 + length xs ≤ d →
     gives (c_transform2 op fuel f1 (f1 + length xs) f2 d) (m, h) (λ r s, r = d + length xs ∧
       written m d (answers op h (zip xs ys)) s.1 ∧ s.2 = h ++ zip xs ys)).
  Proof. first [exact transform_calls | apply transform_calls | intros; eapply transform_calls; eassumption]. Qed.

  (** The binary searches, on any range and for any comparison: at most floor(log2 n) + 1 comparisons (none if n = 0),
     comp(element, value) in lower_bound and comp(value, element) in upper_bound; binary_search makes at most one more,
     equal_range the sum. The result is within the range. *)
  Theorem C89_binary_search_calls :
    ∀ (p : list (A * A) → A * A → bool) fuel first xs (r : cref A) v m h,
 holds m first xs → refers m r v →
    (Z.of_nat (length xs) ≤ imax)%Z → Nat.log2 (2 * length xs) < fuel →
    gives (c_lower_bound imax p fuel first (first + length xs) r) (m, h) (λ i s, first ≤ i ≤ first + length xs ∧
      ∃ ys, s = (m, h ++ ((λ x, (x, v)) <$> ys)) ∧ length ys ≤ Nat.log2 (2 * length xs) ∧ ys ⊆ xs) ∧
    gives (c_upper_bound imax p fuel first (first + length xs) r) (m, h) (λ i s, first ≤ i ≤ first + length xs ∧
      ∃ ys, s = (m, h ++ ((λ x, (v, x)) <$> ys)) ∧ length ys ≤ Nat.log2 (2 * length xs) ∧ ys ⊆ xs) ∧
    gives (c_binary_search imax p fuel first (first + length xs) r) (m, h) (λ _ s, ∃ ys zs,
      s = (m, h ++ ((λ x, (x, v)) <$> ys) ++ ((λ x, (v, x)) <$> zs)) ∧
      length ys ≤ Nat.log2 (2 * length xs) ∧ length zs ≤ 1 ∧ ys ++ zs ⊆ xs) ∧
    gives (c_equal_range imax p fuel first (first + length xs) r) (m, h) (λ _ s, ∃ ys zs,
      s = (m, h ++ ((λ x, (x, v)) <$> ys) ++ ((λ x, (v, x)) <$> zs)) ∧
      length ys ≤ Nat.log2 (2 * length xs) ∧ length zs ≤ Nat.log2 (2 * length xs) ∧ ys ++ zs ⊆ xs).
  Proof. first [exact binary_search_calls | apply binary_search_calls | intros; eapply binary_search_calls; eassumption]. Qed.

  (** merge makes at most one comparison less than it writes elements, none if a range is empty, each of an element of the
     second range with one of the first; whatever the answers, all elements are written. *)
  Theorem C89_merge_calls :
    ∀ (p : list (A * A) → A * A → bool) fuel f1 xs f2 ys d m h,
 holds m f1 xs → holds m f2 ys → live m d (length xs + length ys) →
    apart f1 (length xs) d (length xs + length ys) → apart f2 (length ys) d (length xs + length ys) →
    length xs + length ys < fuel →
    gives (c_merge p fuel f1 (f1 + length xs) f2 (f2 + length ys) d) (m, h) (λ r s, r = d + length xs + length ys ∧
      ∃ zs cs, written m d zs s.1 ∧ zs ≡ₚ xs ++ ys ∧ s.2 = h ++ cs ∧
        length cs ≤ length xs + length ys - 1 ∧ (xs = [] ∨ ys = [] → cs = []) ∧ ∀ y x, (y, x) ∈ cs → y ∈ ys ∧ x ∈ xs).
  Proof. first [exact merge_calls | apply merge_calls | intros; eapply merge_calls; eassumption]. Qed.

  (** min, max and minmax make one comparison; min_element and max_element compare every element but the first once, in
     order, with another element of the range. *)
  Theorem C89_min_max_calls :
    ∀ (p : list (A * A) → A * A → bool) fuel first xs (a b : cref A) x y m h,
 holds m first xs → length xs < fuel →
    refers m a x → refers m b y →
    gives (c_min p a b) (m, h) (λ _ s, s = (m, h ++ [(x, y)])) ∧
    gives (c_max p a b) (m, h) (λ _ s, s = (m, h ++ [(x, y)])) ∧
    gives (c_minmax p a b) (m, h) (λ _ s, s = (m, h ++ [(y, x)])) ∧
    gives (c_min_element p fuel first (first + length xs)) (m, h) (λ r s,
      first ≤ r ≤ first + length xs ∧ ∃ cs, s = (m, h ++ cs) ∧ cs.*1 = tail xs ∧ cs.*2 ⊆ xs) ∧
    gives (c_max_element p fuel first (first + length xs)) (m, h) (λ r s,
      first ≤ r ≤ first + length xs ∧ ∃ cs, s = (m, h ++ cs) ∧ cs.*2 = tail xs ∧ cs.*1 ⊆ xs).
  Proof. first [exact min_max_calls | apply min_max_calls | intros; eapply min_max_calls; eassumption]. Qed.

  (** minmax_element makes 2 (n - 1) comparisons, for every range and whatever they
     answer: more than the 3 (n - 1) / 2 the standard allows as soon as there are two elements. *)
  Theorem C90_minmax_element_calls_refuted :
    ∀ (p : list (A * A) → A * A → bool) fuel first xs m h,
 holds m first xs → length xs < fuel → 2 ≤ length xs →
    gives (c_minmax_element p fuel first (first + length xs)) (m, h) (λ _ s, ∃ cs, s = (m, h ++ cs) ∧
      length cs = 2 * (length xs - 1) ∧ ¬ length cs ≤ 3 * (length xs - 1) / 2).
  Proof. first [exact minmax_element_calls | apply minmax_element_calls | intros; eapply minmax_element_calls; eassumption]. Qed.

  (** The number of comparisons is linear. *)
  Theorem C90_minmax_element_linear_partial :
    ∀ (p : list (A * A) → A * A → bool) fuel first xs m h,
 holds m first xs → length xs < fuel →
    gives (c_minmax_element p fuel first (first + length xs)) (m, h) (λ _ s, ∃ cs, s = (m, h ++ cs) ∧
      length cs = 2 * (length xs - 1)).
  Proof. first [exact minmax_element_linear | apply minmax_element_linear | intros; eapply minmax_element_linear; eassumption]. Qed.

  (** The programs of these theorems are those of AlgModel.v (C49 to C58) with the calls recorded: one-argument function
     objects. *)
  Theorem C89_same_programs_unary :
    ∀ (p : A → bool) (op : A → A) fuel first last d (r : cref A),
    records (c_find_if (λ _, p) fuel first last) (a_find_if fuel first last p) ∧
    records (c_find_if_not (λ _, p) fuel first last) (a_find_if_not fuel first last p) ∧
    records (c_count_if imax (λ _, p) fuel first last) (a_count_if imax fuel first last p) ∧
    records (c_all_of (λ _, p) fuel first last) (a_all_of fuel first last p) ∧
    records (c_any_of (λ _, p) fuel first last) (a_any_of fuel first last p) ∧
    records (c_none_of (λ _, p) fuel first last) (a_none_of fuel first last p) ∧
    records (c_copy_if (λ _, p) fuel first last d) (a_copy_if p fuel first last d) ∧
    records (c_replace_if (λ _, p) fuel first last r) (a_replace_if p fuel first last r) ∧
    records (c_replace_copy_if (λ _, p) fuel first last d r) (a_replace_copy_if p fuel first last d r) ∧
    records (c_remove_copy_if (λ _, p) fuel first last d) (a_remove_copy_if p fuel first last d) ∧
    records (c_remove_if moved (λ _, p) fuel first last) (a_remove_if moved p fuel first last) ∧
    records (c_transform1 (λ _, op) fuel first last d) (a_transform1 op fuel first last d).
  Proof. first [exact same_programs_unary | apply same_programs_unary | intros; eapply same_programs_unary; eassumption]. Qed.

  (** Two-argument function objects and operators, searching and comparing. *)
  Theorem C89_same_programs_binary :
    ∀ (p q : A → A → bool) fuel f1 l1 f2 l2 (r : cref A) n,
    let p' : list (A * A) → A * A → bool := λ _ c, p c.1 c.2 in
    let q' : list (A * A) → A * A → bool := λ _ c, q c.1 c.2 in
    records (c_find p' fuel f1 l1 r) (a_find p fuel f1 l1 r) ∧
    records (c_count imax p' fuel f1 l1 r) (a_count p imax fuel f1 l1 r) ∧
    records (c_search p' fuel f1 l1 f2 l2) (a_search_p p fuel f1 l1 f2 l2) ∧
    records (c_search_n p' fuel f1 l1 n r) (a_search_n p fuel f1 l1 n r) ∧
    records (c_search_n_p q' p' fuel f1 l1 n r) (a_search_n_p q p fuel f1 l1 n r) ∧
    records (c_adjacent_find p' fuel f1 l1) (a_adjacent_find_p p fuel f1 l1) ∧
    records (c_equal3 p' fuel f1 l1 f2) (a_equal3_p p fuel f1 l1 f2) ∧
    records (c_equal4 p' fuel f1 l1 f2 l2) (a_equal4_p p fuel f1 l1 f2 l2) ∧
    records (c_mismatch3 p' fuel f1 l1 f2) (a_mismatch3_p p fuel f1 l1 f2) ∧
    records (c_mismatch4 p' fuel f1 l1 f2 l2) (a_mismatch4_p p fuel f1 l1 f2 l2).
  Proof. first [exact same_programs_binary | apply same_programs_binary | intros; eapply same_programs_binary; eassumption]. Qed.

  (** Two-argument function objects and operators, modifying and ordering. *)
  Theorem C89_same_programs_ordering :
    ∀ (p : A → A → bool) (op : A → A → A) fuel f1 l1 f2 l2 d (r r' : cref A),
    let p' : list (A * A) → A * A → bool := λ _ c, p c.1 c.2 in
    records (c_replace p' fuel f1 l1 r r') (a_replace p fuel f1 l1 r r') ∧
    records (c_replace_copy p' fuel f1 l1 d r r') (a_replace_copy p fuel f1 l1 d r r') ∧
    records (c_remove_copy p' fuel f1 l1 d r) (a_remove_copy p fuel f1 l1 d r) ∧
    records (c_remove moved p' fuel f1 l1 r) (a_remove p moved fuel f1 l1 r) ∧
    records (c_transform2 (λ _ c, op c.1 c.2) fuel f1 l1 f2 d) (a_transform2 op fuel f1 l1 f2 d) ∧
    records (c_lower_bound imax p' fuel f1 l1 r) (a_lower_bound_c imax p fuel f1 l1 r) ∧
    records (c_upper_bound imax p' fuel f1 l1 r) (a_upper_bound_c imax p fuel f1 l1 r) ∧
    records (c_binary_search imax p' fuel f1 l1 r) (a_binary_search_c imax p fuel f1 l1 r) ∧
    records (c_equal_range imax p' fuel f1 l1 r) (a_equal_range_c imax p fuel f1 l1 r) ∧
    records (c_is_sorted_until p' fuel f1 l1) (a_is_sorted_until p fuel f1 l1) ∧
    records (c_is_sorted p' fuel f1 l1) (a_is_sorted p fuel f1 l1) ∧
    records (c_merge p' fuel f1 l1 f2 l2 d) (a_merge p fuel f1 l1 f2 l2 d) ∧
    records (c_min p' r r') (a_min_c p r r') ∧ records (c_max p' r r') (a_max_c p r r') ∧
    records (c_minmax p' r r') (a_minmax_c p r r') ∧
    records (c_min_element p' fuel f1 l1) (a_min_element p fuel f1 l1) ∧
    records (c_max_element p' fuel f1 l1) (a_max_element p fuel f1 l1) ∧
    records (c_minmax_element p' fuel f1 l1) (a_minmax_element p fuel f1 l1).
  Proof. first [exact same_programs_ordering | apply same_programs_ordering | intros; eapply same_programs_ordering; eassumption]. Qed.

End calls.

Print Assumptions C89_quantifiers_call.
Print Assumptions C89_find_calls.
Print Assumptions C89_count_calls.
Print Assumptions C89_neighbours_call.
Print Assumptions C89_comparisons_call.
Print Assumptions C89_search_calls.
Print Assumptions C89_search_n_calls.
Print Assumptions C89_copy_if_calls.
Print Assumptions C89_remove_copy_calls.
Print Assumptions C89_remove_calls.
Print Assumptions C89_replace_if_calls.
Print Assumptions C89_replace_calls.
Print Assumptions C89_transform_calls.
Print Assumptions C89_binary_search_calls.
Print Assumptions C89_merge_calls.
Print Assumptions C89_min_max_calls.
Print Assumptions C90_minmax_element_calls_refuted.
Print Assumptions C90_minmax_element_linear_partial.
Print Assumptions C89_same_programs_unary.
Print Assumptions C89_same_programs_binary.
Print Assumptions C89_same_programs_ordering.
