(** Algorithms, numeric, array: the property lemmas, in the vocabulary of AlgSpec.v and State.v only.

    Ranges are [first, first + length xs) with [holds m first xs]; nothing is assumed about the
    rest of the memory, in particular it may hold no objects, so that an access outside the ranges
    would be undefined behaviour. [fuel] bounds the number of iterations of each loop. *)
From Coq Require Import ssreflect.
From Verif Require Import AlgSpec AlgProofs AlgProofs2 AlgProofs3.
Local Open Scope general_if_scope.
(*@HEADER
From Verif Require Import AlgSpec AlgRuns.
Local Open Scope general_if_scope.

Section algorithms.
  Context {A : Type} (aeq alt : A → A → bool) (moved : A → A) (imax : Z).
  Implicit Types (xs ys : list A) (m : amem A).
@*)
(*@FOOTER
End algorithms.
@*)

Section algorithms.
  Context {A : Type} (aeq alt : A → A → bool) (moved : A → A) (imax : Z).
  Implicit Types (xs ys : list A) (m : amem A).

  (** *** C49: searching for an element *)
  (*@ C49,C65_partial find returns the position of the first element equal to the value, or last. The value may be
     an element of the range. *)
  Lemma find_first fuel first xs (r : cref A) v m : holds m first xs → refers m r v → length xs < fuel →
    gives (a_find aeq fuel first (first + length xs) r) m (λ i m',
      m' = m ∧ ∃ k, i = first + k ∧ first_such (at_sat (λ x, aeq x v) xs) (length xs) k).
  Proof. apply find_gives. Qed.
  (*@ C49 find_if and find_if_not. *)
  Lemma find_if_first fuel first xs (p : A → bool) m : holds m first xs → length xs < fuel →
    gives (a_find_if fuel first (first + length xs) p) m (λ i m',
      m' = m ∧ ∃ k, i = first + k ∧ first_such (at_sat p xs) (length xs) k) ∧
    gives (a_find_if_not fuel first (first + length xs) p) m (λ i m',
      m' = m ∧ ∃ k, i = first + k ∧ first_such (λ j, ∃ x, xs !! j = Some x ∧ p x = false) (length xs) k).
  Proof. intros. split; [by apply find_if_gives|by apply find_if_not_gives]. Qed.
  (*@ C49 adjacent_find, with == and with a predicate. *)
  Lemma adjacent_find_first fuel first xs (p : A → A → bool) m : holds m first xs → length xs < fuel →
    gives (a_adjacent_find aeq fuel first (first + length xs)) m (λ i m',
      m' = m ∧ ∃ k, i = first + k ∧ first_such (adjacent aeq xs) (length xs) k) ∧
    gives (a_adjacent_find_p p fuel first (first + length xs)) m (λ i m',
      m' = m ∧ ∃ k, i = first + k ∧ first_such (adjacent p xs) (length xs) k).
  Proof. intros. split; by apply adjacent_find_gives. Qed.
  (*@ C49 all_of, any_of, none_of. *)
  Lemma quantifiers_decide fuel first xs (p : A → bool) m : holds m first xs → length xs < fuel →
    gives (a_all_of fuel first (first + length xs) p) m (λ b m', m' = m ∧ (b = true ↔ Forall (λ x, p x = true) xs)) ∧
    gives (a_any_of fuel first (first + length xs) p) m (λ b m', m' = m ∧ (b = true ↔ Exists (λ x, p x = true) xs)) ∧
    gives (a_none_of fuel first (first + length xs) p) m (λ b m', m' = m ∧ (b = true ↔ Forall (λ x, p x = false) xs)).
  Proof. intros. split_and!; [by apply all_of_gives|by apply any_of_gives|by apply none_of_gives]. Qed.
  (*@ C49,C65_partial,C67_partial count and count_if, when the number of matches fits in an int. *)
  Lemma count_matches fuel first xs (r : cref A) v m : holds m first xs → refers m r v → length xs < fuel →
    (Z.of_nat (length (filter (λ x, aeq x v = true) xs)) ≤ imax)%Z →
    gives (a_count aeq imax fuel first (first + length xs) r) m (λ z m',
      m' = m ∧ z = Z.of_nat (length (filter (λ x, aeq x v = true) xs))).
  Proof. apply count_gives. Qed.
  (*@ C49,C67_partial *)
  Lemma count_if_matches fuel first xs (p : A → bool) m : holds m first xs → length xs < fuel →
    (Z.of_nat (length (filter (λ x, p x = true) xs)) ≤ imax)%Z →
    gives (a_count_if imax fuel first (first + length xs) p) m (λ z m',
      m' = m ∧ z = Z.of_nat (length (filter (λ x, p x = true) xs))).
  Proof. apply count_if_gives. Qed.
  (*@ C67_refuted More than INT_MAX matches overflow the int counter. *)
  Lemma count_overflows fuel first xs (r : cref A) v m : holds m first xs → refers m r v → length xs < fuel → (0 ≤ imax)%Z →
    (imax < Z.of_nat (length (filter (λ x, aeq x v = true) xs)))%Z →
    goes_wrong (a_count aeq imax fuel first (first + length xs) r) m IntOverflow.
  Proof. intros. by eapply count_wrong_aux. Qed.
  (*@ C67_refuted *)
  Lemma count_if_overflows fuel first xs (p : A → bool) m : holds m first xs → length xs < fuel → (0 ≤ imax)%Z →
    (imax < Z.of_nat (length (filter (λ x, p x = true) xs)))%Z →
    goes_wrong (a_count_if imax fuel first (first + length xs) p) m IntOverflow.
  Proof. intros. by apply count_if_wrong_aux. Qed.
  (*@ C67 distance is the number of steps for up to INT_MAX of them, and wrong for every larger one. *)
  Lemma distance_exact first last : (0 ≤ imax)%Z → first ≤ last →
    (a_distance imax first last = Z.of_nat (last - first) ↔ (Z.of_nat (last - first) ≤ imax)%Z).
  Proof.
    intros Hi Hle. unfold a_distance. split.
    - intros E. pose proof (to_int_le imax (Z.of_nat last - Z.of_nat first) Hi). lia.
    - intros. rewrite to_int_small; lia.
  Qed.

  (** *** C50, C51 *)
  (*@ C50 search, with == and with a predicate. *)
  Lemma search_first fuel first xs sub ys (p : A → A → bool) m : holds m first xs → holds m sub ys →
    length xs < fuel → length ys < fuel →
    gives (a_search aeq fuel first (first + length xs) sub (sub + length ys)) m (λ i m',
      m' = m ∧ ∃ k, i = first + k ∧ first_such (occurs aeq xs ys) (length xs) k) ∧
    gives (a_search_p p fuel first (first + length xs) sub (sub + length ys)) m (λ i m',
      m' = m ∧ ∃ k, i = first + k ∧ first_such (occurs p xs ys) (length xs) k).
  Proof. intros. split; by apply search_gives. Qed.
  (*@ C51,C65_partial search_n with ==: every count (also zero and negative ones). *)
  Lemma search_n_first fuel first xs count (r : cref A) v m : holds m first xs → refers m r v → length xs < fuel →
    gives (a_search_n aeq fuel first (first + length xs) count r) m (λ i m',
      m' = m ∧ ∃ k, i = first + k ∧ first_such (run_of (λ x, aeq x v) xs count) (length xs) k).
  Proof. intros. by apply search_n_gives. Qed.
  (*@ C51_partial search_n with a predicate, when the predicate and == agree on the elements of the range. *)
  Lemma search_n_pred_first fuel first xs count (r : cref A) v (p : A → A → bool) m : holds m first xs → refers m r v →
    (∀ x, x ∈ xs → aeq x v = p x v) → length xs < fuel →
    gives (a_search_n_p aeq p fuel first (first + length xs) count r) m (λ i m',
      m' = m ∧ ∃ k, i = first + k ∧ first_such (run_of (λ x, p x v) xs count) (length xs) k).
  Proof. apply search_n_gives. Qed.
  (*@ C51_refuted search_n with a predicate finds nothing when no element is == to the value, even if every element
     satisfies the predicate. *)
  Lemma search_n_pred_wrong fuel first xs count (r : cref A) v (p : A → A → bool) m : holds m first xs → refers m r v →
    (0 < count ≤ Z.of_nat (length xs))%Z → (∀ x, x ∈ xs → aeq x v = false) → (∀ x, x ∈ xs → p x v = true) → length xs < fuel →
    gives (a_search_n_p aeq p fuel first (first + length xs) count r) m (λ i m', m' = m ∧ i = first + length xs) ∧
    run_of (λ x, p x v) xs count 0 ∧ first ≠ first + length xs.
  Proof.
    intros H Hr Hc H1 H2 Hf. split_and!.
    - apply (search_n_p_none aeq fuel first xs count r v); [done..|lia|done|done].
    - intros k Hk. destruct (lookup_lt_is_Some_2 xs (0 + k)) as [x Hx]; [lia|]. exists x. split; [done|]. apply H2. by eapply elem_of_list_lookup_2.
    - lia.
  Qed.

  (** *** C57: comparisons *)
  (*@ C57 equal with three iterators, with == and with a predicate. *)
  Lemma equal3_decides fuel f1 xs f2 ys (p : A → A → bool) m : holds m f1 xs → holds m f2 ys →
    length xs ≤ length ys → length xs < fuel →
    gives (a_equal3 aeq fuel f1 (f1 + length xs) f2) m (λ b m',
      m' = m ∧ (b = true ↔ Forall2 (λ x y, aeq x y = true) xs (take (length xs) ys))) ∧
    gives (a_equal3_p p fuel f1 (f1 + length xs) f2) m (λ b m',
      m' = m ∧ (b = true ↔ Forall2 (λ x y, p x y = true) xs (take (length xs) ys))).
  Proof. intros. split; by apply equal3_gives. Qed.
  (*@ C57 equal with four iterators: any lengths. *)
  Lemma equal4_decides fuel f1 xs f2 ys (p : A → A → bool) m : holds m f1 xs → holds m f2 ys → length xs < fuel →
    gives (a_equal4 aeq fuel f1 (f1 + length xs) f2 (f2 + length ys)) m (λ b m',
      m' = m ∧ (b = true ↔ Forall2 (λ x y, aeq x y = true) xs ys)) ∧
    gives (a_equal4_p p fuel f1 (f1 + length xs) f2 (f2 + length ys)) m (λ b m',
      m' = m ∧ (b = true ↔ Forall2 (λ x y, p x y = true) xs ys)).
  Proof. intros. split; by apply equal4_gives. Qed.
  (*@ C57 mismatch with three iterators. *)
  Lemma mismatch3_first fuel f1 xs f2 ys (p : A → A → bool) m : holds m f1 xs → holds m f2 ys →
    length xs ≤ length ys → length xs < fuel →
    gives (a_mismatch3 aeq fuel f1 (f1 + length xs) f2) m (λ r m',
      m' = m ∧ ∃ k, r = (f1 + k, f2 + k) ∧ first_such (differs aeq xs ys) (length xs) k) ∧
    gives (a_mismatch3_p p fuel f1 (f1 + length xs) f2) m (λ r m',
      m' = m ∧ ∃ k, r = (f1 + k, f2 + k) ∧ first_such (differs p xs ys) (length xs) k).
  Proof. intros. split; by apply mismatch3_gives. Qed.
  (*@ C57 mismatch with four iterators: any lengths. *)
  Lemma mismatch4_first fuel f1 xs f2 ys (p : A → A → bool) m : holds m f1 xs → holds m f2 ys → length xs < fuel →
    gives (a_mismatch4 aeq fuel f1 (f1 + length xs) f2 (f2 + length ys)) m (λ r m',
      m' = m ∧ ∃ k, r = (f1 + k, f2 + k) ∧ first_such (differs aeq xs ys) (length xs `min` length ys) k) ∧
    gives (a_mismatch4_p p fuel f1 (f1 + length xs) f2 (f2 + length ys)) m (λ r m',
      m' = m ∧ ∃ k, r = (f1 + k, f2 + k) ∧ first_such (differs p xs ys) (length xs `min` length ys) k).
  Proof. intros. split; by apply mismatch4_gives. Qed.

  (** *** C52, C53: binary searches *)
  (*@ C52,C65_partial lower_bound, with < and with a comparison: at most floor(log2 n) + 1 probes. *)
  Lemma lower_bound_point fuel first xs comp (r : cref A) v k m : holds m first xs → refers m r v →
    (Z.of_nat (length xs) ≤ imax)%Z → 1 + Nat.log2 (length xs) < fuel →
    (partition_at (λ x, alt x v) xs k →
     gives (a_lower_bound alt imax fuel first (first + length xs) r) m (λ i m', m' = m ∧ i = first + k)) ∧
    (partition_at (λ x, comp x v) xs k →
     gives (a_lower_bound_c imax comp fuel first (first + length xs) r) m (λ i m', m' = m ∧ i = first + k)).
  Proof. intros. split; intros; by eapply lower_bound_gives. Qed.
  (*@ C52,C65_partial upper_bound, with < and with a comparison: at most floor(log2 n) + 1 probes. *)
  Lemma upper_bound_point fuel first xs comp (r : cref A) v k m : holds m first xs → refers m r v →
    (Z.of_nat (length xs) ≤ imax)%Z → 1 + Nat.log2 (length xs) < fuel →
    (partition_at (λ x, negb (alt v x)) xs k →
     gives (a_upper_bound alt imax fuel first (first + length xs) r) m (λ i m', m' = m ∧ i = first + k)) ∧
    (partition_at (λ x, negb (comp v x)) xs k →
     gives (a_upper_bound_c imax comp fuel first (first + length xs) r) m (λ i m', m' = m ∧ i = first + k)).
  Proof. intros. split; intros; by eapply upper_bound_gives. Qed.
  (*@ C52 binary_search tells whether an equivalent element exists. *)
  Lemma binary_search_decides fuel first xs comp (r : cref A) v k k2 m : holds m first xs → refers m r v →
    partition_at (λ x, comp x v) xs k → partition_at (λ x, negb (comp v x)) xs k2 →
    (Z.of_nat (length xs) ≤ imax)%Z → 1 + Nat.log2 (length xs) < fuel →
    gives (a_binary_search_c imax comp fuel first (first + length xs) r) m (λ b m', m' = m ∧
      (b = true ↔ ∃ x, x ∈ xs ∧ equivalent comp x v)).
  Proof. apply binary_search_gives. Qed.
  (*@ C52 equal_range returns both partition points. *)
  Lemma equal_range_points fuel first xs comp (r : cref A) v k k2 m : holds m first xs → refers m r v →
    partition_at (λ x, comp x v) xs k → partition_at (λ x, negb (comp v x)) xs k2 →
    (∀ x, x ∈ xs → comp x v = true → comp v x = false) →
    (Z.of_nat (length xs) ≤ imax)%Z → 1 + Nat.log2 (length xs) < fuel →
    gives (a_equal_range_c imax comp fuel first (first + length xs) r) m (λ p m', m' = m ∧ p = (first + k, first + k2)).
  Proof. apply equal_range_gives. Qed.
  (*@ C52 A sorted range is partitioned with respect to every value; all four functions on a sorted range, with
     the < of the elements. *)
  Lemma binary_searches_sorted fuel first xs (r : cref A) v m : weak_order alt → in_order alt xs →
    holds m first xs → refers m r v → (Z.of_nat (length xs) ≤ imax)%Z → 1 + Nat.log2 (length xs) < fuel →
    ∃ lo up, lo ≤ up ≤ length xs ∧
      (∀ i x, xs !! i = Some x → (i < lo → alt x v = true) ∧ (lo ≤ i < up → equivalent alt x v) ∧ (up ≤ i → alt v x = true)) ∧
      gives (a_lower_bound alt imax fuel first (first + length xs) r) m (λ i m', m' = m ∧ i = first + lo) ∧
      gives (a_upper_bound alt imax fuel first (first + length xs) r) m (λ i m', m' = m ∧ i = first + up) ∧
      gives (a_equal_range alt imax fuel first (first + length xs) r) m (λ p m', m' = m ∧ p = (first + lo, first + up)) ∧
      gives (a_binary_search alt imax fuel first (first + length xs) r) m (λ b m', m' = m ∧ (b = true ↔ lo < up)).
  Proof.
    intros HW Ho H Hr Hl Hf. destruct (in_order_partition alt xs v HW Ho) as [[lo Hlo] [up Hup]].
    assert (∀ x, alt x v = true → alt v x = false) as Has.
    { intros x E. destruct (alt v x) eqn:E2; [|done]. pose proof (wo_trans alt HW _ _ _ E E2) as F. by rewrite (wo_irrefl alt HW) in F. }
    destruct Hlo as [Hlo1 Hlo], Hup as [Hup1 Hup].
    assert (lo ≤ up) as Hle.
    { destruct (decide (lo ≤ up)) as [|Hn]; [done|]. destruct (lookup_lt_is_Some_2 xs up) as [x Hx]; [lia|].
      assert (up < lo) as Hlt by lia. apply (Hlo _ _ Hx) in Hlt. apply Has in Hlt. assert (up < up); [|lia]. apply (Hup _ _ Hx). by rewrite Hlt. }
    exists lo, up. split; [lia|]. split_and!.
    - intros i x Hx. split_and!.
      + by intros Hi%(Hlo _ _ Hx).
      + intros [Hi1 Hi2]. split.
        * destruct (alt x v) eqn:E; [|done]. apply (Hlo _ _ Hx) in E. lia.
        * apply (Hup _ _ Hx) in Hi2. by apply negb_true_iff.
      + intros Hi. destruct (alt v x) eqn:E; [done|]. assert (i < up); [|lia]. apply (Hup _ _ Hx). by rewrite E.
    - by eapply lower_bound_gives.
    - by eapply upper_bound_gives.
    - eapply equal_range_gives; try done. intros x _. apply Has.
    - eapply gives_conseq; [by apply (binary_search_gives imax fuel first xs alt r v lo up m)|].
      intros b m' [-> Hb]. split; [done|]. rewrite Hb. split.
      + intros (x&[i Hx]%elem_of_list_lookup&E1&E2). assert (¬ i < lo). { intros Hi%(Hlo _ _ Hx). congruence. }
        assert (i < up); [|lia]. apply (Hup _ _ Hx). by rewrite E2.
      + intros Hlt. destruct (lookup_lt_is_Some_2 xs lo) as [x Hx]; [lia|]. exists x. split; [by eapply elem_of_list_lookup_2|].
        split; [destruct (alt x v) eqn:E; [|done]; apply (Hlo _ _ Hx) in E; lia|].
        apply (Hup _ _ Hx) in Hlt. by apply negb_true_iff.
  Qed.
  (*@ C53_refuted lower_bound on more than INT_MAX elements, all less than the value: never last. *)
  Lemma lower_bound_too_long fuel first xs comp (r : cref A) v m : holds m first xs → refers m r v → (0 ≤ imax)%Z →
    (∀ x, x ∈ xs → comp x v = true) → (imax < Z.of_nat (length xs))%Z → 1 + Nat.log2 (length xs) < fuel →
    partition_at (λ x, comp x v) xs (length xs) ∧
    gives (a_lower_bound_c imax comp fuel first (first + length xs) r) m (λ i m', m' = m ∧ i ≠ first + length xs).
  Proof.
    intros H Hr Hi Hall Hl Hf. split; [|by eapply lower_bound_long]. split; [done|]. intros i x Hx. split; [|intros; apply Hall; by eapply elem_of_list_lookup_2].
    intros _. by eapply lookup_lt_Some.
  Qed.
  (*@ C53_partial The result for every length: the partition point of the elements the int count covers. *)
  Lemma lower_bound_any_length fuel first last xs comp (r : cref A) v k m : holds m first xs → refers m r v →
    partition_at (λ x, comp x v) xs k → to_int imax (Z.of_nat last - Z.of_nat first) = Z.of_nat (length xs) →
    1 + Nat.log2 (length xs) < fuel →
    gives (a_lower_bound_c imax comp fuel first last r) m (λ i m', m' = m ∧ i = first + k).
  Proof. apply lower_bound_any. Qed.

  (** *** C54: merging *)
  (*@ C54 The output is the stable merge; nothing else changes. *)
  Lemma merge_stable fuel f1 xs f2 ys o m : weak_order alt → in_order alt xs → in_order alt ys →
    holds m f1 xs → holds m f2 ys → live m o (length xs + length ys) →
    apart f1 (length xs) o (length xs + length ys) → apart f2 (length ys) o (length xs + length ys) →
    length xs + length ys < fuel →
    gives (a_merge alt fuel f1 (f1 + length xs) f2 (f2 + length ys) o) m (λ r m',
      r = o + (length xs + length ys) ∧ ∃ zs, stable_merge alt xs ys zs ∧ written m o zs m').
  Proof.
    intros HW Hx Hy. intros. eapply gives_conseq; [by apply merge_gives|]. intros r m' (->&zs&Hm&Hw). split; [done|].
    exists zs. split; [|done]. by apply merges_stable.
  Qed.

  (** *** C55: filtering *)
  (*@ C55 remove: the kept elements in order at the front, nothing outside the range changes, and the cells behind
     still hold objects. The value is not an element of the range (for that see C65). *)
  Lemma remove_compacts fuel first xs (rv : cref A) v m : holds m first xs → refers m rv v →
    outside rv first (length xs) → length xs < fuel →
    gives (a_remove aeq moved fuel first (first + length xs) rv) m (λ r m',
      r = first + length (filter (λ x, aeq x v = false) xs) ∧ holds m' first (filter (λ x, aeq x v = false) xs) ∧
      same_outside m first (length xs) m' ∧ live m' first (length xs)).
  Proof. apply remove_gives. Qed.
  (*@ C55 remove_if. *)
  Lemma remove_if_compacts p fuel first xs m : holds m first xs → length xs < fuel →
    gives (a_remove_if moved p fuel first (first + length xs)) m (λ r m',
      r = first + length (filter (λ x, p x = false) xs) ∧ holds m' first (filter (λ x, p x = false) xs) ∧
      same_outside m first (length xs) m' ∧ live m' first (length xs)).
  Proof. apply remove_if_gives. Qed.
  (*@ C55 copy_if and remove_copy_if write exactly the elements selected; the destination starts at or before the
     source, or after it. *)
  Lemma copy_if_selects p fuel first xs d m : holds m first xs → d ≤ first ∨ first + length xs ≤ d → length xs < fuel →
    (live m d (length (filter (λ x, p x = true) xs)) →
     gives (a_copy_if p fuel first (first + length xs) d) m (λ r m',
      r = d + length (filter (λ x, p x = true) xs) ∧ written m d (filter (λ x, p x = true) xs) m')) ∧
    (live m d (length (filter (λ x, p x = false) xs)) →
     gives (a_remove_copy_if p fuel first (first + length xs) d) m (λ r m',
      r = d + length (filter (λ x, p x = false) xs) ∧ written m d (filter (λ x, p x = false) xs) m')).
  Proof. intros. split; intros; [by apply copy_if_gives|by apply remove_copy_if_gives]. Qed.
  (*@ C55 remove_copy; the value is not overwritten by the output. *)
  Lemma remove_copy_selects fuel first xs d (rv : cref A) v m : holds m first xs →
    live m d (length (filter (λ x, aeq x v = false) xs)) → d ≤ first ∨ first + length xs ≤ d →
    refers m rv v → outside rv d (length (filter (λ x, aeq x v = false) xs)) → length xs < fuel →
    gives (a_remove_copy aeq fuel first (first + length xs) d rv) m (λ r m',
      r = d + length (filter (λ x, aeq x v = false) xs) ∧ written m d (filter (λ x, aeq x v = false) xs) m').
  Proof. apply remove_copy_gives. Qed.

  (** *** C56: copying and in-place algorithms *)
  (*@ C56 copy and copy_n, also to an overlapping destination that starts before the source. *)
  Lemma copy_copies fuel first xs d n m : holds m first xs → live m d (length xs) →
    d ≤ first ∨ first + length xs ≤ d → length xs < fuel →
    gives (a_copy fuel first (first + length xs) d) m (λ r m', r = d + length xs ∧ written m d xs m') ∧
    (Z.to_nat n = length xs →
     gives (a_copy_n fuel first n d) m (λ r m', r = d + length xs ∧ written m d xs m')).
  Proof. intros. split; [by apply copy_gives|intros; by apply copy_n_gives]. Qed.
  (*@ C56 copy_backward to [d, d + n), also overlapping when it ends behind the source. *)
  Lemma copy_backward_copies fuel first xs d m : holds m first xs → live m d (length xs) →
    d + length xs ≤ first ∨ first ≤ d → length xs < fuel →
    gives (a_copy_backward fuel first (first + length xs) (d + length xs)) m (λ r m', r = d ∧ written m d xs m').
  Proof. apply copy_backward_gives. Qed.
  (*@ C56 swap (also of a cell with itself), iter_swap. *)
  Lemma swap_swaps m a b (x y : A) : m !! a = Some (Some x) → m !! b = Some (Some y) →
    gives (a_iter_swap a b) m (λ _ m', m' !! a = Some (Some y) ∧ m' !! b = Some (Some x) ∧
      length m' = length m ∧ ∀ j, j ≠ a → j ≠ b → m' !! j = m !! j).
  Proof.
    intros Ha Hb. unfold a_iter_swap. apply (swap_gives _ _ _ x y); [done..|].
    assert (a < length m) by by eapply lookup_lt_Some. assert (b < length m) by by eapply lookup_lt_Some.
    split_and!.
    - destruct (decide (a = b)) as [->|]; [rewrite list_lookup_insert; [by rewrite insert_length|congruence]|].
      rewrite list_lookup_insert_ne; [done|]. by apply list_lookup_insert.
    - apply list_lookup_insert. by rewrite insert_length.
    - by rewrite !insert_length.
    - intros j Hj1 Hj2. by rewrite !list_lookup_insert_ne.
  Qed.
  (*@ C56 swap_ranges exchanges two disjoint ranges. *)
  Lemma swap_ranges_swaps fuel f1 xs f2 ys m : holds m f1 xs → holds m f2 ys → length xs = length ys →
    apart f1 (length xs) f2 (length ys) → length xs < fuel →
    gives (a_swap_ranges fuel f1 (f1 + length xs) f2) m (λ r m', r = f2 + length ys ∧
      holds m' f1 ys ∧ holds m' f2 xs ∧ length m' = length m ∧
      ∀ j, (j < f1 ∨ f1 + length xs ≤ j) → (j < f2 ∨ f2 + length ys ≤ j) → m' !! j = m !! j).
  Proof. apply swap_ranges_gives. Qed.
  (*@ C56 reverse. *)
  Lemma reverse_reverses fuel first xs m : holds m first xs → length xs < fuel →
    gives (a_reverse fuel first (first + length xs)) m (λ _ m', written m first (rev xs) m').
  Proof. apply reverse_gives. Qed.
  (*@ C56 reverse_copy to a disjoint destination. *)
  Lemma reverse_copy_reverses fuel first xs d m : holds m first xs → live m d (length xs) →
    apart first (length xs) d (length xs) → length xs < fuel →
    gives (a_reverse_copy fuel first (first + length xs) d) m (λ r m', r = d + length xs ∧ written m d (rev xs) m').
  Proof. apply reverse_copy_gives. Qed.
  (*@ C56,C65_partial fill and fill_n (any count), also with an element of the range as the value. *)
  Lemma fill_fills fuel first n c (r : cref A) v m : refers m r v →
    (live m first n → n < fuel →
     gives (a_fill fuel first (first + n) r) m (λ _ m', written m first (replicate n v) m')) ∧
    (live m first (Z.to_nat c) → Z.to_nat c < fuel →
     gives (a_fill_n fuel first c r) m (λ i m', i = first + Z.to_nat c ∧ written m first (replicate (Z.to_nat c) v) m')).
  Proof. intros. split; intros; [by apply fill_gives|by apply fill_n_gives]. Qed.
  (*@ C56 generate and generate_n (any count): one call of the generator per element, in order. *)
  Lemma generate_generates {St} (g : St → St * A) fuel first n c s m :
    (live m first n → n < fuel →
     gives (a_generate g fuel first (first + n) s) m (λ _ m', written m first (generated g s n) m')) ∧
    (live m first (Z.to_nat c) → Z.to_nat c < fuel →
     gives (a_generate_n g fuel first c s) m (λ r m', r = first + Z.to_nat c ∧ written m first (generated g s (Z.to_nat c)) m')).
  Proof. split; intros; [by apply generate_gives|by apply generate_n_gives]. Qed.
  (*@ C56,C65_partial replace_if and replace; the new value may be an element of the range, the old one not. *)
  Lemma replace_replaces p fuel first xs (ro r : cref A) o v m : holds m first xs → refers m r v → length xs < fuel →
    gives (a_replace_if p fuel first (first + length xs) r) m (λ _ m', written m first ((λ x, if p x then v else x) <$> xs) m') ∧
    (refers m ro o → outside ro first (length xs) →
     gives (a_replace aeq fuel first (first + length xs) ro r) m (λ _ m', written m first ((λ x, if aeq x o then v else x) <$> xs) m')).
  Proof. intros. split; intros; [by apply replace_if_gives|by apply replace_gives]. Qed.
  (*@ C56 replace_copy and replace_copy_if; the values are not overwritten by the output. *)
  Lemma replace_copy_replaces p fuel first xs d (ro r : cref A) o v m : holds m first xs → live m d (length xs) →
    d ≤ first ∨ first + length xs ≤ d → refers m r v → outside r d (length xs) → length xs < fuel →
    gives (a_replace_copy_if p fuel first (first + length xs) d r) m (λ i m',
      i = d + length xs ∧ written m d ((λ x, if p x then v else x) <$> xs) m') ∧
    (refers m ro o → outside ro d (length xs) →
     gives (a_replace_copy aeq fuel first (first + length xs) d ro r) m (λ i m',
      i = d + length xs ∧ written m d ((λ x, if aeq x o then v else x) <$> xs) m')).
  Proof. intros. split; intros; [by apply replace_copy_if_gives|by apply replace_copy_gives]. Qed.
  (*@ C56 transform of one range, also in place. *)
  Lemma transform1_transforms op fuel first xs d m : holds m first xs → live m d (length xs) →
    d ≤ first ∨ first + length xs ≤ d → length xs < fuel →
    gives (a_transform1 op fuel first (first + length xs) d) m (λ r m', r = d + length xs ∧ written m d (op <$> xs) m').
  Proof. apply transform1_gives. Qed.
  (*@ C56 transform of two ranges, also in place. *)
  Lemma transform2_transforms op fuel f1 xs f2 ys d m : holds m f1 xs → holds m f2 ys → length xs ≤ length ys → live m d (length xs) →
    d ≤ f1 ∨ f1 + length xs ≤ d → d ≤ f2 ∨ f2 + length xs ≤ d → length xs < fuel →
    gives (a_transform2 op fuel f1 (f1 + length xs) f2 d) m (λ r m', r = d + length xs ∧ written m d (zip_with op xs ys) m').
  Proof. apply transform2_gives. Qed.
  (*@ C56 for_each calls the function once per element, in order, and returns the function object. *)
  Lemma for_each_calls {St} (f : St → A → St * A) fuel first xs s m : holds m first xs → length xs < fuel →
    gives (a_for_each f fuel first (first + length xs) s) m (λ s' m', s' = (each f s xs).1 ∧ written m first (each f s xs).2 m').
  Proof. apply for_each_gives. Qed.
  (*@ C56 iota and accumulate. *)
  Lemma iota_accumulate {B} incr (add : B → A → B) fuel first n xs v b m :
    (live m first n → n < fuel →
     gives (a_iota incr fuel first (first + n) v) m (λ _ m', written m first ((λ k, Nat.iter k incr v) <$> seq 0 n) m')) ∧
    (holds m first xs → length xs < fuel →
     gives (a_accumulate add fuel first (first + length xs) b) m (λ r m', m' = m ∧ r = foldl add b xs)).
  Proof. split; intros; [by apply iota_gives|by apply accumulate_gives]. Qed.

  (** *** C65: the value is an element of the range *)
  (*@ C65_refuted remove with the first element of the range as the value: the reference is overwritten, and a later
     element equal to it survives. *)
  Lemma remove_aliased_wrong fuel first (x y : A) m : aeq x x = true → aeq y x = false → aeq x y = false →
    holds m first [x; y; x] → 3 < fuel →
    gives (a_remove aeq moved fuel first (first + 3) (At first)) m (λ r m',
      r = first + 2 ∧ holds m' first [y; x]) ∧
    filter (λ z, aeq z x = false) [x; y; x] = [y].
  Proof.
    intros E1 E2 E3 H Hf. split.
    - pose proof (H 0 x eq_refl) as H0. pose proof (H 1 y eq_refl) as H1. pose proof (H 2 x eq_refl) as H2.
      replace (first + 0) with first in H0 by lia. replace (first + 1) with (S first) in H1 by lia. replace (first + 2) with (S (S first)) in H2 by lia.
      replace (first + 3) with (S (S (S first))) by lia.
      assert (S (S first) < length m) by by eapply lookup_lt_Some.
      do 4 (destruct fuel as [|fuel]; [lia|]). unfold a_remove. apply gives_bind. unfold a_find. apply gives_unfold. dF.
      apply gives_bind, (gives_ard _ _ x); [done|]. apply gives_bind. cbn [cget]. apply (gives_ard _ _ x); [done|]. rewrite E1. apply gives_ret. dF.
      apply gives_unfold. dF. apply gives_bind, (gives_ard _ _ y); [done|]. apply gives_bind. cbn [cget]. apply (gives_ard _ _ x); [done|]. rewrite E2. cbn [negb].
      apply gives_bind. unfold a_move. apply gives_bind, (gives_ard _ _ y); [done|]. apply gives_bind, (gives_awr _ _ y); [done|].
      apply (gives_awr _ _ x); [by rewrite list_lookup_insert_ne; [lia|]|]. apply gives_ret.
      set (m1 := <[first:=Some y]> _).
      assert (m1 !! first = Some (Some y)) as G0 by (apply list_lookup_insert; rewrite insert_length; lia).
      assert (m1 !! S first = Some (Some (moved y))) as G1 by (unfold m1; rewrite list_lookup_insert_ne; [lia|]; apply list_lookup_insert; lia).
      assert (m1 !! S (S first) = Some (Some x)) as G2 by (unfold m1; rewrite !list_lookup_insert_ne; [lia|lia|done]).
      apply gives_unfold. dF. apply gives_bind, (gives_ard _ _ x); [done|]. apply gives_bind. cbn [cget]. apply (gives_ard _ _ y); [done|]. rewrite E3. cbn [negb].
      apply gives_bind. unfold a_move. apply gives_bind, (gives_ard _ _ x); [done|]. apply gives_bind, (gives_awr _ _ x); [done|].
      apply (gives_awr _ _ (moved y)); [by rewrite list_lookup_insert_ne; [lia|]|]. apply gives_ret.
      apply gives_unfold. dT. apply gives_ret. split; [lia|]. apply holds_cons. split; [rewrite list_lookup_insert_ne; [lia|]; rewrite list_lookup_insert_ne; [lia|]; done|].
      apply holds_cons. split; [|by intros ??]. apply list_lookup_insert. unfold m1. rewrite !insert_length. lia.
    - rewrite filter_cons_False; [congruence|]. rewrite filter_cons_True; [done|]. rewrite filter_cons_False; [congruence|]. done.
  Qed.
  (*@ C65_refuted replace with the first element of the range as the old value: later equal elements stay. *)
  Lemma replace_aliased_wrong fuel first (x y : A) m : aeq x x = true → aeq x y = false →
    holds m first [x; x] → 2 < fuel →
    gives (a_replace aeq fuel first (first + 2) (At first) (Val y)) m (λ _ m', holds m' first [y; x]).
  Proof.
    intros E1 E2 H Hf. pose proof (H 0 x eq_refl) as H0. pose proof (H 1 x eq_refl) as H1.
    replace (first + 0) with first in H0 by lia. replace (first + 1) with (S first) in H1 by lia.
    replace (first + 2) with (S (S first)) by lia. assert (S first < length m) by by eapply lookup_lt_Some.
    do 3 (destruct fuel as [|fuel]; [lia|]). unfold a_replace. apply gives_unfold. dF.
    apply gives_bind, (gives_ard _ _ x); [done|]. apply gives_bind. cbn [cget]. apply (gives_ard _ _ x); [done|]. rewrite E1.
    apply gives_bind, gives_bind, gives_ret. apply (gives_awr _ _ x); [done|]. apply gives_ret.
    set (m1 := <[first:=Some y]> _).
    assert (m1 !! first = Some (Some y)) as G0 by (apply list_lookup_insert; lia).
    assert (m1 !! S first = Some (Some x)) as G1 by (unfold m1; rewrite list_lookup_insert_ne; [lia|done]).
    apply gives_unfold. dF. apply gives_bind, (gives_ard _ _ x); [done|]. apply gives_bind. cbn [cget]. apply (gives_ard _ _ y); [done|]. rewrite E2.
    apply gives_bind, gives_ret, gives_ret. apply gives_unfold. dT. apply gives_ret. apply holds_cons. split; [done|]. apply holds_cons. split; [done|by intros ??].
  Qed.

  (** *** C58, C66: minimum and maximum, sortedness *)
  (*@ C58 min and max return one of the two references: to a smallest resp. largest of the two values. *)
  Lemma min_max_pick comp (a b : cref A) x y m : weak_order comp → refers m a x → refers m b y →
    gives (a_min_c comp a b) m (λ r m', m' = m ∧ (r = a ∨ r = b) ∧ ∃ z, refers m r z ∧ comp x z = false ∧ comp y z = false) ∧
    gives (a_max_c comp a b) m (λ r m', m' = m ∧ (r = a ∨ r = b) ∧ ∃ z, refers m r z ∧ comp z x = false ∧ comp z y = false).
  Proof.
    intros HW Ha Hb.
    assert (comp x y = true → comp y x = false) as Has.
    { intros E. destruct (comp y x) eqn:E2; [|done]. pose proof (wo_trans comp HW _ _ _ E E2) as F. by rewrite (wo_irrefl comp HW) in F. }
    split.
    - unfold a_min_c. apply gives_bind, (gives_cget _ _ x); [done|]. apply gives_bind, (gives_cget _ _ y); [done|]. apply gives_ret.
      split; [done|]. destruct (comp x y) eqn:E; (split; [by eauto|]); eexists; (split; [done|]); split; auto; apply HW.
    - unfold a_max_c. apply gives_bind, (gives_cget _ _ x); [done|]. apply gives_bind, (gives_cget _ _ y); [done|]. apply gives_ret.
      split; [done|]. destruct (comp x y) eqn:E; (split; [by eauto|]); eexists; (split; [done|]); split; auto; apply HW.
  Qed.
  (*@ C58 the forms of min, max and minmax without a comparison use < ; minmax returns the smaller, then the larger. *)
  Lemma min_max_default (a b : cref A) x y m : weak_order alt → refers m a x → refers m b y →
    gives (a_min alt a b) m (λ r m', m' = m ∧ (r = a ∨ r = b) ∧ ∃ z, refers m r z ∧ alt x z = false ∧ alt y z = false) ∧
    gives (a_max alt a b) m (λ r m', m' = m ∧ (r = a ∨ r = b) ∧ ∃ z, refers m r z ∧ alt z x = false ∧ alt z y = false) ∧
    gives (a_minmax alt a b) m (λ r m', m' = m ∧ (r = (a, b) ∧ alt y x = false ∨ r = (b, a) ∧ alt x y = false)).
  Proof.
    intros HW Ha Hb. destruct (min_max_pick alt a b x y m HW Ha Hb) as [H1 H2]. split_and!; [exact H1|exact H2|].
    apply gives_bind, (gives_cget _ _ y); [done|]. apply gives_bind, (gives_cget _ _ x); [done|]. apply gives_ret.
    split; [done|]. destruct (alt y x) eqn:E; [right|by left]. split; [done|].
    destruct (alt x y) eqn:E2; [|done]. pose proof (wo_trans alt HW _ _ _ E E2) as F. by rewrite (wo_irrefl alt HW) in F.
  Qed.
  (*@ C58,C66_partial max returns the first argument, and minmax the arguments in order, if they are equivalent. *)
  Lemma max_minmax_ties comp (a b : cref A) x y m : weak_order comp → refers m a x → refers m b y →
    gives (a_max_c comp a b) m (λ r m', m' = m ∧ r = if comp x y then b else a) ∧
    gives (a_minmax_c comp a b) m (λ r m', m' = m ∧ r = if comp y x then (b, a) else (a, b)).
  Proof.
    intros HW Ha Hb. split.
    - apply gives_bind, (gives_cget _ _ x); [done|]. apply gives_bind, (gives_cget _ _ y); [done|]. by apply gives_ret.
    - apply gives_bind, (gives_cget _ _ y); [done|]. apply gives_bind, (gives_cget _ _ x); [done|]. by apply gives_ret.
  Qed.
  (*@ C66_refuted min returns the second argument if they are equivalent. *)
  Lemma min_tie_wrong comp (a b : cref A) x y m : refers m a x → refers m b y → equivalent comp x y →
    gives (a_min_c comp a b) m (λ r m', m' = m ∧ r = b).
  Proof.
    intros Ha Hb [E _]. apply gives_bind, (gives_cget _ _ x); [done|]. apply gives_bind, (gives_cget _ _ y); [done|]. apply gives_ret. by rewrite E.
  Qed.
  (*@ C58,C66_partial min_element returns the first smallest element, last for an empty range. *)
  Lemma min_element_first fuel first xs m : weak_order alt → holds m first xs → length xs < fuel →
    gives (a_min_element alt fuel first (first + length xs)) m (λ r m', m' = m ∧ ∃ k, r = first + k ∧
      match xs !! k with
      | None => xs = [] ∧ k = 0
      | Some x => ∀ j y, xs !! j = Some y → alt y x = false ∧ (j < k → alt x y = true)
      end).
  Proof. apply min_element_gives. Qed.
  (*@ C58,C66_partial max_element returns the first largest element, last for an empty range. *)
  Lemma max_element_first fuel first xs m : weak_order alt → holds m first xs → length xs < fuel →
    gives (a_max_element alt fuel first (first + length xs)) m (λ r m', m' = m ∧ ∃ k, r = first + k ∧
      match xs !! k with
      | None => xs = [] ∧ k = 0
      | Some x => ∀ j y, xs !! j = Some y → alt x y = false ∧ (j < k → alt y x = true)
      end).
  Proof. apply max_element_gives. Qed.
  (*@ C58 minmax_element returns what min_element and max_element return. *)
  Lemma minmax_element_both fuel first xs m : weak_order alt → holds m first xs → length xs < fuel →
    gives (a_minmax_element alt fuel first (first + length xs)) m (λ r m', m' = m ∧ ∃ k l, r = (first + k, first + l) ∧
      match xs !! k, xs !! l with
      | Some x, Some y => ∀ j z, xs !! j = Some z →
          (alt z x = false ∧ (j < k → alt x z = true)) ∧ (alt y z = false ∧ (j < l → alt z y = true))
      | _, _ => xs = [] ∧ k = 0 ∧ l = 0
      end).
  Proof.
    intros HW H Hf. unfold a_minmax_element. apply gives_bind. eapply gives_conseq; [by apply min_element_gives|].
    intros r m' (->&k&->&Hk). apply gives_bind. eapply gives_conseq; [by apply max_element_gives|].
    intros r m' (->&l&->&Hl). apply gives_ret. split; [done|]. exists k, l. split; [done|].
    destruct (xs !! k) as [x|] eqn:Ex, (xs !! l) as [y|] eqn:Ey.
    - intros j z Hz. split; [by apply Hk|by apply Hl].
    - destruct Hl as [-> ->]. done.
    - destruct Hk as [-> ->]. done.
    - destruct Hk as [-> ->], Hl as [_ ->]. done.
  Qed.
  (*@ C66_refuted minmax_element returns the first of two equivalent largest elements, not the last. *)
  Lemma minmax_element_tie_wrong fuel first (x y : A) m : weak_order alt → equivalent alt x y → holds m first [x; y] → 2 < fuel →
    gives (a_minmax_element alt fuel first (first + 2)) m (λ r m', m' = m ∧ r = (first, first)).
  Proof.
    intros HW [E1 E2] H Hf. eapply gives_conseq; [apply (minmax_element_both fuel first [x; y] m HW H Hf)|].
    intros r m' (->&k&l&->&Hkl). split; [done|].
    destruct k as [|[|k]], l as [|[|l]]; simpl in Hkl; try (by destruct Hkl); try (f_equal; lia); exfalso.
    - destruct (Hkl 0 x eq_refl) as [_ [_ Hc]]. rewrite Hc in E1; [lia|done].
    - destruct (Hkl 0 x eq_refl) as [[_ Hc] _]. rewrite Hc in E2; [lia|done].
    - destruct (Hkl 0 x eq_refl) as [[_ Hc] _]. rewrite Hc in E2; [lia|done].
  Qed.
  (*@ C58 is_sorted_until returns the end of the longest sorted prefix. *)
  Lemma is_sorted_until_end fuel first xs m : weak_order alt → holds m first xs → length xs < fuel →
    gives (a_is_sorted_until alt fuel first (first + length xs)) m (λ r m', m' = m ∧ ∃ k, r = first + k ∧ k ≤ length xs ∧
      in_order alt (take k xs) ∧ (k < length xs → ¬ in_order alt (take (S k) xs))).
  Proof. apply is_sorted_until_gives. Qed.
  (*@ C58 is_sorted decides sortedness. *)
  Lemma is_sorted_decides fuel first xs m : weak_order alt → holds m first xs → length xs < fuel →
    gives (a_is_sorted alt fuel first (first + length xs)) m (λ b m', m' = m ∧ (b = true ↔ in_order alt xs)).
  Proof. apply is_sorted_gives. Qed.

  (** *** C59: array *)
  (*@ C59 fill. *)
  Lemma array_fill fuel n a (r : cref A) v m : live m a n → refers m r v → n < fuel →
    gives (arr_fill fuel n a r) m (λ _ m', written m a (replicate n v) m').
  Proof.
    intros. unfold arr_fill. apply gives_bind. unfold arr_begin, arr_size.
    eapply gives_conseq; [apply (fill_n_gives fuel a (Z.of_nat n) r v m); by rewrite ?Nat2Z.id|].
    intros i m' [_ Hw]. apply gives_ret. by rewrite Nat2Z.id in Hw.
  Qed.
  (*@ C59 swap of two array objects (which do not overlap). *)
  Lemma array_swap fuel n a b xs ys m : holds m a xs → holds m b ys → length xs = n → length ys = n →
    apart a (arr_cells n) b (arr_cells n) → n < fuel →
    gives (arr_swap fuel n a b) m (λ _ m', holds m' a ys ∧ holds m' b xs ∧ length m' = length m ∧
      ∀ j, (j < a ∨ a + n ≤ j) → (j < b ∨ b + n ≤ j) → m' !! j = m !! j).
  Proof.
    intros Ha Hb <- Hn Hap Hf. unfold arr_swap. apply gives_bind. unfold arr_begin, arr_end.
    eapply gives_conseq; [apply (swap_ranges_gives fuel a xs b ys m Ha Hb)|].
    - done.
    - unfold apart, arr_cells in *. case_decide; lia.
    - done.
    - intros r m' (_&H1&H2&H3&H4). apply gives_ret. rewrite Hn in H4. done.
  Qed.
  (*@ C59 swap of an array with itself. *)
  Lemma array_swap_self fuel a xs m : holds m a xs → length xs < fuel →
    gives (arr_swap fuel (length xs) a a) m (λ _ m', m' = m).
  Proof.
    intros Ha Hf. unfold arr_swap. apply gives_bind. unfold arr_begin, arr_end.
    eapply gives_conseq; [by apply swap_ranges_self|]. intros r m' [_ ->]. by apply gives_ret.
  Qed.
  (*@ C59 operator== and operator!=. *)
  Lemma array_eq fuel n a b xs ys m : holds m a xs → holds m b ys → length xs = n → length ys = n → n < fuel →
    gives (arr_eq aeq fuel n a b) m (λ r m', m' = m ∧ (r = true ↔ Forall2 (λ x y, aeq x y = true) xs ys)) ∧
    gives (arr_ne aeq fuel n a b) m (λ r m', m' = m ∧ (r = true ↔ ¬ Forall2 (λ x y, aeq x y = true) xs ys)).
  Proof.
    intros Ha Hb <- Hn Hf.
    assert (gives (arr_eq aeq fuel (length xs) a b) m (λ r m', m' = m ∧ (r = true ↔ Forall2 (λ x y, aeq x y = true) xs ys))) as He.
    { unfold arr_eq, arr_begin, arr_end. rewrite -{2}Hn. by apply equal4_gives. }
    split; [exact He|]. unfold arr_ne. apply gives_bind. eapply gives_conseq; [exact He|]. intros r m' [-> Hr]. apply gives_ret. split; [done|].
    rewrite -Hr. by destruct r.
  Qed.
  (*@ C59 Element access: at(i) and operator[] designate element i, front the first and back the last; size and
     empty; front and back of an array of size 0 stay inside the object. *)
  Lemma array_access n a xs m : holds m a xs → length xs = n →
    arr_size n = length xs ∧ (arr_empty n = true ↔ xs = []) ∧
    arr_begin a = a ∧ arr_end n a = a + length xs ∧
    (∀ i x, xs !! i = Some x → m !! arr_at n a i = Some (Some x)) ∧
    (∀ x, head xs = Some x → m !! arr_front n a = Some (Some x)) ∧
    (∀ x, last xs = Some x → m !! arr_back n a = Some (Some x)) ∧
    a ≤ arr_front n a < a + arr_cells n ∧ a ≤ arr_back n a < a + arr_cells n ∧
    (n ≠ 0 → arr_cells n = n).
  Proof.
    intros H <-. unfold arr_size, arr_empty, arr_begin, arr_end, arr_at, arr_front, arr_back, arr_cells, arr_begin, arr_end, arr_size. split_and!; try done.
    - rewrite bool_decide_eq_true. split; [by intros ?%nil_length_inv|by intros ->].
    - intros x Hx. destruct xs; [done|]. simpl in Hx. simplify_eq. rewrite -(Nat.add_0_r a). by apply H.
    - intros x Hx. rewrite last_lookup in Hx. pose proof (lookup_lt_Some _ _ _ Hx). case_decide; [lia|].
      rewrite -(H _ _ Hx). f_equal. lia.
    - case_decide; lia.
    - case_decide; lia.
    - case_decide; lia.
    - intros. case_decide; lia.
  Qed.
End algorithms.
