(** GENERATED by tools/genprops.py from AlgPredRuns.v: property theorems only.
    Every proof is the lemma of the same statement proved there. *)
From Verif Require Import AlgPredSpec AlgPredRuns.

Section algorithms.
  Context {A : Type} (moved : A → A) (imax : Z).
  Implicit Types (xs ys : list A) (m : amem A) (p : nat → A → option bool).

  (** find_if, whatever the function object answers and whether or not it throws: one call per
     element, in order, until the first one answered with true; nothing is written. *)
  Theorem C97_find_if_asks :
    ∀ fuel first xs p m,
 holds m first xs → length xs < fuel →
    gives (x_find_if fuel first (first + length xs) p) m (λ r m',
      m' = m ∧ r = match asking p 0 xs with Some k => Some (first + k) | None => None end).
  Proof. first [exact find_if_asks | apply find_if_asks | intros; eapply find_if_asks; eassumption]. Qed.

  (** find_if_not. *)
  Theorem C97_find_if_not_asks :
    ∀ fuel first xs p m,
 holds m first xs → length xs < fuel →
    gives (x_find_if_not fuel first (first + length xs) p) m (λ r m',
      m' = m ∧ r = match asking (opposite p) 0 xs with Some k => Some (first + k) | None => None end).
  Proof. first [exact find_if_not_asks | apply find_if_not_asks | intros; eapply find_if_not_asks; eassumption]. Qed.

  (** all_of, any_of and none_of: the answer, and no call after the one that decides it. *)
  Theorem C97_quantifiers_ask :
    ∀ fuel first xs p m,
 holds m first xs → length xs < fuel →
    gives (x_all_of fuel first (first + length xs) p) m (λ r m',
      m' = m ∧ r = match asking (opposite p) 0 xs with Some k => Some (bool_decide (k = length xs)) | None => None end) ∧
    gives (x_any_of fuel first (first + length xs) p) m (λ r m',
      m' = m ∧ r = match asking p 0 xs with Some k => Some (bool_decide (k < length xs)) | None => None end) ∧
    gives (x_none_of fuel first (first + length xs) p) m (λ r m',
      m' = m ∧ r = match asking p 0 xs with Some k => Some (bool_decide (k = length xs)) | None => None end).
  Proof. first [exact quantifiers_ask | apply quantifiers_ask | intros; eapply quantifiers_ask; eassumption]. Qed.

  (** count_if calls the function object once for each element, in order, when the number of matches
     fits in an int. *)
  Theorem C97_count_if_asks :
    ∀ fuel first xs p m,
 holds m first xs → length xs < fuel →
    (Z.of_nat (length (chosen p 0 xs).2) ≤ imax)%Z →
    gives (x_count_if imax fuel first (first + length xs) p) m (λ r m',
      m' = m ∧ r = unless_thrown (chosen p 0 xs).1 (Z.of_nat (length (chosen p 0 xs).2))).
  Proof. first [exact count_if_asks | apply count_if_asks | intros; eapply count_if_asks; eassumption]. Qed.

  (** copy_if writes the elements answered with true, up to an exception, and nothing else. The
     destination starts at or before the source, or after it. *)
  Theorem C97_copy_if_asks :
    ∀ p fuel first xs d m,
 holds m first xs → live m d (length (chosen p 0 xs).2) →
    d ≤ first ∨ first + length xs ≤ d → length xs < fuel →
    gives (x_copy_if p fuel first (first + length xs) d) m (λ r m',
      r = unless_thrown (chosen p 0 xs).1 (d + length (chosen p 0 xs).2) ∧ written m d (chosen p 0 xs).2 m').
  Proof. first [exact copy_if_asks | apply copy_if_asks | intros; eapply copy_if_asks; eassumption]. Qed.

  (** remove_copy_if writes the elements answered with false, up to an exception. *)
  Theorem C97_remove_copy_if_asks :
    ∀ p fuel first xs d m,
 holds m first xs → live m d (length (chosen (opposite p) 0 xs).2) →
    d ≤ first ∨ first + length xs ≤ d → length xs < fuel →
    gives (x_remove_copy_if p fuel first (first + length xs) d) m (λ r m',
      r = unless_thrown (chosen (opposite p) 0 xs).1 (d + length (chosen (opposite p) 0 xs).2) ∧
      written m d (chosen (opposite p) 0 xs).2 m').
  Proof. first [exact remove_copy_if_asks | apply remove_copy_if_asks | intros; eapply remove_copy_if_asks; eassumption]. Qed.

  (** replace_if replaces the elements answered with true, up to an exception; the new value may be
     an element of the range. *)
  Theorem C97_replace_if_asks :
    ∀ p fuel first xs (r : cref A) v m,
 holds m first xs → refers m r v → length xs < fuel →
    gives (x_replace_if p fuel first (first + length xs) r) m (λ q m',
      q = unless_thrown (replaced p v 0 xs).1 tt ∧ written m first (replaced p v 0 xs).2 m').
  Proof. first [exact replace_if_asks | apply replace_if_asks | intros; eapply replace_if_asks; eassumption]. Qed.

  (** remove_if: find_if asks a copy of the function object up to the first element answered with
     true; if there is one, the function object itself, in its first state, is then asked about those
     behind it. The elements to keep, up to an exception, are moved to the front in their order; every
     cell of the range still holds an object and the others are not written. *)
  Theorem C97_remove_if_asks :
    ∀ p fuel first xs m,
 holds m first xs → length xs < fuel →
    gives (x_remove_if moved p fuel first (first + length xs)) m (λ r m',
      match asking p 0 xs with
      | None => r = None ∧ m' = m
      | Some k =>
          let q := chosen (opposite p) 0 (drop (S k) xs) in
          r = unless_thrown q.1 (first + (k + length q.2)) ∧ holds m' first (take k xs ++ q.2) ∧
          same_outside m (first + k) (length xs - k) m' ∧ live m' first (length xs)
      end).
  Proof. first [exact remove_if_asks | apply remove_if_asks | intros; eapply remove_if_asks; eassumption]. Qed.

  (** remove_if with a function object without state that may throw: without an exception exactly the
     elements answered with false are kept, in order; otherwise an exception leaves the call. *)
  Theorem C97_remove_if_throws :
    ∀ p (q : A → option bool) fuel first xs m,
 holds m first xs → length xs < fuel →
    (∀ c x, p c x = q x) →
    gives (x_remove_if moved p fuel first (first + length xs)) m (λ r m',
      r = unless_thrown (chosen (opposite p) 0 xs).1 (first + length (chosen (opposite p) 0 xs).2) ∧
      (r ≠ None → holds m' first (chosen (opposite p) 0 xs).2) ∧
      same_outside m first (length xs) m' ∧ live m' first (length xs)).
  Proof. first [exact remove_if_throws | apply remove_if_throws | intros; eapply remove_if_throws; eassumption]. Qed.

  (** With a plain function these are the algorithms of C49, C55 and C56. *)
  Theorem C97_algorithms_plain :
    ∀ (p : A → bool) fuel first last d (r : cref A) m,
    x_find_if fuel first last (λ _ x, Some (p x)) m = (let! i := a_find_if fuel first last p in ret (Some i)) m ∧
    x_copy_if (λ _ x, Some (p x)) fuel first last d m = (let! i := a_copy_if p fuel first last d in ret (Some i)) m ∧
    x_replace_if (λ _ x, Some (p x)) fuel first last r m = (a_replace_if p fuel first last r ;! ret (Some tt)) m ∧
    x_remove_if moved (λ _ x, Some (p x)) fuel first last m = (let! i := a_remove_if moved p fuel first last in ret (Some i)) m.
  Proof. first [exact algorithms_plain | apply algorithms_plain | intros; eapply algorithms_plain; eassumption]. Qed.

End algorithms.

Print Assumptions C97_find_if_asks.
Print Assumptions C97_find_if_not_asks.
Print Assumptions C97_quantifiers_ask.
Print Assumptions C97_count_if_asks.
Print Assumptions C97_copy_if_asks.
Print Assumptions C97_remove_copy_if_asks.
Print Assumptions C97_replace_if_asks.
Print Assumptions C97_remove_if_asks.
Print Assumptions C97_remove_if_throws.
Print Assumptions C97_algorithms_plain.
