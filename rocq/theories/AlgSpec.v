(** Specification vocabulary for the algorithms: contents of ranges, first matches, orders. *)
From Verif Require Export AlgModel State.

Section spec.
  Context {A : Type}.
  Implicit Types (m : amem A) (xs ys : list A).

  (** The cells from position [i] on hold the values [xs]. *)
  Definition holds m (i : nat) xs : Prop :=
    ∀ k x, xs !! k = Some x → m !! (i + k) = Some (Some x).
  (** The [n] cells from position [i] on hold objects. *)
  Definition live m (i n : nat) : Prop := ∀ k, k < n → ∃ x, m !! (i + k) = Some (Some x).
  (** [m'] differs from [m] only in that the cells from [i] on hold [xs]. *)
  Definition written m (i : nat) xs (m' : amem A) : Prop :=
    holds m' i xs ∧ length m' = length m ∧
    ∀ j, j < i ∨ i + length xs ≤ j → m' !! j = m !! j.
  (** [m'] differs from [m] at most in the [n] cells from [i] on. *)
  Definition same_outside m (i n : nat) (m' : amem A) : Prop :=
    length m' = length m ∧ ∀ j, j < i ∨ i + n ≤ j → m' !! j = m !! j.
  (** The reference [r] designates the value [v]. *)
  Definition refers m (r : cref A) (v : A) : Prop :=
    match r with Val x => x = v | At i => m !! i = Some (Some v) end.
  (** The reference [r] does not designate one of the [n] cells from [i] on. *)
  Definition outside (r : cref A) (i n : nat) : Prop :=
    match r with Val _ => True | At j => j < i ∨ i + n ≤ j end.
  (** The ranges of [n] cells from [i] and of [k] cells from [j] have no cell in common. *)
  Definition apart (i n j k : nat) : Prop := i + n ≤ j ∨ j + k ≤ i.

  (** [k] is the first index below [n] satisfying [P], or [n] if there is none. *)
  Definition first_such (P : nat → Prop) (n k : nat) : Prop :=
    k ≤ n ∧ (∀ j, j < k → ¬ P j) ∧ (k < n → P k).

  (** Element [k] of [xs] satisfies [p]. *)
  Definition at_sat (p : A → bool) xs (k : nat) : Prop := ∃ x, xs !! k = Some x ∧ p x = true.
  (** [ys] occurs in [xs] at index [j], comparing with [eqv]. *)
  Definition occurs (eqv : A → A → bool) xs ys (j : nat) : Prop :=
    ∀ k y, ys !! k = Some y → ∃ x, xs !! (j + k) = Some x ∧ eqv x y = true.
  (** [n] consecutive elements of [xs] from index [j] on satisfy [p]. *)
  Definition run_of (p : A → bool) xs (n : Z) (j : nat) : Prop :=
    ∀ k, (Z.of_nat k < n)%Z → at_sat p xs (j + k).
  (** Elements [k] and [k+1] of [xs] are related by [r]. *)
  Definition adjacent (r : A → A → bool) xs (k : nat) : Prop :=
    ∃ x y, xs !! k = Some x ∧ xs !! S k = Some y ∧ r x y = true.
  (** Elements [k] of [xs] and [ys] are not related by [eqv]. *)
  Definition differs (eqv : A → A → bool) xs ys (k : nat) : Prop :=
    ∃ x y, xs !! k = Some x ∧ ys !! k = Some y ∧ eqv x y = false.

  (** A strict weak order; equivalence of two elements. *)
  Record weak_order (lt : A → A → bool) : Prop := {
    wo_irrefl : ∀ x, lt x x = false;
    wo_trans : ∀ x y z, lt x y = true → lt y z = true → lt x z = true;
    wo_incomp : ∀ x y z, lt x y = false → lt y x = false → lt y z = false → lt z y = false →
      lt x z = false ∧ lt z x = false
  }.
  Definition equivalent (lt : A → A → bool) (x y : A) : Prop := lt x y = false ∧ lt y x = false.
  Global Instance equivalent_dec lt x y : Decision (equivalent lt x y).
  Proof. unfold equivalent. apply _. Defined.
  (** No element is less than an earlier one. *)
  Definition in_order (lt : A → A → bool) xs : Prop :=
    ∀ i j x y, i < j → xs !! i = Some x → xs !! j = Some y → lt y x = false.
  (** The elements satisfying [p] come before the others; [k] of them. *)
  Definition partition_at (p : A → bool) xs (k : nat) : Prop :=
    k ≤ length xs ∧ ∀ i x, xs !! i = Some x → (p x = true ↔ i < k).

  (** [zs] is the stable merge of [xs] and [ys]: all the elements, in order, and equivalent
      elements in the order of [xs ++ ys]. *)
  Definition stable_merge (lt : A → A → bool) xs ys (zs : list A) : Prop :=
    zs ≡ₚ xs ++ ys ∧ in_order lt zs ∧
    ∀ z, filter (equivalent lt z) zs = filter (equivalent lt z) xs ++ filter (equivalent lt z) ys.

  (** What a function object with state leaves in a range (for_each), and what a generator
      produces. *)
  Fixpoint each {St} (f : St → A → St * A) (s : St) xs : St * list A :=
    match xs with
    | [] => (s, [])
    | x :: xs => let (s1, y) := f s x in let (s2, ys) := each f s1 xs in (s2, y :: ys)
    end.
  Fixpoint generated {St} (g : St → St * A) (s : St) (n : nat) : list A :=
    match n with
    | 0 => []
    | S n => let (s1, y) := g s in y :: generated g s1 n
    end.
End spec.
