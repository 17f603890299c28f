(** Specification vocabulary for the calls an algorithm makes. *)
From Verif Require Export CallsModel AlgSpec.

Section spec.
  Context {B : Type}.
  (** The answers to the calls [cs], made one after the other when the calls [h] have been made before. *)
  Fixpoint answers {X} (f : list B → B → X) (h cs : list B) : list X :=
    match cs with
    | [] => []
    | c :: cs => f h c :: answers f (h ++ [c]) cs
    end.
  (** [k] is the index of the first of these calls answered by [b], or the number of calls. *)
  Definition first_answer (f : list B → B → bool) (h cs : list B) (b : bool) (k : nat) : Prop :=
    first_such (λ j, answers f h cs !! j = Some b) (length cs) k.
End spec.

(** The elements of [xs] at the places where [bs] is [b]. *)
Fixpoint where_is {A} (b : bool) (bs : list bool) (xs : list A) : list A :=
  match bs, xs with
  | c :: bs, x :: xs => if bool_decide (c = b) then x :: where_is b bs xs else where_is b bs xs
  | _, _ => []
  end.
(** [xs] with [v] at the places where [bs] is true. *)
Fixpoint put_where {A} (v : A) (bs : list bool) (xs : list A) : list A :=
  match bs, xs with
  | c :: bs, x :: xs => (if c : bool then v else x) :: put_where v bs xs
  | _, _ => []
  end.
(** Each element with the fixed argument [v], before or after it. *)
Definition against {A} (v : A) (xs : list A) : list (A * A) := (λ x, (x, v)) <$> xs.
(** The pairs of neighbours, and the pairs with the later one first. *)
Definition neighbours {A} (xs : list A) : list (A * A) := zip xs (tail xs).
Definition neighbours_back {A} (xs : list A) : list (A * A) := zip (tail xs) xs.
(** The outcome of a run without the record of the calls. *)
Definition forget {A B X} (r : res (X * cmem A B)) : res (X * amem A) :=
  match r with Ok (x, (s, _)) => Ok (x, s) | UB u => UB u | NoFuel => NoFuel end.
(** [mc] is the program [m] with its calls recorded. *)
Definition records {A B X} (mc : M (cmem A B) X) (m : M (amem A) X) : Prop := ∀ s h, forget (mc (s, h)) = m s.
