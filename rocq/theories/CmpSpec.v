(** set and map whose Compare or == may throw: vocabulary of the theorems in PropsCmp.v. *)
From Verif Require Export CmpModel MapSpec.

(** A function object answers like [cmp] whenever it does not throw. *)
Definition answers_like {K} (f : nat → K → K → option bool) (cmp : K → K → bool) : Prop :=
  ∀ c x y b, f c x y = Some b → b = cmp x y.
(** One of the two throws at some call. *)
Definition may_throw {K} (ltf eqf : nat → K → K → option bool) : Prop :=
  ∃ c x y, ltf c x y = None ∨ eqf c x y = None.

(** No exception left the call, which did exactly what the plain one does: it returns the same value
    with the same memory, or has the same undefined behaviour, or runs as long. *)
Definition as_plain {S A} (r : res (option (A * nat) * S)) (r0 : res (A * S)) : Prop :=
  match r0 with
  | Ok (a, s) => ∃ c, r = Ok (Some (a, c), s)
  | UB u => r = UB u
  | NoFuel => r = NoFuel
  end.
(** From every memory and at every number of calls made before: an exception leaves the call and
    memory is as before it, or else the call does what the plain one does. *)
Definition all_or_nothing {S A} (throws : Prop) (p : T S A) (m : M S A) : Prop :=
  ∀ c s, (throws ∧ p c s = Ok (None, s)) ∨ as_plain (p c s) (m s).

(** A set or map object whose tree holds the elements [xs] in ascending order, whatever the colours
    of its nodes and however (un)balanced it is. *)
Definition is_loose_map {K V} (keyof : V → K) (lt : K → K → bool) (this : loc) (xs : list (loc * V))
    (h : gmap loc (rbcell V)) : Prop :=
  ascending keyof lt xs.*2 ∧
  ∃ t : tree V, elems t = xs ∧ NoDup (this :: xs.*1) ∧
    h = <[this := Rb (rootp t) None None true None]> (tree_heap this t).
