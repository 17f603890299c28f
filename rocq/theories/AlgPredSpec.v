(** Function objects that keep state or throw: what the algorithms of AlgPredModel.v are expected to
    do, on sequences of elements. *)
From Verif Require Export AlgPredModel AlgSpec.

Section spec.
  Context {A : Type}.
  (** The answer is the index of the first element answered with true, or the length; one call per
      element up to there, in order, the first one with number [c]. [None] if a call threw. *)
  Fixpoint asking (p : nat → A → option bool) (c : nat) (xs : list A) : option nat :=
    match xs with
    | [] => Some 0
    | x :: xs =>
        match p c x with
        | None => None
        | Some true => Some 0
        | Some false => match asking p (S c) xs with Some k => Some (S k) | None => None end
        end
    end.
  (** One call per element, in order; the elements answered with true, up to a call that throws. The
      first component is [false] if a call threw. *)
  Fixpoint chosen (p : nat → A → option bool) (c : nat) (xs : list A) : bool * list A :=
    match xs with
    | [] => (true, [])
    | x :: xs =>
        match p c x with
        | None => (false, [])
        | Some true => let r := chosen p (S c) xs in (r.1, x :: r.2)
        | Some false => chosen p (S c) xs
        end
    end.
  (** The same, where the elements answered with true become [v] and the others stay. *)
  Fixpoint replaced (p : nat → A → option bool) (v : A) (c : nat) (xs : list A) : bool * list A :=
    match xs with
    | [] => (true, [])
    | x :: xs' =>
        match p c x with
        | None => (false, xs)
        | Some b => let r := replaced p v (S c) xs' in (r.1, (if b then v else x) :: r.2)
        end
    end.
  (** The opposite answers. *)
  Definition opposite (p : nat → A → option bool) (c : nat) (x : A) : option bool :=
    match p c x with Some b => Some (negb b) | None => None end.
  (** The result [z] of a call, [None] if it threw. *)
  Definition unless_thrown {Z} (q : bool) (z : Z) : option Z := if q then Some z else None.
End spec.
