(** Function objects that keep state or throw: what the calls of PredModel.v are expected to do, on
    lists of elements. *)
From Verif Require Export PredModel DlistSpec.

Section spec.
  Context {A : Type}.
  (** One call per element, in order, the first one with number [c]; the elements answered with true
      go; at the first call that throws the remaining elements stay. The first component is [None] if
      a call threw. *)
  Fixpoint removing (f : nat → A → option bool) (c : nat) (xs : list A) : option unit * list A :=
    match xs with
    | [] => (Some tt, [])
    | x :: xs' =>
        match f c x with
        | None => (None, xs)
        | Some true => removing f (S c) xs'
        | Some false => let r := removing f (S c) xs' in (r.1, x :: r.2)
        end
    end.
  (** The same for unique: each element is compared with the last one kept, [y]. *)
  Fixpoint uniquing (f : nat → A → A → option bool) (c : nat) (y : A) (xs : list A) : option unit * list A :=
    match xs with
    | [] => (Some tt, [])
    | x :: xs' =>
        match f c x y with
        | None => (None, xs)
        | Some true => uniquing f (S c) y xs'
        | Some false => let r := uniquing f (S c) x xs' in (r.1, x :: r.2)
        end
    end.
  (** [f] answers like [cmp] whenever it does not throw. *)
  Definition honest (f : nat → A → A → option bool) (cmp : A → A → bool) : Prop :=
    ∀ c x y b, f c x y = Some b → b = cmp x y.
End spec.
