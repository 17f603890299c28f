(** Element copies that throw: the vocabulary of the claims. *)
From Verif Require Export ThrowModel VecSpec FixedSpec.

Section spec.
  Context {V : Type}.
  Notation heap := (gmap loc (list (option V))).

  (** A buffer that no object refers to any more, with the live objects [ys] followed by [n] raw
      slots. *)
  Definition lost_buffer (ys : list V) (n : nat) (h : heap) : Prop :=
    ∃ l, h = {[ l := (Some <$> ys) ++ replicate n None ]}.
End spec.

(** [same p m q g]: when no copy throws, the throwing version [p] of a member function, called on an
    object with the members [m], does exactly what the non-throwing version [q] does - same memory,
    same undefined behaviour, same number of loop iterations; [g] extracts the members afterwards and
    the return value from the result of [q]. *)
Definition same {V Mb A R : Type} (p : X V Mb A) (m : Mb) (q : M (gmap loc (list (option V))) R) (g : R → Mb * A) : Prop :=
  ∀ h, p m None h = (let! r := q in ret (XDone (g r).1 None (g r).2)) h.
