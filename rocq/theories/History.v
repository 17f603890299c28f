(** Whole client programs on two containers of the same type.

    Models no line of /repo: it is the client. A history is a list of calls, each
    naming its target (false: container a, true: container b); the other container
    is available to the call as an argument. *)
From Verif Require Export Triple.

Section history.
  Context {C St Op Out : Type}.
  Notation heap := (gmap loc C).

  (** [new]/[destroy]: construction and destruction of one container.
      [step fuel this other op]: one call; returns the (possibly new) identity of
      "other" and what the client observes. [spec]: the same call on the abstract
      states, [None] if its preconditions do not hold. *)
  Context (new : M heap loc) (destroy : nat → loc → M heap unit)
          (step : nat → loc → loc → Op → M heap (loc * Out))
          (init : St) (spec : St → St → Op → option (St * St * Out)).

  Fixpoint h_run (fuel : nat) (a b : loc) (ops : list (bool * Op))
      : M heap (loc * loc * list Out) :=
    match ops with
    | [] => ret (a, b, [])
    | (false, op) :: ops =>
        let! (b', r) := step fuel a b op in
        let! (ab, rs) := h_run fuel a b' ops in ret (ab, r :: rs)
    | (true, op) :: ops =>
        let! (a', r) := step fuel b a op in
        let! (ab, rs) := h_run fuel a' b ops in ret (ab, r :: rs)
    end.
  Fixpoint h_spec (xs ys : St) (ops : list (bool * Op)) : option (St * St * list Out) :=
    match ops with
    | [] => Some (xs, ys, [])
    | (false, op) :: ops =>
        '(xs', ys', r) ← spec xs ys op;
        '(ab, rs) ← h_spec xs' ys' ops; Some (ab, r :: rs)
    | (true, op) :: ops =>
        '(ys', xs', r) ← spec ys xs op;
        '(ab, rs) ← h_spec xs' ys' ops; Some (ab, r :: rs)
    end.

  (** Two containers are constructed, the history runs, both are destroyed. *)
  Definition h_program (fuel : nat) (ops : list (bool * Op)) : M heap (list Out) :=
    let! a := new in
    let! b := new in
    let! (a, b, rs) := h_run fuel a b ops in
    destroy fuel a ;!
    destroy fuel b ;!
    ret rs.

  (** The program observes what the abstract states prescribe, terminates without
      undefined behaviour and leaves no memory behind. *)
  Definition h_correct (ops : list (bool * Op)) : Prop :=
    ∀ xs ys outs, h_spec init init ops = Some (xs, ys, outs) →
      ∃ F, ∀ fuel, F ≤ fuel →
        runs nothing (h_program fuel ops) (λ outs' h, outs' = outs ∧ nothing h).

  (** The state in the middle of such a program: after the history, before the
      destructors, the two objects satisfy [rep] with the abstract states. *)
  Definition h_prefix (fuel : nat) (ops : list (bool * Op)) : M heap (loc * loc * list Out) :=
    let! a := new in
    let! b := new in
    h_run fuel a b ops.
  Definition h_reaches (rep : loc → St → heap → Prop) (ops : list (bool * Op)) : Prop :=
    ∀ xs ys outs, h_spec init init ops = Some (xs, ys, outs) →
      ∃ F, ∀ fuel, F ≤ fuel →
        runs nothing (h_prefix fuel ops)
          (λ '(a, b, outs') h, outs' = outs ∧ both (rep a xs) (rep b ys) h).
End history.
