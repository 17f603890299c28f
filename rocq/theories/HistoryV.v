(** Whole client programs on two containers of the same type, for containers whose
    object is represented by a value [Hd] (header addresses and cached pointers)
    that calls may change. Models no line of /repo: it is the client.

    A history is a list of calls, each naming its target (false: container a, true:
    container b); the other container is available to the call as an argument. *)
From Verif Require Export History.

Section history.
  Context {C Hd St Op Out : Type}.
  Notation heap := (gmap loc C).
  Context (new : M heap Hd) (destroy : nat → Hd → M heap unit)
          (step : nat → Hd → Hd → Op → M heap (Hd * Hd * Out))
          (init : St) (spec : St → St → Op → option (St * St * Out)).

  Fixpoint v_run (fuel : nat) (a b : Hd) (ops : list (bool * Op))
      : M heap (Hd * Hd * list Out) :=
    match ops with
    | [] => ret (a, b, [])
    | (false, op) :: ops =>
        let! (a', b', r) := step fuel a b op in
        let! (ab, rs) := v_run fuel a' b' ops in ret (ab, r :: rs)
    | (true, op) :: ops =>
        let! (b', a', r) := step fuel b a op in
        let! (ab, rs) := v_run fuel a' b' ops in ret (ab, r :: rs)
    end.

  (** Two containers are constructed, the history runs, both are destroyed. *)
  Definition v_prefix (fuel : nat) (ops : list (bool * Op)) : M heap (Hd * Hd * list Out) :=
    let! a := new in
    let! b := new in
    v_run fuel a b ops.
  Definition v_program (fuel : nat) (ops : list (bool * Op)) : M heap (list Out) :=
    let! (a, b, rs) := v_prefix fuel ops in
    destroy fuel a ;!
    destroy fuel b ;!
    ret rs.

  (** The program observes what the abstract states prescribe, terminates without
      undefined behaviour and leaves no memory behind - for histories whose final
      states satisfy [fin]. *)
  Definition v_correct (fin : St → Prop) (ops : list (bool * Op)) : Prop :=
    ∀ xs ys outs, h_spec spec init init ops = Some (xs, ys, outs) → fin xs → fin ys →
      ∃ F, ∀ fuel, F ≤ fuel →
        runs nothing (v_program fuel ops) (λ outs' h, outs' = outs ∧ nothing h).
  (** After the history, before the destructors, the two objects satisfy [rep]
      with the abstract states, and own all the memory there is. *)
  Definition v_reaches (rep : Hd → St → heap → Prop) (ops : list (bool * Op)) : Prop :=
    ∀ xs ys outs, h_spec spec init init ops = Some (xs, ys, outs) →
      ∃ F, ∀ fuel, F ≤ fuel →
        runs nothing (v_prefix fuel ops)
          (λ '(a, b, outs') h, outs' = outs ∧ both (rep a xs) (rep b ys) h).
End history.
