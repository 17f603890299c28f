(** Client programs on two containers whose function objects may throw and that catch the exceptions. *)
From Verif Require Export CmpSpec HistoryV.

Section hist.
  Context {C O Op Out : Type}.
  Notation heap := (gmap loc C).
  Context (new : M heap O) (destroy : nat → O → M heap unit)
          (xstep : nat → O → O → Op → T heap (O * O * Out)).
  (** The client of HistoryV.v that catches the exceptions and goes on. Each call comes with the number
      its first comparison has; a call that throws has no output. *)
  Fixpoint catching_run (fuel : nat) (a b : O) (ops : list (nat * (bool * Op))) : M heap (O * O * list (option Out)) :=
    match ops with
    | [] => ret (a, b, [])
    | (c, (w, op)) :: ops =>
        let! r := xstep fuel (if w : bool then b else a) (if w then a else b) op c in
        match r with
        | Some ((x, y, o), _) =>
            let! (ab, rs) := catching_run fuel (if w then y else x) (if w then x else y) ops in ret (ab, Some o :: rs)
        | None => let! (ab, rs) := catching_run fuel a b ops in ret (ab, None :: rs)
        end
    end.
  Definition catching_program (fuel : nat) (ops : list (nat * (bool * Op))) : M heap (list (option Out)) :=
    let! a := new in
    let! b := new in
    let! (a, b, rs) := catching_run fuel a b ops in
    destroy fuel a ;!
    destroy fuel b ;!
    ret rs.
End hist.

(** the elements of [xs] that [kept] selects *)
Fixpoint select {A} (kept : list bool) (xs : list A) : list A :=
  match kept, xs with
  | b :: kept, x :: xs => if b : bool then x :: select kept xs else select kept xs
  | _, _ => []
  end.
(** [outs] at the selected places, nothing at the others *)
Fixpoint spread {A} (kept : list bool) (outs : list A) : list (option A) :=
  match kept with
  | [] => []
  | true :: kept => match outs with [] => [] | o :: outs => Some o :: spread kept outs end
  | false :: kept => None :: spread kept outs
  end.

(** From memory [s] the catching program does what the plain one does that makes only the calls that do
    not throw. *)
Definition as_without_throwing_calls {C O Op Out} (throws : Prop)
    (step : nat → O → O → Op → M (gmap loc C) (O * O * Out)) (xstep : nat → O → O → Op → T (gmap loc C) (O * O * Out))
    (fuel : nat) (a b : O) (ops : list (nat * (bool * Op))) (s : gmap loc C) : Prop :=
  ∃ kept, length kept = length ops ∧ (false ∈ kept → throws) ∧
    match v_run step fuel a b (select kept ops.*2) s with
    | Ok (a', b', outs, s') => catching_run xstep fuel a b ops s = Ok (a', b', spread kept outs, s')
    | UB u => catching_run xstep fuel a b ops s = UB u
    | NoFuel => catching_run xstep fuel a b ops s = NoFuel
    end.
(** Whole programs, for any calls that throw: for some selection of the calls - all of them, if nothing can
    throw - whose history the abstract states allow, the program observes at the selected calls what
    they prescribe and nothing at the others, terminates without undefined behaviour and leaves memory
    as it was at the start. *)
Definition catching_correct {C O St Op Out} (throws : Prop) (new : M (gmap loc C) O)
    (destroy : nat → O → M (gmap loc C) unit) (xstep : nat → O → O → Op → T (gmap loc C) (O * O * Out))
    (init : St) (spec : St → St → Op → option (St * St * Out)) (ops : list (nat * (bool * Op))) : Prop :=
  ∃ F, ∀ fuel h, F ≤ fuel → ∃ kept, length kept = length ops ∧ (false ∈ kept → throws) ∧
    ∀ xs ys outs, h_spec spec init init (select kept ops.*2) = Some (xs, ys, outs) →
      catching_program new destroy xstep fuel ops h = Ok (spread kept outs, h).
