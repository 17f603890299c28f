(** Histories whose outcome may be undefined behaviour: an abstract description that
    says, call by call, exactly what the code does - including where it is wrong.
    Models no line of /repo: it is the client. *)
From Verif Require Export HistoryV.

Section history.
  Context {C Hd St Op Out : Type}.
  Notation heap := (gmap loc C).
  Context (new : M heap Hd) (destroy : nat → Hd → M heap unit)
          (step : nat → Hd → Hd → Op → M heap (Hd * Hd * Out))
          (init : St) (code : St → St → Op → option (res (St * St * Out))).

  (** [None]: some call is outside its preconditions. [Some (UB u)]: the first call
      that goes wrong has the undefined behaviour [u]. *)
  Fixpoint x_spec (xs ys : St) (ops : list (bool * Op)) : option (res (St * St * list Out)) :=
    match ops with
    | [] => Some (Ok (xs, ys, []))
    | (side, op) :: ops =>
        r ← (if side : bool then code ys xs op else code xs ys op);
        match r with
        | Ok (s', o', u) =>
            r' ← (if side then x_spec o' s' ops else x_spec s' o' ops);
            match r' with
            | Ok (ab, rs) => Some (Ok (ab, u :: rs))
            | UB e => Some (UB e)
            | NoFuel => Some NoFuel
            end
        | UB e => Some (UB e)
        | NoFuel => Some NoFuel
        end
    end.
  (** The program does exactly that. *)
  Definition x_exact (ops : list (bool * Op)) : Prop :=
    ∀ r, x_spec init init ops = Some r →
      ∃ F, ∀ fuel, F ≤ fuel →
        match r with
        | Ok (_, outs) => runs nothing (v_program new destroy step fuel ops) (λ outs' h, outs' = outs ∧ nothing h)
        | UB u => fails nothing (v_program new destroy step fuel ops) u
        | NoFuel => ∀ h, v_program new destroy step fuel ops h = NoFuel
        end.
End history.
