(** vector_map: the hypotheses of the theorems in PropsVmap.v are met by concrete states,
    and a concrete counterexample run (C37). *)
From Verif Require Import VmapSpec.

Section ex.
  Local Existing Instance bump_allocator.
  Definition neqb (a b : nat * nat) : bool := Nat.eqb a.1 b.1 && Nat.eqb a.2 b.2.
  Notation vm_program := (v_program v_new v_destroy (vm_step Nat.eqb 0 0 neqb)).
  Notation vm_sp := (h_spec (vm_spec Nat.eqb 0 0 neqb) ([], 0) ([], 0)).

  (** A history of map calls, and one with inherited calls. *)
  Definition vm_demo : list (bool * vm_op nat nat) :=
    [ (false, MInsert 5 1); (false, MInsert 3 2); (false, MInsert 5 9); (false, MInsertOwn 1);
      (false, MIndex 7); (false, MPut 3 8); (false, MPut 4 6); (false, MFind 7); (false, MFind 9);
      (false, MAt 5); (false, MCount 11); (true, MInsert 2 2); (true, MPut 2 3);
      (false, MBase EContents); (true, MBase EContents); (false, MBase ESize) ].
  Definition vm_demo2 : list (bool * vm_op nat nat) :=
    vm_demo ++ [ (true, MBase EAssignFrom); (true, MBase EEqual); (true, MBase (EErase 1));
      (true, MInsert 3 1); (true, MBase EContents); (true, MBase EEqual); (false, MBase EClear); (false, MIndex 1);
      (false, MBase EContents) ].
  Example vm_demo_map_calls : Forall (λ c, map_call c.2) vm_demo.
  Proof. repeat constructor. Qed.
  Example vm_keys : key_equiv Nat.eqb.
  Proof.
    split.
    - apply Nat.eqb_refl.
    - intros ?? ->%Nat.eqb_eq. apply Nat.eqb_refl.
    - intros ??? ->%Nat.eqb_eq. done.
  Qed.
  Example vm_demo_meets_spec : ∃ r, vm_sp vm_demo = Some r.
  Proof. eexists. vm_compute. reflexivity. Qed.
  Example vm_demo2_meets_spec : ∃ r, vm_sp vm_demo2 = Some r.
  Proof. eexists. vm_compute. reflexivity. Qed.
  Example vm_demo_runs :
    outcome (vm_program 100 vm_demo ∅) = Ok
      ([OIns 0 true; OIns 1 true; OIns 0 false; OIns 1 false; OVal 0; ODone; ODone; OPos 2; OPos 4;
        OVal 1; OPos 0; OIns 0 true; ODone; OBase (VSeq [(5,1);(3,8);(7,0);(4,6)]);
        OBase (VSeq [(2,3)]); OBase (VNat 4)], 0).
  Proof. vm_compute. reflexivity. Qed.
  Example vm_demo2_runs :
    match vm_sp vm_demo2 with
    | Some (_, _, outs) => outcome (vm_program 100 vm_demo2 ∅) = Ok (outs, 0)
    | None => False
    end.
  Proof. vm_compute. reflexivity. Qed.
  Example vm_is_vec :
    is_vec (Vec (Some 1%positive) 2 3) [(5,1);(6,2)] {[ 1%positive := [Some (5,1); Some (6,2); None] ]}.
  Proof. split_and!; simpl; try lia. reflexivity. Qed.

  (** m.insert({1,2}); m.count(1) does not return *)
  Theorem C37_count_hang_refuted :
    outcome (vm_program 100 [(false, MInsert 1 2); (false, MCount 1)] ∅) = NoFuel.
  Proof. vm_compute. reflexivity. Qed.
End ex.
