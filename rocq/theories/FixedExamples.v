(** fixed_vector: the hypotheses of the theorems in PropsFixed.v are met by concrete states,
    and concrete counterexample runs (C07, C20, C21). *)
From Verif Require Import FixedSpec.

Section ex.
  Local Existing Instance bump_allocator.
  Notation fx_program N := (v_program (fv_new N) fv_destroy (fx_step N 0 Nat.eqb)).

  (** A history within [fx_ok] that overruns the capacity in every way. *)
  Definition fx_demo : list (bool * fx_op nat) :=
    [ (false, FOp (EPushBack 3)); (false, FOp (EPushBackOwn 0)); (false, FOp (EInsert 1 7));
      (false, FOp (EInsertN 0 2 9)); (false, FOp EContents); (false, FFull); (false, FOp (EPushBack 1));
      (false, FOp (EInsertOwn 2 1 1)); (false, FOp (EInsertRange 3 [4;5;6])); (false, FOp EContents);
      (true, FOp (EInsertOther 0 1 4)); (true, FOp EContents); (false, FOp (EErase 0));
      (false, FOp (EEraseRange 1 2)); (false, FOp (EEraseRange 2 2)); (false, FOp EContents);
      (false, FOp (EResize 9)); (false, FOp (EResizeTo 1 5)); (false, FOp (EResizeOwn 7 0));
      (false, FOp EContents); (true, FOp (EAssignN 6 2)); (true, FOp (EAssignRange [1;2]));
      (true, FOp ESwap); (true, FOp EContents); (true, FOp (EAssignOther 0 1)); (true, FOp EAssignFrom);
      (true, FOp EEqual); (false, FOp ERecopy); (true, FOp EClear); (true, FOp EEmpty);
      (true, FOp (ERecreate 2)); (true, FOp EFront); (true, FOp (ERecreateN 9 6)); (true, FOp EBack);
      (true, FOp (ERecreateRange [8;9])); (true, FOp (ESet 1 5)); (true, FOp (EAt 1));
      (true, FOp EPopBack); (true, FOp ESize); (true, FOp ECapacity); (true, FOp EEqual) ].
  Example fx_demo_meets_spec : ∃ r, h_spec (fx_spec_ok 4 0 Nat.eqb) [] [] fx_demo = Some r.
  Proof. eexists. vm_compute. reflexivity. Qed.
  Example fx_demo_code :
    match h_spec (fx_spec_ok 4 0 Nat.eqb) [] [] fx_demo with
    | Some r => x_spec (fx_code 4 0 Nat.eqb) [] [] fx_demo = Some (Ok r)
    | None => False
    end.
  Proof. vm_compute. reflexivity. Qed.
  Example fx_demo_runs :
    match h_spec (fx_spec_ok 4 0 Nat.eqb) [] [] fx_demo with
    | Some (_, _, outs) => outcome (fx_program 4 100 fx_demo ∅) = Ok (outs, 0)
    | None => False
    end.
  Proof. vm_compute. reflexivity. Qed.
  Example fx_is_fvec :
    is_fvec 3 (FVec 1%positive 2) [5;6] {[ 1%positive := [Some 5; Some 6; None] ]}.
  Proof. split_and!; simpl; try lia. reflexivity. Qed.

  (** fixed_vector<int,4> a, b; a.push_back(1); a.swap(b) *)
  Theorem C21_swap_refuted :
    outcome (fx_program 4 100 [(false, FOp (EPushBack 1)); (false, FOp ESwap)] ∅) = UB NoObject.
  Proof. vm_compute. reflexivity. Qed.
  (** a.push_back(1); a.push_back(2); a.push_back(3); a.insert(begin(), a[2]) inserts 2 instead of 3 *)
  Theorem C20_insert_wrong_refuted :
    outcome (fx_program 4 100 [(false, FOp (EPushBack 1)); (false, FOp (EPushBack 2));
       (false, FOp (EPushBack 3)); (false, FOp (EInsertOwn 0 1 2)); (false, FOp EContents)] ∅)
    = Ok ([VDone; VDone; VDone; VNat 0; VSeq [2;1;2;3]], 0).
  Proof. vm_compute. reflexivity. Qed.
  (** a.push_back(1); a.erase(begin(), begin()) *)
  Theorem C20_erase_refuted :
    outcome (fx_program 4 100 [(false, FOp (EPushBack 1)); (false, FOp (EEraseRange 0 0))] ∅)
    = UB LiveOverwrite.
  Proof. vm_compute. reflexivity. Qed.
  (** a = a *)
  Theorem C07_fixed_refuted :
    outcome ((let! v := fv_new 3 in
              let! v := fv_push_back 3 v (VExt 1) in
              let! v := fv_assign_self 100 v in
              fv_contents 100 v) ∅) = Ok ([], 1).
  Proof. vm_compute. reflexivity. Qed.
End ex.
