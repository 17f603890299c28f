(** vector: the hypotheses of the theorems in PropsVec.v are met by concrete states,
    and concrete counterexample runs (C07, C16, C17). *)
From Verif Require Import VecSpec.

Section ex.
  Local Existing Instance bump_allocator.
  Notation ve_program := (v_program v_new v_destroy (ve_step 0 Nat.eqb)).
  Notation ve_sp := (h_spec (ve_spec_ok 0 Nat.eqb) ([], 0) ([], 0)).

  (** A history within [ve_ok] that uses every kind of call. *)
  Definition ve_demo : list (bool * ve_op nat) :=
    [ (false, EPushBack 3); (false, EPushBackOwn 0); (false, ECapacity); (false, EReserve 8);
      (false, EInsert 1 7); (false, EInsertN 0 2 9); (false, EContents); (false, EInsertOwn 5 1 3);
      (false, EInsertOwn 2 4 3); (false, EInsertRange 3 [4;5]); (false, EContents); (false, ESize);
      (true, EInsertOther 0 2 5); (true, EContents); (false, EErase 0); (false, EEraseRange 1 4);
      (false, EEraseRange 8 8); (false, EContents); (false, EResize 3); (false, EResizeTo 5 1);
      (false, EResizeOwn 12 4); (false, ECapacity); (false, EContents); (true, EAssignN 4 2);
      (true, EAssignRange [1;2;3]); (true, EAssignOther 2 6); (true, EContents); (true, ESwap);
      (false, EContents); (true, EAssignFrom); (true, EEqual); (false, ERecopy); (true, ECapacity);
      (true, EClear); (true, EEmpty); (true, ERecreate 2); (true, EFront); (true, ERecreateN 3 6);
      (true, EBack); (true, ERecreateRange [8;9]); (true, ESet 1 5); (true, EAt 1);
      (true, EPopBack); (true, EContents); (true, EEqual) ].
  Example ve_demo_meets_spec : ∃ r, ve_sp ve_demo = Some r.
  Proof. eexists. vm_compute. reflexivity. Qed.
  Example ve_demo_runs :
    match ve_sp ve_demo with
    | Some (_, _, outs) => outcome (ve_program 100 ve_demo ∅) = Ok (outs, 0)
    | None => False
    end.
  Proof. vm_compute. reflexivity. Qed.
  Example ve_is_vec :
    is_vec (Vec (Some 1%positive) 2 3) [5;6] {[ 1%positive := [Some 5; Some 6; None] ]}.
  Proof. split_and!; simpl; try lia. reflexivity. Qed.

  (** push_back(1); push_back(2); erase(begin(), begin()) *)
  Theorem C16_erase_refuted :
    outcome (ve_program 100 [(false, EPushBack 1); (false, EPushBack 2); (false, EEraseRange 0 0)] ∅)
    = UB LiveOverwrite.
  Proof. vm_compute. reflexivity. Qed.
  (** reserve(4); push_back(1); push_back(2); insert(begin(), 1, v[1]) inserts 1 instead of 2 *)
  Theorem C17_insert_wrong_refuted :
    outcome (ve_program 100 [(false, EReserve 4); (false, EPushBack 1); (false, EPushBack 2);
       (false, EInsertOwn 0 1 1); (false, EContents)] ∅)
    = Ok ([VDone; VDone; VDone; VNat 0; VSeq [1;1;2]], 0).
  Proof. vm_compute. reflexivity. Qed.
  (** reserve(4); push_back(1); push_back(2); insert(begin(), 1, v[0]) copies a dead object *)
  Theorem C17_insert_dead_refuted :
    outcome (ve_program 100 [(false, EReserve 4); (false, EPushBack 1); (false, EPushBack 2);
       (false, EInsertOwn 0 1 0)] ∅) = UB NoObject.
  Proof. vm_compute. reflexivity. Qed.
  (** v = v *)
  Theorem C07_vector_refuted :
    outcome ((let! v := v_new in
              let! v := v_push_back 100 v (VExt 1) in
              let! v := v_assign_self 100 v in
              v_contents 100 v) ∅) = Ok ([], 1).
  Proof. vm_compute. reflexivity. Qed.
End ex.
