(** backward_list: the hypotheses of the theorems in PropsBackward.v are met by
    concrete states, and concrete counterexample runs (C24, C28). *)
From Verif Require Import BackwardSpec.

Section ex.
  Local Existing Instance bump_allocator.
  Notation bl_program := (v_program bl_new bl_destroy (bl_step Nat.eqb)).
  Notation bl_sp := (h_spec (bl_spec_ok Nat.eqb) [] []).

  (** A history within [bl_ok] that uses every kind of call. *)
  Definition bl_demo : list (bool * bl_op nat) :=
    [ (false, BPushBack 3); (false, BPushFront 1); (false, BInsertAfter 1 2);
      (false, BContents); (false, BInsertAfter 3 4); (false, BBack); (false, BPushBackOwn 0);
      (false, BInsertAfterN 5 2 9); (false, BPushFrontOwn 6); (false, BContents);
      (false, BInsertAfterRange 1 [7;8]); (false, BInsertAfterOwn 0 2 1);
      (false, BEraseAfter 11); (false, BEraseAfterRange 2 5); (false, BContents);
      (false, BEraseAfterRange 5 9); (false, BBack); (false, BReverse); (false, BBack);
      (false, BPopFront); (false, BFront); (true, BPushBack 5); (true, BSwap);
      (true, BContents); (false, BBack); (true, BEqual); (true, BAssignN 2 6);
      (true, BPushBack 7); (true, BContents); (true, BEmpty); (false, BClear);
      (true, BAssignFrom); (true, BRecopy); (true, BAssign []); (true, BEmpty) ].
  Example bl_demo_meets_spec : ∃ r, bl_sp bl_demo = Some r.
  Proof. eexists. vm_compute. reflexivity. Qed.
  Example bl_demo_runs :
    match bl_sp bl_demo with
    | Some (_, _, outs) => outcome (bl_program 100 bl_demo ∅) = Ok (outs, 0)
    | None => False
    end.
  Proof. vm_compute. reflexivity. Qed.

  (** Outside [bl_ok] the observations differ from the abstract sequence. *)
  (** a.push_back(1); a.pop_front(); a.empty() is false *)
  Theorem C24_pop_last_empty_refuted :
    outcome (bl_program 100 [(false, BPushBack 1); (false, BPopFront); (false, BEmpty)] ∅)
    = Ok ([ODone; ODone; OBool false], 0).
  Proof. vm_compute. reflexivity. Qed.
  (** a.push_back(1); a.pop_front(); a.push_back(2): write to freed memory *)
  Theorem C24_pop_last_push_refuted :
    outcome (bl_program 100 [(false, BPushBack 1); (true, BPushBack 9); (false, BPopFront);
      (false, BPushBack 2)] ∅) = UB Dangling.
  Proof. vm_compute. reflexivity. Qed.
  (** the same when the allocator hands out the freed address again: the element is
      lost and leaked *)
  Theorem C24_pop_last_push_reuse_refuted :
    outcome (bl_program 100 [(false, BPushBack 1); (false, BPopFront); (false, BPushBack 2);
      (false, BContents)] ∅) = Ok ([ODone; ODone; ODone; OSeq []], 1).
  Proof. vm_compute. reflexivity. Qed.
  (** a.assign({1,2}); a.push_back(3) puts 3 first; and empty() was true *)
  Theorem C24_assign_push_refuted :
    outcome (bl_program 100
      [(false, BAssign [1;2]); (false, BEmpty); (false, BPushBack 3); (false, BContents)] ∅)
    = Ok ([ODone; OBool true; ODone; OSeq [3;1;2]], 0).
  Proof. vm_compute. reflexivity. Qed.
  (** b = a with a = [1,2]: b.back() reads the header as if it were a node *)
  Theorem C24_assign_from_back_refuted :
    outcome (bl_program 100
      [(false, BPushBack 1); (false, BPushBack 2); (true, BAssignFrom); (true, BBack)] ∅)
    = UB BadCast.
  Proof. vm_compute. reflexivity. Qed.
  (** a.reverse() on an empty list, then a.push_back(1): null pointer *)
  Theorem C24_reverse_empty_push_refuted :
    outcome (bl_program 100 [(false, BReverse); (false, BPushBack 1)] ∅) = UB NullDeref.
  Proof. vm_compute. reflexivity. Qed.
  (** a = [1], b = []; a.swap(b); a.push_back(2) appends to the wrong list and
      a stays empty *)
  Theorem C28_swap_empty_push_refuted :
    outcome (bl_program 100
      [(false, BPushBack 1); (false, BSwap); (false, BPushBack 2);
       (false, BContents); (true, BContents)] ∅)
    = Ok ([ODone; ODone; ODone; OSeq []; OSeq [2;1]], 0).
  Proof. vm_compute. reflexivity. Qed.

  Example is_blist_somewhere :
    is_blist (BL 1%positive (Some 3%positive)) [(2%positive, 10); (3%positive, 20)]
      {[1%positive := Cell (Some 2%positive) Hdr; 2%positive := Cell (Some 3%positive) (Live 10);
        3%positive := Cell None (Live 20)]}.
  Proof.
    split; [done|]. split; [repeat constructor; set_solver|]. apply map_eq_iff. intros i. done.
  Qed.
End ex.
