(** list: the hypotheses of the theorems in PropsDlist.v are met by concrete states, and
    concrete counterexample runs (C07, C30-C32, C34, C35, C60). *)
From Verif Require Import DlistSpec.

Section ex.
  Local Existing Instance bump_allocator.
  Notation dl_program rf := (h_program dl_new dl_destroy (dl_step Nat.eqb rf)).
  Notation dl_sp := (h_spec (dl_spec Nat.eqb) ([], false) ([], false)).
  Notation dl_bsp := (h_spec (dl_basic_spec Nat.eqb) [] []).

  (** A history of the calls of C29. *)
  Definition dl_basic_demo : list (bool * dl_op nat) :=
    [ (false, DPushBack 3); (false, DPushFront 1); (false, DInsert 1 2); (false, DContents);
      (false, DBackwards); (false, DPushBackOwn 0); (false, DInsertN 2 2 7); (false, DPushFrontOwn 2);
      (false, DInsertOwn 3 2 1); (false, DContents); (false, DUnique Nat.eqb); (false, DBackwards);
      (true, DInsertRange 0 [9;8;7;6]); (false, DInsertOther 1 1 3); (false, DContents);
      (false, DErase 2); (false, DErase 6); (false, DRemove 7); (false, DContents);
      (false, DRemoveIf Nat.even); (false, DSize); (true, DReverse); (true, DContents);
      (true, DResize 6 0); (true, DResize 3 0); (true, DBack); (true, DFront); (true, DSet 1 5);
      (true, DRecopy); (false, DEqual); (true, DPopFront); (true, DPopBack); (true, DContents);
      (true, DRecreateN 2 4); (false, DContents); (true, DRecreateRange [1;2]); (true, DEmpty);
      (true, DResizeOwn 4 0); (true, DResizeOwn 8 1); (true, DContents) ].
  Example dl_basic_demo_meets_spec : ∃ r, dl_bsp dl_basic_demo = Some r.
  Proof. eexists. vm_compute. reflexivity. Qed.
  Example dl_basic_demo_runs : ∀ rf,
    match dl_bsp dl_basic_demo with
    | Some (_, _, outs) => outcome (dl_program rf 100 dl_basic_demo ∅) = Ok (outs, 0)
    | None => False
    end.
  Proof. intros []; vm_compute; reflexivity. Qed.

  (** ... and one with the calls that are right only under [dl_ok]. *)
  Definition dl_demo : list (bool * dl_op nat) :=
    [ (false, DAssign [1;4;6]); (true, DAssignN 2 5); (false, DMerge Nat.ltb); (false, DContents);
      (false, DBackwards); (true, DEmpty); (true, DAssign [2;3;8]); (false, DSpliceOne 1 0);
      (false, DSpliceRange 3 0 1); (true, DPushBack 9); (false, DSpliceAll 0); (false, DBackwards);
      (false, DMove 0 3); (false, DMove 5 1); (false, DMoveRange 0 2 4); (false, DContents);
      (false, DMoveRange 6 1 3); (false, DMoveRange 3 3 3); (false, DContents); (false, DSwap); (true, DContents);
      (false, DEmpty); (false, DPushBack 1); (true, DClear); (true, DContents); (true, DSize); (true, DClear);
      (true, DRemove 3); (true, DUnique Nat.eqb); (true, DSwap); (true, DPushBack 2); (true, DContents);
      (true, DRemoveOwn 1); (true, DAssign []); (false, DAssignFrom); (false, DEraseRange 0 0); (false, DContents) ].
  Example dl_demo_meets_spec : ∃ r, dl_sp dl_demo = Some r.
  Proof. eexists. vm_compute. reflexivity. Qed.
  Example dl_demo_runs : ∀ rf,
    match dl_sp dl_demo with
    | Some (_, _, outs) => outcome (dl_program rf 100 dl_demo ∅) = Ok (outs, 0)
    | None => False
    end.
  Proof. intros []; vm_compute; reflexivity. Qed.
  Example lt_weak_order : weak_order Nat.ltb.
  Proof. split; intros *; rewrite ?Nat.ltb_lt, ?Nat.ltb_ge; lia. Qed.

  Example is_dlist_somewhere :
    is_dlist 1%positive [(2%positive, 10); (3%positive, 20)]
      {[1%positive := DCell (Some 3%positive) (Some 2%positive) DHdr;
        2%positive := DCell (Some 1%positive) (Some 3%positive) (DLive 10);
        3%positive := DCell (Some 2%positive) (Some 1%positive) (DLive 20)]}.
  Proof. split; [repeat constructor; set_solver|]. done. Qed.

  (** *** Counterexamples *)
  (** a.push_back(1); a.clear(); a.push_back(2); *)
  Theorem C30_push_after_clear_refuted :
    outcome (dl_program true 100
      [(false, DPushBack 1); (true, DPushBack 9); (false, DClear); (false, DPushBack 2)] ∅) = UB Dangling.
  Proof. vm_compute. reflexivity. Qed.
  (** ... with the address reused: 2 is neither found nor freed *)
  Theorem C30_push_after_clear_reuse_refuted :
    outcome (dl_program true 100
      [(false, DPushBack 1); (false, DClear); (false, DPushBack 2); (false, DContents)] ∅)
    = Ok ([DDone; DDone; DDone; DSeq []], 1).
  Proof. vm_compute. reflexivity. Qed.
  (** a.assign({1,2}); a.assign({3}) *)
  Theorem C30_assign_twice_refuted :
    outcome (dl_program true 100
      [(false, DAssign [1;2]); (true, DPushBack 9); (false, DAssign [3])] ∅) = UB Dangling.
  Proof. vm_compute. reflexivity. Qed.
  (** a = b with a = [1], b = [2] *)
  Theorem C30_assign_from_refuted :
    outcome (dl_program true 100
      [(false, DPushBack 1); (true, DPushBack 2); (false, DAssignFrom)] ∅) = UB Dangling.
  Proof. vm_compute. reflexivity. Qed.
  (** a = [1,2,3]; a.erase(begin, end) leaves [3] *)
  Theorem C31_erase_all_refuted :
    outcome (dl_program true 100
      [(false, DAssign [1;2;3]); (false, DEraseRange 0 3); (false, DContents)] ∅)
    = Ok ([DDone; DEnd; DSeq [3]], 0).
  Proof. vm_compute. reflexivity. Qed.
  Theorem C31_erase_none_refuted :
    outcome (dl_program true 100 [(false, DAssign [1;2;3]); (false, DEraseRange 1 1)] ∅) = UB BadCast.
  Proof. vm_compute. reflexivity. Qed.
  (** a = [1,2]; a.splice(end, b) with b empty; iterating a *)
  Theorem C32_splice_empty_list_refuted :
    outcome (dl_program true 100 [(false, DAssign [1;2]); (false, DSpliceAll 2); (false, DContents)] ∅) = UB BadCast.
  Proof. vm_compute. reflexivity. Qed.
  (** the empty range [b.begin, b.begin) of b = [5]: a iterates into b *)
  Theorem C32_splice_empty_range_refuted :
    outcome (dl_program true 100
      [(false, DAssign [1;2]); (true, DAssign [5]); (false, DSpliceRange 1 0 0); (false, DContents)] ∅) = UB BadCast.
  Proof. vm_compute. reflexivity. Qed.
  (** a = [1,2]; a.splice(second, a, first) (already in place): 1 is lost and leaked *)
  Theorem C32_splice_in_place_refuted :
    outcome (dl_program true 100 [(false, DAssign [1;2]); (false, DMove 1 0); (false, DContents)] ∅)
    = Ok ([DDone; DDone; DSeq [2]], 1).
  Proof. vm_compute. reflexivity. Qed.
  (** a = [1,2,3,4]; a.splice(third, a, first, third): 1 and 2 are lost and leaked *)
  Theorem C32_splice_range_in_place_refuted :
    outcome (dl_program true 100 [(false, DAssign [1;2;3;4]); (false, DMoveRange 2 0 2); (false, DContents)] ∅)
    = Ok ([DDone; DDone; DSeq [3;4]], 2).
  Proof. vm_compute. reflexivity. Qed.
  (** a = [1,2,3,4]; a.splice(second, a, end, end): everything behind 1 is lost *)
  Theorem C32_splice_own_empty_refuted :
    outcome (dl_program true 100 [(false, DAssign [1;2;3;4]); (false, DMoveRange 1 4 4); (false, DContents)] ∅)
    = Ok ([DDone; DDone; DSeq [1]], 3).
  Proof. vm_compute. reflexivity. Qed.
  Theorem C34_swap_empty_refuted : ∀ rf,
    outcome (dl_program rf 100 [(false, DSwap); (false, DPushBack 1); (true, DContents)] ∅) = UB BadCast.
  Proof. intros []; vm_compute; reflexivity. Qed.
  Theorem C35_resize_0_refuted :
    outcome (dl_program true 100 [(false, DAssign [1;2]); (false, DResize 0 7); (false, DContents)] ∅)
    = Ok ([DDone; DDone; DSeq [1;2]], 0).
  Proof. vm_compute. reflexivity. Qed.
  Theorem C60_remove_own_refuted :
    outcome (dl_program true 100 [(false, DAssign [1;2;1]); (false, DRemoveOwn 0)] ∅) = UB Dangling.
  Proof. vm_compute. reflexivity. Qed.
End ex.
