(** forward_list: the hypotheses of the theorems in PropsForward.v are met by
    concrete states, and concrete counterexample runs (C22, C23, C07). *)
From Verif Require Import ForwardSpec.

Section ex.
  Local Existing Instance bump_allocator.
  (** A history that satisfies the precondition of C22_fl_history: it uses every
      kind of call. *)
  Definition fl_demo : list (bool * fl_op nat) :=
    [ (false, FPushFront 3); (false, FPushFront 1); (false, FInsertAfter 1 2);
      (false, FContents); (true, FAssignFrom); (true, FReverse); (true, FContents);
      (true, FSpliceOne 0 1); (true, FSpliceAll 2); (true, FInsertAfterN 0 2 9);
      (true, FInsertAfterRange 1 [4;5]); (true, FPushFrontOwn 3); (true, FContents);
      (true, FInsertAfterOwn 2 2 0); (true, FContents); (true, FEraseAfter 0);
      (true, FEraseAfterRange 1 4); (true, FFront); (false, FEmpty); (true, FEqual);
      (true, FRecopy); (false, FEqual); (false, FSpliceRange 1 0 3); (true, FSwap);
      (true, FContents); (true, FMoveOne 0 2); (true, FMoveOne 3 0); (true, FMoveRange 0 1 4);
      (true, FMoveRange 3 0 3); (true, FMoveRange 1 1 2);
      (true, FContents); (false, FContents); (false, FPopFront); (false, FAssignN 2 7);
      (false, FAssign [1;2]); (false, FClear); (false, FEmpty) ].
  Example fl_demo_meets_spec :
    ∃ r, fl_spec_run Nat.eqb [] [] fl_demo = Some r.
  Proof. eexists. vm_compute. reflexivity. Qed.
  (** The model really computes: the same program runs, and leaves no memory. *)
  Example fl_demo_runs :
    match fl_spec_run Nat.eqb [] [] fl_demo with
    | Some (_, _, outs) => outcome (fl_program Nat.eqb 100 fl_demo ∅) = Ok (outs, 0)
    | None => False
    end.
  Proof. vm_compute. reflexivity. Qed.

  (** A concrete list in memory. *)
  Example is_flist_somewhere :
    is_flist 1%positive [(2%positive, 10); (3%positive, 20)]
      {[1%positive := Cell (Some 2%positive) Hdr; 2%positive := Cell (Some 3%positive) (Live 10);
        3%positive := Cell None (Live 20)]}.
  Proof.
    split; [repeat constructor; set_solver|]. apply map_eq_iff. intros i. done.
  Qed.

  (** C23: a = [1,2]; b = []; a.splice_after(a.before_begin(), b): a becomes empty
      and its nodes are leaked (two cells survive both destructors). *)
  Theorem C23_splice_all_empty_run_refuted :
    outcome (fl_program Nat.eqb 100
      [(false, FAssign [1;2]); (false, FSpliceAll 0); (false, FContents)] ∅)
    = Ok ([ODone; ODone; OSeq []], 2).
  Proof. vm_compute. reflexivity. Qed.

  (** C23: a = [1,2,3]; a.splice_after(it to 2, a, it to 1), i.e. move the element
      2 to just after itself (a no-op in the standard): 2 is lost and points to
      itself. *)
  Theorem C23_splice_one_in_place_refuted :
    outcome ((let! a := fl_new_ext [1;2;3] in
          let! p := fl_at a 2 in
          let! q := fl_at a 1 in
          fl_splice_one p q ;! fl_contents 10 a) ∅) = Ok ([1;3], 4).
  Proof. vm_compute. reflexivity. Qed.

  (** C23: empty open range: a = [1,2], b = [7,8]; a.splice_after(a.before_begin(),
      b, b.before_begin(), b.begin()) should move nothing. It throws away a's
      elements and hands all of b to a while b keeps them too. *)
  Theorem C23_splice_range_empty_refuted :
    outcome ((let! a := fl_new_ext [1;2] in
          let! b := fl_new_ext [7;8] in
          let! f := fl_at b 0 in
          let! l := fl_at b 1 in
          fl_splice_range 10 (fl_before_begin a) f l ;!
          let! ca := fl_contents 10 a in
          let! cb := fl_contents 10 b in ret (ca, cb)) ∅) = Ok (([7;8], [7;8]), 6).
  Proof. vm_compute. reflexivity. Qed.
  (** C23: a = [1,2,3,4]; a.splice_after(it to 1, a, it to 1, it to 4) should move nothing *)
  Theorem C23_splice_range_in_place_refuted :
    outcome (fl_program Nat.eqb 100
      [(false, FAssign [1;2;3;4]); (false, FMoveRange 1 1 4); (false, FContents)] ∅)
    = Ok ([ODone; ODone; OSeq [1;4]], 2).
  Proof. vm_compute. reflexivity. Qed.
End ex.
Print Assumptions C23_splice_range_in_place_refuted.
Print Assumptions C23_splice_all_empty_run_refuted.
Print Assumptions C23_splice_one_in_place_refuted.
Print Assumptions C23_splice_range_empty_refuted.
