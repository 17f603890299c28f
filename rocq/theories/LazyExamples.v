(** lazy_queue: the hypotheses of the theorems in PropsLazy.v are met by
    concrete states, and concrete counterexample runs (C27, C28). *)
From Verif Require Import LazySpec.

Section ex.
  Local Existing Instance bump_allocator.
  Notation lq_program triv := (v_program lq_new (lq_destroy triv) (lq_step triv)).
  Notation lq_sp triv := (h_spec (lq_spec_ok triv) ([], 0) ([], 0)).

  (** A history within [lq_ok] for trivially destructible elements that uses every
      kind of call. *)
  Definition lq_demo : list (bool * lq_op nat) :=
    [ (false, QPushBack 3); (false, QPushFront 1); (false, QInsertAfter 1 2);
      (false, QContents); (false, QInsertAfter 3 4); (false, QBack); (false, QPushBackOwn 0);
      (false, QInsertAfterN 5 2 9); (false, QPushFrontOwn 6); (false, QContents);
      (false, QInsertAfterRange 1 [7;8]); (false, QInsertAfterOwn 0 2 1);
      (false, QEraseAfter 11); (false, QEraseAfterRange 2 5); (false, QContents);
      (false, QEraseAfterRange 5 9); (false, QBack); (false, QRoll); (false, QBack);
      (false, QPopFront); (false, QFront); (true, QPushBack 5); (true, QSwap);
      (true, QContents); (false, QBack); (true, QInsertAfterOther 1); (true, QContents);
      (true, QAssignFrom); (true, QContents); (true, QEmpty); (false, QClear);
      (false, QPushBack 8); (false, QRecopy); (true, QContents); (true, QPopFront);
      (true, QRoll); (true, QCleanup); (true, QEmpty) ].
  Example lq_demo_meets_spec : ∃ r, lq_sp true lq_demo = Some r.
  Proof. eexists. vm_compute. reflexivity. Qed.
  Example lq_demo_runs :
    match lq_sp true lq_demo with
    | Some (_, _, outs) => outcome (lq_program true 100 lq_demo ∅) = Ok (outs, 0)
    | None => False
    end.
  Proof. vm_compute. reflexivity. Qed.
  (** The same with non-trivial destructors: every pooled node is reused before the
      queue is destroyed. *)
  Definition lq_demo2 : list (bool * lq_op nat) :=
    [ (false, QPushBack 3); (false, QPushBack 4); (false, QPopFront); (false, QPushBack 5);
      (false, QContents); (false, QCleanup); (false, QClear); (false, QInsertAfterRange 0 [1;2]);
      (false, QRecopy); (true, QContents) ].
  Example lq_demo2_meets_spec :
    match lq_sp false lq_demo2 with
    | Some (s, o, outs) => lq_fin false s ∧ lq_fin false o ∧
        outcome (lq_program false 100 lq_demo2 ∅) = Ok (outs, 0)
    | None => False
    end.
  Proof. vm_compute. repeat split; try reflexivity; by right. Qed.
  (** The number of nodes owned: three elements, two popped, one pushed: still 3. *)
  Example lq_pool_size :
    (λ r, r.1.1) <$> lq_sp true [(false, QPushBack 1); (false, QPushBack 2); (false, QPushBack 3);
       (false, QPopFront); (false, QPopFront); (false, QPushBack 4)]
    = Some ([3;4], 3).
  Proof. vm_compute. reflexivity. Qed.

  (** push_back(1); pop_front(); ~lazy_queue() : ~T runs twice *)
  Theorem C27_pop_destroy_refuted :
    outcome (lq_program false 100 [(false, QPushBack 1); (false, QPopFront)] ∅) = UB NoObject.
  Proof. vm_compute. reflexivity. Qed.
  (** push_back(1); clear(); cleanup() : ~T runs twice *)
  Theorem C27_clear_cleanup_refuted :
    outcome (lq_program false 100 [(false, QPushBack 1); (false, QClear); (false, QCleanup)] ∅)
    = UB NoObject.
  Proof. vm_compute. reflexivity. Qed.
  (** a = [1], b = []; a.swap(b); a.push_back(2): the element goes to the other queue *)
  Theorem C28_lazy_swap_empty_push_refuted :
    outcome (lq_program true 100
      [(false, QPushBack 1); (false, QSwap); (false, QPushBack 2);
       (false, QContents); (true, QContents)] ∅)
    = Ok ([ODone; ODone; ODone; OSeq []; OSeq [2;1]], 0).
  Proof. vm_compute. reflexivity. Qed.

  Example is_lqueue_somewhere :
    is_lqueue (LQ 1%positive (Some 3%positive) 2%positive)
      [(3%positive, 10)] [4%positive]
      {[1%positive := Cell (Some 3%positive) Hdr; 2%positive := Cell (Some 4%positive) Hdr;
        3%positive := Cell None (Live 10); 4%positive := Cell None Raw]}.
  Proof.
    split; [done|]. split; [repeat constructor; set_solver|]. apply map_eq_iff. intros i. done.
  Qed.
End ex.
