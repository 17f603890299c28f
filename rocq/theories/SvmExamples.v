(** sorted_vector_map: the hypotheses of the theorems in PropsSvm.v are met by concrete states,
    and concrete counterexample runs (C39, C40, C61, C62). *)
From Verif Require Import SvmSpec.

Section ex.
  Local Existing Instance bump_allocator.
  Notation sv_program u := (v_program sv_new sv_destroy (sv_step Nat.eqb Nat.ltb 0 u)).
  Notation sv_sp u := (h_spec (sv_spec Nat.eqb Nat.ltb 0 u) ([], 0) ([], 0)).

  Definition sv_demo : list (bool * sv_op nat nat) :=
    [ (false, QInsert 5 1); (false, QInsert 3 2); (false, QInsert 5 9); (false, QInsertOwn 1);
      (false, QIndex 7); (false, QPut 3 8); (false, QPut 4 6); (false, QFind 7); (false, QFind 9);
      (false, QAt 5); (false, QCount 11); (false, QCount 3); (false, QEqualRange 4); (false, QEqualRange 6);
      (false, QLower 4); (false, QUpper 4); (false, QLower 6); (false, QUpper 6); (false, QLower 0); (false, QUpper 99);
      (true, QInsert 2 2); (true, QPut 2 3); (true, QAtPut 2 4);
      (false, QContents); (true, QContents); (false, QSize); (false, QEmpty) ].
  Definition sv_demo2 : list (bool * sv_op nat nat) :=
    sv_demo ++ [ (true, QRecopy); (true, QInsert 1 1); (false, QRecreate 3); (false, QInsert 3 1); (false, QInsert 2 1);
      (false, QInsert 1 1); (false, QInsert 0 1); (false, QContents); (true, QContents); (true, QClear); (true, QEmpty) ].
  Example sv_keys : key_order Nat.eqb Nat.ltb.
  Proof.
    split.
    - apply Nat.ltb_irrefl.
    - intros ??? ?%Nat.ltb_lt ?%Nat.ltb_lt. apply Nat.ltb_lt. lia.
    - intros a b c Hab%Nat.ltb_lt. destruct (decide (a < c)); [left|right]; apply Nat.ltb_lt; lia.
    - intros a b. rewrite Nat.eqb_eq, !Nat.ltb_ge. lia.
  Qed.
  Example sv_demo_keeps : Forall (λ c, keeps_elements c.2) sv_demo.
  Proof. repeat constructor. Qed.
  Example sv_demo_no_1 : Forall (λ c, c.2 ≠ QRecreate 1) sv_demo2.
  Proof. unfold sv_demo2, sv_demo. repeat (constructor; [discriminate|]). constructor. Qed.
  Example sv_demo_meets_spec : ∃ r, sv_sp 1000 sv_demo = Some r.
  Proof. eexists. vm_compute. reflexivity. Qed.
  Example sv_demo2_meets_spec : ∃ r, sv_sp 1000 sv_demo2 = Some r.
  Proof. eexists. vm_compute. reflexivity. Qed.
  Example sv_demo_runs :
    outcome (sv_program 1000 100 sv_demo ∅) = Ok
      ([AIns 0 true; AIns 0 true; AIns 1 false; AIns 1 false; AVal 0; ADone; ADone; APos 3; APos 4;
        AVal 1; APos 1; APos 0; ARange 1 2; ARange 4 4; APos 1; APos 2; APos 3; APos 3; APos 0; APos 4;
        AIns 0 true; ADone; ADone; ASeq [(3,8);(4,6);(5,1);(7,0)]; ASeq [(2,4)]; APos 4; ABool false], 0).
  Proof. vm_compute. reflexivity. Qed.
  Example sv_demo2_runs :
    match sv_sp 1000 sv_demo2 with
    | Some (_, _, outs) => outcome (sv_program 1000 100 sv_demo2 ∅) = Ok (outs, 0)
    | None => False
    end.
  Proof. vm_compute. reflexivity. Qed.
  Example sv_is_svm :
    is_svm (Svm (Some 1%positive) 2 3) [(2%positive, (5,1)); (3%positive, (6,2))]
      {[ 1%positive := CArr [Some (Some 2%positive); Some (Some 3%positive); None];
         2%positive := CEnt (5,1); 3%positive := CEnt (6,2) ]}.
  Proof.
    split_and!; simpl; try lia.
    - apply (bool_decide_unpack _). vm_compute. exact I.
    - split; [apply (bool_decide_unpack _); vm_compute; exact I|]. exists [None]. split; [done|]. reflexivity.
  Qed.
  Example sv_is_ascending : ascending Nat.ltb [(5,1); (6,2); (9,0)].
  Proof.
    intros i j e f Hi Hj Hij.
    destruct i as [|[|[|i]]], j as [|[|[|j]]]; simpl in *; try lia; simplify_eq; done.
  Qed.
  Example sv_has_room : sv_room Nat.eqb 1000 4 ([(5,1); (6,2)], 2).
  Proof. split; [unfold sv_fits; simpl; lia|]. right. simpl. lia. Qed.
  (** the hypotheses of the C39 refutation *)
  Example sv_one : is_svm (Svm (Some 1%positive) 1 1) [(2%positive, (1,1))]
      {[ 1%positive := CArr [Some (Some 2%positive)]; 2%positive := CEnt (1,1) ]}.
  Proof.
    split_and!; simpl; try lia.
    - apply (bool_decide_unpack _). vm_compute. exact I.
    - split; [apply (bool_decide_unpack _); vm_compute; exact I|]. exists []. split; [done|]. reflexivity.
  Qed.

  (** sorted_vector_map m(1); m.insert({1,1}); m.insert({2,2}) writes past the array; with a
      preallocation of 0 or 2 it does not *)
  Theorem C39_run_refuted :
    outcome (sv_program 1000 100 [(false, QRecreate 1); (false, QInsert 1 1); (false, QInsert 2 2)] ∅) = UB OutOfBounds.
  Proof. vm_compute. reflexivity. Qed.
  Example sv_prealloc_0_2 :
    ∀ n, n = 0 ∨ n = 2 →
    outcome (sv_program 1000 100 [(false, QRecreate n); (false, QInsert 1 1); (false, QInsert 2 2); (false, QInsert 0 0); (false, QSize)] ∅)
    = Ok ([ADone; AIns 0 true; AIns 1 true; AIns 0 true; APos 3], 0).
  Proof. intros n [->| ->]; vm_compute; reflexivity. Qed.
  (** m.insert({1,1}); m.count(1) is 0, m.count(2) is 1 *)
  Theorem C40_run_refuted :
    outcome (sv_program 1000 100 [(false, QInsert 1 1); (false, QCount 1); (false, QCount 2)] ∅) = Ok ([AIns 0 true; APos 0; APos 1], 0).
  Proof. vm_compute. reflexivity. Qed.
  (** in {1, 3}: equal_range(2) is (2, 2), but lower_bound(2) and upper_bound(2) are 1 *)
  Theorem C61_run_refuted :
    outcome (sv_program 1000 100 [(false, QInsert 1 1); (false, QInsert 3 3);
      (false, QEqualRange 2); (false, QLower 2); (false, QUpper 2)] ∅) = Ok ([AIns 0 true; AIns 1 true; ARange 2 2; APos 1; APos 1], 0).
  Proof. vm_compute. reflexivity. Qed.
  (** with unsigned of 2 bits and 4 entries, no key is found *)
  Theorem C62_run_refuted :
    outcome (sv_program 4 100 [(false, QInsert 1 1); (false, QInsert 2 2); (false, QInsert 3 3); (false, QInsert 4 4);
      (false, QFind 1); (false, QFind 2); (false, QSize)] ∅)
    = Ok ([AIns 0 true; AIns 1 true; AIns 2 true; AIns 3 true; APos 4; APos 4; APos 4], 0).
  Proof. vm_compute. reflexivity. Qed.
End ex.
