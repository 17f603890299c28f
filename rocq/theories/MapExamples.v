(** map / set / multi-key tree: the hypotheses of the theorems in PropsMap.v and
    PropsMapped.v are met by concrete states and programs, and concrete
    counterexample runs (C07, C09, C10, C11, C13). *)
From Verif Require Import MapSpec.

(** The order of the natural numbers is a [key_order]. *)
Lemma nat_key_order : key_order Nat.ltb Nat.eqb.
Proof.
  constructor; intros *.
  - apply Nat.ltb_ge. lia.
  - rewrite !Nat.ltb_lt. lia.
  - rewrite !Nat.ltb_ge. lia.
  - rewrite Nat.eqb_eq, !Nat.ltb_ge. lia.
Qed.
(** So is an order that looks at part of the key only, when == does the same. *)
Lemma fst_key_order :
  key_order (λ a b : nat * nat, Nat.ltb a.1 b.1) (λ a b, Nat.eqb a.1 b.1).
Proof.
  constructor; intros *.
  - apply Nat.ltb_ge. lia.
  - rewrite !Nat.ltb_lt. lia.
  - rewrite !Nat.ltb_ge. lia.
  - rewrite Nat.eqb_eq, !Nat.ltb_ge. lia.
Qed.

Definition peqb (a b : nat * nat) : bool := Nat.eqb a.1 b.1 && Nat.eqb a.2 b.2.

Section ex.
  Local Existing Instance bump_allocator.

  (** A history that uses every kind of call (hypothesis of C01_map_history). *)
  Definition map_demo : list (bool * map_op nat nat) :=
    [ (false, MapStore 5 50); (false, MapStore 1 10); (false, MapStore 3 30); (false, MapGet 4);
      (false, MapGen (MInsert (3, 99))); (false, MapGen (MInsert (2, 20)));
      (false, MapGen (MInsertRange [(9, 1); (8, 2); (7, 3); (6, 4); (9, 5)]));
      (false, MapGen MForward); (false, MapGen MBackward); (false, MapAt 7);
      (false, MapGen (MErase 4)); (false, MapGen (MErase 44)); (false, MapGen (MErase 5));
      (false, MapGen (MFind 5)); (false, MapGen (MFind 6)); (false, MapGen (MCount 9));
      (false, MapGen (MLower 4)); (false, MapGen (MLower 10)); (false, MapGen MForward);
      (true, MapGen MAssignFrom); (true, MapGen MEqual); (true, MapGen (MErase 1));
      (true, MapGen MEqual); (true, MapGen MRecopy); (false, MapGen MForward);
      (false, MapGen MClear); (false, MapGen MEmpty); (true, MapGen MForward) ].
  Example map_demo_meets_spec :
    ∃ r, h_spec (map_spec Nat.ltb Nat.eqb peqb 0) [] [] map_demo = Some r.
  Proof. eexists. vm_compute. reflexivity. Qed.
  Example map_demo_runs :
    match h_spec (map_spec Nat.ltb Nat.eqb peqb 0) [] [] map_demo with
    | Some (_, _, outs) =>
        outcome (h_program rb_new rb_destroy (map_step Nat.ltb Nat.eqb peqb 0) 100 map_demo ∅) = Ok (outs, 0)
    | None => False
    end.
  Proof. vm_compute. reflexivity. Qed.

  (** A concrete map object in memory (hypothesis of the per-call theorems):
      header 1, black root 2 with a red left child 3. *)
  Example is_map_somewhere :
    is_map (λ v : nat, v) Nat.ltb 1%positive [(3%positive, 10); (2%positive, 20)]
      {[1%positive := Rb (Some 2%positive) None None true None;
        2%positive := Rb (Some 1%positive) (Some 3%positive) None false (Some 20);
        3%positive := Rb (Some 2%positive) None None true (Some 10)]}.
  Proof.
    split; [repeat constructor|].
    exists (Node false (Node true Leaf 3%positive 10 Leaf) 2%positive 20 Leaf).
    split; [done|]. split; [done|]. split; [by exists 1|].
    split; [repeat constructor; set_solver|]. apply map_eq_iff. intros i. done.
  Qed.

  (** Two identical keys in a multi-key tree (hypothesis of the C10 theorems). *)
  Example is_multi_somewhere :
    is_multi (λ v : nat, v) Nat.ltb 1%positive [(3%positive, 20); (2%positive, 20)]
      {[1%positive := Rb (Some 2%positive) None None true None;
        2%positive := Rb (Some 1%positive) (Some 3%positive) None false (Some 20);
        3%positive := Rb (Some 2%positive) None None true (Some 20)]}.
  Proof.
    split; [repeat constructor|].
    exists (Node false (Node true Leaf 3%positive 20 Leaf) 2%positive 20 Leaf).
    split; [done|]. split; [done|]. split; [by exists 1|].
    split; [repeat constructor; set_solver|]. apply map_eq_iff. intros i. done.
  Qed.

  (** A set of natural numbers filled with [vs]. *)
  Definition set_of (vs : list nat) : M (gmap loc (rbcell nat)) loc :=
    let! s := rb_new in
    m_insert_range (λ v, v) Nat.ltb Nat.eqb 100 s vs ;! ret s.
  Definition multi_of (vs : list nat) : M (gmap loc (rbcell nat)) loc :=
    let! s := rb_new in
    foldr (λ v k, rb_insert_equal (λ v, v) Nat.ltb 100 s v ;! k) (ret s) vs.

  (** C09: in {1, 3, 5} the first element greater than 2 is 3, and equal_range(2) is
      the empty range at 3; the code answers 5 and [3, 5). *)
  Theorem C09_upper_bound_run_refuted :
    outcome ((let! s := set_of [1; 3; 5] in
              let! p := m_upper_bound (λ v, v) Nat.ltb 100 s 2 in node_data p) ∅) = Ok (5, 4).
  Proof. vm_compute. reflexivity. Qed.
  Theorem C09_equal_range_run_refuted :
    outcome ((let! s := set_of [1; 3; 5] in
              let! (p, q) := m_equal_range (λ v, v) Nat.ltb 100 s 2 in
              let! a := node_data p in let! b := node_data q in ret (a, b)) ∅) = Ok ((3, 5), 4).
  Proof. vm_compute. reflexivity. Qed.

  (** C11: three elements 5, count(5) = 2. *)
  Theorem C11_count_short_refuted :
    outcome ((let! s := multi_of [5; 5; 5] in rb_count (λ v, v) Nat.ltb Nat.eqb 100 s 5) ∅) = Ok (2, 4).
  Proof. vm_compute. reflexivity. Qed.

  (** C10: remove(5) from {1, 5, 5, 5}, and releasing the returned node: two of the
      three fives are gone from the sequence, although only one node was released
      (4 cells remain: header, 1, 5 and a leaked 5). *)
  Theorem C10_remove_duplicates_run_refuted :
    outcome ((let! s := multi_of [5; 5; 5; 1] in
              let! n := rb_remove (λ v, v) Nat.ltb Nat.eqb 100 s 5 in
              delete_rbnode n ;! m_forward 100 s) ∅) = Ok ([1; 5], 4).
  Proof. vm_compute. reflexivity. Qed.

  (** C13: a set of pairs ordered by the first component only, whose == compares
      both: two elements that are equivalent under the set's own Compare. *)
  Theorem C13_equivalent_keys_refuted :
    outcome ((let! s := rb_new in
              m_insert_range (λ v : nat * nat, v) (λ a b, Nat.ltb a.1 b.1) peqb 100 s [(5, 1); (5, 2)] ;!
              m_forward 100 s) ∅) = Ok ([(5, 1); (5, 2)], 3).
  Proof. vm_compute. reflexivity. Qed.

  (** C07: s = s on the set {1, 2, 3}. *)
  Theorem C07_set_self_assign_run_refuted :
    outcome ((let! s := set_of [1; 2; 3] in m_assign 100 s s ;! m_forward 100 s) ∅) = Ok ([], 1).
  Proof. vm_compute. reflexivity. Qed.
End ex.
Print Assumptions nat_key_order.
Print Assumptions C09_upper_bound_run_refuted.
Print Assumptions C09_equal_range_run_refuted.
Print Assumptions C10_remove_duplicates_run_refuted.
Print Assumptions C11_count_short_refuted.
Print Assumptions C13_equivalent_keys_refuted.
Print Assumptions C07_set_self_assign_run_refuted.
