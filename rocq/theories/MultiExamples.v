(** Trees with duplicate keys and reference arguments: the hypotheses of the theorems
    in PropsMulti.v, PropsAlias.v and PropsAliasMap.v are met by concrete programs. *)
From Verif Require Import MultiSpec RbRefModel.

Section ex.
  Local Existing Instance bump_allocator.

  (** Pairs ordered by the first component: equal keys, distinguishable values. *)
  Notation kltb := Nat.ltb.
  Definition multi_demo : list (bool * x_op nat (nat * nat)) :=
    [ (false, XEmpty); (false, XInsert (5, 1)); (false, XInsert (3, 2)); (false, XInsert (5, 3));
      (false, XInsert (4, 4)); (false, XInsert (5, 5)); (false, XInsert (9, 6)); (false, XInsert (3, 7));
      (false, XForward); (false, XBackward); (false, XRange 5); (false, XRange 6); (false, XRange 3);
      (false, XLower 5); (false, XUpper 5); (false, XLower 10); (false, XUpper 2); (false, XHas 3);
      (false, XHas 6); (false, XCount 4); (false, XCount 7); (false, XErase 9); (false, XErase 8);
      (false, XForward); (true, XAssignFrom); (true, XInsert (5, 8)); (true, XRange 5);
      (false, XRecopy); (true, XForward); (false, XClear); (false, XForward); (true, XErase 4);
      (true, XForward) ].
  Example multi_demo_meets_spec :
    ∃ r, h_spec (x_spec fst Nat.ltb Nat.eqb) [] [] multi_demo = Some r.
  Proof. eexists. vm_compute. reflexivity. Qed.
  Example multi_demo_runs :
    match h_spec (x_spec fst Nat.ltb Nat.eqb) [] [] multi_demo with
    | Some (_, _, outs) =>
        outcome (h_program rb_new rb_destroy (x_step fst Nat.ltb Nat.eqb) 100 multi_demo ∅) = Ok (outs, 0)
    | None => False
    end.
  Proof. vm_compute. reflexivity. Qed.
  (** What two of its calls see. *)
  Example multi_demo_range :
    outcome ((let! s := rb_new in
              rb_insert_equal fst Nat.ltb 100 s (5, 1) ;! rb_insert_equal fst Nat.ltb 100 s (3, 2) ;!
              rb_insert_equal fst Nat.ltb 100 s (5, 3) ;! rb_insert_equal fst Nat.ltb 100 s (5, 0) ;!
              let! (lo, up) := rb_equal_range fst Nat.ltb 100 s 5 in x_walk 100 lo up) ∅)
    = Ok ([(5, 1); (5, 3); (5, 0)], 5).
  Proof. vm_compute. reflexivity. Qed.

  (** A set {1..7}; s.erase( *s.find(4) ), then s.insert( *s.begin() ), m[it->first]. *)
  Definition set17 : M (gmap loc (rbcell nat)) loc :=
    m_new_range (λ v, v) Nat.ltb Nat.eqb 100 [4; 2; 6; 1; 3; 5; 7].
  Example erase_own_key_run :
    outcome ((let! s := set17 in
              let! p := m_find (λ v, v) Nat.ltb Nat.eqb 100 s 4 in
              match p with
              | Some x =>
                  let! n := m_erase_ref (λ v, v) Nat.ltb Nat.eqb 100 s (NodeKey x) in
                  let! b := m_begin 100 s in
                  match b with
                  | Some y =>
                      let! r := m_insert_ref (λ v, v) Nat.ltb Nat.eqb 100 s (NodeData y) in
                      let! vs := m_forward 100 s in
                      ret (n, r.2, bool_decide (r.1 = b), vs)
                  | None => fail NullDeref
                  end
              | None => fail NullDeref
              end) ∅) = Ok ((1, false, true, [1; 2; 3; 5; 6; 7]), 7).
  Proof. vm_compute. reflexivity. Qed.
End ex.
Print Assumptions multi_demo_runs.
Print Assumptions erase_own_key_run.
