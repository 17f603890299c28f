(** set and map whose Compare or == may throw: concrete runs and states that meet the hypotheses of the
    theorems in PropsCmp.v (C95). *)
From Verif Require Import CmpSpec PropsCmp.

Section ex.
  Local Existing Instance bump_allocator.
  (** [<] that throws at its call number [k], and [==] that never throws. *)
  Notation lt_but k := (λ (c : nat) (x y : nat), if Nat.eqb c k then None else Some (Nat.ltb x y)).
  Notation eq_never := (λ (c : nat) (x y : nat), Some (Nat.eqb x y)).
  Notation set_insert := (xm_insert id).

  Example lt_answers k : answers_like (lt_but k) Nat.ltb.
  Proof. intros c x y b. destruct (Nat.eqb c k); naive_solver. Qed.
  Example eq_answers : answers_like eq_never Nat.eqb.
  Proof. intros c x y b. naive_solver. Qed.
  Example lt_throws k : may_throw (lt_but k) eq_never.
  Proof. exists k, 0, 0. left. by rewrite Nat.eqb_refl. Qed.
  Example lt_eq_order : key_order Nat.ltb Nat.eqb.
  Proof. split; intros *; rewrite ?Nat.eqb_eq, ?Nat.ltb_lt, ?Nat.ltb_ge; lia. Qed.

  (** [4;2;3;1] and insert(5): the throwing comparison leaves the set as it was; one call later it
      does not matter any more. *)
  Example insert_run :
    map (λ k, outcome ((let! s := rb_new in
      m_insert_range id Nat.ltb Nat.eqb 100 s [4; 2; 3; 1] ;!
      let! q := xm_insert id (lt_but k) eq_never 100 s 5 0 in
      let! xs := m_forward 100 s in rb_destroy 100 s ;!
      ret (match q with None => false | Some _ => true end, xs)) ∅)) [0; 2; 4]
    = [Ok (false, [1;2;3;4], 0); Ok (false, [1;2;3;4], 0); Ok (true, [1;2;3;4;5], 0)].
  Proof. vm_compute. reflexivity. Qed.
  (** Inserting the range [4;2;3;1] into an empty set: the throwing call leaves a prefix. *)
  Example insert_range_run :
    outcome ((let! s := rb_new in
      let! q := xm_insert_range id (lt_but 4) eq_never 100 s [4; 2; 3; 1] 0 in
      let! xs := m_forward 100 s in rb_destroy 100 s ;! ret (q, xs)) ∅)
    = Ok (None, [2;3;4], 0).
  Proof. vm_compute. reflexivity. Qed.
  Example find_run :
    outcome ((let! s := rb_new in
      m_insert_range id Nat.ltb Nat.eqb 100 s [4; 2; 3; 1] ;!
      let! q := xm_count id (lt_but 2) eq_never 100 s 4 0 in
      let! r := xm_count id (lt_but 9) eq_never 100 s 4 0 in
      let! xs := m_forward 100 s in rb_destroy 100 s ;! ret (q, option_map fst r, xs)) ∅)
    = Ok (None, Some 1, [1;2;3;4], 0).
  Proof. vm_compute. reflexivity. Qed.

  Example instance_insert fuel this :
    all_or_nothing (may_throw (lt_but 3) eq_never)
      (xm_insert id (lt_but 3) eq_never fuel this 5) (m_insert id Nat.ltb Nat.eqb fuel this 5).
  Proof. apply C95_insert_throws; [apply lt_answers|apply eq_answers]. Qed.
  Example instance_erase fuel this (xs : list (loc * nat)) :
    log_steps (length xs) < fuel →
    runs (is_map id Nat.ltb this xs) (xm_erase id (lt_but 3) eq_never fuel this 5 0)
      (λ q h, match q with
         | None => may_throw (lt_but 3) eq_never ∧ is_loose_map id Nat.ltb this xs h
         | Some (r, _) =>
             if has id Nat.eqb 5 xs.*2
             then r = 1 ∧ ∃ i x w, xs !! i = Some (x, w) ∧ Nat.eqb 5 w = true ∧
                    is_map id Nat.ltb this (take i xs ++ drop (S i) xs) h
             else r = 0 ∧ is_map id Nat.ltb this xs h
         end).
  Proof. intros Hf. apply C95_erase_throws_partial; [apply lt_eq_order|done|apply lt_answers|apply eq_answers]. Qed.
  (** a tree that no balanced one has: two red nodes in a row *)
  Notation t3 := (Node false (Node true (Node true Leaf 4%positive 1 Leaf) 3%positive 2 Leaf) 2%positive 5 Leaf).
  Example instance_loose :
    is_loose_map id Nat.ltb 1%positive [(4%positive, 1); (3%positive, 2); (2%positive, 5)]
      (<[1%positive := Rb (rootp t3) None None true None]> (tree_heap 1%positive t3)).
  Proof.
    split; [repeat constructor|]. exists t3. split; [done|]. split; [|done].
    apply (bool_decide_unpack _). vm_compute. exact I.
  Qed.
End ex.
