(** Programs on sets and maps that catch the exceptions of their comparisons: a concrete run and
    instances of the theorems in PropsCmpMap.v (C95). *)
From Verif Require Import CmpMapSpec PropsCmpMap.
From Verif Require Import Triple.

Section ex.
  Local Existing Instance bump_allocator.
  Notation but k f := (λ (c : nat) (x y : nat), if Nat.eqb c k then None else Some (f x y)).
  Notation never f := (λ (c : nat) (x y : nat), Some (f x y)).

  Example but_lt_answers k : answers_like (but k Nat.ltb) Nat.ltb.
  Proof. intros c x y b. destruct (Nat.eqb c k); naive_solver. Qed.
  Example never_eq_answers : answers_like (never Nat.eqb) Nat.eqb.
  Proof. intros c x y b. naive_solver. Qed.
  Example nat_lt_order : key_order Nat.ltb Nat.eqb.
  Proof. split; intros *; rewrite ?Nat.eqb_eq, ?Nat.ltb_lt, ?Nat.ltb_ge; lia. Qed.

  (** [<] throws at its call number 1; the calls of each member function are numbered from the number in
      front of it. m[3] = 30; m[5] succeeds; m[4] throws at its second comparison, erase(3) (which does
      not throw here), insert, at. *)
  Notation prog :=
    [(0, (false, MapStore 3 30)); (2, (false, MapGet 5)); (0, (false, MapStore 4 40));
     (2, (false, MapGen (MInsert (1, 10)))); (1, (false, MapAt 3)); (3, (false, MapAt 3));
     (0, (false, MapGen (MErase 3))); (1, (false, MapGen (MCount 3))); (2, (false, MapGen (MCount 3)));
     (0, (true, MapGen MAssignFrom)); (9, (true, MapGen MForward))].
  Notation kept := [true; true; false; true; false; true; true; false; true; true; true].
  Example map_run :
    outcome (catching_program rb_new rb_destroy
      (xmap_step Nat.ltb Nat.eqb (λ _ _, true) 0 (but 1 Nat.ltb) (never Nat.eqb)) 100 prog ∅)
    = Ok (spread kept [OGen UDone; OMapped 0; OGen (UIns (1, 10) true); OMapped 30; OGen (UNum 1);
            OGen (UNum 0); OGen UDone; OGen (USeq [(1, 10); (5, 0)])], 0).
  Proof. vm_compute. reflexivity. Qed.
  Example map_run_selected :
    h_spec (map_spec Nat.ltb Nat.eqb (λ _ _, true) 0) [] [] (select kept prog.*2)
    = Some ([(1, 10); (5, 0)], [(1, 10); (5, 0)],
            [OGen UDone; OMapped 0; OGen (UIns (1, 10) true); OMapped 30; OGen (UNum 1);
             OGen (UNum 0); OGen UDone; OGen (USeq [(1, 10); (5, 0)])]).
  Proof. vm_compute. reflexivity. Qed.

  Example map_history_instance :
    catching_correct (may_throw (but 1 Nat.ltb) (never Nat.eqb)) rb_new rb_destroy
      (xmap_step Nat.ltb Nat.eqb (λ _ _, true) 0 (but 1 Nat.ltb) (never Nat.eqb)) []
      (map_spec Nat.ltb Nat.eqb (λ _ _, true) 0) prog.
  Proof. apply C95_map_catching_history_partial; [apply nat_lt_order|apply but_lt_answers|apply never_eq_answers]. Qed.
  Example set_history_instance ops :
    catching_correct (may_throw (but 1 Nat.ltb) (never Nat.eqb)) rb_new rb_destroy
      (xm_step id Nat.ltb Nat.eqb Nat.eqb (but 1 Nat.ltb) (never Nat.eqb)) []
      (m_spec id Nat.ltb Nat.eqb Nat.eqb) ops.
  Proof. apply C95_set_catching_history_partial; [apply nat_lt_order|apply but_lt_answers|apply never_eq_answers]. Qed.
End ex.
