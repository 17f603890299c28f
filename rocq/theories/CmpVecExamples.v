(** sorted_vector_map and vector_map whose Compare or == may throw: concrete runs and instances of the
    theorems in PropsCmpVec.v (C96). *)
From Verif Require Import CmpVecSpec PropsCmpVec.
From Verif Require Import Triple.

Section ex.
  Local Existing Instance bump_allocator.
  (** a comparison that throws at its call number [k], and one that never throws *)
  Notation but k f := (λ (c : nat) (x y : nat), if Nat.eqb c k then None else Some (f x y)).
  Notation never f := (λ (c : nat) (x y : nat), Some (f x y)).

  Example but_answers k (f : nat → nat → bool) : answers_like (but k f) f.
  Proof. intros c x y b. destruct (Nat.eqb c k); naive_solver. Qed.
  Example never_answers (f : nat → nat → bool) : answers_like (never f) f.
  Proof. intros c x y b. naive_solver. Qed.
  Example but_throws k f g : may_throw (but k f) (but k g).
  Proof. exists k, 0, 0. left. by rewrite Nat.eqb_refl. Qed.
  Example nat_order : SvmSpec.key_order Nat.eqb Nat.ltb.
  Proof.
    split.
    - apply Nat.ltb_irrefl.
    - intros ??? ?%Nat.ltb_lt ?%Nat.ltb_lt. apply Nat.ltb_lt. lia.
    - intros a b c Hab%Nat.ltb_lt. destruct (decide (a < c)); [left|right]; apply Nat.ltb_lt; lia.
    - intros a b. rewrite Nat.eqb_eq, !Nat.ltb_ge. lia.
  Qed.

  (** The calls are numbered 0, 1, 2, ... from the number in front: m[2] = 20; insert(1) and insert(3);
      then with a comparison that throws at its call 1, insert(0) fails, find(2) succeeds at once. *)
  Notation prog :=
    [(5, (false, QPut 2 20)); (5, (false, QInsert 1 10)); (5, (false, QInsert 3 30));
     (0, (false, QInsert 0 0)); (0, (false, QFind 2)); (0, (false, QAt 3));
     (1, (false, QUpper 3)); (5, (false, QContents))].
  Example sv_run :
    outcome (catching_program sv_new sv_destroy
      (xsv_step (T0:=nat) Nat.eqb Nat.ltb (never Nat.eqb) (but 1 Nat.ltb) 0 100) 100 prog ∅)
    = Ok ([Some ADone; Some (AIns 0 true); Some (AIns 2 true);
           None; Some (APos 1); None; Some (APos 3);
           Some (ASeq [(1, 10); (2, 20); (3, 30)])], 0).
  Proof. vm_compute. reflexivity. Qed.
  (** the selection the theorem speaks of, and the abstract history of the selected calls *)
  Notation kept := [true; true; true; false; true; false; true; true].
  Example sv_run_selected :
    h_spec (sv_spec (T:=nat) Nat.eqb Nat.ltb 0 100) ([], 0) ([], 0) (select kept prog.*2)
    = Some (([(1, 10); (2, 20); (3, 30)], 3), ([], 0),
            [ADone; AIns 0 true; AIns 2 true; APos 1; APos 3; ASeq [(1, 10); (2, 20); (3, 30)]]).
  Proof. vm_compute. reflexivity. Qed.

  Example vm_run :
    outcome (catching_program v_new v_destroy
      (xvm_step (T0:=nat) Nat.eqb (but 1 Nat.eqb) 0 0 (λ _ _, true)) 100
      [(5, (false, MPut 2 20)); (5, (false, MInsert 1 10)); (0, (false, MInsert 3 30)); (0, (false, MIndex 2));
       (0, (false, MAt 1)); (2, (false, MInsert 3 31)); (5, (false, MAt 3))] ∅)
    = Ok ([Some ODone; Some (OIns 1 true); None; Some (OVal 20); None; Some (OIns 2 true); Some (OVal 31)], 0).
  Proof. vm_compute. reflexivity. Qed.

  Example sv_instance fuel v :
    all_or_nothing (may_throw (but 1 Nat.ltb) (but 1 Nat.eqb))
      (xsv_insert (T0:=nat) (but 1 Nat.eqb) (but 1 Nat.ltb) 100 fuel v (EVal (0, 0)))
      (sv_insert Nat.eqb Nat.ltb 100 fuel v (EVal (0, 0))).
  Proof. apply C96_sv_insert_throws; apply but_answers. Qed.
  Example sv_history_instance :
    catching_correct (may_throw (but 1 Nat.ltb) (never Nat.eqb)) sv_new sv_destroy
      (xsv_step (T0:=nat) Nat.eqb Nat.ltb (never Nat.eqb) (but 1 Nat.ltb) 0 100) ([], 0)
      (sv_spec Nat.eqb Nat.ltb 0 100) prog.
  Proof. apply C96_sv_catching_history; [apply nat_order|apply never_answers|apply but_answers]. Qed.
  Example vm_history_instance ops :
    catching_correct (may_throw (but 1 Nat.eqb) (but 1 Nat.eqb)) v_new v_destroy
      (xvm_step (T0:=nat) Nat.eqb (but 1 Nat.eqb) 0 0 (λ _ _, true)) ([], 0)
      (vm_spec Nat.eqb 0 0 (λ _ _, true)) ops.
  Proof. apply C96_vm_catching_history, but_answers. Qed.
End ex.
