(** Algorithms with function objects that throw or keep state: concrete runs and memories that meet the
    hypotheses of the theorems in PropsAlgPred.v (C97). *)
From Verif Require Import AlgPredSpec PropsAlgPred.
From Coq Require Import ZArith.

Section ex.
  Notation S_ x := (Some x).
  (** a range at 1, an output range at 7 *)
  Notation mem := [None; S_ 2; S_ 3; S_ 4; S_ 6; None; None; S_ 0; S_ 0; S_ 0; None].
  Notation xs := [2; 3; 4; 6].
  (** Throws at its call number [k], otherwise "is even"; true at every second call. *)
  Notation even_but k := (λ (c : nat) (x : nat), if Nat.eqb c k then None else Some (Nat.even x)).
  Notation second := (λ (c : nat) (x : nat), Some (Nat.odd c)).
  Notation gone := (λ x : nat, 99).

  Example ranges : holds mem 1 xs ∧ live mem 7 3.
  Proof.
    unfold holds, live. split.
    - intros k x Hk. do 4 (destruct k as [|k]; [simpl in *; congruence|]). rewrite lookup_ge_None_2 in Hk; [done|simpl; lia].
    - intros k Hk. exists 0. do 3 (destruct k as [|k]; [reflexivity|]). lia.
  Qed.
  Example find_if_run : x_find_if 9 1 5 second mem = Ok (Some 2, mem).
  Proof. reflexivity. Qed.
  Example find_if_throws_run : x_find_if 9 1 5 (λ c x, if Nat.eqb c 1 then None else Some (Nat.odd x)) mem = Ok (None, mem).
  Proof. reflexivity. Qed.
  Example any_of_run : x_any_of 9 1 5 (even_but 2) mem = Ok (Some true, mem).
  Proof. reflexivity. Qed.
  Example count_if_run : x_count_if 100%Z 9 1 5 second mem = Ok (Some 2%Z, mem).
  Proof. reflexivity. Qed.
  (** copy_if whose function object throws at its fourth call: 2 and 4 have been written *)
  Example copy_if_run : x_copy_if (even_but 3) 9 1 5 7 mem
    = Ok (None, [None; S_ 2; S_ 3; S_ 4; S_ 6; None; None; S_ 2; S_ 4; S_ 0; None]).
  Proof. reflexivity. Qed.
  Example remove_copy_if_run : x_remove_copy_if second 9 1 5 7 mem
    = Ok (Some 9, [None; S_ 2; S_ 3; S_ 4; S_ 6; None; None; S_ 2; S_ 4; S_ 0; None]).
  Proof. reflexivity. Qed.
  Example replace_if_run : x_replace_if (even_but 2) 9 1 5 (At 2) mem
    = Ok (None, [None; S_ 3; S_ 3; S_ 4; S_ 6; None; None; S_ 0; S_ 0; S_ 0; None]).
  Proof. reflexivity. Qed.
  (** remove_if: "every second element" removes 3 and, the calls being counted afresh behind it, 6. *)
  Example remove_if_restart_run : x_remove_if gone second 9 1 5 mem
    = Ok (Some 3, [None; S_ 2; S_ 4; S_ 99; S_ 6; None; None; S_ 0; S_ 0; S_ 0; None]).
  Proof. reflexivity. Qed.
  (** "the second element" removes 3 and then 6 too, the second one behind it. *)
  Example remove_if_twice_run : x_remove_if gone (λ c _, Some (Nat.eqb c 1)) 9 1 5 mem
    = Ok (Some 3, [None; S_ 2; S_ 4; S_ 99; S_ 6; None; None; S_ 0; S_ 0; S_ 0; None]).
  Proof. reflexivity. Qed.
  Example remove_if_throws_run : x_remove_if gone (λ c x, if Nat.eqb x 6 then None else Some (Nat.eqb x 3)) 9 1 5 mem
    = Ok (None, [None; S_ 2; S_ 4; S_ 99; S_ 6; None; None; S_ 0; S_ 0; S_ 0; None]).
  Proof. reflexivity. Qed.

  Example instance_copy_if :
    gives (x_copy_if (even_but 3) 9 1 5 7) mem (λ r m', r = None ∧ written mem 7 [2; 4] m').
  Proof.
    destruct ranges as [H1 H2]. apply (C97_copy_if_asks (even_but 3) 9 1 xs 7 mem H1).
    - simpl. intros k Hk. apply H2. lia.
    - simpl. lia.
    - simpl. lia.
  Qed.
  Example instance_replace_if :
    gives (x_replace_if (even_but 2) 9 1 5 (At 2)) mem (λ q m', q = None ∧ written mem 1 [3; 3; 4; 6] m').
  Proof. destruct ranges as [H1 H2]. apply (C97_replace_if_asks (even_but 2) 9 1 xs (At 2) 3 mem H1); [reflexivity|simpl; lia]. Qed.
  Example instance_remove_if :
    gives (x_remove_if gone second 9 1 5) mem (λ r m', r = Some 3 ∧ holds m' 1 [2; 4] ∧ same_outside mem 2 3 m' ∧ live m' 1 4).
  Proof. destruct ranges as [H1 H2]. apply (C97_remove_if_asks gone second 9 1 xs mem H1). simpl. lia. Qed.
  Example instance_remove_if_throws :
    gives (x_remove_if gone (λ _ x, if Nat.eqb x 7 then None else Some (Nat.eqb x 3)) 9 1 5) mem (λ r m',
      r = Some 4 ∧ (r ≠ None → holds m' 1 [2; 4; 6]) ∧ same_outside mem 1 4 m' ∧ live m' 1 4).
  Proof.
    destruct ranges as [H1 H2].
    apply (C97_remove_if_throws gone (λ _ x, if Nat.eqb x 7 then None else Some (Nat.eqb x 3))
             (λ x, if Nat.eqb x 7 then None else Some (Nat.eqb x 3)) 9 1 xs mem H1); [simpl; lia|done].
  Qed.
End ex.
