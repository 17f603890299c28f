(** Calls of the client's function objects: the hypotheses of the theorems in PropsCalls.v are met by a
    concrete memory and by a predicate with a state, and concrete runs. *)
From Verif Require Import CallsSpec.

Section ex.
  Notation S_ x := (Some x).
  (** a range of five elements at 1, an output range at 7 *)
  Definition calls_mem : amem nat := [None; S_ 3; S_ 8; S_ 5; S_ 8; S_ 2; None; S_ 0; S_ 0; S_ 0; S_ 0; S_ 0; None].
  Definition calls_xs := [3; 8; 5; 8; 2].
  Example calls_ranges : holds calls_mem 1 calls_xs ∧ live calls_mem 7 5 ∧ apart 1 5 7 5 ∧ refers calls_mem (At 2) 8.
  Proof.
    unfold holds, live, apart. split_and!.
    - intros k x Hk. do 5 (destruct k as [|k]; [simpl in *; congruence|]). rewrite lookup_ge_None_2 in Hk; [done|simpl; lia].
    - intros k Hk. exists 0. do 5 (destruct k as [|k]; [reflexivity|]). lia.
    - left. simpl. lia.
    - reflexivity.
  Qed.
  (** a predicate with a state: it says yes at every second call *)
  Definition every_second (h : list nat) (_ : nat) : bool := Nat.odd (length h).
  (** remove_if with it drops the second and the fourth element *)
  Example calls_remove_if : c_remove_if (λ x, x) every_second 6 1 6 (calls_mem, []) =
    Ok (4, ([None; S_ 3; S_ 5; S_ 2; S_ 8; S_ 2; None; S_ 0; S_ 0; S_ 0; S_ 0; S_ 0; None], [3; 8; 5; 8; 2])).
  Proof. vm_compute. reflexivity. Qed.
  Example calls_where : where_is false (answers every_second [] calls_xs) calls_xs = [3; 5; 2] ∧
    first_answer every_second [] calls_xs true 1.
  Proof.
    split; [reflexivity|]. unfold first_answer, first_such. split_and!.
    - simpl. lia.
    - intros j Hj. assert (j = 0) as -> by lia. discriminate.
    - intros _. reflexivity.
  Qed.
  (** find with operator==: three comparisons with 5, in order *)
  Example calls_find : c_find (λ _ c, c.1 =? c.2) 6 1 6 (Val 5) (calls_mem, []) = Ok (3, (calls_mem, [(3, 5); (8, 5); (5, 5)])).
  Proof. vm_compute. reflexivity. Qed.
  (** lower_bound on an unsorted range with a comparison that always says yes: three comparisons *)
  Example calls_lower_bound : c_lower_bound 100 (λ _ _, true) 6 1 6 (Val 5) (calls_mem, []) = Ok (6, (calls_mem, [(5, 5); (2, 5)])).
  Proof. vm_compute. reflexivity. Qed.
  (** minmax_element: 8 comparisons for five elements, where 6 would do *)
  Theorem C90_minmax_element_run_refuted : ∃ r cs, c_minmax_element (λ _ c, c.1 <? c.2) 6 1 6 (calls_mem, []) = Ok (r, (calls_mem, cs)) ∧
    length cs = 8 ∧ ¬ length cs ≤ 3 * (length calls_xs - 1) / 2.
  Proof. eexists _, _. split; [vm_compute; reflexivity|]. split; [reflexivity|]. simpl. lia. Qed.
End ex.
