(** pair, function objects, distance: the hypotheses of the theorems in PropsPair.v are met, and
    concrete runs (C67, C68, C69). *)
From Verif Require Import MapSpec PairModel PairRuns.

Section ex.
  Example nat_totally_ordered :
    totally_ordered Nat.ltb (λ x y, y <? x) Nat.eqb (λ x y, negb (x =? y)).
  Proof.
    split; intros; rewrite ?negb_true_iff, ?Nat.ltb_lt, ?Nat.ltb_ge, ?Nat.eqb_eq, ?Nat.eqb_neq in *; lia.
  Qed.
  (** integers by magnitude form no total order: 1 and -1 are different but not ordered *)
  Example magnitude_not_total : ¬ totally_ordered (λ x y, Z.abs x <? Z.abs y)%Z (λ x y, Z.abs y <? Z.abs x)%Z Z.eqb (λ x y, negb (x =? y)%Z).
  Proof. intros [_ _ H _ _ _]. destruct (H 1 (-1))%Z as [E|[E|E]]; vm_compute in E; discriminate. Qed.

  (** three pairs; the second is swapped with the third, the first with itself, then assigned *)
  Definition pair_mem : pairs nat bool := [(1, true); (2, false); (3, true)].
  Example pair_mem_cells : pair_mem !! 1 = Some (2, false) ∧ pair_mem !! 2 = Some (3, true) ∧ pair_mem !! 0 = Some (1, true).
  Proof. done. Qed.
  Example pair_run :
    (let! _ := pr_swap 1 2 in
     let! _ := pr_swap 0 0 in
     let! _ := pr_assign 0 1 in
     let! o := pr_copy 2 in
     let! e := pr_eq Nat.eqb Bool.eqb o 2 in
     let! n := pr_ne Nat.eqb Bool.eqb 1 2 in
     ret (o, e, n)) pair_mem = Ok ((3, true, true), [(3, true); (3, true); (2, false); (2, false)]).
  Proof. vm_compute. reflexivity. Qed.
  (** a pair outside the program's objects cannot be used *)
  Example pair_dangling : pr_swap 1 7 pair_mem = UB Dangling.
  Proof. vm_compute. reflexivity. Qed.

  (** distance of two far pointers: the sign is lost *)
  Example distance_near : u_distance 32 10 4 = (-6)%Z ∧ u_distance 32 0 2147483647 = 2147483647%Z.
  Proof. vm_compute. done. Qed.
  Example distance_far : u_distance 32 0 2147483648 = (-2147483648)%Z.
  Proof. vm_compute. done. Qed.
End ex.
