(** Access counts: concrete instances of the theorems in PropsCost.v. That the memories they
    speak of exist is shown by is_map_somewhere (MapExamples.v), ve_is_vec (VecExamples.v),
    is_dlist_somewhere (DlistExamples.v) and the like. *)
From Verif Require Import MapExamples VecExamples DlistExamples.
From Verif Require Import MapSpec VecSpec DlistSpec Cost CostSpec PropsCost.

(** What is counted: a read, a write, a [new] and a [delete] are four accesses. *)
Example accesses_of_a_program (al : Allocator nat) :
  accesses al (PLoad 1%positive (λ c, PModify 1%positive S (PAlloc c (λ l, PFree l (PRet c))))) {[1%positive := 7]} = 4.
Proof.
  cbn [accesses]. rewrite lookup_singleton. cbn [accesses]. by rewrite lookup_insert.
Qed.
(** find in the map of is_map_somewhere: at most 8 accesses; in one with 1000 elements: at most 40. *)
Example find_in_2 :
  takes_at_most 8 (is_map (λ v : nat, v) Nat.ltb 1%positive [(3%positive, 10); (2%positive, 20)])
    (λ al : Allocator (rbcell nat), m_find (λ v : nat, v) Nat.ltb Nat.eqb 3 1%positive 10).
Proof. exact (C03_find_accesses (λ v : nat, v) Nat.ltb Nat.eqb 3 1%positive [(3%positive, 10); (2%positive, 20)] 10 nat_key_order ltac:(apply (bool_decide_unpack _); vm_compute; exact I)). Qed.
Example find_in_1000 (xs : list (loc * nat)) : length xs = 1000 →
  takes_at_most 40 (is_map (λ v : nat, v) Nat.ltb 1%positive xs)
    (λ al : Allocator (rbcell nat), m_find (λ v : nat, v) Nat.ltb Nat.eqb 50 1%positive 7).
Proof.
  intros Hl. pose proof (C03_find_accesses (λ v : nat, v) Nat.ltb Nat.eqb 50 1%positive xs 7 nat_key_order) as H.
  rewrite Hl in H. apply H. apply (bool_decide_unpack _). vm_compute. exact I.
Qed.
(** The vector of ve_is_vec has room for one more element: 3 accesses are enough. *)
Example push_with_room :
  takes_at_most 3 (is_vec (Vec (Some 1%positive) 2 3) [5; 6])
    (λ al : Allocator (list (option nat)), v_push_back 9 (Vec (Some 1%positive) 2 3) (VExt 7)).
Proof. apply (C88_v_push_back_room_partial 9 (Vec (Some 1%positive) 2 3) [5; 6] (VExt 7) 7); simpl; [reflexivity|lia|lia]. Qed.
(** Appending 50 elements one by one: at least 1275 accesses. *)
Example fifty_push_backs :
  takes_at_least 1275 nothing (λ al : Allocator (list (option nat)), let! v := v_new in push_backs 51 v (replicate 50 7)).
Proof.
  pose proof (C88_v_push_backs_quadratic_refuted 51 (replicate 50 7)) as H. rewrite replicate_length in H.
  replace 1275 with (50 * 51 / 2) by (vm_compute; reflexivity). apply H. lia.
Qed.
(** Walking over a set with 400 elements: at most 4002 accesses (400 times the bound of a single ++ would be 9200). *)
Example walk_over_400 (xs : list (loc * nat)) : length xs = 400 →
  takes_at_most 4002 (is_map (λ v : nat, v) Nat.ltb 1%positive xs) (λ al : Allocator (rbcell nat), m_forward 401 1%positive).
Proof.
  intros Hl. pose proof (C91_forward_linear (λ v : nat, v) Nat.ltb 401 1%positive xs) as H.
  rewrite Hl in H. replace 4002 with (10 * 400 + 2) by (vm_compute; reflexivity).
  apply H; apply (bool_decide_unpack _); vm_compute; exact I.
Qed.
