(** Function objects of list that throw or keep state: concrete runs and states that meet the
    hypotheses of the theorems in PropsPred.v (C94). *)
From Verif Require Import DlistSpec PredSpec PropsPred.

Section ex.
  Local Existing Instance bump_allocator.

  (** Throws at its call number [k], otherwise "is even". *)
  Notation even_but k := (λ (c : nat) (x : nat), if Nat.eqb c k then None else Some (Nat.even x)).
  Notation eq_but k := (λ (c : nat) (x y : nat), if Nat.eqb c k then None else Some (Nat.eqb x y)).
  Notation lt_but k := (λ (c : nat) (x y : nat), if Nat.eqb c k then None else Some (Nat.ltb x y)).

  (** [2;3;4;6;7;8].remove_if(even) that throws at the fourth element: 2 and 4 are gone. *)
  Example remove_if_run :
    outcome ((let! l := dl_new_range [2;3;4;6;7;8] in let! q := xdl_remove_if 20 l (even_but 3) in
              let! xs := dl_contents 20 l in dl_destroy 20 l ;! ret (q, xs)) ∅)
    = Ok (None, [3;6;7;8], 0).
  Proof. vm_compute. reflexivity. Qed.
  (** A function object with state: it answers true to every second call. *)
  Example remove_if_state_run :
    outcome ((let! l := dl_new_range [2;3;4;6;7;8] in
              let! q := xdl_remove_if 20 l (λ c _, Some (Nat.even c)) in
              let! xs := dl_contents 20 l in dl_destroy 20 l ;! ret (q, xs)) ∅)
    = Ok (Some tt, [3;6;8], 0).
  Proof. vm_compute. reflexivity. Qed.
  (** [2;3;2;4;2].remove(2) whose fourth comparison throws *)
  Example remove_run :
    outcome ((let! l := dl_new_range [2;3;2;4;2] in let! q := xdl_remove 20 l (DExt 2) (eq_but 3) in
              let! xs := dl_contents 20 l in dl_destroy 20 l ;! ret (q, xs)) ∅)
    = Ok (None, [3;4;2], 0).
  Proof. vm_compute. reflexivity. Qed.
  Example unique_run :
    outcome ((let! l := dl_new_range [1;1;1;2;2;3;3] in let! q := xdl_unique 20 l (eq_but 4) in
              let! xs := dl_contents 20 l in dl_destroy 20 l ;! ret (q, xs)) ∅)
    = Ok (None, [1;2;3;3], 0).
  Proof. vm_compute. reflexivity. Qed.
  (** [1;4;6].merge([2;3;5]) whose fourth comparison throws: 2 has moved. *)
  Example merge_run :
    outcome ((let! l := dl_new_range [1;4;6] in let! o := dl_new_range [2;3;5] in
              let! q := xdl_merge 20 l o (lt_but 3) in
              let! xs := dl_contents 20 l in let! ys := dl_contents 20 o in
              dl_destroy 20 l ;! dl_destroy 20 o ;! ret (q, xs, ys)) ∅)
    = Ok (None, [1;2;4;6], [3;5], 0).
  Proof. vm_compute. reflexivity. Qed.
  Example merge_all_run :
    outcome ((let! l := dl_new_range [1;4;6] in let! o := dl_new_range [2;3;5] in
              let! q := xdl_merge 20 l o (lt_but 10) in
              let! xs := dl_contents 20 l in let! ys := dl_contents 20 o in
              dl_destroy 20 l ;! dl_destroy 20 o ;! ret (q, xs, ys)) ∅)
    = Ok (Some tt, [1;2;3;4;5;6], [], 0).
  Proof. vm_compute. reflexivity. Qed.

  Notation l3 := [(2%positive, 2); (3%positive, 3); (4%positive, 4)].
  Example instance_remove_if :
    runs (is_dlist 1%positive l3) (xdl_remove_if 10 1%positive (even_but 2))
      (λ q h, q = None ∧ is_dlist 1%positive [(3%positive, 3); (4%positive, 4)] h).
  Proof. apply (C94_list_remove_if_throws 10 1%positive l3 (even_but 2)). simpl. lia. Qed.
  Example instance_remove :
    runs (is_dlist 1%positive l3) (xdl_remove 10 1%positive (DExt 2) (eq_but 2))
      (λ q h, q = None ∧ is_dlist 1%positive [(3%positive, 3); (4%positive, 4)] h).
  Proof. apply (C94_list_remove_throws 10 1%positive 2 l3 (eq_but 2)). simpl. lia. Qed.
  Example instance_remove_if_rest :
    (removing (λ c z, even_but 2 c z.2) 0 l3).1 = None.
  Proof. done. Qed.
  Example instance_unique :
    runs (is_dlist 1%positive l3) (xdl_unique 10 1%positive (eq_but 1))
      (λ q h, q = None ∧ is_dlist 1%positive l3 h).
  Proof. apply (C94_list_unique_throws 10 1%positive (2%positive, 2) [(3%positive, 3); (4%positive, 4)] (eq_but 1)). simpl. lia. Qed.
  Example instance_honest : honest (lt_but 3) Nat.ltb.
  Proof. intros c x y b. destruct (Nat.eqb c 3); naive_solver. Qed.
  Example instance_merge :
    runs (both (is_dlist 1%positive l3) (is_dlist 5%positive [(6%positive, 1); (7%positive, 9)]))
      (xdl_merge 10 1%positive 5%positive (lt_but 1))
      (λ q h, ∃ zs k, both (is_dlist 1%positive zs) (is_dlist 5%positive (drop k [(6%positive, 1); (7%positive, 9)])) h ∧
         Permutation zs (l3 ++ take k [(6%positive, 1); (7%positive, 9)]) ∧ sublist l3 zs ∧ k ≤ 2 ∧
         match q with Some _ => k = 2 | None => ∃ c x y, lt_but 1 c x y = None end ∧
         ∀ cmp : nat → nat → bool, honest (lt_but 1) cmp → weak_order cmp →
           dsorted cmp l3.*2 → dsorted cmp [1; 9] → dsorted cmp zs.*2).
  Proof. apply (C94_list_merge_throws 10 1%positive 5%positive l3 [(6%positive, 1); (7%positive, 9)] (lt_but 1)). simpl. lia. Qed.
End ex.
