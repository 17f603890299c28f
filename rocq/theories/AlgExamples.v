(** Algorithms: the hypotheses of the theorems in PropsAlg.v are met by concrete memories (ranges
    surrounded by cells without objects), and concrete counterexample runs (C51, C53, C65, C66, C67). *)
From Verif Require Import AlgSpec.

Section ex.
  (** elements are compared by their tens: 11 and 15 are equivalent and distinguishable *)
  Definition tens_lt (x y : nat) : bool := x / 10 <? y / 10.
  Definition tens_eq (x y : nat) : bool := x / 10 =? y / 10.
  Example tens_weak_order : weak_order tens_lt.
  Proof.
    split; unfold tens_lt; intros; rewrite ?Nat.ltb_lt, ?Nat.ltb_ge in *; lia.
  Qed.
  Notation S_ x := (Some x).
  (** two sorted ranges at 1 and 6, an output range at 11, a pattern at 18 *)
  Definition alg_mem : amem nat :=
    [None; S_ 11; S_ 23; S_ 24; S_ 40; None;
     S_ 12; S_ 20; S_ 29; S_ 50; None;
     S_ 0; S_ 0; S_ 0; S_ 0; S_ 0; S_ 0; S_ 0; S_ 0; None].
  Definition alg_xs := [11; 23; 24; 40].
  Definition alg_ys := [12; 20; 29; 50].
  Example alg_ranges : holds alg_mem 1 alg_xs ∧ holds alg_mem 6 alg_ys ∧ live alg_mem 11 8.
  Proof.
    unfold holds, live. split_and!.
    - intros k x Hk. do 4 (destruct k as [|k]; [simpl in *; congruence|]). rewrite lookup_ge_None_2 in Hk; [done|simpl; lia].
    - intros k x Hk. do 4 (destruct k as [|k]; [simpl in *; congruence|]). rewrite lookup_ge_None_2 in Hk; [done|simpl; lia].
    - intros k Hk. exists 0. do 8 (destruct k as [|k]; [reflexivity|]). lia.
  Qed.
  Example alg_in_order : in_order tens_lt alg_xs ∧ in_order tens_lt alg_ys.
  Proof.
    split; intros i j x y Hij Hx Hy;
      (do 4 (destruct i as [|i]; [do 4 (destruct j as [|j]; [simpl in Hx, Hy; try lia; simplify_eq; reflexivity|]);
        rewrite lookup_ge_None_2 in Hy; [done|simpl; lia]|])); rewrite lookup_ge_None_2 in Hx; [done|simpl; lia|done|simpl; lia].
  Qed.
  Example alg_apart : apart 1 4 11 8 ∧ apart 6 4 11 8 ∧ outside (At 6 : cref nat) 1 4 ∧ refers alg_mem (At 7) 20.
  Proof. unfold apart. simpl. split_and!; try lia. reflexivity. Qed.
  Example alg_partition : partition_at (λ x, tens_lt x 25) alg_xs 1 ∧ partition_at (λ x, negb (tens_lt 25 x)) alg_xs 3.
  Proof.
    split; (split; [simpl; lia|]); intros i x Hx; (do 4 (destruct i as [|i]; [simpl in Hx; simplify_eq; vm_compute; split; intros; try lia; try done|]));
      rewrite lookup_ge_None_2 in Hx; done || (simpl; lia).
  Qed.

  Notation outcome m := (match m with Ok (r, _) => Some r | _ => None end).
  Notation final m := (match m with Ok (_, s) => Some s | _ => None end).
  Example alg_reads :
    outcome (a_find tens_eq 9 1 5 (At 7) alg_mem) = Some 2 ∧
    outcome (a_count tens_eq 100 9 1 5 (Val 25) alg_mem) = Some 2%Z ∧
    outcome (a_search tens_eq 9 1 5 7 9 alg_mem) = Some 2 ∧
    outcome (a_search_n tens_eq 9 1 5 2 (Val 20) alg_mem) = Some 2 ∧
    outcome (a_adjacent_find tens_eq 9 1 5 alg_mem) = Some 2 ∧
    outcome (a_equal4 tens_eq 9 1 5 6 10 alg_mem) = Some false ∧
    outcome (a_mismatch4 tens_eq 9 1 5 6 10 alg_mem) = Some (4, 9) ∧
    outcome (a_lower_bound tens_lt 100 4 1 5 (Val 25) alg_mem) = Some 2 ∧
    outcome (a_equal_range tens_lt 100 4 1 5 (Val 25) alg_mem) = Some (2, 4) ∧
    outcome (a_binary_search tens_lt 100 4 1 5 (Val 30) alg_mem) = Some false ∧
    outcome (a_min_element tens_lt 9 1 5 alg_mem) = Some 1 ∧
    outcome (a_is_sorted tens_lt 9 1 5 alg_mem) = Some true.
  Proof. vm_compute. split_and!; reflexivity. Qed.
  Example alg_merge :
    a_merge tens_lt 9 1 5 6 10 11 alg_mem = Ok (19, take 11 alg_mem ++ (Some <$> [11; 12; 23; 24; 20; 29; 40; 50]) ++ [None]).
  Proof. vm_compute. reflexivity. Qed.
  Example alg_writes :
    final (a_copy 9 2 5 1 alg_mem) = Some (None :: (Some <$> [23; 24; 40; 40]) ++ drop 5 alg_mem) ∧
    final (a_copy_backward 9 1 4 5 alg_mem) = Some (None :: (Some <$> [11; 11; 23; 24]) ++ drop 5 alg_mem) ∧
    final (a_reverse 9 1 5 alg_mem) = Some (None :: (Some <$> [40; 24; 23; 11]) ++ drop 5 alg_mem) ∧
    final (a_remove tens_eq (λ _, 99) 9 1 5 (Val 20) alg_mem) = Some (None :: (Some <$> [11; 40; 24; 99]) ++ drop 5 alg_mem) ∧
    final (a_fill 9 1 5 (At 2) alg_mem) = Some (None :: (Some <$> [23; 23; 23; 23]) ++ drop 5 alg_mem) ∧
    final (arr_swap 9 4 1 6 alg_mem) = Some (None :: (Some <$> alg_ys) ++ [None] ++ (Some <$> alg_xs) ++ drop 10 alg_mem).
  Proof. vm_compute. split_and!; reflexivity. Qed.

  (** counterexamples *)
  Example C51_example_refuted :   (* search_n(first, last, 2, 20, tens equal): all but the first match the predicate *)
    outcome (a_search_n_p Nat.eqb tens_eq 9 2 4 2 (Val 20) alg_mem) = Some 4.   (* last, instead of 2 *)
  Proof. vm_compute. reflexivity. Qed.
  Example C53_example_refuted :   (* an int of 3 bits (INT_MAX = 3), 4 elements all less than the value *)
    outcome (a_lower_bound tens_lt 3 9 1 5 (Val 99) alg_mem) = Some 1.          (* instead of 5 *)
  Proof. vm_compute. reflexivity. Qed.
  Example C67_example_refuted :
    a_count_if 3 9 1 5 (λ _, true) alg_mem = UB IntOverflow ∧ a_distance 3 1 5 = (-4)%Z.
  Proof. vm_compute. split; reflexivity. Qed.
  Example C65_example_refuted :   (* v = {1, 2, 1}; remove(v.begin(), v.end(), v[0]) *)
    a_remove Nat.eqb id 9 0 3 (At 0) [Some 1; Some 2; Some 1] = Ok (2, [Some 2; Some 1; Some 1]).
  Proof. vm_compute. reflexivity. Qed.
  Example C66_example_refuted :   (* min(23, 24) by tens is the second; the largest of {23, 24} is the last *)
    outcome (a_min tens_lt (At 2) (At 3) alg_mem) = Some (At 3) ∧
    outcome (a_minmax_element tens_lt 9 2 4 alg_mem) = Some (2, 2).
  Proof. vm_compute. split; reflexivity. Qed.
End ex.
