(** bitset: the hypotheses of the theorems in PropsBit.v are met by concrete states, and
    concrete counterexample runs (C45, C46, C47, C63, C64). *)
From Verif Require Import BitSpec.

Section ex.
  (** three machines: words of 8 bits with and without a wider long long, words of 4 bits *)
  Notation prog W LLW lt := (b_program W LLW 1000 true lt (λ i, Some (N.of_nat i))).
  Notation value m := (match m with Ok (rs, _) => Some rs | _ => None end).
  (** sizes 11, 11, 20, 3, 0 *)
  Definition bit_sizes : list nat := [11; 11; 20; 3; 0].
  Definition bit_demo : list b_op :=
    [ BSetAt 0 3; BSetAt 0 10; BPut 0 1 true; BPut 0 2 false; BRefSet 0 3 false; BRefFlip 0 8;
      BCount 0; BToUlong 0; BToUllong 0; BAssign 1 0; BNot 1 1; BCount 1; BAll 1; BEq 0 1; BXorEq 1 0;
      BAll 1; BAndEq 1 0; BEq 0 1; BNe 0 1; BShl 1 0 4; BTest 1 5; BTest 1 6; BCount 1; BShrEq 1 4; BCount 1; BToUllong 1;
      BSet 2; BNone 2; BAny 2; BConvert 0 2; BCount 0; BUlong 2 200%N; BToUllong 2; BUllong 2 40000%N; BCount 2;
      BString 2 [1;0;1;1;7] 5 0 1; BToUlong 2; BConstruct 3 2; BToUlong 3; BResetAt 3 0; BFlipAt 3 2; BToUlong 3; BShlEq 3 0; BConvert 2 3; BToUlong 2;
      BTest 3 99; BRefGet 3 1; BRefNot 3 1; BOrEq 0 1; BFlip 0; BOr 0 0 1; BReset 0; BNone 0; BEq0 0; BXor 0 0 1; BShlEq 0 2; BShr 0 0 1; BToUlong 0;
      BSize 2; BSize 4; BSet 4; BCount 4; BAny 4; BTest 4 0 ].
  Example bit_widths : widths 8 16 true ∧ widths 8 8 false ∧ widths 64 64 false ∧ widths 32 64 true.
  Proof. repeat split; simpl; lia. Qed.
  Example bit_demo_readable : Forall (string_words_readable 8 (λ i, None)) bit_demo ∧ Forall (string_words_readable 4 (λ i, Some 5%N)) bit_demo.
  Proof.
    split; repeat (constructor; [try exact I; simpl; intros i Hi; try lia|]); try constructor. by exists 5%N.
  Qed.
  Definition bit_demo_out : list b_out :=
    [GDone;GDone;GDone;GDone;GDone;GDone; GNat 3; GNum 2; GNum 1282; GDone;GDone; GNat 8; GBool false; GBool false; GDone;
     GBool true; GDone; GBool true; GBool false; GDone; GBool true; GBool false; GNat 1; GDone; GNat 1; GNum 2;
     GDone; GBool false; GBool true; GDone; GNat 11; GDone; GNum 200; GDone; GNat 5;
     GDone; GNum 11; GDone; GNum 3; GDone; GDone; GNum 6; GDone; GDone; GNum 6;
     GBool false; GBool true; GBool false; GDone; GDone; GDone; GDone; GBool true; GBool true; GDone; GDone; GDone; GNum 4;
     GNat 20; GNat 0; GDone; GNat 0; GBool false; GBool false].
  Example bit_demo_spec : snd <$> b_spec_run 8 16 (b_initial bit_sizes) bit_demo = Some bit_demo_out.
  Proof. vm_compute. reflexivity. Qed.
  Example bit_demo_runs : value (prog 8 16 true bit_sizes 30 bit_demo []) = Some bit_demo_out.
  Proof. vm_compute. reflexivity. Qed.
  Example bit_demo_spec_4 : ∃ r, b_spec_run 4 8 (b_initial bit_sizes) (take 30 bit_demo ++ [BUlong 2 9%N; BUllong 2 200%N; BToUllong 2]) = Some r.
  Proof. eexists. vm_compute. reflexivity. Qed.
  Example bit_sizes_small : Forall (λ n, n < 1000 ∧ n < 30) bit_sizes.
  Proof. repeat constructor; lia. Qed.

  (** an object whose unused bits are all set shows the same bits as one where they are clear *)
  Definition bit_pool : pool := [ [Some 5%N; Some 254%N]; [Some 5%N; Some 2%N]; [] ].
  Example bit_pool_shows : shows 8 bit_pool 0 [true; false; true; false; false; false; false; false; false; true; true] ∧
    shows 8 bit_pool 2 [].
  Proof.
    split.
    - exists [5%N; 254%N]. split; [done|]. split; [done|]. split; [repeat constructor|].
      intros i b Hi. do 11 (destruct i as [|i]; [simpl in Hi; injection Hi as <-; eexists; split; [reflexivity|reflexivity]|]). done.
    - exists []. repeat split; try constructor. intros i b Hi. rewrite lookup_nil in Hi. done.
  Qed.
  Example C45_example_refuted :   (* b.set(); b.set(2, false); b.test(2) *)
    value (prog 8 16 true [11] 30 [BSet 0; BPut 0 2 false; BTest 0 2] []) = Some [GDone; GDone; GBool true].
  Proof. vm_compute. reflexivity. Qed.
  Example C46_example_refuted :   (* b = 0b0000_1001; b[1] = b[0]; *)
    match (b_of_ulong 8 1000 (λ _, None) 30 11 9 [] : res (nat * pool)) with
    | Ok (t, p) => match (ref_copy 8 (b_ref 8 11 t 1) (b_ref 8 11 t 0) ;! b_to_ulong 8 11 t) p with Ok (u, _) => Some u | _ => None end
    | _ => None
    end = Some 2%N.            (* instead of 0b1011 *)
  Proof. vm_compute. reflexivity. Qed.
  Example C47_example_refuted :   (* bitset<3> q; q.set(); bitset<11> o(q); *)
    value (prog 8 16 true [11; 3] 30 [BSet 1; BConstruct 0 1; BCount 0; BTest 0 3] []) = Some [GDone; GDone; GNat 8; GBool true].
  Proof. vm_compute. reflexivity. Qed.
  Example C63_example_refuted :   (* bitset<8>("10101010") on uninitialised storage *)
    b_of_string 8 (λ _, None) 30 8 [1;0;1;0;1;0;1;0] 8 0 1 [] = UB NoObject ∧
    b_of_string 8 (λ _, None) 30 3 [1;0;1;0;1;0;1;0;1] 9 0 1 [] = UB OutOfBounds ∧
    b_of_ulong 8 1000 (λ _, None) 30 0 5 [] = UB OutOfBounds.
  Proof. vm_compute. split_and!; reflexivity. Qed.
  Example C64_example_refuted :
    value (prog 8 16 true [0] 30 [BAll 0; BCount 0; BSize 0] []) = Some [GBool false; GNat 0; GNat 0].
  Proof. vm_compute. reflexivity. Qed.
End ex.
