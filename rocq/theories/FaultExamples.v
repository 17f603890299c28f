(** Running out of memory: the hypotheses of the theorems in PropsFault.v are met, what the
    definitions of Fault.v and FaultSpec.v reject, and executions that do throw (C79-C85). *)
From Verif Require Import Fault FaultSpec ForwardSpec DlistSpec MapSpec VecSpec FaultCtor ForwardProofs ForwardRuns FaultRuns SvmExamples SvmModel SvmSpec SlistModel SlistSpec LazySpec.
From iris.proofmode Require Import tactics.

Section ex.
  (** insert_after(pos, 3, 7) on [1; 2]: what it does, what may be there when it throws, what not *)
  Example fl_insert_spec :
    fl_fault_spec Nat.eqb [1; 2] [9] (FInsertAfterN 1 3 7) = Some ([1; 7; 7; 7; 2], [9], ODone).
  Proof. reflexivity. Qed.
  Example fl_insert_aborted : fl_aborted [1; 2] [9] (FInsertAfterN 1 3 7) [1; 7; 7; 2] [9].
  Proof. split; [done|]. exists 2. split; [lia|done]. Qed.
  Example fl_insert_not_lost : ¬ fl_aborted [1; 2] [9] (FInsertAfterN 1 3 7) [1; 2; 7] [9].
  Proof. intros [_ (k&Hk&H)]. destruct k as [|[|[|k]]]; simpl in H; [done|done|done|lia]. Qed.
  Example fl_other_untouched xs' ys' : fl_aborted [1; 2] [9] (FInsertAfterN 1 3 7) xs' ys' → ys' = [9].
  Proof. by intros [-> _]. Qed.
  Example fl_pop_never ys' xs' : ¬ fl_aborted [1; 2] [9] FPopFront xs' ys'.
  Proof. by intros [_ []]. Qed.
  (** list, set, map, vector *)
  Example dl_insert_aborted : dl_aborted ([1; 2], true) ([9], false) (DInsertRange 1 [5; 6; 7]) ([1; 5; 6; 2], true) ([9], false).
  Proof. split; [done|]. exists 2. split; [simpl; lia|done]. Qed.
  Example set_insert_aborted : set_aborted id Nat.ltb Nat.eqb [2; 5] [] (MInsertRange [7; 1; 3]) [1; 2; 5; 7] [].
  Proof. split; [done|]. exists 2, 3. repeat split. Qed.
  (** a key that is there is found, not allocated *)
  Example set_insert_present_never xs' ys' : ¬ set_aborted id Nat.ltb Nat.eqb [2; 5] [] (MInsert 5) xs' ys'.
  Proof. intros [_ [_ H]]. done. Qed.
  Example map_index_aborted : map_aborted (T:=nat) Nat.ltb Nat.eqb [(2, 20)] [] (MapStore 1 10) [(2, 20)] [].
  Proof. repeat split. Qed.
  (** vector_map: a full map { 1, 2 } can throw for the key 3, not for the key 2 or one of its own entries *)
  Example vm_insert_new_aborted : vm_aborted (T:=nat) Nat.eqb ([(1, 10); (2, 20)], 2) ([], 0) (VmapSpec.MInsert 3 30) ([(1, 10); (2, 20)], 2) ([], 0).
  Proof. repeat split. simpl. lia. Qed.
  Example vm_insert_old_never s' o' : ¬ vm_aborted (T:=nat) Nat.eqb ([(1, 10); (2, 20)], 2) ([], 0) (VmapSpec.MPut 2 30) s' o'.
  Proof. intros (_&_&_&H). done. Qed.
  Example vm_insert_own_never s' o' j : ¬ vm_aborted (T:=nat) Nat.eqb ([(1, 10); (2, 20)], 2) ([], 0) (VmapSpec.MInsertOwn j) s' o'.
  Proof. intros (_&_&_&e&He&H). by destruct j as [|[|j]]; simplify_eq/=. Qed.
  Example ve_enough_room s' o' : ¬ ve_aborted ([1; 2], 4) ([], 0) (EInsertN 0 2 7) s' o'.
  Proof. intros [_ [_ H]]. simpl in H. lia. Qed.
  Example ve_no_room : ve_aborted ([1; 2], 3) ([], 0) (EInsertN 0 2 7) ([1; 2], 3) ([], 0).
  Proof. repeat split; simpl; lia. Qed.

  (** an execution that throws in the middle of insert_after(pos, 3, 7) at the end of any list *)
  Example insert_can_throw this (xs : list (loc * nat)) :
    can_throw (is_flist this xs) (λ al : Allocator (cell nat), fl_insert_after_n (Some (last_loc this xs)) 3 (ExtVal 7))
      (λ h, ∃ ys, ys.*2 = [7; 7] ∧ is_flist this (xs ++ ys) h).
  Proof.
    eapply can_throw_of; [apply (th_fl_insert_n 2 3 _ 7 ltac:(lia) this xs eq_refl)|..].
    - intros h Hh. apply (hentails (Sep.plain (is_flist this xs))); [by rewrite flist_holds|exact Hh].
    - apply (hentails _ (Sep.plain (λ h, ∃ ys, ys.*2 = [7; 7] ∧ is_flist this (xs ++ ys) h))).
      iIntros "H". iDestruct "H" as (ys Hys) "H". iExists ys. iSplit; [done|]. by rewrite plain_flist.
  Qed.
  (** inserting the key 5 into { 3, 6 } with a third slot free can leave the map torn: the memory after
      the throw is the one spelled out, with element 6 in slots 1 and 2 *)
  Example svm_tears_hyps :
    SvmSpec.key_order Nat.eqb Nat.ltb ∧ SvmSpec.ascending Nat.ltb [(3, 30); (6, 60)] ∧
    sv_room Nat.eqb 100 5 ([(3, 30); (6, 60)], 3) ∧ SvmSpec.present Nat.eqb 5 [(3, 30); (6, 60)] = false ∧
    SvmSpec.below Nat.ltb 5 [(3, 30); (6, 60)] = [(3, 30)].
  Proof.
    split; [|split; [|split; [|done]]].
    - exact SvmExamples.sv_keys.
    - intros i j e f Hi Hj Hij. destruct i as [|[|i]], j as [|[|j]]; simpl in *; try lia; simplify_eq; done.
    - unfold sv_room, sv_fits. simpl. lia.
  Qed.
  Example svm_insert_can_tear :
    can_throw (is_svm (Svm (Some 1%positive) 2 3) [(2%positive, (3, 30)); (3%positive, (6, 60))])
      (λ al : Allocator (svcell nat nat), sv_insert Nat.eqb Nat.ltb 100 10 (Svm (Some 1%positive) 2 3) (EVal (5, 50)))
      (λ h, ∃ rest, rest = [] ∧ h = <[1%positive := CArr ([Some (Some 2%positive); Some (Some 3%positive); Some (Some 3%positive)] ++ rest)]>
         (ent_heap [(2%positive, (3, 30)); (3%positive, (6, 60))])).
  Proof.
    destruct svm_tears_hyps as (H1&H2&H3&H4&H5).
    destruct (svm_insert_tears (K:=nat) (T:=nat) Nat.eqb Nat.ltb 100 10 (Svm (Some 1%positive) 2 3)
      [(2%positive, (3, 30)); (3%positive, (6, 60))] 5 50) as [[p [Hp Hw]] _]; try done; simpl; try lia.
    exists p. split; [exact Hp|]. intros h Hh. destruct (Hw h Hh) as (h1&p'&Hs&Ha&Ht). exists h1, p'. split; [done|]. split; [done|].
    destruct Ht as (a&r&rest&Ea&El&Ee&_&_&Hr&->). simpl in *. simplify_eq. exists rest.
    destruct rest; [|done]. rewrite (Hr _ eq_refl). done.
  Qed.
  (** before_end() of [1; 2]: one of two values appended when insert_after throws *)
  Example bl_stale_can :
    can_throw (is_blist (BL 1%positive (Some 3%positive)) [(2%positive, 1); (3%positive, 2)])
      (λ al : Allocator (cell nat), bl_insert_after_n (BL 1%positive (Some 3%positive)) (Some 3%positive) 2 (ExtVal 7))
      (λ h, ∃ ys, ys.*2 = [7] ∧ is_flist 1%positive ([(2%positive, 1); (3%positive, 2)] ++ ys) h).
  Proof.
    destruct (bl_insert_n_stale (BL 1%positive (Some 3%positive)) [(2%positive, 1); (3%positive, 2)] 2 1 7 ltac:(lia)) as [p [Hp Hw]].
    exists p. split; [exact Hp|]. intros h Hh. destruct (Hw h Hh) as (h1&p'&Hs&Ha&ys&Hys&Hf&_). exists h1, p'. eauto.
  Qed.
  (** a queue [1; 2] with two spare nodes: two more values never throw, three may (with one left out) *)
  Example lq_two_spare :
    runs_or_throws (is_lqueue (LQ 1%positive (Some 3%positive) 9%positive) [(2%positive, 1); (3%positive, 2)] [5%positive; 6%positive])
      (λ al : Allocator (cell nat), lq_insert_after_n (LQ 1%positive (Some 3%positive) 9%positive) (Some 2%positive) 2 (ExtVal 7))
      (λ q' h, is_lqueue q' [(2%positive, 1); (5%positive, 7); (6%positive, 7); (3%positive, 2)] [] h) (λ _, False).
  Proof.
    destruct (lq_insert_n_nothrow (LQ 1%positive (Some 3%positive) 9%positive) [(2%positive, 1); (3%positive, 2)] [5%positive; 6%positive]
      1 2 (ExtVal 7) 7) as [p [Hp Hw]]; simpl; try lia; try done.
    exists p. split; [exact Hp|]. intros h hf h1 p' Hh Hd Hs. destruct (Hw h hf h1 p' Hh Hd Hs) as (H1&H2&H3). split; [done|]. split; [|done].
    intros a Ha. destruct (H2 a Ha) as (h'&E&Hd'&ys&Hy&_&Hr&Hq). exists h'. split; [done|]. split; [done|].
    destruct ys as [|[a1 v1] [|[a2 v2] [|]]]; simpl in Hy; simplify_eq. unfold reused in Hr. simpl in Hr. simplify_eq. exact Hq.
  Qed.
  Example lq_stale_can :
    can_throw (is_lqueue (LQ 1%positive (Some 3%positive) 9%positive) [(2%positive, 1); (3%positive, 2)] [5%positive])
      (λ al : Allocator (cell nat), lq_insert_after_n (LQ 1%positive (Some 3%positive) 9%positive) (Some 3%positive) 3 (ExtVal 7))
      (λ h, ∃ ys, ys.*2 = [7; 7] ∧ is_lqueue (LQ 1%positive (Some (last_loc 1%positive ([(2%positive, 1); (3%positive, 2)] ++ ys))) 9%positive)
         ([(2%positive, 1); (3%positive, 2)] ++ ys) [] h).
  Proof.
    destruct (lq_insert_n_stale (LQ 1%positive (Some 3%positive) 9%positive) [(2%positive, 1); (3%positive, 2)] [5%positive] 3 2 7) as [p [Hp Hw]]; [simpl; lia|].
    exists p. split; [exact Hp|]. intros h Hh. destruct (Hw h Hh) as (h1&p'&Hs&Ha&ys&Hys&Hf&_). exists h1, p'. eauto.
  Qed.
End ex.
