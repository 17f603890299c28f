(** Element copies that throw: concrete runs and states that meet the hypotheses of the theorems in
    PropsThrow.v and PropsThrowLq.v (C92, C93). *)
From Verif Require Import VecSpec FixedSpec ThrowSpec LazySpec ThrowLqModel PropsThrow PropsThrowLq Sep.

Section vec.
  Local Existing Instance bump_allocator.
  Notation caught_v := (caught (V:=nat)).

  (** vector<T> v; v.reserve(3); v.push_back(5); then a push_back whose copy throws, and ~vector(). *)
  Example push_back_torn_run :
    outcome ((let! v := v_new in let! v := v_reserve 10 v 3 in let! v := v_push_back 10 v (VExt 5) in
              let! v := caught_v (xv_push_back 10 (VExt 6)) v (Some 0) in v_destroy 10 v) ∅)
    = UB NoObject.
  Proof. vm_compute. reflexivity. Qed.
  (** ... which is fine when the copy succeeds *)
  Example push_back_fine_run :
    outcome ((let! v := v_new in let! v := v_reserve 10 v 3 in let! v := v_push_back 10 v (VExt 5) in
              let! v := caught_v (xv_push_back 10 (VExt 6)) v (Some 1) in v_destroy 10 v) ∅)
    = Ok (tt, 0).
  Proof. vm_compute. reflexivity. Qed.
  (** v.push_back(5) and a second push_back that grows and throws at its second copy: one buffer is
      left after ~vector(). *)
  Example push_back_leaks_run :
    outcome ((let! v := v_new in let! v := v_push_back 10 v (VExt 5) in
              let! v := caught_v (xv_push_back 10 (VExt 6)) v (Some 1) in v_destroy 10 v) ∅)
    = Ok (tt, 1).
  Proof. vm_compute. reflexivity. Qed.
  (** vector<T> v(4, 7): the third copy throws in the constructor *)
  Example new_n_leaks_run :
    outcome ((let! r := xv_new_n (V:=nat) 10 4 (VExt 7) (Vec None 0 0) (Some 2) in ret tt) ∅) = Ok (tt, 1).
  Proof. vm_compute. reflexivity. Qed.
  (** [1;2;3;4].erase(begin() + 1): the copy of 4 throws *)
  Example erase_torn_run :
    outcome ((let! v := v_new in let! v := v_reserve 10 v 4 in let! r := v_insert_range 10 v 0 (RVals [1;2;3;4]) in
              let! v := caught_v (xv_erase_range 10 1 2) r.1 (Some 1) in v_destroy 10 v) ∅)
    = UB NoObject.
  Proof. vm_compute. reflexivity. Qed.

  Notation v3 := (Vec (Some 1%positive) 2 3).
  Notation v2 := (Vec (Some 1%positive) 2 2).
  Example instance_torn :
    fails (is_vec v3 [5;6]) (let! v' := caught (xv_push_back 10 (VExt 7)) v3 (Some 0) in v_destroy 10 v') NoObject.
  Proof. eapply C92_vec_push_back_torn_refuted; simpl; try done; unfold v_capacity; simpl; lia. Qed.
  Example instance_grow :
    runs (is_vec v2 [5;6]) (xv_push_back 10 (VSlot (Some 1%positive) 0) v2 (Some 2))
      (λ q h, q = XThrew v2 ∧ both (is_vec v2 [5;6]) (lost_buffer [5;6] 1) h).
  Proof.
    apply (C92_vec_push_back_grow_throws_partial 10 v2 [5;6] (VSlot (Some 1%positive) 0) 5 2);
      simpl; try done; unfold v_capacity; simpl; lia.
  Qed.
  Example instance_insert :
    fails (is_vec v3 [5;6]) (let! v' := caught (xv_insert_n 10 0 1 (VExt 7)) v3 (Some 1) in v_destroy 10 v') NoObject.
  Proof. eapply C92_vec_insert_n_torn_refuted; simpl; try done; unfold v_capacity; simpl; lia. Qed.
  Example instance_insert_range_grow :
    runs (is_vec v3 [5;6]) (xv_insert_range 10 1 (RVals [8;9]) v3 (Some 2))
      (λ q h, q = XThrew v3 ∧ both (is_vec v3 [5;6]) (lost_buffer [5;8] 2) h).
  Proof. apply (C92_vec_insert_range_grow_throws_partial 10 v3 [5;6] 1 [8;9] 2); simpl; unfold v_capacity; simpl; lia. Qed.
  Example instance_reserve :
    runs (is_vec v3 [5;6]) (let! v' := caught (xv_reserve 10 7) v3 (Some 1) in v_destroy 10 v')
      (λ _ h, lost_buffer [5] 6 h).
  Proof. apply (C92_vec_reserve_leaks_refuted 10 v3 [5;6] 7 1); simpl; unfold v_capacity; simpl; lia. Qed.
  Example instance_assign :
    fails (both (is_vec v3 [5;6]) (is_vec (Vec (Some 2%positive) 1 1) [9]))
      (let! v' := caught (xv_assign 10 (Vec (Some 2%positive) 1 1)) v3 (Some 0) in v_destroy 10 v') NoObject.
  Proof. eapply C92_vec_assign_torn_refuted; simpl; lia. Qed.
  Example instance_assign_n :
    fails (is_vec v3 [5;6]) (let! v' := caught (xv_assign_n 10 4 (VExt 7)) v3 (Some 3) in v_destroy 10 v') NoObject.
  Proof. eapply C92_vec_assign_n_torn_refuted; simpl; lia. Qed.
  Example instance_resize :
    fails (is_vec v3 [5;6]) (let! v' := caught (xv_resize 0 10 3) v3 (Some 0) in v_destroy 10 v') NoObject.
  Proof. eapply C92_vec_resize_torn_refuted; unfold v_capacity; simpl; lia. Qed.
  Example instance_erase :
    fails (is_vec v3 [5;6]) (let! v' := caught (xv_erase_range 10 0 1) v3 (Some 0) in v_destroy 10 v') NoObject.
  Proof. eapply C92_vec_erase_torn_refuted; simpl; lia. Qed.
  Example instance_copy :
    runs (is_vec v3 [5;6]) (xv_copy 10 v3 (Vec None 0 0) (Some 1))
      (λ q h, (∃ w, q = XThrew w) ∧ both (is_vec v3 [5;6]) (lost_buffer [5] 1) h).
  Proof. apply (C92_vec_copy_leaks_refuted 10 (Vec None 0 0) v3 [5;6] 1); simpl; lia. Qed.

  (** fixed_vector<T, 4> *)
  Example fixed_torn_run :
    outcome ((let! v := fv_new 4 in let! v := fv_push_back 4 v (VExt 5) in
              let! v := caught_v (xf_push_back 4 (VExt 6)) v (Some 0) in fv_destroy 10 v) ∅)
    = UB NoObject.
  Proof. vm_compute. reflexivity. Qed.
  Example fixed_fine_run :
    outcome ((let! v := fv_new 4 in let! v := fv_push_back 4 v (VExt 5) in
              let! v := caught_v (xf_insert_n 4 10 0 2 (VExt 6)) v (Some 3) in fv_destroy 10 v) ∅)
    = Ok (tt, 0).
  Proof. vm_compute. reflexivity. Qed.
  Example fixed_insert_torn_run :
    outcome ((let! v := fv_new 4 in let! v := fv_push_back 4 v (VExt 5) in
              let! v := caught_v (xf_insert_n 4 10 0 2 (VExt 6)) v (Some 2) in fv_destroy 10 v) ∅)
    = UB NoObject.
  Proof. vm_compute. reflexivity. Qed.
End vec.

Section fixed_instances.
  Local Existing Instance bump_allocator.
  Notation f4 := (FVec 1%positive 2).
  Example instance_fixed_insert :
    fails (is_fvec 4 f4 [5;6]) (let! v' := caught (xf_insert_n 4 10 1 3 (VExt 7)) f4 (Some 2) in fv_destroy 10 v') NoObject.
  Proof. eapply C92_fvec_insert_n_torn_refuted; simpl; try done; lia. Qed.
  Example instance_fixed_erase :
    fails (is_fvec 4 f4 [5;6]) (let! v' := caught (xf_erase_range 10 0 1) f4 (Some 0) in fv_destroy 10 v') NoObject.
  Proof. eapply C92_fvec_erase_torn_refuted; simpl; lia. Qed.
  Example instance_fixed_resize :
    fails (is_fvec 4 f4 [5;6]) (let! v' := caught (xf_resize 4 0 10 9) f4 (Some 1) in fv_destroy 10 v') NoObject.
  Proof. eapply C92_fvec_resize_torn_refuted; simpl; lia. Qed.
End fixed_instances.

Section lazy.
  Local Existing Instance bump_allocator.
  (** lazy_queue<T> q; q.push_back(1); a push_back whose copy throws; ~lazy_queue(): a node is left *)
  Example lazy_leaks_run :
    outcome ((let! q := lq_new in let! q := lq_push_back q (ExtVal 1) in
              let! q := caught_lq q (xlq_push_back (Some 0) q (ExtVal 2)) in lq_destroy false 10 q) ∅)
    = Ok (tt, 1).
  Proof. vm_compute. reflexivity. Qed.
  Example lazy_fine_run :
    outcome ((let! q := lq_new in let! q := lq_push_back q (ExtVal 1) in
              let! q := caught_lq q (xlq_push_back (Some 1) q (ExtVal 2)) in lq_destroy false 10 q) ∅)
    = Ok (tt, 0).
  Proof. vm_compute. reflexivity. Qed.
  Notation q0 := (LQ 1%positive (Some 3%positive) 9%positive).
  Notation xs0 := [(2%positive, 1); (3%positive, 2)].
  Example instance_lazy_insert :
    runs (is_lqueue q0 xs0 [5%positive; 6%positive])
      (xlq_insert_after_n (Some 1) q0 (Some 2%positive) 3 (ExtVal 7))
      (λ x h, x = None ∧ both (is_lqueue q0 [(2%positive, 1); (5%positive, 7); (3%positive, 2)] []) lost_node h).
  Proof.
    eapply runs_conseq.
    - apply (C93_lq_insert_n_copy_throws_partial q0 xs0 [5%positive; 6%positive] 1 3 (ExtVal 7) 7 1); simpl; [lia|done|lia].
    - intros x h (->&ys&Hv&Hr&Hb). split; [done|]. simpl in Hb.
      destruct ys as [|[y w] [|]]; try done. simpl in Hv. injection Hv as ->.
      unfold reused in Hr. simpl in Hr. injection Hr as ->. exact Hb.
  Qed.
End lazy.
