(** sorted_vector_map and vector_map with throwing comparisons against the plain ones. Proof file. *)
From Verif Require Export CatchSim CmpVecSpec.

Section sv.
  Context {K T0 : Type} `{Allocator (svcell K T0)}.
  Context (keq comp : K → K → bool) (keqf compf : nat → K → K → option bool) (dfltT : T0) (ulim : nat).
  Context (Heq : answers_like keqf keq) (Hcomp : answers_like compf comp).
  Notation Thr := (may_throw compf keqf).
  Notation aon := all_or_nothing.
  Implicit Types (v : svm) (key : K).

  Lemma reads_slot_rd p i : reads_only (slot_rd (K:=K) (T:=T0) p i).
  Proof.
    intros s a s'. unfold slot_rd, bind, addr, load. destruct p as [p|]; [|done]. unfold ret.
    destruct (s !! p) as [[b|]|]; [|done|done]. destruct (b !! i) as [[q|]|]; [|done|done]. by intros [= _ ->].
  Qed.
  Lemma reads_ent_rd q : reads_only (ent_rd (K:=K) (T:=T0) q).
  Proof.
    intros s a s'. unfold ent_rd, bind, addr, load. destruct q as [q|]; [|done]. unfold ret.
    destruct (s !! q) as [[b|e]|]; [done| |done]. by intros [= _ ->].
  Qed.
  Lemma reads_ederef r : reads_only (ederef (K:=K) (T:=T0) r).
  Proof. destruct r; [apply reads_ret|apply reads_ent_rd]. Qed.

  Lemma keq_ok x y : ∀ c b, keqf c x y = Some b → b = keq x y.
  Proof. intros c b. apply Heq. Qed.
  Lemma comp_ok x y : ∀ c b, compf c x y = Some b → b = comp x y.
  Proof. intros c b. apply Hcomp. Qed.
  Lemma comp_thr x y : ∀ c, compf c x y = None → Thr.
  Proof. intros c Hc. exists c, x, y. by left. Qed.
  Lemma keq_thr x y : ∀ c, keqf c x y = None → Thr.
  Proof. intros c Hc. exists c, x, y. by right. Qed.

  Ltac rs := repeat (first
    [ apply reads_slot_rd | apply reads_ent_rd | apply reads_ederef | apply reads_ret | apply reads_fail
    | apply reads_bind; [|intros ?] | apply reads_loop; intros ?
    | match goal with |- reads_only (match ?x with _ => _ end) => destruct x end ]).

  Lemma reads_bsearch fuel v key : reads_only (sv_bsearch (T:=T0) keq comp ulim fuel v key).
  Proof. unfold sv_bsearch. rs. Qed.
  Lemma reads_sv_find fuel v key : reads_only (sv_find (T:=T0) keq comp ulim fuel v key).
  Proof. unfold sv_find. apply reads_bind; [apply reads_bsearch|]. intros [? ?]. rs. Qed.
  Lemma reads_find_pos fuel v key : reads_only (sv_find_insert_pos (T:=T0) keq comp ulim fuel v key).
  Proof. unfold sv_find_insert_pos. apply reads_bind; [apply reads_bsearch|]. intros [? ?]. rs. Qed.
  Lemma reads_key_at v i key : reads_only (key_at (T:=T0) keq v i key).
  Proof. unfold key_at. rs. Qed.

  Lemma aon_bsearch fuel v key :
    aon Thr (xsv_bsearch (T0:=T0) keqf compf ulim fuel v key) (sv_bsearch keq comp ulim fuel v key).
  Proof.
    unfold xsv_bsearch, sv_bsearch. apply aon_loop; [|intros ?; rs]. intros [L H0].
    destruct (decide (L < H0)); [|apply aon_ret].
    apply aon_do; [rs|]. intros q. apply aon_do; [rs|]. intros e.
    eapply aon_call; [apply keq_ok|apply keq_thr|]. destruct (keq e.1 key); [apply aon_ret|].
    apply aon_do; [rs|]. intros q'. apply aon_do; [rs|]. intros e'.
    eapply aon_call; [apply comp_ok|apply comp_thr|]. destruct (comp e'.1 key); apply aon_ret.
  Qed.
  Lemma aon_sv_find fuel v key :
    aon Thr (xsv_find (T0:=T0) keqf compf ulim fuel v key) (sv_find keq comp ulim fuel v key).
  Proof.
    unfold xsv_find, sv_find. apply aon_bind; [apply reads_bsearch|apply aon_bsearch|]. intros [? ?]. apply aon_ret.
  Qed.
  Lemma aon_find_pos fuel v key :
    aon Thr (xsv_find_insert_pos (T0:=T0) keqf compf ulim fuel v key) (sv_find_insert_pos keq comp ulim fuel v key).
  Proof.
    unfold xsv_find_insert_pos, sv_find_insert_pos. apply aon_bind; [apply reads_bsearch|apply aon_bsearch|].
    intros [? ?]. apply aon_ret.
  Qed.
  Lemma aon_key_at v i key : aon Thr (xkey_at (T0:=T0) keqf v i key) (key_at keq v i key).
  Proof.
    unfold xkey_at, key_at. destruct (decide (i ≠ sv_last v)); [|apply aon_ret].
    apply aon_do; [rs|]. intros q. apply aon_do; [rs|]. intros e.
    apply aon_call_last; [apply keq_ok|apply keq_thr].
  Qed.
  Lemma aon_sv_index fuel v key :
    aon Thr (xsv_index keqf compf dfltT ulim fuel v key) (sv_index keq comp dfltT ulim fuel v key).
  Proof.
    unfold xsv_index, sv_index. apply aon_bind; [apply reads_find_pos|apply aon_find_pos|]. intros i.
    apply aon_bind; [apply reads_key_at|apply aon_key_at|]. intros [|].
    - apply aon_do; [rs|]. intros q. apply aon_ret.
    - apply aon_after; [apply aon_tdo|]. intros [v' i']. apply aon_do; [rs|]. intros q. apply aon_ret.
  Qed.
  Lemma aon_sv_at fuel v key :
    aon Thr (xsv_at (T0:=T0) keqf compf ulim fuel v key) (sv_at keq comp ulim fuel v key).
  Proof. unfold xsv_at, sv_at. apply aon_then; [apply reads_sv_find|apply aon_sv_find]. Qed.
  Lemma aon_sv_insert fuel v r :
    aon Thr (xsv_insert (T0:=T0) keqf compf ulim fuel v r) (sv_insert keq comp ulim fuel v r).
  Proof.
    unfold xsv_insert, sv_insert. apply aon_do; [rs|]. intros x.
    apply aon_bind; [apply reads_find_pos|apply aon_find_pos|]. intros i.
    apply aon_bind; [apply reads_key_at|apply aon_key_at|]. intros [|]; [apply aon_ret|].
    apply aon_after; [apply aon_tdo|]. intros [v' i']. apply aon_ret.
  Qed.
  Lemma aon_sv_count fuel v key :
    aon Thr (xsv_count (T0:=T0) keqf compf ulim fuel v key) (sv_count keq comp ulim fuel v key).
  Proof.
    unfold xsv_count, sv_count. apply aon_bind; [apply reads_sv_find|apply aon_sv_find|]. intros i. apply aon_ret.
  Qed.
  Lemma aon_sv_equal_range fuel v key :
    aon Thr (xsv_equal_range (T0:=T0) keqf compf ulim fuel v key) (sv_equal_range keq comp ulim fuel v key).
  Proof.
    unfold xsv_equal_range, sv_equal_range. apply aon_bind; [apply reads_sv_find|apply aon_sv_find|].
    intros i. apply aon_ret.
  Qed.
  Lemma aon_sv_upper_bound fuel v key :
    aon Thr (xsv_upper_bound (T0:=T0) keqf compf ulim fuel v key) (sv_upper_bound keq comp ulim fuel v key).
  Proof.
    unfold xsv_upper_bound, sv_upper_bound. apply aon_bind; [apply reads_find_pos|apply aon_find_pos|].
    intros i. apply aon_loop.
    - intros j. apply aon_bind; [apply reads_key_at|apply aon_key_at|]. intros [|]; apply aon_ret.
    - intros j. apply reads_bind; [apply reads_key_at|]. intros ?. rs.
  Qed.
  Lemma aon_sv_step fuel this other op :
    aon Thr (xsv_step keq comp keqf compf dfltT ulim fuel this other op)
      (sv_step keq comp dfltT ulim fuel this other op).
  Proof.
    destruct op; cbn [xsv_step]; try apply aon_tdo; cbn [sv_step].
    - apply aon_after; [apply aon_sv_insert|]. intros [[? ?] ?]. apply aon_ret.
    - apply aon_do; [rs|]. intros q. apply aon_after; [apply aon_sv_insert|]. intros [[? ?] ?]. apply aon_ret.
    - apply aon_after; [apply aon_sv_index|]. intros [? ?]. apply aon_do; [rs|]. intros e. apply aon_ret.
    - apply aon_after; [apply aon_sv_index|]. intros [? ?]. apply aon_after; [apply aon_tdo|]. intros ?. apply aon_ret.
    - apply aon_after; [apply aon_sv_at|]. intros ?. apply aon_do; [rs|]. intros e. apply aon_ret.
    - apply aon_after; [apply aon_sv_at|]. intros ?. apply aon_after; [apply aon_tdo|]. intros ?. apply aon_ret.
    - apply aon_after; [apply aon_sv_find|]. intros ?. apply aon_ret.
    - apply aon_after; [apply aon_sv_count|]. intros ?. apply aon_ret.
    - apply aon_after; [apply aon_sv_equal_range|]. intros [? ?]. apply aon_ret.
    - apply aon_after; [apply aon_find_pos|]. intros ?. apply aon_ret.
    - apply aon_after; [apply aon_sv_upper_bound|]. intros ?. apply aon_ret.
  Qed.
End sv.

Section vm.
  Context {K T0 : Type} `{Allocator (list (option (K * T0)))}.
  Context (keq : K → K → bool) (keqf : nat → K → K → option bool) (dfltK : K) (dfltT : T0)
          (eqb : K * T0 → K * T0 → bool).
  Context (Heq : answers_like keqf keq).
  Notation Thr := (may_throw keqf keqf).
  Notation aon := all_or_nothing.
  Implicit Types (v : tvec) (key : K).

  Lemma reads_rd p i : reads_only (rd (V:=K * T0) p i).
  Proof.
    unfold rd. apply reads_bind.
    - unfold slot_at. intros s a s'. unfold bind, addr, load. destruct p as [p|]; [|done]. unfold ret.
      destruct (s !! p) as [b|]; [|done]. destruct (b !! i) as [q|]; [|done]. by intros [= _ ->].
    - intros [?|]; [apply reads_ret|apply reads_fail].
  Qed.
  Lemma reads_deref r : reads_only (deref (V:=K * T0) r).
  Proof. destruct r; [apply reads_ret|apply reads_rd]. Qed.
  Lemma vkeq_thr x y : ∀ c, keqf c x y = None → Thr.
  Proof. intros c Hc. exists c, x, y. by left. Qed.

  Ltac rs := repeat (first
    [ apply reads_rd | apply reads_deref | apply reads_ret | apply reads_fail
    | apply reads_bind; [|intros ?] | apply reads_loop; intros ?
    | match goal with |- reads_only (match ?x with _ => _ end) => destruct x end ]).

  Lemma reads_find_key fuel v i key : reads_only (vm_find_key (T:=T0) keq fuel v i key).
  Proof. unfold vm_find_key. rs. Qed.
  Lemma aon_find_key fuel v i key :
    aon Thr (xvm_find_key (T0:=T0) keqf fuel v i key) (vm_find_key keq fuel v i key).
  Proof.
    unfold xvm_find_key, vm_find_key. apply aon_loop; [|intros ?; rs]. intros j.
    destruct (decide (j ≠ v_last v)); [|apply aon_ret]. apply aon_do; [rs|]. intros e.
    eapply aon_call; [intros c b; apply Heq|apply vkeq_thr|]. destruct (keq key e.1); apply aon_ret.
  Qed.
  Lemma aon_vm_find fuel v key : aon Thr (xvm_find (T0:=T0) keqf fuel v key) (vm_find keq fuel v key).
  Proof. apply aon_find_key. Qed.
  Lemma aon_vm_at fuel v key : aon Thr (xvm_at (T0:=T0) keqf fuel v key) (vm_at keq fuel v key).
  Proof.
    unfold xvm_at, vm_at. apply aon_after; [apply aon_vm_find|]. intros i. apply aon_do; [rs|]. intros e. apply aon_ret.
  Qed.
  Lemma aon_vm_index fuel v key : aon Thr (xvm_index keqf dfltT fuel v key) (vm_index keq dfltT fuel v key).
  Proof.
    unfold xvm_index, vm_index. apply aon_after; [apply aon_vm_find|]. intros i.
    destruct (decide (i ≠ v_last v)); [apply aon_ret|apply aon_tdo].
  Qed.
  Lemma aon_vm_insert fuel v r : aon Thr (xvm_insert (T0:=T0) keqf fuel v r) (vm_insert keq fuel v r).
  Proof.
    unfold xvm_insert, vm_insert. apply aon_do; [rs|]. intros x. apply aon_after; [apply aon_vm_find|]. intros i.
    destruct (decide (i ≠ v_last v)); [apply aon_ret|]. apply aon_after; [apply aon_tdo|]. intros [? ?]. apply aon_ret.
  Qed.
  Lemma aon_vm_count fuel v key : aon Thr (xvm_count (T0:=T0) keqf fuel v key) (vm_count keq fuel v key).
  Proof.
    unfold xvm_count, vm_count. apply aon_loop.
    - intros [i n]. apply aon_after; [apply aon_find_key|]. intros i'. destruct (decide (i' ≠ v_last v)); apply aon_ret.
    - intros [i n]. apply reads_bind; [apply reads_find_key|]. intros i'. rs.
  Qed.
  Lemma aon_vm_step fuel this other op :
    aon Thr (xvm_step keq keqf dfltK dfltT eqb fuel this other op) (vm_step keq dfltK dfltT eqb fuel this other op).
  Proof.
    destruct op; cbn [xvm_step]; try apply aon_tdo; cbn [vm_step].
    - apply aon_after; [apply aon_vm_insert|]. intros [[? ?] ?]. apply aon_ret.
    - apply aon_after; [apply aon_vm_insert|]. intros [[? ?] ?]. apply aon_ret.
    - apply aon_after; [apply aon_vm_index|]. intros [? ?]. apply aon_do; [rs|]. intros e. apply aon_ret.
    - apply aon_after; [apply aon_vm_index|]. intros [? ?]. apply aon_do; [rs|]. intros e.
      apply aon_after; [apply aon_tdo|]. intros ?. apply aon_ret.
    - apply aon_after; [apply aon_vm_find|]. intros ?. apply aon_ret.
    - apply aon_after; [apply aon_vm_at|]. intros ?. apply aon_ret.
    - apply aon_after; [apply aon_vm_count|]. intros ?. apply aon_ret.
  Qed.
End vm.
