(** sorted_vector_map and vector_map whose Compare or == may throw: the property lemmas, in the
    vocabulary of CmpSpec.v and CmpVecSpec.v (C96). *)
From Verif Require Import CmpVecSim SvmRuns VmapRuns.
(*@HEADER
From Verif Require Import CmpVecSpec CmpVecRuns.

Section cmp.
@*)
(*@FOOTER
End cmp.
@*)

Section sv.

  (*@ C96 sorted_vector_map::insert: at an exception the object and all memory are as before the call;
     otherwise the call is that of C38. *)
  Lemma sv_insert_throws {K T0 : Type} `{Allocator (svcell K T0)} (keq comp : K → K → bool)
    (keqf compf : nat → K → K → option bool) (ulim fuel : nat) (v : svm) (r : eref K T0) :
    answers_like keqf keq → answers_like compf comp →
    all_or_nothing (may_throw compf keqf) (xsv_insert keqf compf ulim fuel v r) (sv_insert keq comp ulim fuel v r).
  Proof. intros. by apply aon_sv_insert. Qed.
  (*@ C96 operator[], like insert. *)
  Lemma sv_index_throws {K T0 : Type} `{Allocator (svcell K T0)} (keq comp : K → K → bool)
    (keqf compf : nat → K → K → option bool) (dfltT : T0) (ulim fuel : nat) (v : svm) (key : K) :
    answers_like keqf keq → answers_like compf comp →
    all_or_nothing (may_throw compf keqf) (xsv_index keqf compf dfltT ulim fuel v key)
      (sv_index keq comp dfltT ulim fuel v key).
  Proof. intros. by apply aon_sv_index. Qed.
  (*@ C96 at, find, count, equal_range, lower_bound and upper_bound. *)
  Lemma sv_lookups_throw {K T0 : Type} `{Allocator (svcell K T0)} (keq comp : K → K → bool)
    (keqf compf : nat → K → K → option bool) (ulim fuel : nat) (v : svm) (key : K) :
    answers_like keqf keq → answers_like compf comp →
    all_or_nothing (may_throw compf keqf) (xsv_at (T0:=T0) keqf compf ulim fuel v key) (sv_at keq comp ulim fuel v key) ∧
    all_or_nothing (may_throw compf keqf) (xsv_find (T0:=T0) keqf compf ulim fuel v key) (sv_find keq comp ulim fuel v key) ∧
    all_or_nothing (may_throw compf keqf) (xsv_count (T0:=T0) keqf compf ulim fuel v key) (sv_count keq comp ulim fuel v key) ∧
    all_or_nothing (may_throw compf keqf) (xsv_equal_range (T0:=T0) keqf compf ulim fuel v key)
      (sv_equal_range keq comp ulim fuel v key) ∧
    all_or_nothing (may_throw compf keqf) (xsv_lower_bound (T0:=T0) keqf compf ulim fuel v key)
      (sv_lower_bound keq comp ulim fuel v key) ∧
    all_or_nothing (may_throw compf keqf) (xsv_upper_bound (T0:=T0) keqf compf ulim fuel v key)
      (sv_upper_bound keq comp ulim fuel v key).
  Proof.
    intros. split_and!; [by apply aon_sv_at|by apply aon_sv_find|by apply aon_sv_count|by apply aon_sv_equal_range
      |by apply aon_find_pos|by apply aon_sv_upper_bound].
  Qed.
  (*@ C96 Programs on two sorted_vector_maps that catch the exceptions, from every memory: they do what the
     plain program does that makes only the calls that do not throw. *)
  Lemma sv_catching {K T0 : Type} `{Allocator (svcell K T0)} (keq comp : K → K → bool)
    (keqf compf : nat → K → K → option bool) (dfltT : T0) (ulim fuel : nat) (a b : svm)
    (ops : list (nat * (bool * sv_op K T0))) (h : gmap loc (svcell K T0)) :
    answers_like keqf keq → answers_like compf comp →
    as_without_throwing_calls (may_throw compf keqf) (sv_step keq comp dfltT ulim)
      (xsv_step keq comp keqf compf dfltT ulim) fuel a b ops h.
  Proof. intros. apply select_run. intros. by apply aon_sv_step. Qed.
  (*@ C96 ... and observe the abstract ordered map of C38 without them; nothing else goes wrong and no
     memory is left. *)
  Lemma sv_catching_history {K T0 : Type} `{Allocator (svcell K T0)} (keq comp : K → K → bool)
    (keqf compf : nat → K → K → option bool) (dfltT : T0) (ulim : nat)
    (ops : list (nat * (bool * sv_op K T0))) :
    key_order keq comp → answers_like keqf keq → answers_like compf comp →
    catching_correct (may_throw compf keqf) sv_new sv_destroy (xsv_step keq comp keqf compf dfltT ulim) ([], 0)
      (sv_spec keq comp dfltT ulim) ops.
  Proof.
    intros Hko ? ?. apply (catching _ _ _ (sv_step keq comp dfltT ulim)).
    - intros. by apply aon_sv_step.
    - intros. by apply svm_history.
  Qed.
End sv.

Section vm.
  (*@ C96 vector_map::insert: at an exception the object and all memory are as before the call;
     otherwise the call is that of C36. *)
  Lemma vm_insert_throws {K T0 : Type} `{Allocator (list (option (K * T0)))} (keq : K → K → bool)
    (keqf : nat → K → K → option bool) (fuel : nat) (v : tvec) (r : vref (K * T0)) :
    answers_like keqf keq →
    all_or_nothing (may_throw keqf keqf) (xvm_insert keqf fuel v r) (vm_insert keq fuel v r).
  Proof. intros. by apply aon_vm_insert. Qed.
  (*@ C96 operator[], like insert. *)
  Lemma vm_index_throws {K T0 : Type} `{Allocator (list (option (K * T0)))} (keq : K → K → bool)
    (keqf : nat → K → K → option bool) (dfltT : T0) (fuel : nat) (v : tvec) (key : K) :
    answers_like keqf keq →
    all_or_nothing (may_throw keqf keqf) (xvm_index keqf dfltT fuel v key) (vm_index keq dfltT fuel v key).
  Proof. intros. by apply aon_vm_index. Qed.
  (*@ C96 find, at and count. *)
  Lemma vm_lookups_throw {K T0 : Type} `{Allocator (list (option (K * T0)))} (keq : K → K → bool)
    (keqf : nat → K → K → option bool) (fuel : nat) (v : tvec) (key : K) :
    answers_like keqf keq →
    all_or_nothing (may_throw keqf keqf) (xvm_find (T0:=T0) keqf fuel v key) (vm_find keq fuel v key) ∧
    all_or_nothing (may_throw keqf keqf) (xvm_at (T0:=T0) keqf fuel v key) (vm_at keq fuel v key) ∧
    all_or_nothing (may_throw keqf keqf) (xvm_count (T0:=T0) keqf fuel v key) (vm_count keq fuel v key).
  Proof. intros. split_and!; [by apply aon_vm_find|by apply aon_vm_at|by apply aon_vm_count]. Qed.
  (*@ C96 Programs on two vector_maps that catch the exceptions. *)
  Lemma vm_catching {K T0 : Type} `{Allocator (list (option (K * T0)))} (keq : K → K → bool)
    (keqf : nat → K → K → option bool) (dfltK : K) (dfltT : T0) (eqb : K * T0 → K * T0 → bool) (fuel : nat)
    (a b : tvec) (ops : list (nat * (bool * vm_op K T0))) (h : gmap loc (list (option (K * T0)))) :
    answers_like keqf keq →
    as_without_throwing_calls (may_throw keqf keqf) (vm_step keq dfltK dfltT eqb)
      (xvm_step keq keqf dfltK dfltT eqb) fuel a b ops h.
  Proof. intros. apply select_run. intros. by apply aon_vm_step. Qed.
  (*@ C96 ... and what they observe: the abstract sequence of entries of C36. *)
  Lemma vm_catching_history {K T0 : Type} `{Allocator (list (option (K * T0)))} (keq : K → K → bool)
    (keqf : nat → K → K → option bool) (dfltK : K) (dfltT : T0) (eqb : K * T0 → K * T0 → bool)
    (ops : list (nat * (bool * vm_op K T0))) :
    answers_like keqf keq →
    catching_correct (may_throw keqf keqf) v_new v_destroy (xvm_step keq keqf dfltK dfltT eqb) ([], 0)
      (vm_spec keq dfltK dfltT eqb) ops.
  Proof.
    intros ?. apply (catching _ _ _ (vm_step keq dfltK dfltT eqb)).
    - intros. by apply aon_vm_step.
    - intros. by apply vmap_history.
  Qed.
End vm.
