(** GENERATED by tools/genprops.py from CmpVecRuns.v: property theorems only.
    Every proof is the lemma of the same statement proved there. *)
From Verif Require Import CmpVecSpec CmpVecRuns.

Section cmp.

  (** sorted_vector_map::insert: at an exception the object and all memory are as before the call;
     otherwise the call is that of C38. *)
  Theorem C96_sv_insert_throws :
    ∀ {K T0 : Type} `{Allocator (svcell K T0)} (keq comp : K → K → bool)
    (keqf compf : nat → K → K → option bool) (ulim fuel : nat) (v : svm) (r : eref K T0),
    answers_like keqf keq → answers_like compf comp →
    all_or_nothing (may_throw compf keqf) (xsv_insert keqf compf ulim fuel v r) (sv_insert keq comp ulim fuel v r).
  Proof. first [exact sv_insert_throws | apply sv_insert_throws | intros; eapply sv_insert_throws; eassumption]. Qed.

  (** operator[], like insert. *)
  Theorem C96_sv_index_throws :
    ∀ {K T0 : Type} `{Allocator (svcell K T0)} (keq comp : K → K → bool)
    (keqf compf : nat → K → K → option bool) (dfltT : T0) (ulim fuel : nat) (v : svm) (key : K),
    answers_like keqf keq → answers_like compf comp →
    all_or_nothing (may_throw compf keqf) (xsv_index keqf compf dfltT ulim fuel v key)
      (sv_index keq comp dfltT ulim fuel v key).
  Proof. first [exact sv_index_throws | apply sv_index_throws | intros; eapply sv_index_throws; eassumption]. Qed.

  (** at, find, count, equal_range, lower_bound and upper_bound. *)
  Theorem C96_sv_lookups_throw :
    ∀ {K T0 : Type} `{Allocator (svcell K T0)} (keq comp : K → K → bool)
    (keqf compf : nat → K → K → option bool) (ulim fuel : nat) (v : svm) (key : K),
    answers_like keqf keq → answers_like compf comp →
    all_or_nothing (may_throw compf keqf) (xsv_at (T0:=T0) keqf compf ulim fuel v key) (sv_at keq comp ulim fuel v key) ∧
    all_or_nothing (may_throw compf keqf) (xsv_find (T0:=T0) keqf compf ulim fuel v key) (sv_find keq comp ulim fuel v key) ∧
    all_or_nothing (may_throw compf keqf) (xsv_count (T0:=T0) keqf compf ulim fuel v key) (sv_count keq comp ulim fuel v key) ∧
    all_or_nothing (may_throw compf keqf) (xsv_equal_range (T0:=T0) keqf compf ulim fuel v key)
      (sv_equal_range keq comp ulim fuel v key) ∧
    all_or_nothing (may_throw compf keqf) (xsv_lower_bound (T0:=T0) keqf compf ulim fuel v key)
      (sv_lower_bound keq comp ulim fuel v key) ∧
    all_or_nothing (may_throw compf keqf) (xsv_upper_bound (T0:=T0) keqf compf ulim fuel v key)
      (sv_upper_bound keq comp ulim fuel v key).
  Proof. first [exact sv_lookups_throw | apply sv_lookups_throw | intros; eapply sv_lookups_throw; eassumption]. Qed.

  (** Programs on two sorted_vector_maps that catch the exceptions, from every memory: they do what the
     plain program does that makes only the calls that do not throw. *)
  Theorem C96_sv_catching :
    ∀ {K T0 : Type} `{Allocator (svcell K T0)} (keq comp : K → K → bool)
    (keqf compf : nat → K → K → option bool) (dfltT : T0) (ulim fuel : nat) (a b : svm)
    (ops : list (nat * (bool * sv_op K T0))) (h : gmap loc (svcell K T0)),
    answers_like keqf keq → answers_like compf comp →
    as_without_throwing_calls (may_throw compf keqf) (sv_step keq comp dfltT ulim)
      (xsv_step keq comp keqf compf dfltT ulim) fuel a b ops h.
  Proof. first [exact sv_catching | apply sv_catching | intros; eapply sv_catching; eassumption]. Qed.

  (** ... and observe the abstract ordered map of C38 without them; nothing else goes wrong and no
     memory is left. *)
  Theorem C96_sv_catching_history :
    ∀ {K T0 : Type} `{Allocator (svcell K T0)} (keq comp : K → K → bool)
    (keqf compf : nat → K → K → option bool) (dfltT : T0) (ulim : nat)
    (ops : list (nat * (bool * sv_op K T0))),
    key_order keq comp → answers_like keqf keq → answers_like compf comp →
    catching_correct (may_throw compf keqf) sv_new sv_destroy (xsv_step keq comp keqf compf dfltT ulim) ([], 0)
      (sv_spec keq comp dfltT ulim) ops.
  Proof. first [exact sv_catching_history | apply sv_catching_history | intros; eapply sv_catching_history; eassumption]. Qed.

  (** vector_map::insert: at an exception the object and all memory are as before the call;
     otherwise the call is that of C36. *)
  Theorem C96_vm_insert_throws :
    ∀ {K T0 : Type} `{Allocator (list (option (K * T0)))} (keq : K → K → bool)
    (keqf : nat → K → K → option bool) (fuel : nat) (v : tvec) (r : vref (K * T0)),
    answers_like keqf keq →
    all_or_nothing (may_throw keqf keqf) (xvm_insert keqf fuel v r) (vm_insert keq fuel v r).
  Proof. first [exact vm_insert_throws | apply vm_insert_throws | intros; eapply vm_insert_throws; eassumption]. Qed.

  (** operator[], like insert. *)
  Theorem C96_vm_index_throws :
    ∀ {K T0 : Type} `{Allocator (list (option (K * T0)))} (keq : K → K → bool)
    (keqf : nat → K → K → option bool) (dfltT : T0) (fuel : nat) (v : tvec) (key : K),
    answers_like keqf keq →
    all_or_nothing (may_throw keqf keqf) (xvm_index keqf dfltT fuel v key) (vm_index keq dfltT fuel v key).
  Proof. first [exact vm_index_throws | apply vm_index_throws | intros; eapply vm_index_throws; eassumption]. Qed.

  (** find, at and count. *)
  Theorem C96_vm_lookups_throw :
    ∀ {K T0 : Type} `{Allocator (list (option (K * T0)))} (keq : K → K → bool)
    (keqf : nat → K → K → option bool) (fuel : nat) (v : tvec) (key : K),
    answers_like keqf keq →
    all_or_nothing (may_throw keqf keqf) (xvm_find (T0:=T0) keqf fuel v key) (vm_find keq fuel v key) ∧
    all_or_nothing (may_throw keqf keqf) (xvm_at (T0:=T0) keqf fuel v key) (vm_at keq fuel v key) ∧
    all_or_nothing (may_throw keqf keqf) (xvm_count (T0:=T0) keqf fuel v key) (vm_count keq fuel v key).
  Proof. first [exact vm_lookups_throw | apply vm_lookups_throw | intros; eapply vm_lookups_throw; eassumption]. Qed.

  (** Programs on two vector_maps that catch the exceptions. *)
  Theorem C96_vm_catching :
    ∀ {K T0 : Type} `{Allocator (list (option (K * T0)))} (keq : K → K → bool)
    (keqf : nat → K → K → option bool) (dfltK : K) (dfltT : T0) (eqb : K * T0 → K * T0 → bool) (fuel : nat)
    (a b : tvec) (ops : list (nat * (bool * vm_op K T0))) (h : gmap loc (list (option (K * T0)))),
    answers_like keqf keq →
    as_without_throwing_calls (may_throw keqf keqf) (vm_step keq dfltK dfltT eqb)
      (xvm_step keq keqf dfltK dfltT eqb) fuel a b ops h.
  Proof. first [exact vm_catching | apply vm_catching | intros; eapply vm_catching; eassumption]. Qed.

  (** ... and what they observe: the abstract sequence of entries of C36. *)
  Theorem C96_vm_catching_history :
    ∀ {K T0 : Type} `{Allocator (list (option (K * T0)))} (keq : K → K → bool)
    (keqf : nat → K → K → option bool) (dfltK : K) (dfltT : T0) (eqb : K * T0 → K * T0 → bool)
    (ops : list (nat * (bool * vm_op K T0))),
    answers_like keqf keq →
    catching_correct (may_throw keqf keqf) v_new v_destroy (xvm_step keq keqf dfltK dfltT eqb) ([], 0)
      (vm_spec keq dfltK dfltT eqb) ops.
  Proof. first [exact vm_catching_history | apply vm_catching_history | intros; eapply vm_catching_history; eassumption]. Qed.

End cmp.

Print Assumptions C96_sv_insert_throws.
Print Assumptions C96_sv_index_throws.
Print Assumptions C96_sv_lookups_throw.
Print Assumptions C96_sv_catching.
Print Assumptions C96_sv_catching_history.
Print Assumptions C96_vm_insert_throws.
Print Assumptions C96_vm_index_throws.
Print Assumptions C96_vm_lookups_throw.
Print Assumptions C96_vm_catching.
Print Assumptions C96_vm_catching_history.
