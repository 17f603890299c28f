(** Threads: the property lemmas. *)
From Verif Require Import ThreadSpec MapSpec ForwardSpec BackwardSpec LazySpec DlistSpec VecSpec FixedSpec VmapSpec SvmSpec.
From Verif Require Import ThreadMap ThreadSl ThreadDl ThreadVec ThreadSv.
(*@HEADER
From Verif Require Import ThreadSpec MapSpec ForwardSpec BackwardSpec LazySpec DlistSpec VecSpec FixedSpec VmapSpec SvmSpec ThreadRuns.
@*)

(*@ C73,C74 set (and every other tree with unique keys): any number of threads that only look at two
   shared sets, and threads that work on sets of their own. *)
Lemma threads_set {K V : Type} (keyof : V → K) (lt eqb : K → K → bool) (veqb : V → V → bool) ops0 cs :
  RbSpec.key_order lt eqb →
  threads_correct (λ al : Allocator (rbcell V), rb_new) (λ al, rb_destroy) (λ al, keep_this (m_step keyof lt eqb veqb))
    [] (m_spec keyof lt eqb veqb) set_reads (λ _, True) ops0 cs.
Proof. intros. by apply set_threads. Qed.
(*@ C73,C74 map *)
Lemma threads_map {K T : Type} (lt eqb : K → K → bool) (veqb : K * T → K * T → bool) (dflt : T) ops0 cs :
  RbSpec.key_order lt eqb →
  threads_correct (λ al : Allocator (rbcell (K * T)), rb_new) (λ al, rb_destroy) (λ al, keep_this (map_step lt eqb veqb dflt))
    [] (map_spec lt eqb veqb dflt) map_reads (λ _, True) ops0 cs.
Proof. intros. by apply map_threads. Qed.
(*@ C73,C74 forward_list *)
Lemma threads_forward_list {V : Type} (eqb : V → V → bool) ops0 cs :
  threads_correct (λ al : Allocator (cell V), fl_new) (λ al, fl_destroy) (λ al, keep_this (fl_step eqb))
    [] (fl_spec eqb) forward_reads (λ _, True) ops0 cs.
Proof. apply forward_threads. Qed.
(*@ C73,C74 backward_list, for histories that avoid its defects ([bl_ok]) *)
Lemma threads_backward_list {V : Type} (eqb : V → V → bool) ops0 cs :
  threads_correct (λ al : Allocator (cell V), bl_new) (λ al, bl_destroy) (λ al, bl_step eqb)
    [] (bl_spec_ok eqb) backward_reads (λ _, True) ops0 cs.
Proof. apply backward_threads. Qed.
(*@ C73,C74 lazy_queue, for histories that avoid its defects ([lq_ok], [lq_fin]) *)
Lemma threads_lazy_queue {V : Type} (triv : bool) ops0 cs :
  threads_correct (λ al : Allocator (cell V), lq_new) (λ al, lq_destroy triv) (λ al, lq_step triv)
    ([], 0) (lq_spec_ok triv) lazy_reads (lq_fin triv) ops0 cs.
Proof. apply lazy_threads. Qed.
(*@ C73,C74 list *)
Lemma threads_list {V : Type} (eqb : V → V → bool) (rfirst : bool) ops0 cs :
  threads_correct (λ al : Allocator (dcell V), dl_new) (λ al, dl_destroy) (λ al, keep_this (dl_step eqb rfirst))
    ([], false) (dl_spec eqb) list_reads (λ _, True) ops0 cs.
Proof. apply list_threads. Qed.
(*@ C73,C74 vector, for histories that avoid its defects ([ve_ok]) *)
Lemma threads_vector {V : Type} (dflt : V) (eqb : V → V → bool) ops0 cs :
  threads_correct (λ al : Allocator (list (option V)), v_new) (λ al, v_destroy) (λ al, ve_step dflt eqb)
    ([], 0) (ve_spec_ok dflt eqb) vector_reads (λ _, True) ops0 cs.
Proof. apply vector_threads. Qed.
(*@ C73,C74 fixed_vector, for histories that avoid its defects ([fx_ok]) *)
Lemma threads_fixed_vector {V : Type} (dflt : V) (eqb : V → V → bool) (N : nat) ops0 cs :
  threads_correct (λ al : Allocator (list (option V)), fv_new N) (λ al, fv_destroy) (λ al, fx_step N dflt eqb)
    [] (fx_spec_ok N dflt eqb) fixed_reads (λ _, True) ops0 cs.
Proof. apply fixed_threads. Qed.
(*@ C73,C74 vector_map (count of absent keys only) *)
Lemma threads_vector_map {K T : Type} (keq : K → K → bool) (dfltK : K) (dfltT : T)
  (eqb : K * T → K * T → bool) ops0 cs :
  threads_correct (λ al : Allocator (list (option (K * T))), v_new) (λ al, v_destroy) (λ al, vm_step keq dfltK dfltT eqb)
    ([], 0) (vm_spec keq dfltK dfltT eqb) vmap_reads (λ _, True) ops0 cs.
Proof. apply vmap_threads. Qed.
(*@ C73,C74 sorted_vector_map *)
Lemma threads_sorted_vector_map {K T : Type} (keq comp : K → K → bool) (dfltT : T) (ulim : nat) ops0 cs :
  SvmSpec.key_order keq comp →
  threads_correct (λ al : Allocator (svcell K T), sv_new) (λ al, sv_destroy) (λ al, sv_step keq comp dfltT ulim)
    ([], 0) (sv_spec keq comp dfltT ulim) svm_reads (λ _, True) ops0 cs.
Proof. intros. by apply svm_threads. Qed.
