(** GENERATED by tools/genprops.py from ThreadRuns.v: property theorems only.
    Every proof is the lemma of the same statement proved there. *)
From Verif Require Import ThreadSpec MapSpec ForwardSpec BackwardSpec LazySpec DlistSpec VecSpec FixedSpec VmapSpec SvmSpec ThreadRuns.

  (** set (and every other tree with unique keys): any number of threads that only look at two
   shared sets, and threads that work on sets of their own. *)
  Theorem C73_threads_set :
    ∀ {K V : Type} (keyof : V → K) (lt eqb : K → K → bool) (veqb : V → V → bool) ops0 cs,
  RbSpec.key_order lt eqb →
  threads_correct (λ al : Allocator (rbcell V), rb_new) (λ al, rb_destroy) (λ al, keep_this (m_step keyof lt eqb veqb))
    [] (m_spec keyof lt eqb veqb) set_reads (λ _, True) ops0 cs.
  Proof. first [exact threads_set | apply threads_set | intros; eapply threads_set; eassumption]. Qed.

  (** set (and every other tree with unique keys): any number of threads that only look at two
   shared sets, and threads that work on sets of their own. *)
  Theorem C74_threads_set :
    ∀ {K V : Type} (keyof : V → K) (lt eqb : K → K → bool) (veqb : V → V → bool) ops0 cs,
  RbSpec.key_order lt eqb →
  threads_correct (λ al : Allocator (rbcell V), rb_new) (λ al, rb_destroy) (λ al, keep_this (m_step keyof lt eqb veqb))
    [] (m_spec keyof lt eqb veqb) set_reads (λ _, True) ops0 cs.
  Proof. first [exact threads_set | apply threads_set | intros; eapply threads_set; eassumption]. Qed.

  (** map *)
  Theorem C73_threads_map :
    ∀ {K T : Type} (lt eqb : K → K → bool) (veqb : K * T → K * T → bool) (dflt : T) ops0 cs,
  RbSpec.key_order lt eqb →
  threads_correct (λ al : Allocator (rbcell (K * T)), rb_new) (λ al, rb_destroy) (λ al, keep_this (map_step lt eqb veqb dflt))
    [] (map_spec lt eqb veqb dflt) map_reads (λ _, True) ops0 cs.
  Proof. first [exact threads_map | apply threads_map | intros; eapply threads_map; eassumption]. Qed.

  (** map *)
  Theorem C74_threads_map :
    ∀ {K T : Type} (lt eqb : K → K → bool) (veqb : K * T → K * T → bool) (dflt : T) ops0 cs,
  RbSpec.key_order lt eqb →
  threads_correct (λ al : Allocator (rbcell (K * T)), rb_new) (λ al, rb_destroy) (λ al, keep_this (map_step lt eqb veqb dflt))
    [] (map_spec lt eqb veqb dflt) map_reads (λ _, True) ops0 cs.
  Proof. first [exact threads_map | apply threads_map | intros; eapply threads_map; eassumption]. Qed.

  (** forward_list *)
  Theorem C73_threads_forward_list :
    ∀ {V : Type} (eqb : V → V → bool) ops0 cs,
  threads_correct (λ al : Allocator (cell V), fl_new) (λ al, fl_destroy) (λ al, keep_this (fl_step eqb))
    [] (fl_spec eqb) forward_reads (λ _, True) ops0 cs.
  Proof. first [exact threads_forward_list | apply threads_forward_list | intros; eapply threads_forward_list; eassumption]. Qed.

  (** forward_list *)
  Theorem C74_threads_forward_list :
    ∀ {V : Type} (eqb : V → V → bool) ops0 cs,
  threads_correct (λ al : Allocator (cell V), fl_new) (λ al, fl_destroy) (λ al, keep_this (fl_step eqb))
    [] (fl_spec eqb) forward_reads (λ _, True) ops0 cs.
  Proof. first [exact threads_forward_list | apply threads_forward_list | intros; eapply threads_forward_list; eassumption]. Qed.

  (** backward_list, for histories that avoid its defects ([bl_ok]) *)
  Theorem C73_threads_backward_list :
    ∀ {V : Type} (eqb : V → V → bool) ops0 cs,
  threads_correct (λ al : Allocator (cell V), bl_new) (λ al, bl_destroy) (λ al, bl_step eqb)
    [] (bl_spec_ok eqb) backward_reads (λ _, True) ops0 cs.
  Proof. first [exact threads_backward_list | apply threads_backward_list | intros; eapply threads_backward_list; eassumption]. Qed.

  (** backward_list, for histories that avoid its defects ([bl_ok]) *)
  Theorem C74_threads_backward_list :
    ∀ {V : Type} (eqb : V → V → bool) ops0 cs,
  threads_correct (λ al : Allocator (cell V), bl_new) (λ al, bl_destroy) (λ al, bl_step eqb)
    [] (bl_spec_ok eqb) backward_reads (λ _, True) ops0 cs.
  Proof. first [exact threads_backward_list | apply threads_backward_list | intros; eapply threads_backward_list; eassumption]. Qed.

  (** lazy_queue, for histories that avoid its defects ([lq_ok], [lq_fin]) *)
  Theorem C73_threads_lazy_queue :
    ∀ {V : Type} (triv : bool) ops0 cs,
  threads_correct (λ al : Allocator (cell V), lq_new) (λ al, lq_destroy triv) (λ al, lq_step triv)
    ([], 0) (lq_spec_ok triv) lazy_reads (lq_fin triv) ops0 cs.
  Proof. first [exact threads_lazy_queue | apply threads_lazy_queue | intros; eapply threads_lazy_queue; eassumption]. Qed.

  (** lazy_queue, for histories that avoid its defects ([lq_ok], [lq_fin]) *)
  Theorem C74_threads_lazy_queue :
    ∀ {V : Type} (triv : bool) ops0 cs,
  threads_correct (λ al : Allocator (cell V), lq_new) (λ al, lq_destroy triv) (λ al, lq_step triv)
    ([], 0) (lq_spec_ok triv) lazy_reads (lq_fin triv) ops0 cs.
  Proof. first [exact threads_lazy_queue | apply threads_lazy_queue | intros; eapply threads_lazy_queue; eassumption]. Qed.

  (** list *)
  Theorem C73_threads_list :
    ∀ {V : Type} (eqb : V → V → bool) (rfirst : bool) ops0 cs,
  threads_correct (λ al : Allocator (dcell V), dl_new) (λ al, dl_destroy) (λ al, keep_this (dl_step eqb rfirst))
    ([], false) (dl_spec eqb) list_reads (λ _, True) ops0 cs.
  Proof. first [exact threads_list | apply threads_list | intros; eapply threads_list; eassumption]. Qed.

  (** list *)
  Theorem C74_threads_list :
    ∀ {V : Type} (eqb : V → V → bool) (rfirst : bool) ops0 cs,
  threads_correct (λ al : Allocator (dcell V), dl_new) (λ al, dl_destroy) (λ al, keep_this (dl_step eqb rfirst))
    ([], false) (dl_spec eqb) list_reads (λ _, True) ops0 cs.
  Proof. first [exact threads_list | apply threads_list | intros; eapply threads_list; eassumption]. Qed.

  (** vector, for histories that avoid its defects ([ve_ok]) *)
  Theorem C73_threads_vector :
    ∀ {V : Type} (dflt : V) (eqb : V → V → bool) ops0 cs,
  threads_correct (λ al : Allocator (list (option V)), v_new) (λ al, v_destroy) (λ al, ve_step dflt eqb)
    ([], 0) (ve_spec_ok dflt eqb) vector_reads (λ _, True) ops0 cs.
  Proof. first [exact threads_vector | apply threads_vector | intros; eapply threads_vector; eassumption]. Qed.

  (** vector, for histories that avoid its defects ([ve_ok]) *)
  Theorem C74_threads_vector :
    ∀ {V : Type} (dflt : V) (eqb : V → V → bool) ops0 cs,
  threads_correct (λ al : Allocator (list (option V)), v_new) (λ al, v_destroy) (λ al, ve_step dflt eqb)
    ([], 0) (ve_spec_ok dflt eqb) vector_reads (λ _, True) ops0 cs.
  Proof. first [exact threads_vector | apply threads_vector | intros; eapply threads_vector; eassumption]. Qed.

  (** fixed_vector, for histories that avoid its defects ([fx_ok]) *)
  Theorem C73_threads_fixed_vector :
    ∀ {V : Type} (dflt : V) (eqb : V → V → bool) (N : nat) ops0 cs,
  threads_correct (λ al : Allocator (list (option V)), fv_new N) (λ al, fv_destroy) (λ al, fx_step N dflt eqb)
    [] (fx_spec_ok N dflt eqb) fixed_reads (λ _, True) ops0 cs.
  Proof. first [exact threads_fixed_vector | apply threads_fixed_vector | intros; eapply threads_fixed_vector; eassumption]. Qed.

  (** fixed_vector, for histories that avoid its defects ([fx_ok]) *)
  Theorem C74_threads_fixed_vector :
    ∀ {V : Type} (dflt : V) (eqb : V → V → bool) (N : nat) ops0 cs,
  threads_correct (λ al : Allocator (list (option V)), fv_new N) (λ al, fv_destroy) (λ al, fx_step N dflt eqb)
    [] (fx_spec_ok N dflt eqb) fixed_reads (λ _, True) ops0 cs.
  Proof. first [exact threads_fixed_vector | apply threads_fixed_vector | intros; eapply threads_fixed_vector; eassumption]. Qed.

  (** vector_map (count of absent keys only) *)
  Theorem C73_threads_vector_map :
    ∀ {K T : Type} (keq : K → K → bool) (dfltK : K) (dfltT : T)
  (eqb : K * T → K * T → bool) ops0 cs,
  threads_correct (λ al : Allocator (list (option (K * T))), v_new) (λ al, v_destroy) (λ al, vm_step keq dfltK dfltT eqb)
    ([], 0) (vm_spec keq dfltK dfltT eqb) vmap_reads (λ _, True) ops0 cs.
  Proof. first [exact threads_vector_map | apply threads_vector_map | intros; eapply threads_vector_map; eassumption]. Qed.

  (** vector_map (count of absent keys only) *)
  Theorem C74_threads_vector_map :
    ∀ {K T : Type} (keq : K → K → bool) (dfltK : K) (dfltT : T)
  (eqb : K * T → K * T → bool) ops0 cs,
  threads_correct (λ al : Allocator (list (option (K * T))), v_new) (λ al, v_destroy) (λ al, vm_step keq dfltK dfltT eqb)
    ([], 0) (vm_spec keq dfltK dfltT eqb) vmap_reads (λ _, True) ops0 cs.
  Proof. first [exact threads_vector_map | apply threads_vector_map | intros; eapply threads_vector_map; eassumption]. Qed.

  (** sorted_vector_map *)
  Theorem C73_threads_sorted_vector_map :
    ∀ {K T : Type} (keq comp : K → K → bool) (dfltT : T) (ulim : nat) ops0 cs,
  SvmSpec.key_order keq comp →
  threads_correct (λ al : Allocator (svcell K T), sv_new) (λ al, sv_destroy) (λ al, sv_step keq comp dfltT ulim)
    ([], 0) (sv_spec keq comp dfltT ulim) svm_reads (λ _, True) ops0 cs.
  Proof. first [exact threads_sorted_vector_map | apply threads_sorted_vector_map | intros; eapply threads_sorted_vector_map; eassumption]. Qed.

  (** sorted_vector_map *)
  Theorem C74_threads_sorted_vector_map :
    ∀ {K T : Type} (keq comp : K → K → bool) (dfltT : T) (ulim : nat) ops0 cs,
  SvmSpec.key_order keq comp →
  threads_correct (λ al : Allocator (svcell K T), sv_new) (λ al, sv_destroy) (λ al, sv_step keq comp dfltT ulim)
    ([], 0) (sv_spec keq comp dfltT ulim) svm_reads (λ _, True) ops0 cs.
  Proof. first [exact threads_sorted_vector_map | apply threads_sorted_vector_map | intros; eapply threads_sorted_vector_map; eassumption]. Qed.



Print Assumptions C73_threads_set.
Print Assumptions C74_threads_set.
Print Assumptions C73_threads_map.
Print Assumptions C74_threads_map.
Print Assumptions C73_threads_forward_list.
Print Assumptions C74_threads_forward_list.
Print Assumptions C73_threads_backward_list.
Print Assumptions C74_threads_backward_list.
Print Assumptions C73_threads_lazy_queue.
Print Assumptions C74_threads_lazy_queue.
Print Assumptions C73_threads_list.
Print Assumptions C74_threads_list.
Print Assumptions C73_threads_vector.
Print Assumptions C74_threads_vector.
Print Assumptions C73_threads_fixed_vector.
Print Assumptions C74_threads_fixed_vector.
Print Assumptions C73_threads_vector_map.
Print Assumptions C74_threads_vector_map.
Print Assumptions C73_threads_sorted_vector_map.
Print Assumptions C74_threads_sorted_vector_map.
