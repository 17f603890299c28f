(** GENERATED by tools/genprops.py from VmapRuns.v: property theorems only.
    Every proof is the lemma of the same statement proved there. *)
From Verif Require Import VmapSpec VmapRuns.

Section vector_map.
  Context {K T : Type} `{Allocator (list (option (K * T)))}
    (keq : K → K → bool) (dfltK : K) (dfltT : T) (eqb : K * T → K * T → bool).

  (** Whole programs on two vector_maps: every history of insert, operator[], find, at, count
     of absent keys and all calls inherited from vector (within [ve_ok]) observes what the
     abstract sequence of entries prescribes; nothing goes wrong, no memory is left. *)
  Theorem C36_vmap_history :
    ∀ ops,
    v_correct v_new v_destroy (vm_step keq dfltK dfltT eqb) ([], 0) (vm_spec keq dfltK dfltT eqb) (λ _, True) ops.
  Proof. first [exact vmap_history | apply vmap_history | intros; eapply vmap_history; eassumption]. Qed.

  (** Whole programs on two vector_maps: every history of insert, operator[], find, at, count
     of absent keys and all calls inherited from vector (within [ve_ok]) observes what the
     abstract sequence of entries prescribes; nothing goes wrong, no memory is left. *)
  Theorem C37_vmap_history_partial :
    ∀ ops,
    v_correct v_new v_destroy (vm_step keq dfltK dfltT eqb) ([], 0) (vm_spec keq dfltK dfltT eqb) (λ _, True) ops.
  Proof. first [exact vmap_history | apply vmap_history | intros; eapply vmap_history; eassumption]. Qed.

  (** ... and what is in memory after it. *)
  Theorem C36_vmap_reaches :
    ∀ ops,
    v_reaches v_new (vm_step keq dfltK dfltT eqb) ([], 0) (vm_spec keq dfltK dfltT eqb)
      (λ v s h, v_capacity v = s.2 ∧ is_vec v s.1 h) ops.
  Proof. first [exact vmap_reaches | apply vmap_reaches | intros; eapply vmap_reaches; eassumption]. Qed.

  (** What the sequences of [vmap_history] mean for histories of map calls: every key is there
     once, in order of first insertion, with the value it was created with or last
     assigned through operator[]. *)
  Theorem C36_vmap_is_map :
    ∀ ops (s o : ve_state (K * T)) outs,
    key_equiv keq → Forall (λ c, map_call c.2) ops →
    h_spec (vm_spec keq dfltK dfltT eqb) ([], 0) ([], 0) ops = Some (s, o, outs) →
    ∀ t : bool, let xs := (if t then o else s).1 in
      distinct_keys keq xs ∧
      xs.*1 = first_keys keq [] (inserted t ops) ∧
      ∀ k x, holds_key keq xs k x ↔ value_after keq dfltT t k ops = Some x.
  Proof. first [exact vmap_is_map | apply vmap_is_map | intros; eapply vmap_is_map; eassumption]. Qed.

  (** kpos, the position reported by find and insert, is that of the only entry with an equal
     key, or the end. *)
  Theorem C36_vmap_kpos :
    ∀ k (xs : list (K * T)),
    match xs !! kpos keq k xs with
    | Some e => keq k e.1 = true
    | None => kpos keq k xs = length xs ∧ ∀ e, e ∈ xs → keq k e.1 = false
    end.
  Proof. first [exact vmap_kpos | apply vmap_kpos | intros; eapply vmap_kpos; eassumption]. Qed.

  (** find *)
  Theorem C36_vmap_find :
    ∀ fuel v (xs : list (K * T)) k,
    length xs < fuel →
    runs (is_vec v xs) (vm_find keq fuel v k) (λ i h, i = kpos keq k xs ∧ is_vec v xs h).
  Proof. first [exact vmap_find | apply vmap_find | intros; eapply vmap_find; eassumption]. Qed.

  (** count of an absent key is 0. *)
  Theorem C37_vmap_count_absent_partial :
    ∀ fuel v (xs : list (K * T)) k,
    length xs < fuel → (∀ e, e ∈ xs → keq k e.1 = false) →
    runs (is_vec v xs) (vm_count keq fuel v k) (λ n h, n = 0 ∧ is_vec v xs h).
  Proof. first [exact vmap_count_absent | apply vmap_count_absent | intros; eapply vmap_count_absent; eassumption]. Qed.

  (** count of a present key never returns. *)
  Theorem C37_vmap_count_present_refuted :
    ∀ fuel v (xs : list (K * T)) k e,
    length xs < fuel → e ∈ xs → keq k e.1 = true →
    hangs (is_vec v xs) (vm_count keq fuel v k).
  Proof. first [exact vmap_count_present | apply vmap_count_present | intros; eapply vmap_count_present; eassumption]. Qed.

End vector_map.

Print Assumptions C36_vmap_history.
Print Assumptions C37_vmap_history_partial.
Print Assumptions C36_vmap_reaches.
Print Assumptions C36_vmap_is_map.
Print Assumptions C36_vmap_kpos.
Print Assumptions C36_vmap_find.
Print Assumptions C37_vmap_count_absent_partial.
Print Assumptions C37_vmap_count_present_refuted.
