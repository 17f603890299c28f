(** Threads: the hypotheses of the theorems in PropsThread.v are met, what the definitions of
    Threads.v reject, and a concrete instance (C73, C74). *)
From Verif Require Import ThreadSpec MapSpec MapExamples DlistSpec VecSpec ThreadRuns.

Section ex.
  (** Two maps are filled; then two threads read them, and two other threads run a history with
      every kind of call on maps of their own. *)
  Definition shared_ops : list (bool * map_op nat nat) :=
    [ (false, MapStore 5 50); (false, MapStore 1 10); (true, MapStore 3 30); (false, MapGen (MInsert (2, 20))) ].
  Definition reader_ops : list (bool * map_op nat nat) :=
    [ (false, MapGen MForward); (true, MapGen MBackward); (false, MapAt 5); (false, MapGen (MFind 2));
      (true, MapGen (MLower 4)); (false, MapGen MEqual); (true, MapGen (MCount 3)) ].
  Definition map_clients : list (client (map_op nat nat)) :=
    [ Reader reader_ops; Worker map_demo; Reader (reverse reader_ops); Worker map_demo ].

  Definition outs_of (xs ys : list (nat * nat)) (c : client (map_op nat nat)) : list (map_out nat nat) :=
    match c with
    | Reader ops => match h_spec (map_spec Nat.ltb Nat.eqb peqb 0) xs ys ops with Some (_, o) => o | None => [] end
    | Worker ops => match h_spec (map_spec Nat.ltb Nat.eqb peqb 0) [] [] ops with Some (_, o) => o | None => [] end
    end.
  Example shared_state : ∃ outs0,
    h_spec (map_spec Nat.ltb Nat.eqb peqb 0) [] [] shared_ops = Some ([(1, 10); (2, 20); (5, 50)], [(3, 30)], outs0).
  Proof. eexists. vm_compute. reflexivity. Qed.
  Example map_clients_expect :
    Forall2 (expects [] (map_spec Nat.ltb Nat.eqb peqb 0) map_reads (λ _, True) [(1, 10); (2, 20); (5, 50)] [(3, 30)])
      map_clients (outs_of [(1, 10); (2, 20); (5, 50)] [(3, 30)] <$> map_clients).
  Proof.
    repeat constructor; try (eexists; vm_compute; reflexivity);
      eexists _, _; (split; [vm_compute; reflexivity|done]).
  Qed.
  (** the first reader sees the elements of both maps *)
  Example reader_sees :
    take 3 (outs_of [(1, 10); (2, 20); (5, 50)] [(3, 30)] (Reader reader_ops)) =
    [OGen (USeq [(1, 10); (2, 20); (5, 50)]); OGen (USeq [(3, 30)]); OMapped 50].
  Proof. vm_compute. reflexivity. Qed.
  (** ... so the theorem applies *)
  Example map_clients_run : ∃ F, ∀ fuel, F ≤ fuel → ∀ al : Allocator (rbcell (nat * nat)),
    runs nothing (v_prefix rb_new (keep_this (map_step Nat.ltb Nat.eqb peqb 0)) fuel shared_ops)
      (λ '(a, b, _) h, ∃ ps,
        Forall2 (λ c p, performs (λ al', client_code (λ _, rb_new) (λ _, rb_destroy)
          (λ al, keep_this (map_step Nat.ltb Nat.eqb peqb 0)) al' fuel a b c) p) map_clients ps ∧
        ∀ hf, h ##ₘ hf → every_schedule (h ∪ hf) ps
          (outs_of [(1, 10); (2, 20); (5, 50)] [(3, 30)] <$> map_clients) (λ h', h' = h ∪ hf)).
  Proof.
    destruct shared_state as [outs0 H0].
    destruct (threads_map Nat.ltb Nat.eqb peqb 0 shared_ops map_clients nat_key_order _ _ _ _ H0 map_clients_expect) as [F HF].
    exists F. intros fuel Hf al. specialize (HF fuel Hf al).
    intros h hf Hh Hd. destruct (HF h hf Hh Hd) as ([[a b] o]&h'&E&Hd'&_&Hps&_). exists (a, b, o), h'. auto.
  Qed.

  (** A thread that changes a container shared with others is not a client of these theorems. *)
  Example store_is_no_read : ¬ map_reads (MapStore 1 2) ∧ ¬ map_reads (MapGet (T:=nat) 1).
  Proof. split; intros []. Qed.
  (** What [every_schedule] rejects: two threads that both write one cell; *)
  Example race_rejected (h : gmap loc nat) (k1 k2 : prog nat unit) l f rs Q :
    ¬ every_schedule h [PModify l f k1; PModify l f k2] rs Q.
  Proof.
    intros [_ H]. destruct (H h _ (rtc_refl _ _)) as [Hr _]. apply Hr.
    exists 0, 1, (PModify l f k1), (PModify l f k2), l, false, false. done.
  Qed.
  (** one that frees what another one reads; *)
  Example free_rejected (h : gmap loc nat) (k1 : nat → prog nat unit) k2 l rs Q :
    ¬ every_schedule h [PLoad l k1; PFree l k2] rs Q.
  Proof.
    intros [_ H]. destruct (H h _ (rtc_refl _ _)) as [Hr _]. apply Hr.
    exists 0, 1, (PLoad l k1), (PFree l k2), l, true, false. done.
  Qed.
  (** a use after free that depends on the schedule: thread 1 frees [l] at its second step, when
      thread 0 may or may not have read it. *)
  Example race_later_rejected (h : gmap loc nat) (l m : loc) c d k rs (Q : _ → Prop) :
    l ≠ m → h !! l = Some c → h !! m = Some d →
    ¬ every_schedule h [PLoad m (λ _, PLoad l k); PFree l (PRet tt)] rs Q.
  Proof.
    intros Hlm Hl Hm [_ H].
    destruct (H h [PLoad l k; PFree l (PRet tt)]) as [Hr _].
    { eapply rtc_l; [|apply rtc_refl].
      apply (ts 0 h (PLoad m (λ _, PLoad l k)) h (PLoad l k) [PLoad m (λ _, PLoad l k); PFree l (PRet tt)]); [done|].
      apply (ps_load h m (λ _, PLoad l k) d Hm). }
    apply Hr. exists 0, 1, (PLoad l k), (PFree l (PRet tt)), l, true, false. done.
  Qed.
  (** and a thread that accesses memory nobody has allocated. *)
  Example dangling_rejected (k : nat → prog nat unit) rs Q :
    ¬ every_schedule ∅ [PLoad 1%positive k] rs Q.
  Proof.
    intros [_ H]. destruct (H ∅ _ (rtc_refl _ _)) as (_&Hs&_). apply (Hs 0 (PLoad 1%positive k)); [done|].
    split; [intros [a Ha]; discriminate|]. intros h' p' Hp. inversion Hp; subst. done.
  Qed.
End ex.
