(** Threads using forward_list, backward_list, lazy_queue. Proof file. *)
From Verif Require Export ThreadSpec ClientsLogic.
From Verif Require Import ForwardHistory BackwardHistory LazyHistory.
From iris.proofmode Require Import tactics.

Section fixpoints.
  Context {V : Type}.
  Lemma tr_it_advance s n p : Tr s s (λ al : Allocator (cell V), it_advance n p).
  Proof. revert p. induction n as [|n IH]; intros p; simpl; tr. Qed.
  Lemma tr_fl_insert_after_n n p r : Tr 1 1 (λ al : Allocator (cell V), fl_insert_after_n p n r).
  Proof. revert p. induction n as [|n IH]; intros p; simpl; tr. Qed.
  Lemma tr_fl_insert_after_ext vs p : Tr 1 1 (λ al : Allocator (cell V), fl_insert_after_ext p vs).
  Proof. revert p. induction vs as [|n vs IH]; intros p; simpl; tr. Qed.
  Lemma tr_lq_ins_n q n p r : Tr 1 1 (λ al : Allocator (cell V), lq_ins_n q p n r).
  Proof. revert p. induction n as [|n IH]; intros p; simpl; tr. Qed.
  Lemma tr_lq_ins_ext q vs p : Tr 1 1 (λ al : Allocator (cell V), lq_ins_ext q p vs).
  Proof. revert p. induction vs as [|n vs IH]; intros p; simpl; tr. Qed.
End fixpoints.
Ltac tr_hint h ::=
  lazymatch h with
  | @it_advance => tr_by @tr_it_advance
  | @fl_insert_after_n => tr_by @tr_fl_insert_after_n
  | @fl_insert_after_ext => tr_by @tr_fl_insert_after_ext
  | @lq_ins_n => tr_by @tr_lq_ins_n
  | @lq_ins_ext => tr_by @tr_lq_ins_ext
  end.

Section threads.
  Context {V : Type} (eqb : V → V → bool) (triv : bool).
  Notation A := (Allocator (cell V)).

  Lemma tr_fl_step fuel this other op : Tr 0 2 (λ al : A, keep_this (fl_step eqb) fuel this other op).
  Proof. destruct op; unfold keep_this, fl_step; cbv iota; tr. Qed.
  Lemma tr_fl_reads fuel this other op : forward_reads op → Tr 3 3 (λ al : A, keep_this (fl_step eqb) fuel this other op).
  Proof. destruct op; intros []; unfold keep_this, fl_step; cbv iota; tr. Qed.
  Lemma tr_bl_step fuel this other op : Tr 0 2 (λ al : A, bl_step eqb fuel this other op).
  Proof. destruct op; unfold bl_step; cbv iota; tr. Qed.
  Lemma tr_bl_reads fuel this other op : backward_reads op → Tr 3 3 (λ al : A, bl_step eqb fuel this other op).
  Proof. destruct op; intros []; unfold bl_step; cbv iota; tr. Qed.
  Lemma tr_lq_step fuel this other op : Tr 0 2 (λ al : A, lq_step triv fuel this other op).
  Proof. destruct op; unfold lq_step; cbv iota; tr. Qed.
  Lemma tr_lq_reads fuel this other op : lazy_reads op → Tr 3 3 (λ al : A, lq_step triv fuel this other op).
  Proof. destruct op; intros []; unfold lq_step; cbv iota; tr. Qed.
End threads.

Section correct.
  Context {V : Type} (eqb : V → V → bool) (triv : bool).
  Notation A := (Allocator (cell V)).
  Notation iProp := (bi_car (hpropI (cell V))).

  Definition flR (a : loc) (vs : list V) : iProp := ∃ xs, ⌜xs.*2 = vs⌝ ∧ flist a xs.
  Lemma forward_threads ops0 cs :
    threads_correct (λ al : A, fl_new) (λ al, fl_destroy) (λ al, keep_this (fl_step eqb))
      [] (fl_spec eqb) forward_reads (λ _, True) ops0 cs.
  Proof.
    apply (clients_correct_tr _ _ _ _ _ _ _ flR length).
    - intros al. iStartProof. iApply (wp_wand with "[]"); [by iApply wp_fl_new|]. iIntros (b) "H". iExists []. by iFrame.
    - intros al fuel a s _ Hf. iIntros "H". iDestruct "H" as (xs <-) "H". rewrite fmap_length in Hf.
      by iApply (wp_fl_destroy with "H").
    - intros al fuel this other s o op s' o' out Hs Hf. iIntros "[H Ho]".
      iDestruct "H" as (xs <-) "H". iDestruct "Ho" as (ys <-) "Ho". rewrite !fmap_length in Hf.
      iApply wp_keep_this. iApply (wp_wand with "[H Ho]"); [iApply (wp_fl_step _ _ this other); [done|lia|iFrame]|].
      iIntros ([o1 r]) "[%Hr H]". iDestruct "H" as (xs1 ys1 <- <-) "[H Ho]". iSplit; [done|].
      iSplitL "H"; iExists _; by iFrame.
    - tr.
    - intros. tr.
    - intros. apply tr_fl_step.
    - intros. by apply tr_fl_reads.
  Qed.
  Lemma backward_threads ops0 cs :
    threads_correct (λ al : A, bl_new) (λ al, bl_destroy) (λ al, bl_step eqb)
      [] (bl_spec_ok eqb) backward_reads (λ _, True) ops0 cs.
  Proof.
    apply (clients_correct_tr _ _ _ _ _ _ _ blR length).
    - intros al. iStartProof. iApply (wp_wand with "[]"); [by iApply wp_bl_new|]. iIntros (b) "H". iExists []. by iFrame.
    - intros al fuel a s _ Hf. iIntros "H". iDestruct "H" as (xs <-) "H". rewrite fmap_length in Hf.
      by iApply wp_bl_destroy.
    - intros. by eapply wp_bl_step.
    - tr.
    - intros. tr.
    - intros. apply tr_bl_step.
    - intros. by apply tr_bl_reads.
  Qed.
  Lemma lazy_threads ops0 cs :
    threads_correct (λ al : A, lq_new) (λ al, lq_destroy triv) (λ al, lq_step triv)
      ([], 0) (lq_spec_ok triv) lazy_reads (lq_fin triv) ops0 cs.
  Proof.
    apply (clients_correct_tr _ _ _ _ _ _ _ lqR snd).
    - intros al. apply lq_new_R.
    - intros al fuel a s Hfin Hf. iIntros "H". iDestruct "H" as (xs ds Hxs Hl) "[_ H]".
      iApply (wp_lq_destroy with "H"); [|lia|lia].
      destruct Hfin as [->|Hfin]; [by left|right].
      rewrite -Hxs fmap_length -Hl in Hfin. destruct ds; [done|]. simpl in Hfin. lia.
    - intros. by eapply wp_lq_step.
    - tr.
    - intros. tr.
    - intros. apply tr_lq_step.
    - intros. by apply tr_lq_reads.
  Qed.
End correct.
