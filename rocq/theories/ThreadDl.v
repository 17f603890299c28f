(** Threads using list. Proof file. *)
From Verif Require Export ThreadSpec ClientsLogic.
From Verif Require Import DlistHistory.
From iris.proofmode Require Import tactics.

Section fixpoints.
  Context {V : Type}.
  Lemma tr_it_go s n p : Tr s s (λ al : Allocator (dcell V), it_go n p).
  Proof. revert p. induction n as [|n IH]; intros p; simpl; tr. Qed.
  Lemma tr_dl_insert_n n p r : Tr 1 1 (λ al : Allocator (dcell V), dl_insert_n p n r).
  Proof. revert p. induction n as [|n IH]; intros p; simpl; tr. Qed.
  Lemma tr_dl_insert_ext vs p : Tr 1 1 (λ al : Allocator (dcell V), dl_insert_ext p vs).
  Proof. revert p. induction vs as [|n vs IH]; intros p; simpl; tr. Qed.
End fixpoints.
Ltac tr_hint h ::=
  lazymatch h with
  | @it_go => tr_by @tr_it_go
  | @dl_insert_n => tr_by @tr_dl_insert_n
  | @dl_insert_ext => tr_by @tr_dl_insert_ext
  end.

Section threads.
  Context {V : Type} (eqb : V → V → bool) (rfirst : bool).
  Notation A := (Allocator (dcell V)).

  Lemma tr_dl_step fuel this other op : Tr 0 2 (λ al : A, keep_this (dl_step eqb rfirst) fuel this other op).
  Proof. destruct op; unfold keep_this, dl_step; cbv iota; tr. Qed.
  Lemma tr_dl_reads fuel this other op : list_reads op → Tr 3 3 (λ al : A, keep_this (dl_step eqb rfirst) fuel this other op).
  Proof. destruct op; intros []; unfold keep_this, dl_step; cbv iota; tr. Qed.
  Lemma list_threads ops0 cs :
    threads_correct (λ al : A, dl_new) (λ al, dl_destroy) (λ al, keep_this (dl_step eqb rfirst))
      ([], false) (dl_spec eqb) list_reads (λ _, True) ops0 cs.
  Proof.
    apply (clients_correct_tr _ _ _ _ _ _ _ dlR dneed).
    - intros al. apply wp_dl_new_R.
    - intros al fuel a s _ Hf. by apply wp_dl_destroy_R.
    - intros al fuel this other s o op s' o' out Hs Hf. iIntros "H". iApply wp_keep_this.
      iApply (wp_wand with "[H]"); [iApply (wp_dl_step _ _ _ _ _ _ _ _ _ _ _ Hs Hf with "H")|].
      iIntros ([o1 r]) "H". done.
    - tr.
    - intros. tr.
    - intros. apply tr_dl_step.
    - intros. by apply tr_dl_reads.
  Qed.
End threads.
