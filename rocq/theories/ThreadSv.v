(** Threads using sorted_vector_map. Proof file. *)
From Verif Require Export ThreadSpec ClientsLogic.
From Verif Require Import SvmHistory.
From iris.proofmode Require Import tactics.

Section threads.
  Context {K T : Type} (keq comp : K → K → bool) (dfltT : T) (ulim : nat) (Hord : key_order keq comp).
  Notation A := (Allocator (svcell K T)).

  Lemma tr_sv_step fuel this other op : Tr 0 2 (λ al : A, sv_step keq comp dfltT ulim fuel this other op).
  Proof. clear Hord. destruct op; unfold sv_step; cbv iota; tr. Qed.
  Lemma tr_sv_reads fuel this other op : svm_reads op → Tr 3 3 (λ al : A, sv_step keq comp dfltT ulim fuel this other op).
  Proof. clear Hord. destruct op; intros []; unfold sv_step; cbv iota; tr. Qed.
  Lemma svm_threads ops0 cs :
    threads_correct (λ al : A, sv_new) (λ al, sv_destroy) (λ al, sv_step keq comp dfltT ulim)
      ([], 0) (sv_spec keq comp dfltT ulim) svm_reads (λ _, True) ops0 cs.
  Proof.
    apply (clients_correct_tr _ _ _ _ _ _ _ (svR comp) sneed).
    - intros al. apply svR_new.
    - intros al fuel a s _ Hf. by apply svR_destroy.
    - intros. by eapply svR_step.
    - tr.
    - intros. tr.
    - intros. apply tr_sv_step.
    - intros. by apply tr_sv_reads.
  Qed.
End threads.
