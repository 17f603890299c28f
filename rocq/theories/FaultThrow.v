(** Running out of memory: executions that do throw. Proof file. *)
From Verif Require Export FaultLogic.
From iris.proofmode Require Import tactics.

Section th.
  Context {C : Type}.
  Notation heap := (gmap loc C).
  Notation iProp := (bi_car (hpropI C)).

  Lemma pstep_bind {A B} h (p : prog C A) h' p' (k : A → prog C B) :
    pstep h p h' p' → pstep h (pbind p k) h' (pbind p' k).
  Proof.
    destruct 1 as [h l q c Hl|h l f q c Hl|h c q l Hl|h l q c Hl]; simpl.
    - by apply (ps_load h l (λ c, pbind (q c) k)).
    - by eapply ps_modify.
    - by apply (ps_alloc h c (λ l, pbind (q l) k)).
    - by eapply ps_free.
  Qed.
  Lemma psteps_bind {A B} h (p : prog C A) h' p' (k : A → prog C B) :
    psteps h p h' p' → psteps h (pbind p k) h' (pbind p' k).
  Proof.
    unfold psteps. intros Hr. remember (h, p) as c eqn:Ec. remember (h', p') as c' eqn:Ec'.
    revert h p Ec. induction Hr as [c|c [h1 p1] c' Hs Hr IH]; intros h p ->.
    - simplify_eq. done.
    - eapply rtc_l; [|by eapply IH]. apply pstep_bind. exact Hs.
  Qed.
  Lemma at_new_bind {A B} (p : prog C A) (k : A → prog C B) : at_new p → at_new (pbind p k).
  Proof. intros (c&q&->). simpl. by eexists _, _. Qed.
  Lemma xsafe_run {A} (p : prog C A) h Q X : xsafe p h Q X → ∃ a h', psteps h p h' (PRet a) ∧ Q a h'.
  Proof.
    revert h. induction p as [a|u| |l q IH|l f q IH|c q IH|l q IH]; intros h Hp; simpl in *; try done.
    - exists a, h. split; [apply rtc_refl|done].
    - destruct Hp as (c&Hl&Hp). destruct (IH c h Hp) as (a&h'&Hr&HQ). exists a, h'. split; [|done].
      eapply rtc_l; [|exact Hr]. exact (ps_load h l q c Hl).
    - destruct Hp as (c&Hl&Hp). destruct (IH _ Hp) as (a&h'&Hr&HQ). exists a, h'. split; [|done].
      eapply rtc_l; [|exact Hr]. exact (ps_modify h l f q c Hl).
    - destruct Hp as (_&Hp). pose proof (bump_addr_fresh h) as Hfr. destruct (IH _ _ (Hp _ Hfr)) as (a&h'&Hr&HQ). exists a, h'. split; [|done].
      eapply rtc_l; [|exact Hr]. exact (ps_alloc h c q _ Hfr).
    - destruct Hp as (c&Hl&Hp). destruct (IH _ Hp) as (a&h'&Hr&HQ). exists a, h'. split; [|done].
      eapply rtc_l; [|exact Hr]. exact (ps_free h l q c Hl).
  Qed.

  Definition Th {A} (m : Allocator C → M heap A) (P X : iProp) : Type :=
    {p : prog C A | performs m p ∧ ∀ h, hholds P h → ∃ h1 p', psteps h p h1 p' ∧ at_new p' ∧ hholds X h1}.
  Lemma th_alloc c P : Th (λ al, @allocate C al c) P P.
  Proof. exists (PAlloc c PRet). split; [apply perf_alloc|]. intros h Hh. exists h, (PAlloc c PRet). split; [apply rtc_refl|]. split; [by eexists _, _|done]. Qed.
  Lemma th_now {A B} s t (m : Allocator C → M heap A) (k : Allocator C → A → M heap B) P X :
    Th m P X → (∀ a, Tr s t (λ al, k al a)) → Th (λ al, let! a := m al in k al a) P X.
  Proof.
    intros [p [Hp Hw]] Hk. exists (pbind p (λ a, proj1_sig (Hk a))). split.
    { apply (perf_bind _ _ m k); [done|]. intros a. apply (proj2_sig (Hk a)). }
    intros h Hh. destruct (Hw h Hh) as (h1&p'&Hr&Ha&HX). exists h1, (pbind p' (λ a, proj1_sig (Hk a))).
    split; [by apply psteps_bind|]. split; [by apply at_new_bind|done].
  Qed.
  Lemma th_after {A B} (m : Allocator C → M heap A) (k : Allocator C → A → M heap B) P Q T X :
    Xp m (λ _ : unit, True) (λ _, P) (λ _, Q) (λ _, T) → (∀ a, Th (λ al, k al a) (Q a) X) →
    Th (λ al, let! a := m al in k al a) P X.
  Proof.
    intros [p [Hp Hw]] Hk. exists (pbind p (λ a, proj1_sig (Hk a))). split.
    { apply (perf_bind _ _ m k); [done|]. intros a. apply (proj2_sig (Hk a)). }
    intros h Hh. destruct (xsafe_run _ _ _ _ (hentails _ _ (Hw tt I) h Hh)) as (a&h1&Hr&HQ).
    destruct (proj2 (proj2_sig (Hk a)) h1 HQ) as (h2&p'&Hr2&Ha&HX). exists h2, p'. split; [|done].
    eapply rtc_transitive; [exact (psteps_bind _ _ _ _ (λ a, proj1_sig (Hk a)) Hr)|exact Hr2].
  Qed.
  Lemma th_conseq {A} (m : Allocator C → M heap A) P X P' X' : Th m P' X' → (P ⊢ P') → (X' ⊢ X) → Th m P X.
  Proof.
    intros [p [Hp Hw]] HP HX. exists p. split; [done|]. intros h Hh. destruct (Hw h (hentails _ _ HP h Hh)) as (h1&p'&?&?&H).
    exists h1, p'. split; [done|]. split; [done|]. by apply (hentails _ _ HX).
  Qed.
  Lemma th_absurd {A} s t (m : Allocator C → M heap A) P X : Tr s t m → (P ⊢ False) → Th m P X.
  Proof. intros [p [Hp _]] HP. exists p. split; [done|]. intros h Hh. apply (hentails _ _ HP) in Hh. by apply hpure_unfold in Hh. Qed.
  Lemma th_pure {A} (φ : Prop) (m : Allocator C → M heap A) P X : Th m P X → Th m (⌜φ⌝ ∧ P)%I (⌜φ⌝ ∧ X)%I.
  Proof.
    intros [p [Hp Hw]]. exists p. split; [done|]. intros h Hh. apply hand_unfold in Hh as [Hφ Hh]. apply hpure_unfold in Hφ.
    destruct (Hw h Hh) as (h1&p'&?&?&H). exists h1, p'. split; [done|]. split; [done|]. apply hand_unfold. split; [by apply hpure_unfold|done].
  Qed.
  Lemma can_throw_plain {A} (m : Allocator C → M heap A) (P' T' : heap → Prop) :
    Th m (Sep.plain P') (Sep.plain T') → can_throw P' m T'.
  Proof. intros [p [Hp Hw]]. exists p. split; [done|]. intros h Hh. destruct (Hw h Hh) as (h1&p'&?&?&?). eauto 10. Qed.
  (** the precondition with existential parameters *)
  Lemma can_throw_of {A} (m : Allocator C → M heap A) (P' T' : heap → Prop) (P : iProp) (T : iProp) :
    Th m P T → (∀ h, P' h → hholds P h) → (∀ h, hholds T h → T' h) → can_throw P' m T'.
  Proof.
    intros [p [Hp Hw]] HP HT. exists p. split; [done|]. intros h Hh. destruct (Hw h (HP h Hh)) as (h1&p'&?&?&?). eauto 10.
  Qed.
End th.
