(** From model functions to programs (trees of accesses), mechanically. Proof file. *)
From Coq Require Import ssreflect.
From Verif Require Export ThreadLogic.
Local Open Scope general_if_scope.

Section reify.
  Context {C : Type}.
  Notation heap := (gmap loc C).

  (** Which accesses a program makes: state 0 anything may follow, 1 after an allocation, 2 after
      a later release (no more allocation), 3 reads only. From state [s], at the end at most [t]. *)
  Fixpoint track {A} (s : nat) (p : prog C A) (t : nat) : Prop :=
    match p with
    | PRet _ => s ≤ t
    | PUB _ | PNoFuel => True
    | PLoad _ k => ∀ c, track s (k c) t
    | PModify _ _ k => s ≤ 2 ∧ track s k t
    | PAlloc _ k => s ≤ 1 ∧ ∀ l, track 1 (k l) t
    | PFree _ k => s ≤ 2 ∧ track (if decide (s = 0) then 0 else 2) k t
    end.
  Lemma track_ordered {A} s (p : prog C A) t : track s p t → ordered s p.
  Proof.
    revert s. induction p as [a|u| |l q IH|l f q IH|c q IH|l q IH]; intros s Hp; simpl in *; try done.
    - intros c. by apply IH.
    - apply IH, Hp.
    - split; [apply Hp|]. intros l. apply IH, Hp.
    - apply IH, Hp.
  Qed.
  Lemma track_read_only {A} (p : prog C A) t : track 3 p t → read_only p.
  Proof.
    induction p as [a|u| |l q IH|l f q IH|c q IH|l q IH]; intros Hp; simpl in *; try done; try lia.
    intros c. by apply IH.
  Qed.
  Lemma track_weaken {A} s s' t t' (p : prog C A) : s ≤ s' → t' ≤ t → track s' p t' → track s p t.
  Proof.
    intros Hs Ht. revert s s' Hs. induction p as [a|u| |l q IH|l f q IH|c q IH|l q IH]; intros s s' Hs Hp; simpl in *; try done.
    - lia.
    - intros c. by eapply IH.
    - destruct Hp as [? Hp]. split; [lia|]. by eapply IH.
    - destruct Hp as [? Hp]. split; [lia|]. intros l. by eapply (IH l).
    - destruct Hp as [? Hp]. split; [lia|]. eapply IH; [|exact Hp].
      destruct (decide (s = 0)), (decide (s' = 0)); lia.
  Qed.
  Lemma track_bind {A B} s t u (p : prog C A) (q : A → prog C B) :
    track s p t → (∀ a, track t (q a) u) → track s (pbind p q) u.
  Proof.
    intros Hp Hq. revert s Hp. induction p as [a|e| |l k IH|l f k IH|c k IH|l k IH]; intros s Hp; simpl in *; try done.
    - by eapply track_weaken.
    - intros c. by apply IH.
    - destruct Hp as [? Hp]. split; [lia|]. by apply IH.
    - destruct Hp as [? Hp]. split; [lia|]. intros l. by apply IH.
    - destruct Hp as [? Hp]. split; [lia|]. by apply IH.
  Qed.

  Definition Tr {A} (s t : nat) (m : Allocator C → M heap A) : Type :=
    {p : prog C A | performs m p ∧ track s p t}.

  Lemma tr_weaken {A} s s' t t' (m : Allocator C → M heap A) : Tr s' t' m → s ≤ s' → t' ≤ t → Tr s t m.
  Proof. intros [p [H1 H2]] ??. exists p. split; [done|]. by eapply track_weaken. Qed.
  Lemma tr_ret {A} s t (a : A) : s ≤ t → Tr s t (λ _, ret a).
  Proof. intros ?. exists (PRet a). split; [apply perf_ret|done]. Qed.
  Lemma tr_fail {A} s t u : Tr s t (λ _, fail (A:=A) u).
  Proof. exists (PUB u). split; [apply perf_fail|done]. Qed.
  Lemma tr_nofuel {A} s t : Tr s t (λ _ _, NoFuel (A:=A * heap)).
  Proof. exists PNoFuel. split; [apply perf_nofuel|done]. Qed.
  Lemma tr_load s t l : s ≤ t → Tr s t (λ _, load l).
  Proof. intros ?. exists (PLoad l PRet). split; [apply perf_load|by simpl; intros]. Qed.
  Lemma tr_modify s t l f : s ≤ t → s ≤ 2 → Tr s t (λ _, modify l f).
  Proof. intros ??. exists (PModify l f (PRet tt)). split; [apply perf_modify|by simpl; intros]. Qed.
  Lemma tr_alloc s t c : s ≤ 1 → 1 ≤ t → Tr s t (λ al, @allocate C al c).
  Proof. intros ??. exists (PAlloc c PRet). split; [apply perf_alloc|by simpl; intros]. Qed.
  Lemma tr_free s t l : s ≤ t → s ≤ 2 → (s ≠ 0 → 2 ≤ t) → Tr s t (λ _, deallocate l).
  Proof.
    intros ???. exists (PFree l (PRet tt)). split; [apply perf_free|]. simpl. split; [done|].
    destruct (decide (s = 0)); [lia|auto].
  Qed.
  Lemma tr_bind {A B} s t u (m : Allocator C → M heap A) (k : Allocator C → A → M heap B) :
    Tr s t m → (∀ a, Tr t u (λ al, k al a)) → Tr s u (λ al, bind (m al) (k al)).
  Proof.
    intros [p [H1 H2]] Hk. exists (pbind p (λ a, proj1_sig (Hk a))). split.
    - apply perf_bind; [done|]. intros a. apply (proj2_sig (Hk a)).
    - eapply track_bind; [done|]. intros a. apply (proj2_sig (Hk a)).
  Qed.
  Lemma tr_loop {A B} s t n (b : Allocator C → A → M heap (A + B)) a :
    (∀ a, Tr s s (λ al, b al a)) → s ≤ t → Tr s t (λ al, loop n (b al) a).
  Proof.
    intros Hb Hst. apply (tr_weaken s s t s); [|done|exact Hst]. clear Hst. revert a. induction n as [|n IH]; intros a.
    - apply tr_nofuel.
    - apply (tr_bind s s s (λ al, b al a) (λ al r, match r with inl a' => loop n (b al) a' | inr b' => ret b' end)).
      + apply Hb.
      + intros [a'|b']; [apply IH|by apply tr_ret].
  Qed.
End reify.

Ltac term_head t := lazymatch t with ?f _ => term_head f | _ => t end.
(** functions with a lemma of their own: extended in later files *)
Ltac tr_hint h := fail.
Ltac tr_side := solve [assumption | lia].
Ltac tr_by L := first [ apply L; tr_side | eapply tr_weaken; [eapply L; tr_side|tr_side|tr_side] ].
Ltac tr_ih :=
  match goal with
  | IH : ∀ _, Tr _ _ _ |- _ => tr_by IH
  | IH : ∀ _ _, Tr _ _ _ |- _ => tr_by IH
  | IH : ∀ _ _ _, Tr _ _ _ |- _ => tr_by IH
  | IH : Tr _ _ _ |- _ => tr_by IH
  end.
Ltac tr_unfold :=
  lazymatch goal with |- Tr _ _ ?m =>
    let C := lazymatch type of m with Allocator ?C → _ => C end in
    let b := eval cbv beta in (m (bump_allocator C)) in
    let h := term_head b in
    first [ tr_hint h | tr_ih | unfold h ]
  end.
Ltac tr :=
  cbv beta zeta;
  lazymatch goal with
  | |- Tr ?s ?u (fun al => bind (@?m al) (@?k al)) =>
      first [ refine (tr_bind s s u m k _ _); [solve [tr]|intros ?]
            | refine (tr_bind s 1 u m k _ _); [solve [tr]|intros ?]
            | refine (tr_bind s 2 u m k _ _); [solve [tr]|intros ?] ]; tr
  | |- Tr _ _ (fun al => ret _) => apply tr_ret; tr_side
  | |- Tr _ _ (fun al => fail _) => apply tr_fail
  | |- Tr _ _ (fun al => load _) => apply tr_load; tr_side
  | |- Tr _ _ (fun al => modify _ _) => apply tr_modify; tr_side
  | |- Tr _ _ (fun al => allocate _) => apply tr_alloc; tr_side
  | |- Tr _ _ (fun al => deallocate _) => apply tr_free; tr_side
  | |- Tr ?s ?t (fun al => loop ?n (@?b al) ?a) =>
      first [ refine (tr_loop s t n b a _ _); [intros ?; solve [tr]|tr_side]
            | eapply (tr_weaken s 1 t 1); [refine (tr_loop 1 1 n b a _ _); [intros ?; solve [tr]|tr_side]|tr_side|tr_side]
            | eapply (tr_weaken s 2 t 2); [refine (tr_loop 2 2 n b a _ _); [intros ?; solve [tr]|tr_side]|tr_side|tr_side] ]
  | |- Tr _ _ (fun al => match ?x with _ => _ end) => destruct x; tr
  | |- Tr _ _ (fun al h => NoFuel) => apply tr_nofuel
  | |- Tr _ _ _ => tr_unfold; try tr
  end.
