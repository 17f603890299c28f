(** The number of memory accesses, continued: calls that pay for their accesses with the cells they
    free or create (recursive destruction and copying of trees), and lower bounds. Proof file. *)
From Coq Require Import ssreflect.
From Verif Require Export CostLogic.
Local Open Scope general_if_scope.

Section net.
  Context {C : Type}.
  Notation heap := (gmap loc C).

  (** every path that returns makes at most [n] accesses after [w] for each freed cell are subtracted
      and [w] for each new cell are added *)
  Fixpoint net {A} (w s n : Z) (p : prog C A) : Prop :=
    match p with
    | PRet a => (s ≤ n)%Z
    | PUB _ | PNoFuel => True
    | PLoad _ k => ∀ c, net w (s + 1) n (k c)
    | PModify _ _ k => net w (s + 1) n k
    | PAlloc _ k => ∀ l, net w (s + 1 + w) n (k l)
    | PFree _ k => net w (s + 1 - w) n k
    end.
  Lemma net_le {A} w s s' n n' (p : prog C A) : net w s n p → (s' - s ≤ n' - n)%Z → net w s' n' p.
  Proof.
    revert s s'. induction p as [a|u| |l q IH|l f q IH|c q IH|l q IH]; intros s s' Hp Hs; simpl in *; try done.
    - lia.
    - intros c. apply (IH c (s + 1)%Z); [done|lia].
    - apply (IH (s + 1)%Z); [done|lia].
    - intros l. apply (IH l (s + 1 + w)%Z); [done|lia].
    - apply (IH (s + 1 - w)%Z); [done|lia].
  Qed.
  Lemma net_bind {A B} w s n n' (p : prog C A) (q : A → prog C B) :
    net w s n p → (∀ a, net w n n' (q a)) → net w s n' (pbind p q).
  Proof.
    intros Hp Hq. revert s Hp. induction p as [a|u| |l k IH|l f k IH|c k IH|l k IH]; intros s Hp; simpl in *; try done; auto.
    eapply net_le; [apply Hq|lia].
  Qed.
  Lemma net_accesses {A} al w s n (p : prog C A) h a h' : net w s n p → interp al p h = Ok (a, h') →
    (s + Z.of_nat (accesses al p h) - w * (Z.of_nat (size h) - Z.of_nat (size h')) ≤ n)%Z.
  Proof.
    revert s h. induction p as [b|u| |l q IH|l f q IH|c q IH|l q IH]; intros s h Hp Hi; simpl in *; try done.
    - simplify_eq. lia.
    - destruct (h !! l) as [c|] eqn:E; [|done]. specialize (IH c _ _ (Hp c) Hi). lia.
    - destruct (h !! l) as [c|] eqn:E; [|done]. specialize (IH _ _ Hp Hi).
      rewrite map_size_insert_Some // in IH. lia.
    - specialize (IH _ _ _ (Hp _) Hi). rewrite map_size_insert_None in IH; [apply alloc_addr_fresh|]. rewrite Nat2Z.inj_succ in IH. lia.
    - destruct (h !! l) as [c|] eqn:E; [|done]. specialize (IH _ _ Hp Hi).
      assert (size h ≠ 0) as Hne.
      { intros H0. apply map_size_empty_iff in H0. subst h. by rewrite lookup_empty in E. }
      rewrite map_size_delete_Some // in IH. destruct (size h) as [|j]; [done|]. cbn [pred] in IH.
      rewrite Nat2Z.inj_succ. lia.
  Qed.
  Lemma accesses_bind {A B} al (p : prog C A) (q : A → prog C B) h a h' : interp al p h = Ok (a, h') →
    accesses al (pbind p q) h = accesses al p h + accesses al (q a) h'.
  Proof.
    revert h. induction p as [b|u| |l k IH|l f k IH|c k IH|l k IH]; intros h Hi; simpl in *; try done.
    - by simplify_eq.
    - destruct (h !! l); [|done]. f_equal. by apply IH.
    - destruct (h !! l); [|done]. f_equal. by apply IH.
    - f_equal. by apply IH.
    - destruct (h !! l); [|done]. f_equal. by apply IH.
  Qed.

  Definition Nt {A} (w n : Z) (m : Allocator C → M heap A) : Type := {p : prog C A | performs m p ∧ net w 0 n p}.
  Lemma nt_le {A} w n n' (m : Allocator C → M heap A) : Nt w n m → (n ≤ n')%Z → Nt w n' m.
  Proof. intros [p [??]] ?. exists p. split; [done|]. eapply net_le; [done|lia]. Qed.
  Lemma nt_max_l {A} w n n' (m : Allocator C → M heap A) : Nt w n m → Nt w (n `max` n') m.
  Proof. intros. eapply nt_le; [done|lia]. Qed.
  Lemma nt_max_r {A} w n n' (m : Allocator C → M heap A) : Nt w n' m → Nt w (n `max` n') m.
  Proof. intros. eapply nt_le; [done|lia]. Qed.
  Lemma nt_ret {A} w (a : A) : Nt w 0 (λ _, ret a).
  Proof. exists (PRet a). split; [apply perf_ret|]. simpl. lia. Qed.
  Lemma nt_fail {A} w n u : Nt w n (λ _, fail (A:=A) u).
  Proof. exists (PUB u). split; [apply perf_fail|done]. Qed.
  Lemma nt_load w l : Nt w 1 (λ _, load l).
  Proof. exists (PLoad l PRet). split; [apply perf_load|]. simpl. lia. Qed.
  Lemma nt_modify w l g : Nt w 1 (λ _, modify l g).
  Proof. exists (PModify l g (PRet tt)). split; [apply perf_modify|]. simpl. lia. Qed.
  Lemma nt_alloc w c : Nt w (1 + w) (λ al, @allocate C al c).
  Proof. exists (PAlloc c PRet). split; [apply perf_alloc|]. simpl. lia. Qed.
  Lemma nt_free w l : Nt w (1 - w) (λ _, deallocate l).
  Proof. exists (PFree l (PRet tt)). split; [apply perf_free|]. simpl. lia. Qed.
  Lemma nt_bind {A B} w n n' (m : Allocator C → M heap A) (k : Allocator C → A → M heap B) :
    Nt w n m → (∀ a, Nt w n' (λ al, k al a)) → Nt w (n + n') (λ al, bind (m al) (k al)).
  Proof.
    intros [p (H1&H2)] Hk. exists (pbind p (λ a, proj1_sig (Hk a))). split.
    - apply perf_bind; [done|]. intros a. apply (proj2_sig (Hk a)).
    - eapply net_bind; [done|]. intros a. eapply net_le; [apply (proj2_sig (Hk a))|lia].
  Qed.
  (** a call with a net cost and a triple *)
  Lemma takes_net {A} w n (k : Z) (P : heap → Prop) (m : Allocator C → M heap A) (Q : A → heap → Prop) :
    Nt w k m → (∀ al, runs P (m al) Q) →
    (∀ h a h', P h → Q a h' → (k + w * (Z.of_nat (size h) - Z.of_nat (size h')) ≤ Z.of_nat n)%Z) → takes_at_most n P m.
  Proof.
    intros [p (H1&H2)] Hr Hn. exists p. split; [done|]. intros al h hf Hh Hd.
    destruct (Hr al h hf Hh Hd) as (a&h'&Hm&Hd'&Hq). exists a, (h' ∪ hf). split; [done|].
    rewrite (performs_interp _ _ H1) in Hm. pose proof (net_accesses al w 0 k p _ _ _ H2 Hm) as Hle.
    rewrite !map_size_disj_union // in Hle. specialize (Hn _ _ _ Hh Hq). lia.
  Qed.

  (** lower bounds: every path that returns makes at least [n] accesses, and its result has [φ] *)
  Fixpoint lowb {A} (n : nat) (φ : A → Prop) (p : prog C A) : Prop :=
    match p with
    | PRet a => n = 0 ∧ φ a
    | PUB _ | PNoFuel => True
    | PLoad _ k => ∀ c, lowb (pred n) φ (k c)
    | PModify _ _ k => lowb (pred n) φ k
    | PAlloc _ k => ∀ l, lowb (pred n) φ (k l)
    | PFree _ k => lowb (pred n) φ k
    end.
  Lemma lowb_le {A} n n' (φ : A → Prop) (p : prog C A) : lowb n φ p → n' ≤ n → lowb n' φ p.
  Proof.
    revert n n'. induction p as [b|u| |l k IH|l f k IH|c k IH|l k IH]; intros n n' Hp Hn; simpl in *; try done.
    - destruct Hp. split; [lia|done].
    - intros c. apply (IH c (pred n)); [done|lia].
    - apply (IH (pred n)); [done|lia].
    - intros l. apply (IH l (pred n)); [done|lia].
    - apply (IH (pred n)); [done|lia].
  Qed.
  Lemma lowb_bind {A B} n n' (φ : A → Prop) (ψ : B → Prop) (p : prog C A) (q : A → prog C B) :
    lowb n φ p → (∀ a, φ a → lowb n' ψ (q a)) → lowb (n + n') ψ (pbind p q).
  Proof.
    intros Hp Hq. assert (∀ j, j ≤ n + n' → lowb j ψ (pbind p q)) as H; [|by apply H]. revert n Hp.
    induction p as [b|u| |l k IH|l f k IH|c k IH|l k IH]; intros n Hp j Hj; simpl in *; try done.
    - destruct Hp as [-> Hb]. eapply lowb_le; [by apply Hq|lia].
    - intros c. destruct n; [apply (IH c 0)|apply (IH c n)]; [apply Hp|lia|apply Hp|lia].
    - destruct n; [apply (IH 0)|apply (IH n)]; [apply Hp|lia|apply Hp|lia].
    - intros l. destruct n; [apply (IH l 0)|apply (IH l n)]; [apply Hp|lia|apply Hp|lia].
    - destruct n; [apply (IH 0)|apply (IH n)]; [apply Hp|lia|apply Hp|lia].
  Qed.
  Lemma lowb_accesses {A} al n φ (p : prog C A) h a h' : lowb n φ p → interp al p h = Ok (a, h') → n ≤ accesses al p h.
  Proof.
    revert n h. induction p as [b|u| |l q IH|l f q IH|c q IH|l q IH]; intros n h Hp Hi; simpl in *; try done.
    - lia.
    - destruct (h !! l) as [c|] eqn:E; [|done]. specialize (IH c _ _ (Hp c) Hi). lia.
    - destruct (h !! l) as [c|] eqn:E; [|done]. specialize (IH _ _ Hp Hi). lia.
    - specialize (IH _ _ _ (Hp _) Hi). lia.
    - destruct (h !! l) as [c|] eqn:E; [|done]. specialize (IH _ _ Hp Hi). lia.
  Qed.
  Definition Lb {A} (n : nat) (φ : A → Prop) (m : Allocator C → M heap A) : Type := {p : prog C A | performs m p ∧ lowb n φ p}.
  (** [b]: whether the lower bound is claimed (the program exists anyway) *)
  Definition Lc {A} (b : Prop) (n : nat) (φ : A → Prop) (m : Allocator C → M heap A) : Type :=
    {p : prog C A | performs m p ∧ (b → lowb n φ p)}.
  Lemma lc_bind {A B} (b : Prop) n n' (φ : A → Prop) (ψ : B → Prop) (m : Allocator C → M heap A) (k : Allocator C → A → M heap B) :
    Lc b n φ m → (∀ a, Lc (b ∧ φ a) n' ψ (λ al, k al a)) → Lc b (n + n') ψ (λ al, bind (m al) (k al)).
  Proof.
    intros [p (H1&H2)] Hk. exists (pbind p (λ a, proj1_sig (Hk a))). split.
    - apply perf_bind; [done|]. intros a. apply (proj2_sig (Hk a)).
    - intros Hb. eapply lowb_bind; [by apply H2|]. intros a Ha. apply (proj2_sig (Hk a)). done.
  Qed.
  Lemma lc_le {A} (b b' : Prop) n n' (φ ψ : A → Prop) (m : Allocator C → M heap A) :
    Lc b n φ m → (b' → b) → (b' → n' ≤ n) → (∀ a, φ a → ψ a) → Lc b' n' ψ m.
  Proof.
    intros [p (H1&H2)] Hb Hn Hw. exists p. split; [done|]. intros Hb'. eapply lowb_le; [|by apply Hn].
    specialize (H2 (Hb Hb')). clear -H2 Hw. revert n H2.
    induction p as [b2|u| |l k IH|l f k IH|c k IH|l k IH]; intros n H2; simpl in *; try done; eauto.
    destruct H2. auto.
  Qed.
  Lemma lc_ret {A} (b : Prop) (φ : A → Prop) a : (b → φ a) → Lc b 0 φ (λ _, ret a).
  Proof. intros Ha. exists (PRet a). split; [apply perf_ret|]. simpl. auto. Qed.
  Lemma lc_nofuel {A} (b : Prop) n (φ : A → Prop) : Lc b n φ (λ _ _, NoFuel (A:=A * heap)).
  Proof. exists PNoFuel. split; [apply perf_nofuel|done]. Qed.
  Lemma lc_load (b : Prop) l : Lc b 1 (λ _, True) (λ _, load l).
  Proof. exists (PLoad l PRet). split; [apply perf_load|]. simpl. done. Qed.
  Lemma lc_0 {A} (b : Prop) F f n (m : nat → Allocator C → M heap A) : Tk F f n m → Lc b 0 (λ _, True) (m f).
  Proof.
    intros [[p q] (?&H2&_)]. exists q. split; [done|]. intros _. simpl in *. clear.
    induction q; simpl in *; auto.
  Qed.
  Lemma lk_min_l {A} (b : Prop) n n' (m : Allocator C → M heap A) : Lc b n (λ _, True) m → Lc b (n `min` n') (λ _, True) m.
  Proof. intros. eapply lc_le; [done|done|lia|done]. Qed.
  Lemma lk_min_r {A} (b : Prop) n n' (m : Allocator C → M heap A) : Lc b n' (λ _, True) m → Lc b (n `min` n') (λ _, True) m.
  Proof. intros. eapply lc_le; [done|done|lia|done]. Qed.
  Lemma lk_bind {A B} (b : Prop) n n' (m : Allocator C → M heap A) (k : Allocator C → A → M heap B) :
    Lc b n (λ _, True) m → (∀ a, Lc b n' (λ _, True) (λ al, k al a)) → Lc b (n + n') (λ _, True) (λ al, bind (m al) (k al)).
  Proof. intros Hm Hk. eapply lc_bind; [done|]. intros a. eapply lc_le; [apply Hk|by intros [? _]|done|done]. Qed.
  Lemma lk_fail {A} (b : Prop) n (φ : A → Prop) u : Lc b n φ (λ _, fail u).
  Proof. exists (PUB u). split; [apply perf_fail|done]. Qed.
  Lemma lk_modify (b : Prop) l g : Lc b 1 (λ _, True) (λ _, modify l g).
  Proof. exists (PModify l g (PRet tt)). split; [apply perf_modify|]. simpl. done. Qed.
  Lemma lk_alloc (b : Prop) c : Lc b 1 (λ _, True) (λ al, @allocate C al c).
  Proof. exists (PAlloc c PRet). split; [apply perf_alloc|]. simpl. done. Qed.
  Lemma lk_free (b : Prop) l : Lc b 1 (λ _, True) (λ _, deallocate l).
  Proof. exists (PFree l (PRet tt)). split; [apply perf_free|]. simpl. done. Qed.
End net.

(** [nt]: proves [Nt w ?n m] for code without loops *)
Ltac nt_hint h := fail.
Ltac nt :=
  cbv beta iota zeta;
  lazymatch goal with
  | |- Nt ?w _ (fun al => bind (@?m al) (@?k al)) => eapply (nt_bind w _ _ m k); [nt|intros ?; nt]
  | |- Nt _ _ (fun al => ret _) => apply nt_ret
  | |- Nt ?w _ (fun al => fail _) => apply (nt_fail w 0)
  | |- Nt _ _ (fun al => load _) => apply nt_load
  | |- Nt _ _ (fun al => modify _ _) => apply nt_modify
  | |- Nt _ _ (fun al => allocate _) => apply nt_alloc
  | |- Nt _ _ (fun al => deallocate _) => apply nt_free
  | |- Nt _ _ (fun al => match ?x with _ => _ end) =>
      tryif (assert_succeeds (destruct x; [])) then (destruct x; nt)
      else first
        [ destruct x; [|apply nt_fail]; nt | destruct x; [apply nt_fail|]; nt
        | refine (_ : Nt _ (_ `max` _)%Z _); destruct x; [apply nt_max_l; nt|apply nt_max_r; nt] ]
  | |- Nt _ _ ?m =>
      let C := lazymatch type of m with Allocator ?C → _ => C end in
      let b := eval cbv beta in (m (bump_allocator C)) in
      let h := term_head b in tryif nt_hint h then idtac else (unfold h; nt)
  end.

(** [lk]: proves [Lc b ?n (λ _, True) m] *)
Ltac lk_hint h := fail.
Ltac lk :=
  cbv beta iota zeta;
  lazymatch goal with
  | |- Lc ?b _ _ (fun al => bind (@?m al) (@?k al)) => eapply (lk_bind b _ _ m k); [lk|intros ?; lk]
  | |- Lc _ _ _ (fun al => ret _) => apply lc_ret; done
  | |- Lc _ _ _ (fun al => fail _) => apply (lk_fail _ 0)
  | |- Lc _ _ _ (fun al => load _) => apply lc_load
  | |- Lc _ _ _ (fun al => modify _ _) => apply lk_modify
  | |- Lc _ _ _ (fun al => allocate _) => apply lk_alloc
  | |- Lc _ _ _ (fun al => deallocate _) => apply lk_free
  | |- Lc _ _ _ (fun al => match ?x with _ => _ end) =>
      tryif (assert_succeeds (destruct x; [])) then (destruct x; lk)
      else first
        [ destruct x; [|apply lk_fail]; lk | destruct x; [apply lk_fail|]; lk
        | refine (_ : Lc _ (_ `min` _) _ _); destruct x; [apply lk_min_l; lk|apply lk_min_r; lk] ]
  | |- Lc _ _ _ ?m =>
      let C := lazymatch type of m with Allocator ?C → _ => C end in
      let b := eval cbv beta in (m (bump_allocator C)) in
      let h := term_head b in tryif lk_hint h then idtac else (unfold h; lk)
  end.
