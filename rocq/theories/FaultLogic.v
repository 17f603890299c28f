(** Running out of memory: the logic. Proof file. *)
From Verif Require Export Fault ClientsLogic.
From iris.proofmode Require Import tactics.

Section cl.
  Context {C : Type}.
  Notation heap := (gmap loc C).

  (** Which accesses a program makes: state 0 nothing has been changed, 1 something may have been
      changed (and then nothing is allocated any more). *)
  Fixpoint cl {A} (s : nat) (p : prog C A) (t : nat) : Prop :=
    match p with
    | PRet _ => s ≤ t
    | PUB _ | PNoFuel => True
    | PLoad _ k => ∀ c, cl s (k c) t
    | PModify _ _ k => cl 1 k t
    | PAlloc _ k => s = 0 ∧ ∀ l, cl 1 (k l) t
    | PFree _ k => cl 1 k t
    end.
  Lemma cl_weaken {A} s s' t t' (p : prog C A) : s ≤ s' → t' ≤ t → cl s' p t' → cl s p t.
  Proof.
    intros Hs Ht. revert s s' Hs. induction p as [a|u| |l q IH|l f q IH|c q IH|l q IH]; intros s s' Hs Hp; simpl in *; try done.
    - lia.
    - intros c. by eapply IH.
    - by eapply IH.
    - destruct Hp as [-> Hp]. split; [lia|]. intros l. by eapply (IH l).
    - by eapply IH.
  Qed.
  Lemma cl_bind {A B} s t u (p : prog C A) (q : A → prog C B) :
    s ≤ 1 → cl s p t → (∀ a, cl t (q a) u) → cl s (pbind p q) u.
  Proof.
    intros Hs Hp Hq. revert s Hs Hp. induction p as [a|e| |l k IH|l f k IH|c k IH|l k IH]; intros s Hs Hp; simpl in *; try done.
    - by eapply cl_weaken.
    - intros c. by apply IH.
    - apply IH; [lia|done].
    - destruct Hp as [? Hp]. split; [done|]. intros l. apply IH; [lia|done].
    - apply IH; [lia|done].
  Qed.
  Lemma cl_ordered {A} s (p : prog C A) t : s ≤ 1 → cl s p t → ordered (if decide (s = 0) then 0 else 2) p.
  Proof.
    revert s. induction p as [a|u| |l q IH|l f q IH|c q IH|l q IH]; intros s Hs Hp; simpl in *; try done.
    - intros c. by apply IH.
    - pose proof (IH 1 ltac:(lia) Hp) as HH. simpl in HH. eapply ordered_mono; [|exact HH]. case_decide; lia.
    - destruct Hp as [-> Hp]. split; [simpl; lia|]. intros l.
      pose proof (IH l 1 ltac:(lia) (Hp l)) as HH. simpl in HH. eapply ordered_mono; [|exact HH]. lia.
    - pose proof (IH 1 ltac:(lia) Hp) as HH. simpl in HH. eapply ordered_mono; [|exact HH]. repeat case_decide; lia.
  Qed.

  Definition Cl {A} (s t : nat) (m : Allocator C → M heap A) : Type :=
    {p : prog C A | performs m p ∧ s ≤ 1 ∧ cl s p t}.
  Lemma cw_weaken {A} s s' t t' (m : Allocator C → M heap A) : Cl s' t' m → s ≤ s' → t' ≤ t → Cl s t m.
  Proof. intros [p (H1&H2&H3)] ??. exists p. split_and!; [done|lia|]. by eapply cl_weaken. Qed.
  Lemma cw_ret {A} s t (a : A) : s ≤ t → s ≤ 1 → Cl s t (λ _, ret a).
  Proof. intros ??. exists (PRet a). split_and!; [apply perf_ret|done|done]. Qed.
  Lemma cw_fail {A} s t u : s ≤ 1 → Cl s t (λ _, fail (A:=A) u).
  Proof. intros. exists (PUB u). split_and!; [apply perf_fail|done|done]. Qed.
  Lemma cw_nofuel {A} s t : s ≤ 1 → Cl s t (λ _ _, NoFuel (A:=A * heap)).
  Proof. intros. exists PNoFuel. split_and!; [apply perf_nofuel|done|done]. Qed.
  Lemma cw_load s t l : s ≤ t → s ≤ 1 → Cl s t (λ _, load l).
  Proof. intros ??. exists (PLoad l PRet). split_and!; [apply perf_load|done|by simpl; intros]. Qed.
  Lemma cw_modify s t l f : s ≤ 1 → 1 ≤ t → Cl s t (λ _, modify l f).
  Proof. intros ??. exists (PModify l f (PRet tt)). split_and!; [apply perf_modify|done|by simpl; intros]. Qed.
  Lemma cw_alloc s t c : s = 0 → 1 ≤ t → Cl s t (λ al, @allocate C al c).
  Proof. intros ??. exists (PAlloc c PRet). split_and!; [apply perf_alloc|lia|by simpl; intros]. Qed.
  Lemma cw_free s t l : s ≤ 1 → 1 ≤ t → Cl s t (λ _, deallocate l).
  Proof. intros ??. exists (PFree l (PRet tt)). split_and!; [apply perf_free|done|by simpl; intros]. Qed.
  Lemma cw_bind {A B} s t u (m : Allocator C → M heap A) (k : Allocator C → A → M heap B) :
    Cl s t m → (∀ a, Cl t u (λ al, k al a)) → Cl s u (λ al, bind (m al) (k al)).
  Proof.
    intros [p (H1&H2&H3)] Hk. exists (pbind p (λ a, proj1_sig (Hk a))). split_and!; [|done|].
    - apply perf_bind; [done|]. intros a. apply (proj2_sig (Hk a)).
    - eapply cl_bind; [done|done|]. intros a. apply (proj2_sig (Hk a)).
  Qed.
  Lemma cw_loop {A B} s t n (b : Allocator C → A → M heap (A + B)) a :
    (∀ a, Cl s s (λ al, b al a)) → s ≤ t → s ≤ 1 → Cl s t (λ al, loop n (b al) a).
  Proof.
    intros Hb Hst Hs. apply (cw_weaken s s t s); [|done|exact Hst]. clear Hst. revert a. induction n as [|n IH]; intros a.
    - by apply cw_nofuel.
    - apply (cw_bind s s s (λ al, b al a) (λ al r, match r with inl a' => loop n (b al) a' | inr b' => ret b' end)).
      + apply Hb.
      + intros [a'|b']; [apply IH|by apply cw_ret].
  Qed.
End cl.

Ltac cw_hint h := fail.
Ltac cw_by L := first [ apply L; tr_side | eapply cw_weaken; [eapply L; tr_side|tr_side|tr_side] ].
Ltac cw_ih :=
  match goal with
  | IH : ∀ _, Cl _ _ _ |- _ => cw_by IH
  | IH : ∀ _ _, Cl _ _ _ |- _ => cw_by IH
  | IH : ∀ _ _ _, Cl _ _ _ |- _ => cw_by IH
  | IH : Cl _ _ _ |- _ => cw_by IH
  end.
Ltac cw_unfold :=
  lazymatch goal with |- Cl _ _ ?m =>
    let C := lazymatch type of m with Allocator ?C → _ => C end in
    let b := eval cbv beta in (m (bump_allocator C)) in
    let h := term_head b in
    first [ cw_hint h | cw_ih | unfold h ]
  end.
Ltac cw :=
  cbv beta zeta;
  lazymatch goal with
  | |- Cl ?s ?u (fun al => bind (@?m al) (@?k al)) =>
      first [ refine (cw_bind s s u m k _ _); [solve [cw]|intros ?]
            | refine (cw_bind s 1 u m k _ _); [solve [cw]|intros ?] ]; cw
  | |- Cl _ _ (fun al => ret _) => apply cw_ret; tr_side
  | |- Cl _ _ (fun al => fail _) => apply cw_fail; tr_side
  | |- Cl _ _ (fun al => load _) => apply cw_load; tr_side
  | |- Cl _ _ (fun al => modify _ _) => apply cw_modify; tr_side
  | |- Cl _ _ (fun al => allocate _) => apply cw_alloc; first [reflexivity|tr_side]
  | |- Cl _ _ (fun al => deallocate _) => apply cw_free; tr_side
  | |- Cl ?s ?t (fun al => loop ?n (@?b al) ?a) =>
      first [ refine (cw_loop s t n b a _ _ _); [intros ?; solve [cw]|tr_side|tr_side]
            | eapply (cw_weaken s 1 t 1); [refine (cw_loop 1 1 n b a _ _ _); [intros ?; solve [cw]|tr_side|tr_side]|tr_side|tr_side] ]
  | |- Cl _ _ (fun al => match ?x with _ => _ end) => destruct x; cw
  | |- Cl _ _ (fun al h => NoFuel) => apply cw_nofuel; tr_side
  | |- Cl _ _ _ => cw_unfold; try cw
  end.

Section xwp.
  Context {C : Type}.
  Notation heap := (gmap loc C).
  Notation iProp := (bi_car (hpropI C)).

  (** As [safe], and whenever the program is about to allocate, [X] holds. *)
  Fixpoint xsafe {A} (p : prog C A) (h : heap) (Q : A → heap → Prop) (X : heap → Prop) : Prop :=
    match p with
    | PRet a => Q a h
    | PUB _ | PNoFuel => False
    | PLoad l k => ∃ c, h !! l = Some c ∧ xsafe (k c) h Q X
    | PModify l f k => ∃ c, h !! l = Some c ∧ xsafe k (<[l := f c]> h) Q X
    | PAlloc c k => X h ∧ ∀ l, h !! l = None → xsafe (k l) (<[l := c]> h) Q X
    | PFree l k => ∃ c, h !! l = Some c ∧ xsafe k (delete l h) Q X
    end.
  Lemma xsafe_bind {A B} (p : prog C A) (k : A → prog C B) h (Q : B → heap → Prop) R X :
    xsafe p h R X → (∀ a h', R a h' → xsafe (k a) h' Q X) → xsafe (pbind p k) h Q X.
  Proof.
    intros Hp Hk. revert h Hp. induction p as [a|u| |l q IH|l f q IH|c q IH|l q IH]; intros h Hp; simpl in *; try done; naive_solver.
  Qed.
  Lemma xsafe_assoc {A B D} (p : prog C A) (f : A → prog C B) (k : B → prog C D) h Q X :
    xsafe (pbind (pbind p f) k) h Q X → xsafe (pbind p (λ a, pbind (f a) k)) h Q X.
  Proof.
    revert h. induction p as [a|u| |l q IH|l g q IH|c q IH|l q IH]; intros h Hp; simpl in *; try done; naive_solver.
  Qed.
  Lemma xsafe_frame {A} (p : prog C A) h hf (Q : A → heap → Prop) (X : heap → Prop) :
    h ##ₘ hf → xsafe p h Q X →
    xsafe p (h ∪ hf) (λ a h', ∃ h1, h' = h1 ∪ hf ∧ h1 ##ₘ hf ∧ Q a h1) (λ h', ∃ h1, h' = h1 ∪ hf ∧ h1 ##ₘ hf ∧ X h1).
  Proof.
    revert h. induction p as [a|u| |l q IH|l f q IH|c q IH|l q IH]; intros h Hd Hp; simpl in *; try done.
    - by exists h.
    - destruct Hp as (c&Hl&Hp). exists c. split; [by apply lookup_union_Some_l|by apply IH].
    - destruct Hp as (c&Hl&Hp). exists c. split; [by apply lookup_union_Some_l|].
      rewrite insert_union_l. apply IH; [|done].
      apply map_disjoint_insert_l. split; [exact (map_disjoint_Some_l _ _ _ _ Hd Hl)|done].
    - destruct Hp as [HX Hp]. split; [by exists h|]. intros l [Hl1 Hl2]%lookup_union_None. rewrite insert_union_l.
      apply IH; [|by apply Hp]. by apply map_disjoint_insert_l.
    - destruct Hp as (c&Hl&Hp). exists c. split; [by apply lookup_union_Some_l|].
      rewrite delete_union (delete_notin hf); [|exact (map_disjoint_Some_l _ _ _ _ Hd Hl)].
      apply IH; [|done]. by apply map_disjoint_delete_l.
  Qed.
  Lemma xsafe_conseq {A} (p : prog C A) h (Q R : A → heap → Prop) (X Y : heap → Prop) :
    xsafe p h R Y → (∀ a h', R a h' → Q a h') → (∀ h', Y h' → X h') → xsafe p h Q X.
  Proof.
    intros Hp HQ HX. revert h Hp. induction p as [a|u| |l q IH|l f q IH|c q IH|l q IH]; intros h Hp; simpl in *; try done; naive_solver.
  Qed.
  Lemma xsafe_step {A} (p p' : prog C A) h h' Q X : xsafe p h Q X → pstep h p h' p' → xsafe p' h' Q X.
  Proof. intros Hp Hs. inversion Hs; subst; simpl in Hp; naive_solver. Qed.
  Lemma xsafe_steps {A} (p p' : prog C A) h h' Q X : xsafe p h Q X → psteps h p h' p' → xsafe p' h' Q X.
  Proof.
    unfold psteps. intros Hp Hr. remember (h, p) as c eqn:Ec. remember (h', p') as c' eqn:Ec'.
    revert h p Hp Ec. induction Hr as [c|c [h1 p1] c' Hs Hr IH]; intros h p Hp ->.
    - by simplify_eq.
    - eapply IH; [done|by eapply xsafe_step|done].
  Qed.
  Lemma xsafe_not_stuck {A} (p : prog C A) h Q X : xsafe p h Q X → ¬ stuck h p.
  Proof.
    intros Hp (Hf&Hst). destruct p as [a|u| |l k|l f k|c k|l k]; simpl in Hp; try done.
    - apply Hf. by exists a.
    - destruct Hp as (c&Hc&_). eapply Hst. by apply (ps_load _ l k c).
    - destruct Hp as (c&Hc&_). eapply Hst. by eapply ps_modify.
    - eapply Hst. eapply (ps_alloc _ c k), (bump_addr_fresh h).
    - destruct Hp as (c&Hc&_). eapply Hst. by eapply ps_free.
  Qed.

  Definition pxwp {A} (p : prog C A) (Q : A → iProp) (X : iProp) : iProp :=
    HProp (λ h, xsafe p h (λ a h', hholds (Q a) h') (λ h', hholds X h')).
  Lemma pxwp_wand {A} (p : prog C A) (Q Q' : A → iProp) (X X' : iProp) :
    pxwp p Q X -∗ ((∀ a, Q a -∗ Q' a) ∧ (X -∗ X')) -∗ pxwp p Q' X'.
  Proof.
    apply bi.wand_intro_r, hentails_intro. intros h Hh.
    apply hsep_unfold in Hh as (h1&h2&->&Hd&H1&H2). apply hand_unfold in H2 as [H2 H3]. simpl.
    eapply xsafe_conseq; [by apply (xsafe_frame _ _ _ _ _ Hd H1)|..].
    - intros a h' (h3&->&Hd'&HQ). rewrite map_union_comm //. apply (H2 a); done.
    - intros h' (h3&->&Hd'&HQ). rewrite map_union_comm //. apply H3; done.
  Qed.
  Lemma pxwp_bind {A B} (p : prog C A) (k : A → prog C B) (Q : B → iProp) X :
    pxwp p (λ a, pxwp (k a) Q X) X ⊢ pxwp (pbind p k) Q X.
  Proof. apply hentails_intro. intros h Hh. simpl in *. by eapply xsafe_bind. Qed.
  Lemma pxwp_assoc {A B D} (p : prog C A) (f : A → prog C B) (k : B → prog C D) (Q : D → iProp) X :
    pxwp (pbind (pbind p f) k) Q X ⊢ pxwp (pbind p (λ a, pbind (f a) k)) Q X.
  Proof. apply hentails_intro. intros h Hh. simpl in *. by apply xsafe_assoc. Qed.
  Lemma pxwp_ret {A} (a : A) (Q : A → iProp) X : Q a ⊢ pxwp (PRet a) Q X.
  Proof. by apply hentails_intro. Qed.

  (** programs that change nothing before they allocate; programs that do not allocate *)
  Lemma xsafe_of_safe1 {A} (p : prog C A) h (Q : A → heap → Prop) X t : cl 1 p t → safe ∅ p h Q → xsafe p h Q X.
  Proof.
    revert h. induction p as [a|u| |l q IH|l f q IH|c q IH|l q IH]; intros h Hc Hp; simpl in *; try done.
    - destruct Hp as (c&Hl&Hp). rewrite left_id_L in Hl. exists c. split; [done|]. by apply IH.
    - destruct Hp as (c&Hl&Hp). exists c. split; [done|]. by apply IH.
    - destruct Hc as [? ?]. lia.
    - destruct Hp as (c&Hl&Hp). exists c. split; [done|]. by apply IH.
  Qed.
  Lemma xsafe_of_safe0 {A} (p : prog C A) h (Q : A → heap → Prop) t : cl 0 p t → safe ∅ p h Q → xsafe p h Q (λ h', h' = h).
  Proof.
    induction p as [a|u| |l q IH|l f q IH|c q IH|l q IH]; intros Hc Hp; simpl in *; try done.
    - destruct Hp as (c&Hl&Hp). rewrite left_id_L in Hl. exists c. split; [done|]. by apply IH.
    - destruct Hp as (c&Hl&Hp). exists c. split; [done|]. by eapply xsafe_of_safe1.
    - destruct Hc as [_ Hc]. split; [done|]. intros l Hl. eapply xsafe_of_safe1; [done|]. apply Hp. by rewrite left_id_L.
    - destruct Hp as (c&Hl&Hp). exists c. split; [done|]. by eapply xsafe_of_safe1.
  Qed.

  Definition Xp {A X} (m : Allocator C → M heap A) (φ : X → Prop) (P : X → iProp) (Q : X → A → iProp)
      (T : X → iProp) : Type :=
    {p : prog C A | performs m p ∧ ∀ x, φ x → P x ⊢ pxwp p (Q x) (T x)}.
  Lemma xp_of_wp {A X} (m : Allocator C → M heap A) (φ : X → Prop) P Q T :
    Cl 1 1 m → (∀ al x, φ x → P x ⊢ wp (m al) (Q x)) → Xp m φ P Q T.
  Proof.
    intros [p (Hp&H1&Ht)] Hwp. exists p. split; [done|]. intros x Hx. apply hentails_intro. intros h Hh. simpl.
    eapply xsafe_of_safe1; [done|]. eapply safe_of_interp; [by eapply cl_ordered|]. intros al.
    destruct (hentails _ _ (Hwp al x Hx) h Hh ∅ (map_disjoint_empty_r _)) as (a&h'&Hm&_&HQ).
    rewrite !right_id_L in Hm. exists a, h'. split; [|done]. by rewrite -(performs_interp _ _ Hp).
  Qed.
  Lemma xp_clean {A X} t (m : Allocator C → M heap A) (φ : X → Prop) P Q :
    Cl 0 t m → (∀ al x, φ x → P x ⊢ wp (m al) (Q x)) → Xp m φ P Q P.
  Proof.
    intros [p (Hp&H1&Ht)] Hwp. exists p. split; [done|]. intros x Hx. apply hentails_intro. intros h Hh. simpl.
    eapply (xsafe_conseq _ _ _ _ _ (λ h', h' = h)); [|intros a h' HH; exact HH|intros h' ->; exact Hh].
    eapply xsafe_of_safe0; [done|]. eapply safe_of_interp; [by eapply cl_ordered|]. intros al.
    destruct (hentails _ _ (Hwp al x Hx) h Hh ∅ (map_disjoint_empty_r _)) as (a&h'&Hm&_&HQ).
    rewrite !right_id_L in Hm. exists a, h'. split; [|done]. by rewrite -(performs_interp _ _ Hp).
  Qed.
  Lemma xp_ret {A X} (a : A) (φ : X → Prop) (P : X → iProp) (Q : X → A → iProp) T :
    (∀ x, φ x → P x ⊢ Q x a) → Xp (λ _, ret a) φ P Q T.
  Proof. intros H. exists (PRet a). split; [apply perf_ret|]. intros x Hx. iIntros "H". iApply pxwp_ret. by iApply (H x Hx with "H"). Qed.
  Lemma xp_bind {A B X} (m : Allocator C → M heap A) (k : Allocator C → A → M heap B) (φ : X → Prop) P R Q T :
    Xp m φ P R T → (∀ a, Xp (λ al, k al a) φ (λ x, R x a) Q T) → Xp (λ al, let! a := m al in k al a) φ P Q T.
  Proof.
    intros [p [Hp Hw]] Hk. exists (pbind p (λ a, proj1_sig (Hk a))). split.
    { apply (perf_bind _ _ m k); [done|]. intros a. apply (proj2_sig (Hk a)). }
    intros x Hx. iIntros "H". iApply pxwp_bind. iApply (pxwp_wand with "[H]"); [by iApply (Hw x Hx with "H")|].
    iSplit; [|by iIntros "H"].
    iIntros (a) "H". by iApply (proj2 (proj2_sig (Hk a)) x Hx with "H").
  Qed.
  Lemma xp_conseq {A X Y} (m : Allocator C → M heap A) (φ : X → Prop) P Q T (φ' : Y → Prop) P' Q' T' :
    Xp m φ' P' Q' T' →
    (∀ x, φ x → P x ⊢ ∃ y, ⌜φ' y⌝ ∧ ∃ (F : bi_car (hpropI C)), F ∗ P' y ∗
       ((∀ a, F -∗ Q' y a -∗ Q x a) ∧ (F -∗ T' y -∗ T x))) →
    Xp m φ P Q T.
  Proof.
    intros [p [Hp Hw]] Hc. exists p. split; [done|]. intros x Hx.
    iIntros "H". iDestruct (Hc x Hx with "H") as (y) "[%Hy H]". iDestruct "H" as (F) "(HF&HP&HQ)".
    iApply (pxwp_wand with "[HP]"); [by iApply (Hw y Hy with "HP")|]. iSplit.
    - iIntros (a) "H". iDestruct "HQ" as "[HQ _]". iApply ("HQ" with "HF H").
    - iIntros "H". iDestruct "HQ" as "[_ HQ]". iApply ("HQ" with "HF H").
  Qed.

  Lemma xp_throw {A X} (m : Allocator C → M heap A) (φ : X → Prop) P Q T T' :
    Xp m φ P Q T → (∀ x, φ x → T x ⊢ T' x) → Xp m φ P Q T'.
  Proof.
    intros H HT. eapply xp_conseq; [exact H|]. intros x Hx. iIntros "H". iExists x. iSplit; [done|].
    iExists emp%I. iSplitR; [done|]. iFrame "H". iSplit; [iIntros (a) "_ $"|]. iIntros "_ H". by iApply (HT x Hx with "H").
  Qed.

  Lemma xp_pure {A X} (m : Allocator C → M heap A) (φ ψ : X → Prop) P Q T :
    Xp m (λ x, φ x ∧ ψ x) P Q T → Xp m φ (λ x, ⌜ψ x⌝ ∧ P x)%I Q T.
  Proof.
    intros H. eapply xp_conseq; [exact H|]. intros x Hx. iIntros "[%Hp H]". iExists x. iSplit; [done|].
    iExists emp%I. iSplitR; [done|]. iFrame "H". iSplit; [iIntros (a) "_ $"|iIntros "_ $"].
  Qed.
  (** (m; f); k from m; (f; k) *)
  Lemma xp_assoc {A B D X} (m : Allocator C → M heap A) (f : Allocator C → A → M heap B)
      (k : Allocator C → B → M heap D) (φ : X → Prop) P R Q T t :
    Cl 0 1 m → (∀ a, Cl 1 t (λ al, f al a)) →
    (∀ al x, φ x → P x ⊢ wp (let! a := m al in f al a) (R x)) →
    (∀ x, φ x → P x ⊢ T x) →
    (∀ b, Xp (λ al, k al b) φ (λ x, R x b) Q T) →
    Xp (λ al, let! a := m al in let! b := f al a in k al b) φ P Q T.
  Proof.
    intros [pm (Hpm&_&Hcm)] Hf Hwp HT Hk.
    exists (pbind pm (λ a, pbind (proj1_sig (Hf a)) (λ b, proj1_sig (Hk b)))). split.
    { apply (perf_bind _ _ m (λ al a, let! b := f al a in k al b)); [done|]. intros a.
      apply (perf_bind _ _ (λ al, f al a) k); [apply (proj2_sig (Hf a))|]. intros b. apply (proj2_sig (Hk b)). }
    set (pf := pbind pm (λ a, proj1_sig (Hf a))).
    assert (performs (λ al, let! a := m al in f al a) pf) as Hpf.
    { apply (perf_bind _ _ m f); [done|]. intros a. apply (proj2_sig (Hf a)). }
    assert (cl 0 pf t) as Hcf.
    { eapply cl_bind; [lia|done|]. intros a. apply (proj2_sig (Hf a)). }
    intros x Hx. iIntros "H". iApply pxwp_assoc. fold pf. iApply pxwp_bind.
    iApply (pxwp_wand _ (R x) _ (P x) with "[H]").
    - iStopProof. apply hentails_intro. intros h Hh. simpl.
      eapply (xsafe_conseq _ _ _ _ _ (λ h', h' = h)); [|intros a h' HH; exact HH|intros h' ->; exact Hh].
      eapply xsafe_of_safe0; [done|]. eapply safe_of_interp; [by apply (cl_ordered 0 _ t); [lia|]|]. intros al.
      destruct (hentails _ _ (Hwp al x Hx) h Hh ∅ (map_disjoint_empty_r _)) as (a&h'&Hm&_&HQ).
      rewrite !right_id_L in Hm. exists a, h'. split; [|done]. by rewrite -(performs_interp _ _ Hpf).
    - iSplit; [|iApply (HT x Hx)]. iIntros (b) "H". by iApply (proj2 (proj2_sig (Hk b)) x Hx with "H").
  Qed.

  Lemma xp_never {X B} s t (m : Allocator C → M heap B) (φ : X → Prop) P Q T : Tr s t m → (∀ x, ¬ φ x) → Xp m φ P Q T.
  Proof. intros [p [Hp _]] Hφ. exists p. split; [done|]. intros x Hx. by destruct (Hφ x). Qed.

  Lemma runs_or_throws_of {A X} (m : Allocator C → M heap A) (φ : X → Prop) P Q T (x : X)
      (P' : heap → Prop) (Q' : A → heap → Prop) (T' : heap → Prop) :
    Xp m φ P Q T → φ x → (∀ h, P' h → hholds (P x) h) →
    (∀ a h, hholds (Q x a) h → Q' a h) → (∀ h, hholds (T x) h → T' h) →
    runs_or_throws P' m Q' T'.
  Proof.
    intros [p [Hp Hw]] Hx HP HQ HT. exists p. split; [done|]. intros h hf h1 p' Hh Hd Hst.
    pose proof (hentails _ _ (Hw x Hx) h (HP h Hh)) as Hs. simpl in Hs.
    pose proof (xsafe_steps _ _ _ _ _ _ (xsafe_frame _ _ _ _ _ Hd Hs) Hst) as Hs'. split_and!.
    - by eapply xsafe_not_stuck.
    - intros r ->. simpl in Hs'. destruct Hs' as (h'&->&Hd'&HH). eauto.
    - intros (c&k&->). simpl in Hs'. destruct Hs' as [(h'&->&Hd'&HH) _]. eauto.
  Qed.
  Lemma runs_or_throws_conseq {A Y} (m : Allocator C → M heap A) (φ : Y → Prop) P Q T
      (P' : heap → Prop) (Q' : A → heap → Prop) (T' : heap → Prop) :
    Xp m φ P Q T →
    (Sep.plain P' ⊢ ∃ y, ⌜φ y⌝ ∧ ∃ (F : bi_car (hpropI C)), F ∗ P y ∗
       ((∀ a, F -∗ Q y a -∗ Sep.plain (Q' a)) ∧ (F -∗ T y -∗ Sep.plain T'))) →
    runs_or_throws P' m Q' T'.
  Proof.
    intros H HP.
    apply (runs_or_throws_of m (λ _ : unit, True) (λ _, Sep.plain P') (λ _ a, Sep.plain (Q' a)) (λ _, Sep.plain T') tt); [|done..].
    eapply xp_conseq; [exact H|]. intros x _. exact HP.
  Qed.
  (** single calls *)
  Lemma throws_clean {A} t (P : heap → Prop) (m : Allocator C → M heap A) (Q : A → heap → Prop) :
    Cl 0 t m → (∀ al, runs P (m al) Q) → runs_or_throws P m Q P.
  Proof.
    intros Hc Hr.
    apply (runs_or_throws_of m (λ _ : unit, True) (λ _, Sep.plain P) (λ _ a, Sep.plain (Q a)) (λ _, Sep.plain P) tt); [|done..].
    apply (xp_clean t); [done|]. intros al x _. by apply wp_of_runs.
  Qed.
  Lemma throws_never {A} (P : heap → Prop) (m : Allocator C → M heap A) (Q : A → heap → Prop) :
    Cl 1 1 m → (∀ al, runs P (m al) Q) → runs_or_throws P m Q (λ _, False).
  Proof.
    intros Hc Hr.
    apply (runs_or_throws_of m (λ _ : unit, True) (λ _, Sep.plain P) (λ _ a, Sep.plain (Q a)) (λ _, False%I) tt); [|done..].
    apply xp_of_wp; [done|]. intros al x _. by apply wp_of_runs.
  Qed.
End xwp.

Section sessions.
  Context {C Hd St Op Out : Type}.
  Notation heap := (gmap loc C).
  Notation iProp := (bi_car (hpropI C)).
  Context (new : Allocator C → M heap Hd) (destroy : Allocator C → nat → Hd → M heap unit)
          (step : Allocator C → nat → Hd → Hd → Op → M heap (Hd * Hd * Out))
          (init : St) (spec : St → St → Op → option (St * St * Out)) (fin : St → Prop)
          (aborted : St → St → Op → St → St → Prop) (members : Hd → Hd → Op → Hd * Hd).
  Context (R : Hd → St → iProp) (need : St → nat).
  Definition cstep_throw (this other : Hd) (op : Op) (x : St * St * (St * St * Out)) : iProp :=
    ∃ s1 o1, ⌜aborted x.1.1 x.1.2 op s1 o1⌝ ∧ R (members this other op).1 s1 ∗ R (members this other op).2 o1.
  Definition XStep fuel this other op : Type :=
    Xp (λ al, step al fuel this other op) (cstep_ok spec need fuel op) (cstep_pre R this other) (cstep_post R)
       (cstep_throw this other op).

  (** calls that do not allocate; calls that allocate once, before they change anything *)
  Lemma xstep_none fuel this other op :
    Cl 1 1 (λ al, step al fuel this other op) →
    (∀ al x, cstep_ok spec need fuel op x → cstep_pre R this other x ⊢ wp (step al fuel this other op) (cstep_post R x)) →
    XStep fuel this other op.
  Proof. intros Hc Hw. by apply xp_of_wp. Qed.
  Lemma xstep_clean t fuel this other op :
    Cl 0 t (λ al, step al fuel this other op) →
    (∀ al x, cstep_ok spec need fuel op x → cstep_pre R this other x ⊢ wp (step al fuel this other op) (cstep_post R x)) →
    (∀ s o, aborted s o op s o) → members this other op = (this, other) →
    XStep fuel this other op.
  Proof.
    intros Hc Hw Ha Hm. unfold XStep. eapply xp_conseq; [by apply (xp_clean t _ (cstep_ok spec need fuel op) (cstep_pre R this other) (cstep_post R))|].
    intros x Hx. iIntros "H". iExists x. iSplit; [done|]. iExists emp%I. iSplitR; [done|]. iFrame "H".
    iSplit; [iIntros (a) "_ $"|]. iIntros "_ [H1 H2]". unfold cstep_throw. rewrite Hm. iExists x.1.1, x.1.2. iSplit; [done|]. iFrame.
  Qed.
  Context (Hnew : ∀ al, ⊢ wp (new al) (λ a, R a init))
          (Hdes : ∀ al fuel a s, fin s → need s < fuel → R a s ⊢ wp (destroy al fuel a) (λ _, emp))
          (Hstep : ∀ fuel this other op, XStep fuel this other op).

  Lemma survives_ok ops h a b s o : hholds (R a s ∗ R b o)%I h →
    survives destroy step spec fin aborted members ops h a b s o.
  Proof.
    revert h a b s o. induction ops as [|[side op] ops IH]; intros h a b s o Hh; cbn [survives].
    { intros Hfa Hfb. exists (S (need s + need o)). intros fuel al Hf. apply runs_of_wp. iIntros "H".
      iAssert (R a s ∗ R b o)%I with "[H]" as "[Ha Hb]".
      { iStopProof. apply hentails_intro. intros h' ->. done. }
      wstep. iApply (wp_wand with "[Ha]"); [iApply (Hdes with "Ha"); [done|lia]|]. iIntros (_) "_".
      iApply (wp_wand with "[Hb]"); [iApply (Hdes with "Hb"); [done|lia]|]. iIntros (_) "_".
      by rewrite plain_nothing. }
    destruct side.
    - intros o' s' out Hs. exists (S (need o + need s + need o' + need s')). intros fuel Hf.
      apply (runs_or_throws_of _ _ _ _ _ (o, s, (o', s', out)) _ _ _ (Hstep fuel b a op)).
      + split; [done|]. simpl. lia.
      + intros h' ->. unfold cstep_pre. simpl. revert Hh. apply hentails. iIntros "[$ $]".
      + intros [[b1 a1] out'] h' Hh'. apply hand_unfold in Hh' as [H1 H2]. apply hpure_unfold in H1. simpl in *.
        split; [done|]. apply IH. revert H2. apply hentails. iIntros "[$ $]".
      + intros h' Hh'. apply hexist_unfold in Hh' as [o1 Hh']. apply hexist_unfold in Hh' as [s1 Hh']. apply hand_unfold in Hh' as [H1 H2]. apply hpure_unfold in H1. simpl in *.
        exists o1, s1. split; [done|]. apply IH. revert H2. apply hentails. iIntros "[$ $]".
    - intros s' o' out Hs. exists (S (need s + need o + need s' + need o')). intros fuel Hf.
      apply (runs_or_throws_of _ _ _ _ _ (s, o, (s', o', out)) _ _ _ (Hstep fuel a b op)).
      + split; [done|]. simpl. lia.
      + intros h' ->. done.
      + intros [[a1 b1] out'] h' Hh'. apply hand_unfold in Hh' as [H1 H2]. apply hpure_unfold in H1. simpl in *.
        split; [done|]. by apply IH.
      + intros h' Hh'. apply hexist_unfold in Hh' as [s1 Hh']. apply hexist_unfold in Hh' as [o1 Hh']. apply hand_unfold in Hh' as [H1 H2]. apply hpure_unfold in H1. simpl in *.
        exists s1, o1. split; [done|]. by apply IH.
  Qed.
  Lemma survives_failures_ok ops : survives_failures new destroy step init spec fin aborted members ops.
  Proof.
    intros al. apply runs_of_wp. rewrite plain_nothing. iIntros "_". wstep.
    iApply (wp_wand with "[]"); [by iApply Hnew|]. iIntros (a) "Ha". wstep.
    iApply (wp_wand with "[]"); [by iApply Hnew|]. iIntros (b) "Hb". wstep. iStopProof.
    apply hentails_intro. intros h Hh. apply plain_holds. apply survives_ok. revert Hh. apply hentails. iIntros "[$ $]".
  Qed.
End sessions.
