(** A small linear separation logic over node heaps, as an instance of Iris'
    abstract [bi] interface so that the Iris proof mode can be used, plus a
    total-correctness weakest precondition for the heap monad of Base.v.
    Proof tool only: the property theorems do not mention it. *)
From Verif Require Export Base Triple.
From iris.bi Require Import interface derived_laws.
From iris.proofmode Require Export environments proofmode.
From iris.prelude Require Import options.

Record hprop (C : Type) := HProp { hholds :> gmap loc C → Prop }.
Global Arguments HProp {_} _.
Global Arguments hholds {_} _ _.

Section ofe.
  Context {C : Type}.
  Inductive hprop_equiv' (P Q : hprop C) : Prop := { _ : ∀ σ, P σ ↔ Q σ }.
  Local Instance hprop_equiv : Equiv (hprop C) := hprop_equiv'.
  Local Instance hprop_equivalence : Equivalence (≡@{hprop C}).
  Proof. split; repeat destruct 1; constructor; naive_solver. Qed.
  Canonical Structure hpropO := discreteO (hprop C).
End ofe.
Global Arguments hpropO : clear implicits.

Section defs.
  Context {C : Type}.
  Notation hp := (hprop C).
  Inductive h_entails (P Q : hp) : Prop := { _ : ∀ σ, P σ → Q σ }.
  Definition h_emp : hp := {| hholds σ := σ = ∅ |}.
  Definition h_pure (φ : Prop) : hp := {| hholds _ := φ |}.
  Definition h_and (P Q : hp) : hp := {| hholds σ := P σ ∧ Q σ |}.
  Definition h_or (P Q : hp) : hp := {| hholds σ := P σ ∨ Q σ |}.
  Definition h_impl (P Q : hp) : hp := {| hholds σ := P σ → Q σ |}.
  Definition h_forall {A} (Ψ : A → hp) : hp := {| hholds σ := ∀ a, Ψ a σ |}.
  Definition h_exist {A} (Ψ : A → hp) : hp := {| hholds σ := ∃ a, Ψ a σ |}.
  Definition h_sep (P Q : hp) : hp :=
    {| hholds σ := ∃ σ1 σ2, σ = σ1 ∪ σ2 ∧ σ1 ##ₘ σ2 ∧ P σ1 ∧ Q σ2 |}.
  Definition h_wand (P Q : hp) : hp :=
    {| hholds σ := ∀ σ', σ ##ₘ σ' → P σ' → Q (σ ∪ σ') |}.
  Definition h_pers (P : hp) : hp := {| hholds σ := P ∅ |}.
End defs.

Section mixins.
  Context {C : Type}.
  Notation hp := (hprop C).
  Local Existing Instance hprop_equiv.
  Lemma hprop_bi_mixin :
    BiMixin (PROP:=hp) h_entails h_emp h_pure h_and h_or h_impl (@h_forall C) (@h_exist C)
      h_sep h_wand h_pers.
  Proof.
    split.
    - split.
      + intros P. by split.
      + intros P Q R [H1] [H2]. split. auto.
    - intros P Q. split.
      + intros [HPQ]. split; split; intros; by apply HPQ.
      + intros [[HPQ] [HQP]]. split. naive_solver.
    - intros n φ1 φ2 Hφ. split=> σ /=. done.
    - intros n P1 P2 [HP] Q1 Q2 [HQ]. split=> σ /=. by rewrite HP HQ.
    - intros n P1 P2 [HP] Q1 Q2 [HQ]. split=> σ /=. by rewrite HP HQ.
    - intros n P1 P2 [HP] Q1 Q2 [HQ]. split=> σ /=. by rewrite HP HQ.
    - intros A n Φ1 Φ2 HΦ. split=> σ /=. split=> H a; destruct (HΦ a) as [Hx]; by apply Hx.
    - intros A n Φ1 Φ2 HΦ. split=> σ /=. split=> -[a H]; exists a; destruct (HΦ a) as [Hx]; by apply Hx.
    - intros n P1 P2 [HP] Q1 Q2 [HQ]. split=> σ /=.
      split; intros (σ1&σ2&?&?&?&?); exists σ1, σ2; naive_solver.
    - intros n P1 P2 [HP] Q1 Q2 [HQ]. split=> σ /=.
      split; intros Hw σ' ??; apply HQ, Hw, HP; done.
    - intros n P1 P2 [HP]. split=> σ /=. by rewrite HP.
    - intros φ P ?. by split.
    - intros φ P HφP. split=> σ ?. destruct HφP as [Hx]; [done|]. by apply Hx.
    - intros P Q. split=> σ [??]. done.
    - intros P Q. split=> σ [??]. done.
    - intros P Q R [HPQ] [HPR]. split=> σ ?. split; auto.
    - intros P Q. split=> σ ?. by left.
    - intros P Q. split=> σ ?. by right.
    - intros P Q R [HPQ] [HPR]. split=> σ [?|?]; auto.
    - intros P Q R [HPQR]. split=> σ ??. by apply HPQR.
    - intros P Q R [HPQR]. split=> σ [??]. by apply HPQR.
    - intros A P Ψ HΨ. split=> σ ? a. destruct (HΨ a) as [Hx]. by apply Hx.
    - intros A Ψ a. split=> σ ?. done.
    - intros A Ψ a. split=> σ ?. by exists a.
    - intros A Φ Q HΦ. split=> σ [a ?]. destruct (HΦ a) as [Hx]. by apply Hx.
    - intros P P' Q Q' [HPQ] [HPQ']. split; intros σ (σ1&σ2&->&?&?&?).
      exists σ1, σ2. repeat split; auto.
    - intros P. split=> σ ? /=. exists ∅, σ. rewrite left_id_L.
      split_and!; try done. apply map_disjoint_empty_l.
    - intros P. split; intros σ (σ1&σ2&->&?&->&?). by rewrite left_id_L.
    - intros P Q. split; intros σ (σ1&σ2&->&?&?&?). exists σ2, σ1.
      by rewrite map_union_comm.
    - intros P Q R. split; intros σ (σ1&σ2&->&Hd&(σ1'&σ1''&->&?&?&?)&?).
      apply map_disjoint_union_l in Hd as [??].
      exists σ1', (σ1'' ∪ σ2). split; [by rewrite assoc_L|].
      split; [by apply map_disjoint_union_r|]. split; [done|].
      by exists σ1'', σ2.
    - intros P Q R [HPQR]. split=> σ ? σ' ??. apply HPQR. by exists σ, σ'.
    - intros P Q R [HPQR]. split; intros σ (σ1&σ2&->&?&?&?). by apply HPQR.
    - intros P Q [HPQ]. split=> σ ?. by apply HPQ.
    - intros P. split=> σ ?. done.
    - split=> σ ?. done.
    - intros P Q. split=> σ [??]. done.
    - intros A Ψ. split=> σ [a ?]. by exists a.
    - intros P Q. split; intros σ (σ1&σ2&->&?&?&?). done.
    - intros P Q. split=> σ [??]. exists ∅, σ. rewrite left_id_L.
      split_and!; try done. apply map_disjoint_empty_l.
  Qed.
  Lemma hprop_bi_later_mixin :
    BiLaterMixin (PROP:=hp) h_entails h_pure h_or h_impl (@h_forall C) (@h_exist C)
      h_sep h_pers id.
  Proof. by eapply bi_later_mixin_id, hprop_bi_mixin. Qed.

  Canonical Structure hpropI : bi :=
    {| bi_ofe_mixin := ofe_mixin_of (hprop C);
       bi_bi_mixin := hprop_bi_mixin; bi_bi_later_mixin := hprop_bi_later_mixin |}.
  Global Instance hprop_pure_forall : BiPureForall hpropI.
  Proof. intros A φ. split=> σ /= H a. apply H. Qed.
End mixins.
Global Arguments hpropI : clear implicits.

Section wp.
  Context {C : Type}.
  Notation heap := (gmap loc C).
  Notation iProp := (bi_car (hpropI C)).

  (** [l ↦ c]: the heap consisting of exactly that cell. *)
  Definition pto (l : loc) (c : C) : iProp := HProp (λ σ, σ = {[l := c]}).

  (** Total correctness, with the frame built in. *)
  Definition wp {A} (m : M heap A) (Q : A → iProp) : iProp :=
    HProp (λ σ, ∀ σf, σ ##ₘ σf →
      ∃ a σ', m (σ ∪ σf) = Ok (a, σ' ∪ σf) ∧ σ' ##ₘ σf ∧ hholds (Q a) σ').
End wp.

Notation "l ↦ c" := (pto l c) (at level 20, format "l  ↦  c") : bi_scope.

(** The bridge to the plain statements of Triple.v. *)
Definition plain {C} (P : gmap loc C → Prop) : bi_car (hpropI C) := HProp P.
Lemma runs_of_wp {C A} (P : gmap loc C → Prop) (m : M (gmap loc C) A) Q :
  (plain P ⊢ wp m (λ a, plain (Q a))) → runs P m Q.
Proof. intros [H] h hf HP Hd. by apply (H h HP hf). Qed.
Lemma wp_of_runs {C A} (P : gmap loc C → Prop) (m : M (gmap loc C) A) Q :
  runs P m Q → (plain P ⊢ wp m (λ a, plain (Q a))).
Proof. intros H. split=> h HP hf Hd. by apply H. Qed.
Lemma plain_holds {C} (P : gmap loc C → Prop) h : hholds (plain P) h ↔ P h.
Proof. done. Qed.
Lemma plain_both {C} (P Q : gmap loc C → Prop) : plain (both P Q) ⊣⊢ plain P ∗ plain Q.
Proof. done. Qed.
Lemma plain_nothing {C} : plain (C:=C) nothing ⊣⊢ emp.
Proof. done. Qed.
Lemma plain_exist {C A} (Φ : A → gmap loc C → Prop) :
  plain (λ h, (∃ a, Φ a h)%type) ⊣⊢ ∃ a, plain (Φ a).
Proof. done. Qed.
Lemma plain_and {C} (P Q : gmap loc C → Prop) :
  plain (λ h, (P h ∧ Q h)%type) ⊣⊢ plain P ∧ plain Q.
Proof. done. Qed.
Lemma plain_pure {C} (φ : Prop) : plain (C:=C) (λ _, φ) ⊣⊢ ⌜φ⌝.
Proof. done. Qed.
Global Typeclasses Opaque plain.
Global Opaque plain.

Section wp_rules.
  Context {C : Type}.
  Notation heap := (gmap loc C).
  Notation iProp := (bi_car (hpropI C)).
  Implicit Types (P : iProp) (c : C).

  Lemma hsep_unfold P Q σ :
    hholds (P ∗ Q)%I σ ↔ ∃ σ1 σ2, σ = σ1 ∪ σ2 ∧ σ1 ##ₘ σ2 ∧ hholds P σ1 ∧ hholds Q σ2.
  Proof. done. Qed.
  Lemma hexist_unfold {A} (Φ : A → iProp) σ : hholds (∃ a, Φ a)%I σ ↔ ∃ a, hholds (Φ a) σ.
  Proof. done. Qed.
  Lemma hpure_unfold φ σ : hholds (⌜φ⌝ : iProp)%I σ ↔ φ.
  Proof. done. Qed.
  Lemma hemp_unfold σ : hholds (emp : iProp)%I σ ↔ σ = ∅.
  Proof. done. Qed.
  Lemma hand_unfold P Q σ : hholds (P ∧ Q)%I σ ↔ hholds P σ ∧ hholds Q σ.
  Proof. done. Qed.
  Lemma haffine_unfold P σ : hholds (<affine> P)%I σ ↔ σ = ∅ ∧ hholds P σ.
  Proof. done. Qed.
  Lemma hpto_unfold l c σ : hholds (l ↦ c : iProp)%I σ ↔ σ = {[l := c]}.
  Proof. done. Qed.

  Lemma hentails P Q : (P ⊢ Q) → ∀ σ, hholds P σ → hholds Q σ.
  Proof. intros [H]. exact H. Qed.
  Lemma hentails_intro P Q : (∀ σ, hholds P σ → hholds Q σ) → (P ⊢ Q).
  Proof. intros H. by split. Qed.

  Lemma pto_excl l c1 c2 : l ↦ c1 ∗ l ↦ c2 ⊢@{hpropI C} False.
  Proof.
    apply hentails_intro. intros σ (σ1&σ2&->&Hd&Hx&Hy). simpl in *. subst.
    exfalso. by apply map_disjoint_singleton_l, lookup_singleton_None in Hd.
  Qed.
  Lemma pto_ne l1 l2 c1 c2 : l1 ↦ c1 ∗ l2 ↦ c2 ⊢@{hpropI C} ⌜l1 ≠ l2⌝.
  Proof.
    iIntros "[H1 H2]" (->). iApply (pto_excl with "[$H1 $H2]").
  Qed.

  Lemma wp_ret {A} (a : A) Q : Q a ⊢ wp (C:=C) (ret a) Q.
  Proof. apply hentails_intro. intros σ HQ σf Hd. by exists a, σ. Qed.

  Lemma wp_bind {A B} (m : M heap A) (k : A → M heap B) Q :
    wp m (λ a, wp (k a) Q) ⊢ wp (bind m k) Q.
  Proof.
    apply hentails_intro. intros σ Hwp σf Hd.
    destruct (Hwp σf Hd) as (a&σ'&Hm&Hd'&Hk).
    destruct (Hk σf Hd') as (b&σ''&Hm'&Hd''&HQ).
    exists b, σ''. split; [|done]. unfold bind. by rewrite Hm.
  Qed.

  Lemma wp_wand {A} (m : M heap A) Q1 Q2 :
    wp m Q1 -∗ (∀ a, Q1 a -∗ Q2 a) -∗ wp m Q2.
  Proof.
    apply bi.wand_intro_r, hentails_intro.
    intros σ (σ1&σ2&->&Hd&Hwp&Hw) σf Hdf.
    apply map_disjoint_union_l in Hdf as [Hd1 Hd2].
    destruct (Hwp (σ2 ∪ σf)) as (a&σ'&Hm&Hd'&HQ).
    { by apply map_disjoint_union_r. }
    apply map_disjoint_union_r in Hd' as [Hd'1 Hd'2].
    exists a, (σ' ∪ σ2). rewrite -!(assoc_L (∪)) Hm. split; [done|].
    split; [by apply map_disjoint_union_l|].
    rewrite map_union_comm; [|done]. apply Hw; done.
  Qed.

  Lemma wp_load l c Q : l ↦ c -∗ (l ↦ c -∗ Q c) -∗ wp (load l) Q.
  Proof.
    apply bi.wand_intro_r, hentails_intro.
    intros σ (σ1&σ2&->&Hd&Hl&Hw) σf Hdf. simpl in Hl. subst σ1.
    exists c, ({[l := c]} ∪ σ2). split.
    { unfold load. rewrite -(assoc_L (∪)) -insert_union_singleton_l lookup_insert.
      done. }
    split; [done|]. rewrite map_union_comm; [|done]. by apply Hw.
  Qed.

  Lemma wp_modify l f c Q : l ↦ c -∗ (l ↦ f c -∗ Q tt) -∗ wp (modify l f) Q.
  Proof.
    apply bi.wand_intro_r, hentails_intro.
    intros σ (σ1&σ2&->&Hd&Hl&Hw) σf Hdf. simpl in Hl. subst σ1.
    apply map_disjoint_union_l in Hdf as [Hd1 Hd2].
    apply map_disjoint_singleton_l in Hd as Hl2.
    apply map_disjoint_singleton_l in Hd1 as Hlf.
    exists tt, ({[l := f c]} ∪ σ2). split.
    { unfold modify. rewrite -!(assoc_L (∪)) -!insert_union_singleton_l lookup_insert.
      by rewrite insert_insert. }
    split.
    { apply map_disjoint_union_l. split; [|done]. by apply map_disjoint_singleton_l. }
    rewrite map_union_comm; [|by apply map_disjoint_singleton_l].
    apply Hw; [by apply map_disjoint_singleton_r|done].
  Qed.

  Lemma wp_allocate `{Allocator C} c Q : (∀ l, l ↦ c -∗ Q l) -∗ wp (allocate c) Q.
  Proof.
    apply hentails_intro. intros σ Hw σf Hdf.
    pose proof (alloc_addr_fresh (σ ∪ σf)) as Hf.
    unfold allocate. set (l := alloc_addr (σ ∪ σf)) in *.
    apply lookup_union_None in Hf as [Hf1 Hf2].
    exists l, (σ ∪ {[l := c]}). split.
    { rewrite (map_union_comm σ {[l := c]}); [|by apply map_disjoint_singleton_r].
      by rewrite -(assoc_L (∪)) -insert_union_singleton_l. }
    split.
    { apply map_disjoint_union_l. split; [done|]. by apply map_disjoint_singleton_l. }
    apply Hw; [by apply map_disjoint_singleton_r|done].
  Qed.

  Lemma wp_deallocate l c Q : l ↦ c -∗ Q tt -∗ wp (deallocate l) Q.
  Proof.
    apply bi.wand_intro_r, hentails_intro.
    intros σ (σ1&σ2&->&Hd&Hl&HQ) σf Hdf. simpl in Hl. subst σ1.
    apply map_disjoint_union_l in Hdf as [Hd1 Hd2].
    apply map_disjoint_singleton_l in Hd as Hl2.
    apply map_disjoint_singleton_l in Hd1 as Hlf.
    exists tt, σ2. split; [|done].
    unfold deallocate. rewrite -!(assoc_L (∪)) -insert_union_singleton_l lookup_insert.
    rewrite delete_insert; [done|]. by apply lookup_union_None.
  Qed.

  (** Loops: [I n a] is the invariant with variant [n]. *)
  Lemma wp_loop {A B} (I : nat → A → iProp) (body : A → M heap (A + B)) Q :
    (∀ n a, I n a ⊢ wp (body a) (λ r,
       match r with
       | inl a' => ∃ n', ⌜n = S n'⌝ ∧ I n' a'
       | inr b => Q b end)) →
    ∀ n a fuel, n < fuel → I n a ⊢ wp (loop fuel body a) Q.
  Proof.
    intros Hbody n a fuel. revert n a.
    induction fuel as [|fuel IH]; intros n a Hn; [lia|].
    cbn [loop]. iIntros "HI". iApply wp_bind.
    iApply (wp_wand with "[HI]"); [by iApply Hbody|].
    iIntros ([a'|b]) "H".
    - iDestruct "H" as (n' ->) "H". iApply (IH with "H"). lia.
    - by iApply wp_ret.
  Qed.

  (** Reading off a concrete run. *)
  Lemma wp_run {A} (m : M heap A) P Q :
    (P ⊢ wp m Q) → ∀ σ σf, hholds P σ → σ ##ₘ σf →
    ∃ a σ', m (σ ∪ σf) = Ok (a, σ' ∪ σf) ∧ σ' ##ₘ σf ∧ hholds (Q a) σ'.
  Proof. intros H σ σf HP Hd. by apply (hentails _ _ H σ HP σf). Qed.

  Lemma wp_addr l Q : Q l ⊢ wp (C:=C) (addr (Some l)) Q.
  Proof. iIntros "H". by iApply wp_ret. Qed.
  Lemma wp_loadp l c Q : l ↦ c -∗ (l ↦ c -∗ Q c) -∗ wp (loadp (Some l)) Q.
  Proof.
    iIntros "H HQ". iApply wp_bind. iApply wp_addr. iApply (wp_load with "H HQ").
  Qed.
  Lemma wp_modifyp l f c Q : l ↦ c -∗ (l ↦ f c -∗ Q tt) -∗ wp (modifyp (Some l) f) Q.
  Proof.
    iIntros "H HQ". iApply wp_bind. iApply wp_addr. iApply (wp_modify with "H HQ").
  Qed.
End wp_rules.

Global Typeclasses Opaque wp pto.
Global Opaque wp pto.

(** Stepping tactic: one model primitive at a time. *)
Ltac wstep :=
  cbn beta iota;
  lazymatch goal with
  | |- envs_entails _ (wp (bind _ _) _) => iApply wp_bind
  | |- envs_entails _ (wp (ret _) _) => iApply wp_ret
  | |- envs_entails _ (wp (addr (Some _)) _) => iApply wp_addr
  | |- envs_entails _ (wp (load _) _) => iApply (wp_load with "[$]"); iIntros "?"
  | |- envs_entails _ (wp (loadp (Some _)) _) => iApply (wp_loadp with "[$]"); iIntros "?"
  | |- envs_entails _ (wp (modify _ _) _) => iApply (wp_modify with "[$]"); iIntros "?"
  | |- envs_entails _ (wp (modifyp (Some _) _) _) => iApply (wp_modifyp with "[$]"); iIntros "?"
  | |- envs_entails _ (wp (allocate _) _) =>
      let l := fresh "l" in iApply wp_allocate; iIntros (l) "?"
  | |- envs_entails _ (wp (deallocate _) _) => iApply (wp_deallocate with "[$]")
  end; cbn beta iota.
Ltac wsteps := repeat wstep.

(** Proof-mode support for plain heap predicates used as assertions. *)
Section plain_instances.
  Context {C : Type}.
  Notation iProp := (bi_car (hpropI C)).
  Implicit Types P Q : gmap loc C → Prop.
  Global Instance from_exist_plain {A} (Φ : A → gmap loc C → Prop) :
    FromExist (plain (λ h, (∃ a, Φ a h)%type)) (λ a, plain (Φ a)).
  Proof. rewrite /FromExist. by rewrite plain_exist. Qed.
  Global Instance into_exist_plain {A} (Φ : A → gmap loc C → Prop) :
    IntoExist (plain (λ h, (∃ a, Φ a h)%type)) (λ a, plain (Φ a)) (λ x, x).
  Proof. rewrite /IntoExist. by rewrite plain_exist. Qed.
  Global Instance from_pure_plain (φ : Prop) : FromPure false (plain (C:=C) (λ _, φ)) φ.
  Proof. rewrite /FromPure /=. by rewrite plain_pure. Qed.
  Global Instance into_pure_plain (φ : Prop) : IntoPure (plain (C:=C) (λ _, φ)) φ.
  Proof. rewrite /IntoPure. by rewrite plain_pure. Qed.
  Global Instance from_and_plain P Q :
    FromAnd (plain (λ h, (P h ∧ Q h)%type)) (plain P) (plain Q).
  Proof. rewrite /FromAnd. by rewrite plain_and. Qed.
  Global Instance into_and_plain P Q :
    IntoAnd false (plain (λ h, (P h ∧ Q h)%type)) (plain P) (plain Q).
  Proof. rewrite /IntoAnd /=. by rewrite plain_and. Qed.
  Global Instance from_sep_plain P Q :
    FromSep (plain (both P Q)) (plain P) (plain Q).
  Proof. rewrite /FromSep. by rewrite plain_both. Qed.
  Global Instance into_sep_plain P Q :
    IntoSep (plain (both P Q)) (plain P) (plain Q).
  Proof. rewrite /IntoSep. by rewrite plain_both. Qed.
  Global Instance from_sep_plain' P Q :
    FromSep (plain (λ h, both P Q h)) (plain P) (plain Q).
  Proof. apply from_sep_plain. Qed.
  Global Instance into_sep_plain' P Q :
    IntoSep (plain (λ h, both P Q h)) (plain P) (plain Q).
  Proof. apply into_sep_plain. Qed.

  Lemma wp_plain_test (P : nat → gmap loc C → Prop) (Q : gmap loc C → Prop) :
    plain (both (P 3) Q) ⊢
    plain (λ h, (∃ n, n = 3 ∧ ∃ m, m = n ∧ both (P n) Q h)%type).
  Proof.
    iIntros "[HP HQ]". iExists 3. iSplit; [done|]. iExists 3. iSplit; [done|].
    iSplitL "HP"; done.
  Qed.
End plain_instances.

(** Resolve the next [if decide P] of the program. *)
Ltac dec_true := match goal with |- context [decide ?P] =>
  let H := fresh in destruct (decide P) as [_|H]; [|exfalso; by naive_solver] end.
Ltac dec_false := match goal with |- context [decide ?P] =>
  let H := fresh in destruct (decide P) as [H|_]; [exfalso; by naive_solver|] end.

Lemma runs_from {C A} (P : gmap loc C → Prop) (m : M (gmap loc C) A) Q P' (Q' : A → bi_car (hpropI C)) :
  (plain P ⊢ P') → (P' ⊢ wp m Q') → (∀ a, Q' a ⊢ plain (Q a)) → runs P m Q.
Proof.
  intros HP Hm HQ. apply runs_of_wp. rewrite HP Hm.
  iIntros "H". iApply (wp_wand with "H"). iIntros (a) "H". by iApply HQ.
Qed.
Lemma runs_conseq {C A} (P : gmap loc C → Prop) (m : M (gmap loc C) A) (Q Q' : A → gmap loc C → Prop) :
  runs P m Q → (∀ a h, Q a h → Q' a h) → runs P m Q'.
Proof.
  intros Hr HQ h hf HP Hd. destruct (Hr h hf HP Hd) as (a&h'&?&?&?).
  exists a, h'. auto.
Qed.

(** Undefined behaviour, for the refutations. *)
Definition ifails {C A} (P : bi_car (hpropI C)) (m : M (gmap loc C) A) (u : ub) : Prop :=
  ∀ σ σf, hholds P σ → σ ##ₘ σf → m (σ ∪ σf) = UB u.
Section ifails.
  Context {C : Type}.
  Notation heap := (gmap loc C).
  Notation iProp := (bi_car (hpropI C)).
  Lemma fails_of {A} (P : heap → Prop) (m : M heap A) u P' :
    (plain P ⊢ P') → ifails P' m u → fails P m u.
  Proof. intros HP Hm h hf Hh Hd. apply Hm; [|done]. eapply hentails; [exact HP|]. by apply plain_holds. Qed.
  Lemma ifails_bind {A B} P (m : M heap A) (k : A → M heap B) Q u :
    (P ⊢ wp m Q) → (∀ a, ifails (Q a) (k a) u) → ifails P (bind m k) u.
  Proof.
    intros Hm Hk σ σf HP Hd. destruct (wp_run m P Q Hm σ σf HP Hd) as (a&σ'&He&Hd'&HQ).
    unfold bind. rewrite He. by apply Hk.
  Qed.
  Lemma ifails_bind_l {A B} P (m : M heap A) (k : A → M heap B) u :
    ifails P m u → ifails P (bind m k) u.
  Proof. intros Hm σ σf HP Hd. unfold bind. by rewrite Hm. Qed.
  Lemma ifails_fail {A} P u : ifails P (fail u : M heap A) u.
  Proof. done. Qed.
  Lemma ifails_conseq {A} P P' (m : M heap A) u : (P ⊢ P') → ifails P' m u → ifails P m u.
  Proof. intros HP Hm σ σf Hh Hd. apply Hm; [|done]. by eapply hentails. Qed.
  Lemma ifails_pure {A} (φ : Prop) P (m : M heap A) u : (φ → ifails P m u) → ifails (⌜φ⌝ ∧ P)%I m u.
  Proof.
    intros Hm σ σf Hh. apply hand_unfold in Hh as [Hφ%hpure_unfold Hh]. by apply Hm.
  Qed.
  Lemma ifails_exist {A B} (Φ : B → iProp) (m : M heap A) u :
    (∀ b, ifails (Φ b) m u) → ifails (∃ b, Φ b)%I m u.
  Proof. intros Hm σ σf Hh. apply hexist_unfold in Hh as [b Hh]. by eapply Hm. Qed.
End ifails.
