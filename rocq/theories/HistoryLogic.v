(** A per-call simulation lifts to histories. Proof file. *)
From Verif Require Export History Sep.
From iris.proofmode Require Import tactics.

Section history.
  Context {C St Op Out : Type}.
  Notation heap := (gmap loc C).
  Notation iProp := (bi_car (hpropI C)).
  Context (new : M heap loc) (destroy : nat → loc → M heap unit)
          (step : nat → loc → loc → Op → M heap (loc * Out))
          (init : St) (spec : St → St → Op → option (St * St * Out)).
  Context (R : loc → St → iProp) (need : St → nat).
  Context (Hnew : ⊢ wp new (λ a, R a init))
          (Hdes : ∀ fuel a s, need s < fuel → R a s ⊢ wp (destroy fuel a) (λ _, emp))
          (Hstep : ∀ fuel this other s o op s' o' out,
             spec s o op = Some (s', o', out) → need s + need o + need s' + need o' < fuel →
             R this s ∗ R other o ⊢
             wp (step fuel this other op) (λ r, ⌜r.2 = out⌝ ∧ R this s' ∗ R r.1 o')).

  Lemma wp_h_run ops s0 o0 s' o' outs :
    h_spec spec s0 o0 ops = Some (s', o', outs) →
    ∃ F, ∀ fuel, F ≤ fuel → ∀ a b,
    R a s0 ∗ R b o0 ⊢
    wp (h_run step fuel a b ops) (λ '(a', b', outs'), ⌜outs' = outs⌝ ∧ R a' s' ∗ R b' o').
  Proof.
    revert s0 o0 s' o' outs.
    induction ops as [|[side op] ops IH]; intros s0 o0 s' o' outs Hspec; simpl in Hspec.
    { simplify_eq. exists 0. iIntros (fuel _ a b) "H". cbn [h_run]. wstep. by iSplit. }
    destruct side.
    - apply bind_Some in Hspec as ([[o1 s1] r]&Hs&Hspec).
      apply bind_Some in Hspec as ([[s2 o2] rs]&Hs'&?). simplify_eq.
      apply IH in Hs' as [F HF]. exists (S (need s0 + need o0 + need s1 + need o1 + F)).
      iIntros (fuel Hfuel a b) "[Ha Hb]". cbn [h_run]. wstep.
      iApply (wp_wand with "[Ha Hb]"); [iApply (Hstep _ b a _ _ _ _ _ _ Hs); [|iFrame]; lia|].
      iIntros ([a' r']) "[%Hr [Hb Ha]]". simpl in Hr. subst r'. simpl. wstep.
      iApply (wp_wand with "[Ha Hb]"); [iApply HF; [lia|iFrame]|].
      iIntros ([[a2 b2] outs']) "[-> H]". wsteps. by iSplit.
    - apply bind_Some in Hspec as ([[s1 o1] r]&Hs&Hspec).
      apply bind_Some in Hspec as ([[s2 o2] rs]&Hs'&?). simplify_eq.
      apply IH in Hs' as [F HF]. exists (S (need s0 + need o0 + need s1 + need o1 + F)).
      iIntros (fuel Hfuel a b) "[Ha Hb]". cbn [h_run]. wstep.
      iApply (wp_wand with "[Ha Hb]"); [iApply (Hstep _ a b _ _ _ _ _ _ Hs); [|iFrame]; lia|].
      iIntros ([b' r']) "[%Hr [Ha Hb]]". simpl in Hr. subst r'. simpl. wstep.
      iApply (wp_wand with "[Ha Hb]"); [iApply HF; [lia|iFrame]|].
      iIntros ([[a2 b2] outs']) "[-> H]". wsteps. by iSplit.
  Qed.

  Lemma h_program_correct ops : h_correct new destroy step init spec ops.
  Proof.
    intros s' o' outs Hspec. apply wp_h_run in Hspec as [F HF].
    exists (S (F + need s' + need o')). intros fuel Hfuel. apply runs_of_wp.
    rewrite plain_nothing. iIntros "_". unfold h_program. wstep.
    iApply (wp_wand with "[]"); [by iApply Hnew|]. iIntros (a) "Ha". wstep.
    iApply (wp_wand with "[]"); [by iApply Hnew|]. iIntros (b) "Hb". wstep.
    iApply (wp_wand with "[Ha Hb]"); [iApply (HF fuel ltac:(lia) a b); iFrame|].
    iIntros ([[a' b'] outs']) "[-> [Ha Hb]]". wstep.
    iApply (wp_wand with "[Ha]"); [iApply (Hdes with "Ha"); lia|]. iIntros (_) "_".
    wstep.
    iApply (wp_wand with "[Hb]"); [iApply (Hdes with "Hb"); lia|]. iIntros (_) "_".
    wstep. iSplit; [done|]. by rewrite plain_nothing.
  Qed.

  Lemma h_prefix_reaches (rep : loc → St → heap → Prop) ops :
    (∀ a s, R a s ⊢ Sep.plain (rep a s)) → h_reaches new step init spec rep ops.
  Proof.
    intros Hrep s' o' outs Hspec. apply wp_h_run in Hspec as [F HF].
    exists F. intros fuel Hfuel. apply runs_of_wp.
    rewrite plain_nothing. iIntros "_". unfold h_prefix. wstep.
    iApply (wp_wand with "[]"); [by iApply Hnew|]. iIntros (a) "Ha". wstep.
    iApply (wp_wand with "[]"); [by iApply Hnew|]. iIntros (b) "Hb".
    iApply (wp_wand with "[Ha Hb]"); [iApply (HF fuel ltac:(lia) a b); iFrame|].
    iIntros ([[a' b'] outs']) "[-> [Ha Hb]]". iSplit; [done|].
    change (λ h, both (rep a' s') (rep b' o') h) with (both (rep a' s') (rep b' o')).
    rewrite plain_both. iSplitL "Ha"; by iApply Hrep.
  Qed.
End history.
