(** A per-call simulation lifts to histories (HistoryV.v). Proof file. *)
From Verif Require Export HistoryV Sep.
From iris.proofmode Require Import tactics.

Section history.
  Context {C Hd St Op Out : Type}.
  Notation heap := (gmap loc C).
  Notation iProp := (bi_car (hpropI C)).
  Context (new : M heap Hd) (destroy : nat → Hd → M heap unit)
          (step : nat → Hd → Hd → Op → M heap (Hd * Hd * Out))
          (init : St) (spec : St → St → Op → option (St * St * Out)).
  Context (R : Hd → St → iProp) (need : St → nat) (fin : St → Prop).
  Context (Hnew : ⊢ wp new (λ a, R a init))
          (Hdes : ∀ fuel a s, fin s → need s < fuel → R a s ⊢ wp (destroy fuel a) (λ _, emp))
          (Hstep : ∀ fuel this other s o op s' o' out,
             spec s o op = Some (s', o', out) → need s + need o + need s' + need o' < fuel →
             R this s ∗ R other o ⊢
             wp (step fuel this other op) (λ r, ⌜r.2 = out⌝ ∧ R r.1.1 s' ∗ R r.1.2 o')).

  Lemma wp_v_run ops s0 o0 s' o' outs :
    h_spec spec s0 o0 ops = Some (s', o', outs) →
    ∃ F, ∀ fuel, F ≤ fuel → ∀ a b,
    R a s0 ∗ R b o0 ⊢
    wp (v_run step fuel a b ops) (λ '(a', b', outs'), ⌜outs' = outs⌝ ∧ R a' s' ∗ R b' o').
  Proof.
    revert s0 o0 s' o' outs.
    induction ops as [|[side op] ops IH]; intros s0 o0 s' o' outs Hspec; simpl in Hspec.
    { simplify_eq. exists 0. iIntros (fuel _ a b) "H". cbn [v_run]. wstep. by iSplit. }
    destruct side.
    - apply bind_Some in Hspec as ([[o1 s1] r]&Hs&Hspec).
      apply bind_Some in Hspec as ([[s2 o2] rs]&Hs'&?). simplify_eq.
      apply IH in Hs' as [F HF]. exists (S (need s0 + need o0 + need s1 + need o1 + F)).
      iIntros (fuel Hfuel a b) "[Ha Hb]". cbn [v_run]. wstep.
      iApply (wp_wand with "[Ha Hb]"); [iApply (Hstep _ b a _ _ _ _ _ _ Hs); [|iFrame]; lia|].
      iIntros ([[b' a'] r']) "[%Hr [Hb Ha]]". simpl in Hr. subst r'. simpl. wstep.
      iApply (wp_wand with "[Ha Hb]"); [iApply HF; [lia|iFrame]|].
      iIntros ([[a2 b2] outs']) "[-> H]". wsteps. by iSplit.
    - apply bind_Some in Hspec as ([[s1 o1] r]&Hs&Hspec).
      apply bind_Some in Hspec as ([[s2 o2] rs]&Hs'&?). simplify_eq.
      apply IH in Hs' as [F HF]. exists (S (need s0 + need o0 + need s1 + need o1 + F)).
      iIntros (fuel Hfuel a b) "[Ha Hb]". cbn [v_run]. wstep.
      iApply (wp_wand with "[Ha Hb]"); [iApply (Hstep _ a b _ _ _ _ _ _ Hs); [|iFrame]; lia|].
      iIntros ([[a' b'] r']) "[%Hr [Ha Hb]]". simpl in Hr. subst r'. simpl. wstep.
      iApply (wp_wand with "[Ha Hb]"); [iApply HF; [lia|iFrame]|].
      iIntros ([[a2 b2] outs']) "[-> H]". wsteps. by iSplit.
  Qed.

  Lemma wp_v_prefix ops s' o' outs :
    h_spec spec init init ops = Some (s', o', outs) →
    ∃ F, ∀ fuel, F ≤ fuel →
    ⊢ wp (v_prefix new step fuel ops) (λ '(a', b', outs'), ⌜outs' = outs⌝ ∧ R a' s' ∗ R b' o').
  Proof.
    intros Hspec. apply wp_v_run in Hspec as [F HF]. exists F. intros fuel Hfuel.
    iStartProof. unfold v_prefix. wstep.
    iApply (wp_wand with "[]"); [by iApply Hnew|]. iIntros (a) "Ha". wstep.
    iApply (wp_wand with "[]"); [by iApply Hnew|]. iIntros (b) "Hb".
    iApply (HF fuel ltac:(lia) a b). iFrame.
  Qed.

  Lemma v_program_correct ops : v_correct new destroy step init spec fin ops.
  Proof.
    intros s' o' outs Hspec Hfa Hfb. apply wp_v_prefix in Hspec as [F HF].
    exists (S (F + need s' + need o')). intros fuel Hfuel. apply runs_of_wp.
    rewrite plain_nothing. iIntros "_". unfold v_program. wstep.
    iApply (wp_wand with "[]"); [iApply (HF fuel); lia|].
    iIntros ([[a' b'] outs']) "[-> [Ha Hb]]". wstep.
    iApply (wp_wand with "[Ha]"); [iApply (Hdes with "Ha"); [done|lia]|]. iIntros (_) "_".
    wstep.
    iApply (wp_wand with "[Hb]"); [iApply (Hdes with "Hb"); [done|lia]|]. iIntros (_) "_".
    wstep. iSplit; [done|]. by rewrite plain_nothing.
  Qed.

  Lemma v_prefix_reaches (rep : Hd → St → heap → Prop) ops :
    (∀ a s, R a s ⊢ Sep.plain (rep a s)) → v_reaches new step init spec rep ops.
  Proof.
    intros Hrep s' o' outs Hspec. apply wp_v_prefix in Hspec as [F HF].
    exists F. intros fuel Hfuel. apply runs_of_wp.
    rewrite plain_nothing. iIntros "_".
    iApply (wp_wand with "[]"); [iApply (HF fuel); lia|].
    iIntros ([[a' b'] outs']) "[-> [Ha Hb]]". iSplit; [done|].
    change (λ h, both (rep a' s') (rep b' o') h) with (both (rep a' s') (rep b' o')).
    rewrite plain_both. iSplitL "Ha"; by iApply Hrep.
  Qed.
End history.
