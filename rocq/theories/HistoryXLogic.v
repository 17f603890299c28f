(** A per-call simulation lifts to exact histories (HistoryX.v). Proof file. *)
From Verif Require Export HistoryX HistoryVLogic.
From iris.proofmode Require Import tactics.

Section history.
  Context {C Hd St Op Out : Type}.
  Notation heap := (gmap loc C).
  Notation iProp := (bi_car (hpropI C)).
  Context (new : M heap Hd) (destroy : nat → Hd → M heap unit)
          (step : nat → Hd → Hd → Op → M heap (Hd * Hd * Out))
          (init : St) (code : St → St → Op → option (res (St * St * Out))).
  Context (R : Hd → St → iProp) (need : St → nat).
  Context (Hnew : ⊢ wp new (λ a, R a init))
          (Hdes : ∀ fuel a s, need s < fuel → R a s ⊢ wp (destroy fuel a) (λ _, emp))
          (Hstep : ∀ fuel this other s o op s' o' out,
             code s o op = Some (Ok (s', o', out)) → need s + need o + need s' + need o' < fuel →
             R this s ∗ R other o ⊢
             wp (step fuel this other op) (λ r, ⌜r.2 = out⌝ ∧ R r.1.1 s' ∗ R r.1.2 o'))
          (Hfail : ∀ fuel this other s o op u,
             code s o op = Some (UB u) → need s + need o < fuel →
             ifails (R this s ∗ R other o)%I (step fuel this other op) u)
          (Hfuel : ∀ s o op, code s o op ≠ Some NoFuel).

  Definition x_post (r : res (St * St * list Out)) (fuel : nat) (a b : Hd) (s0 o0 : St) ops : Prop :=
    match r with
    | Ok (s', o', outs) =>
        R a s0 ∗ R b o0 ⊢
        wp (v_run step fuel a b ops) (λ '(a', b', outs'), ⌜outs' = outs⌝ ∧ R a' s' ∗ R b' o')
    | UB u => ifails (R a s0 ∗ R b o0)%I (v_run step fuel a b ops) u
    | NoFuel => False
    end.
  Lemma wp_x_run ops s0 o0 r :
    x_spec code s0 o0 ops = Some r →
    ∃ F, ∀ fuel, F ≤ fuel → ∀ a b, x_post r fuel a b s0 o0 ops.
  Proof.
    revert s0 o0 r.
    induction ops as [|[side op] ops IH]; intros s0 o0 r Hspec; simpl in Hspec.
    { simplify_eq. exists 0. intros fuel _ a b. simpl. iIntros "H". cbn [v_run]. wstep. by iSplit. }
    apply bind_Some in Hspec as (rc&Hc&Hspec).
    destruct side.
    - destruct rc as [[[o1 s1] u]|e|]; simplify_eq.
      + apply bind_Some in Hspec as (r'&Hs'&Hr). apply IH in Hs' as [F HF].
        exists (S (need s0 + need o0 + need s1 + need o1 + F)). intros fuel Hf a b.
        destruct r' as [[[s2 o2] rs]|e|]; simplify_eq.
        * simpl. iIntros "[Ha Hb]". cbn [v_run]. wstep.
          iApply (wp_wand with "[Ha Hb]"); [iApply (Hstep _ b a _ _ _ _ _ _ Hc); [|iFrame]; lia|].
          iIntros ([[b' a'] r']) "[%Hr [Hb Ha]]". simpl in Hr. subst r'. simpl. wstep.
          iApply (wp_wand with "[Ha Hb]"); [iApply (HF fuel); [lia|iFrame]|].
          iIntros ([[a2 b2] outs']) "[-> H]". wsteps. by iSplit.
        * simpl. eapply ifails_bind.
          { iIntros "[Ha Hb]". iApply (Hstep _ b a _ _ _ _ _ _ Hc); [lia|iFrame]. }
          intros [[b' a'] r']. apply ifails_pure. intros _. simpl. apply ifails_bind_l.
          eapply ifails_conseq; [|apply (HF fuel ltac:(lia) a' b')]. by rewrite comm.
        * destruct (HF fuel ltac:(lia) a b).
      + exists (S (need s0 + need o0)). intros fuel Hf a b. simpl. apply ifails_bind_l.
        eapply ifails_conseq; [|eapply Hfail; [exact Hc|lia]]. by rewrite comm.
      + by apply Hfuel in Hc.
    - destruct rc as [[[s1 o1] u]|e|]; simplify_eq.
      + apply bind_Some in Hspec as (r'&Hs'&Hr). apply IH in Hs' as [F HF].
        exists (S (need s0 + need o0 + need s1 + need o1 + F)). intros fuel Hf a b.
        destruct r' as [[[s2 o2] rs]|e|]; simplify_eq.
        * simpl. iIntros "[Ha Hb]". cbn [v_run]. wstep.
          iApply (wp_wand with "[Ha Hb]"); [iApply (Hstep _ a b _ _ _ _ _ _ Hc); [|iFrame]; lia|].
          iIntros ([[a' b'] r']) "[%Hr [Ha Hb]]". simpl in Hr. subst r'. simpl. wstep.
          iApply (wp_wand with "[Ha Hb]"); [iApply (HF fuel); [lia|iFrame]|].
          iIntros ([[a2 b2] outs']) "[-> H]". wsteps. by iSplit.
        * simpl. eapply ifails_bind.
          { iIntros "[Ha Hb]". iApply (Hstep _ a b _ _ _ _ _ _ Hc); [lia|iFrame]. }
          intros [[a' b'] r']. apply ifails_pure. intros _. simpl. apply ifails_bind_l.
          apply (HF fuel ltac:(lia) a' b').
        * destruct (HF fuel ltac:(lia) a b).
      + exists (S (need s0 + need o0)). intros fuel Hf a b. simpl. apply ifails_bind_l.
        eapply Hfail; [exact Hc|lia].
      + by apply Hfuel in Hc.
  Qed.

  Lemma x_no_fuel ops s0 o0 : x_spec code s0 o0 ops ≠ Some NoFuel.
  Proof.
    revert s0 o0. induction ops as [|[side op] ops IH]; intros s0 o0 Hs; simpl in Hs; [done|].
    apply bind_Some in Hs as (rc&Hc&Hs).
    destruct rc as [[[s1 o1] u]|e|]; simplify_eq; [|by destruct side; apply Hfuel in Hc].
    apply bind_Some in Hs as (r'&Hs'&Hr).
    destruct r' as [[[s2 o2] rs]|e|]; simplify_eq. destruct side; by apply IH in Hs'.
  Qed.
  Lemma x_program_exact ops : x_exact new destroy step init code ops.
  Proof.
    intros r Hr. pose proof Hr as Hr'. apply wp_x_run in Hr as [F HF].
    destruct r as [[[s' o'] outs]|u|].
    - exists (S (F + need s' + need o')). intros fuel Hfuel'. apply runs_of_wp.
      rewrite plain_nothing. iIntros "_". unfold v_program, v_prefix. wstep. wstep.
      iApply (wp_wand with "[]"); [by iApply Hnew|]. iIntros (a) "Ha". wstep.
      iApply (wp_wand with "[]"); [by iApply Hnew|]. iIntros (b) "Hb".
      iApply (wp_wand with "[Ha Hb]"); [iApply (HF fuel); [lia|iFrame]|].
      iIntros ([[a' b'] outs']) "[-> [Ha Hb]]". wstep.
      iApply (wp_wand with "[Ha]"); [iApply (Hdes with "Ha"); lia|]. iIntros (_) "_".
      wstep.
      iApply (wp_wand with "[Hb]"); [iApply (Hdes with "Hb"); lia|]. iIntros (_) "_".
      wstep. iSplit; [done|]. by rewrite plain_nothing.
    - exists F. intros fuel Hf. eapply (fails_of _ _ _ emp%I); [by rewrite plain_nothing|].
      unfold v_program, v_prefix. apply ifails_bind_l.
      eapply (ifails_bind _ _ _ (λ a, R a init)); [iIntros "_"; iApply Hnew|]. intros a.
      eapply (ifails_bind _ _ _ (λ b, R a init ∗ R b init)%I).
      { iIntros "Ha". iApply (wp_wand with "[]"); [by iApply Hnew|]. iIntros (b) "Hb". iFrame. }
      intros b. apply (HF fuel Hf a b).
    - by apply x_no_fuel in Hr'.
  Qed.
End history.
