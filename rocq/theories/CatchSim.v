(** Clients that catch exceptions against the plain ones. Proof file. *)
From Verif Require Export CmpSim CatchSpec.
From Verif Require Import Triple.

Section general.
  Context {S : Type}.
  Implicit Types (Thr : Prop).
  Lemma reads_ext {A} (m m' : M S A) : (∀ s, m s = m' s) → reads_only m' → reads_only m.
  Proof. intros He Hr s a s'. rewrite He. apply Hr. Qed.
  (** when the part that may throw comes first and only reads *)
  Lemma aon_then {A B} Thr (p : T S A) (m : M S A) (k : A → M S B) :
    reads_only m → all_or_nothing Thr p m →
    all_or_nothing Thr (tbind p (λ a, tdo (k a))) (bind m k).
  Proof. intros Hr Hp. apply aon_bind; [done|done|]. intros a. apply aon_tdo. Qed.
  (** what follows may write, but calls no function object *)
  Lemma aon_after {A B} Thr (p : T S A) (m : M S A) (k : A → T S B) k' :
    all_or_nothing Thr p m → (∀ a, all_or_nothing False (k a) (k' a)) →
    all_or_nothing Thr (tbind p k) (bind m k').
  Proof.
    intros Hp Hk c s. unfold tbind, bind. destruct (Hp c s) as [[Ht ->]|Ha]; [by left|]. right.
    destruct (m s) as [[a s1]| |]; simpl in Ha.
    - destruct Ha as [c1 ->]. destruct (Hk a c1 s1) as [[[] _]|Ha']. done.
    - by rewrite Ha.
    - by rewrite Ha.
  Qed.
  Lemma aon_call_last {A} Thr (f : nat → option A) (a : A) :
    (∀ c a', f c = Some a' → a' = a) → (∀ c, f c = None → Thr) → all_or_nothing (S:=S) Thr (tcall f) (ret a).
  Proof.
    intros Hf Hn c s. unfold tcall, ret, as_plain. destruct (f c) as [a'|] eqn:E.
    - right. rewrite (Hf _ _ E). by eexists.
    - left. split; [by eapply Hn|done].
  Qed.
End general.

Section hist.
  Context {C O St Op Out : Type}.
  Notation heap := (gmap loc C).
  Context (Thr : Prop) (new : M heap O) (destroy : nat → O → M heap unit).
  Context (step : nat → O → O → Op → M heap (O * O * Out)) (xstep : nat → O → O → Op → T heap (O * O * Out)).
  Context (Hstep : ∀ fuel a b op, all_or_nothing Thr (xstep fuel a b op) (step fuel a b op)).

  Lemma select_run fuel a b ops s : as_without_throwing_calls Thr step xstep fuel a b ops s.
  Proof.
    revert a b s. induction ops as [|[c [w op]] ops IH]; intros a b s.
    { exists []. split; [done|]. split; [by intros ?%elem_of_nil|done]. }
    destruct (Hstep fuel (if w then b else a) (if w then a else b) op c s) as [[Ht Hx]|Hp].
    - destruct (IH a b s) as (kept&Hl&Hk&Hr). exists (false :: kept). split; [by simpl; f_equal|]. split; [done|].
      cbn [select fmap list_fmap catching_run snd]. unfold bind. rewrite Hx.
      change (list_fmap _ _ snd ops) with (ops.*2).
      destruct (v_run step fuel a b (select kept ops.*2) s) as [[[[a' b'] outs] s']| |]; by rewrite Hr.
    - destruct (step fuel (if w then b else a) (if w then a else b) op s) as [[[[x y] o] s1]| |] eqn:E; simpl in Hp.
      + destruct Hp as [c1 Hx].
        destruct (IH (if w then y else x) (if w then x else y) s1) as (kept&Hl&Hk&Hr).
        exists (true :: kept). split; [by simpl; f_equal|].
        split; [intros [?|?]%elem_of_cons; [done|by apply Hk]|].
        assert (catching_run xstep fuel a b ((c, (w, op)) :: ops) s =
          (let! (ab, rs) := catching_run xstep fuel (if w then y else x) (if w then x else y) ops in
           ret (ab, Some o :: rs)) s1) as ->.
        { cbn [catching_run]. unfold bind at 1. by rewrite Hx. }
        cbn [select fmap list_fmap snd]. change (list_fmap _ _ snd ops) with (ops.*2).
        destruct w; cbn [v_run]; unfold bind, ret; rewrite E;
          destruct (v_run step fuel _ _ (select kept ops.*2) s1) as [[[[a' b'] outs] s']| |]; by rewrite Hr.
      + exists (true :: replicate (length ops) true). split; [simpl; by rewrite replicate_length|].
        split; [intros [?|[? _]%elem_of_replicate]%elem_of_cons; done|].
        cbn [select fmap list_fmap catching_run snd]. destruct w; cbn [v_run]; unfold bind; by rewrite E, Hp.
      + exists (true :: replicate (length ops) true). split; [simpl; by rewrite replicate_length|].
        split; [intros [?|[? _]%elem_of_replicate]%elem_of_cons; done|].
        cbn [select fmap list_fmap catching_run snd]. destruct w; cbn [v_run]; unfold bind; by rewrite E, Hp.
  Qed.

  Lemma all_masks n (P : list bool → nat → Prop) :
    (∀ kept, ∃ F, ∀ fuel, F ≤ fuel → P kept fuel) →
    ∃ F, ∀ fuel kept, F ≤ fuel → length kept = n → P kept fuel.
  Proof.
    revert P. induction n as [|n IH]; intros P HP.
    - destruct (HP []) as [F HF]. exists F. intros fuel [|? ?]; [auto|done].
    - destruct (IH (λ kept, P (true :: kept))) as [F1 H1]; [intros; apply HP|].
      destruct (IH (λ kept, P (false :: kept))) as [F2 H2]; [intros; apply HP|].
      exists (F1 `max` F2). intros fuel [|[|] kept] Hf Hl; [done|apply H1|apply H2]; simpl in Hl; lia.
  Qed.

  Lemma catching init (spec : St → St → Op → option (St * St * Out)) ops :
    (∀ ops, v_correct new destroy step init spec (λ _, True) ops) →
    catching_correct Thr new destroy xstep init spec ops.
  Proof.
    intros Hc.
    destruct (all_masks (length ops) (λ kept fuel, ∀ xs ys outs,
      h_spec spec init init (select kept ops.*2) = Some (xs, ys, outs) →
      runs nothing (v_program new destroy step fuel (select kept ops.*2)) (λ outs' h, outs' = outs ∧ nothing h)))
      as [F HF].
    { intros kept. pose proof (Hc (select kept ops.*2)) as Hk. unfold v_correct in Hk.
      destruct (h_spec spec init init (select kept ops.*2)) as [[[xs ys] outs]|] eqn:E.
      - destruct (Hk _ _ _ eq_refl I I) as [F HF]. exists F. intros fuel Hf xs' ys' outs' [= <- <- <-]. by apply HF.
      - by exists 0. }
    exists F. intros fuel h Hf. unfold catching_program.
    destruct (new h) as [[a h1]| |] eqn:Ea.
    2,3: exists (replicate (length ops) true); rewrite replicate_length; split; [done|];
      (split; [intros [? _]%elem_of_replicate; done|]); intros xs ys outs Hs;
      destruct (HF _ _ Hf (replicate_length _ _) _ _ _ Hs ∅ h eq_refl (map_disjoint_empty_l _)) as (r&h'&Hr&_);
      rewrite map_empty_union in Hr; unfold v_program, v_prefix, bind in Hr; rewrite Ea in Hr; done.
    destruct (new h1) as [[b h2]| |] eqn:Eb.
    2,3: exists (replicate (length ops) true); rewrite replicate_length; split; [done|];
      (split; [intros [? _]%elem_of_replicate; done|]); intros xs ys outs Hs;
      destruct (HF _ _ Hf (replicate_length _ _) _ _ _ Hs ∅ h eq_refl (map_disjoint_empty_l _)) as (r&h'&Hr&_);
      rewrite map_empty_union in Hr; unfold v_program, v_prefix, bind in Hr; rewrite Ea, Eb in Hr; done.
    destruct (select_run fuel a b ops h2) as (kept&Hl&Hk&Hrun). exists kept. split; [done|]. split; [done|].
    intros xs ys outs Hs.
    destruct (HF _ _ Hf Hl _ _ _ Hs ∅ h eq_refl (map_disjoint_empty_l _)) as (r&h'&Hr&_&->&->).
    rewrite !map_empty_union in Hr. unfold v_program, v_prefix, bind in Hr. unfold bind. rewrite Ea, Eb in Hr.
    rewrite Ea, Eb.
    destruct (v_run step fuel a b (select kept ops.*2) h2) as [[[[a' b'] outs'] h3]| |]; [|done|done].
    rewrite Hrun. destruct (destroy fuel a' h3) as [[[] h4]| |]; [|done|done].
    destruct (destroy fuel b' h4) as [[[] h5]| |]; [|done|done]. unfold ret in *. by injection Hr as -> ->.
  Qed.
End hist.
