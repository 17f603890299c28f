(** bitset: observers. *)
From Coq Require Import ssreflect.
From Verif Require Import BitSpec BitPure BitProofs.
Local Open Scope general_if_scope.

(** the number of ones of a number *)
Lemma popcount_S W w : popcount (S W) w = (if N.testbit w 0 then 1 else 0) + popcount W (N.div2 w).
Proof.
  unfold popcount. cbn [seq]. rewrite filter_cons. change (N.of_nat 0) with 0%N.
  assert (length (filter (λ i, N.testbit w (N.of_nat i) = true) (seq 1 W)) =
    length (filter (λ i, N.testbit (N.div2 w) (N.of_nat i) = true) (seq 0 W))) as Hl.
  { rewrite -fmap_S_seq. generalize (seq 0 W). intros l. induction l as [|i l IH]; [done|].
    rewrite fmap_cons !filter_cons. rewrite N.div2_spec N.shiftr_spec' N.add_1_r Nnat.Nat2N.inj_succ.
    destruct (decide _); simpl; by rewrite IH N.div2_spec. }
  destruct (N.testbit w 0); simpl; by rewrite Hl.
Qed.
Lemma popcount_0 W : popcount W 0 = 0.
Proof.
  unfold popcount. generalize (seq 0 W). intros l. induction l as [|i l IH]; [done|].
  rewrite filter_cons N.bits_0. by destruct (decide _).
Qed.
Lemma div2_odd_sub b : N.testbit b 0 = true → N.div2 (b - 1) = N.div2 b ∧ N.testbit (b - 1) 0 = false.
Proof.
  rewrite N.bit0_odd. intros Ho. rewrite N.bit0_odd. apply N.odd_spec in Ho as [m ->].
  replace (2 * m + 1 - 1)%N with (2 * m)%N by lia. rewrite N.odd_mul. split; [|done].
  replace (2 * m + 1)%N with (N.succ_double m) by (rewrite N.succ_double_spec; lia).
  by rewrite N.div2_succ_double N.div2_double.
Qed.
Lemma div2_even_sub b : b ≠ 0%N → N.testbit b 0 = false →
  N.div2 (b - 1) = (N.div2 b - 1)%N ∧ N.div2 b ≠ 0%N.
Proof.
  rewrite N.bit0_odd. intros Hb Ho. assert (N.Even b) as [m ->].
  { apply N.even_spec. rewrite -N.negb_odd Ho. done. }
  rewrite N.div2_double. split; [|lia].
  replace (2 * m - 1)%N with (N.succ_double (m - 1)) by (rewrite N.succ_double_spec; lia).
  by rewrite N.div2_succ_double.
Qed.
Lemma div2_land a b : N.div2 (N.land a b) = N.land (N.div2 a) (N.div2 b).
Proof. rewrite !N.div2_spec. by rewrite N.shiftr_land. Qed.
(** b &= b - 1 removes exactly one of them *)
Lemma popcount_step W b : b ≠ 0%N → (b < 2 ^ N.of_nat W)%N → S (popcount W (N.land b (b - 1))) = popcount W b.
Proof.
  revert b. induction W as [|W IH]; intros b Hb Hs.
  { simpl in Hs. lia. }
  assert (N.div2 b < 2 ^ N.of_nat W)%N as Hs2.
  { rewrite N.div2_div. apply N.div_lt_upper_bound; [done|]. rewrite Nnat.Nat2N.inj_succ N.pow_succ_r' in Hs. done. }
  rewrite !popcount_S N.land_spec div2_land. destruct (N.testbit b 0) eqn:H0.
  - destruct (div2_odd_sub b H0) as [-> ->]. simpl. by rewrite N.land_diag.
  - destruct (div2_even_sub b Hb H0) as [-> Hne]. simpl. by apply IH.
Qed.
Lemma popcount_le W w : popcount W w ≤ W.
Proof. unfold popcount. etrans; [apply filter_length|]. by rewrite seq_length. Qed.

Section proofs.
  Context (W LLW ulim : nat) (gnuc long_lt : bool) (fresh : nat → option N).
  Hypothesis HW : 0 < W.
  Implicit Types (p : pool) (ws : list N).
  Notation small w := (w < 2 ^ N.of_nat W)%N.
  Notation cap n := (nwords W n * W).
  Notation wf := (wf W).
  Notation wbit := (wbit W).
  Notation vis := (vis W).

  (** the last word *)
  Lemma last_slot_lt n : 0 < n → last_slot W n < nwords W n ∧ last_slot W n ≤ n ∧ last_slot W n < n.
  Proof.
    intros. pose proof (nwords_pos W HW n ltac:(lia)). pose proof (nwords_le W HW n). unfold last_slot. dF. lia.
  Qed.
  (** a visible bit is in an earlier word or among the used bits of the last one *)
  Lemma visible_split n (P : nat → Prop) : 0 < n →
    (∀ i, i < n → P i) ↔ (∀ i j, i < last_slot W n → j < W → P (i * W + j)) ∧ (∀ j, j < used W n → P (last_slot W n * W + j)).
  Proof.
    intros Hn. pose proof (used_pos W HW n Hn). unfold used in *.
    assert (last_slot W n * W ≤ n). { unfold last_slot. dF. pose proof (nwords_lt W HW n Hn). lia. }
    split.
    - intros HP. split; intros; apply HP; nia.
    - intros [H1 H2] i Hi. destruct (decide (i < last_slot W n * W)).
      + rewrite (div_mul_mod W HW i). apply H1; [|by apply mod_lt]. apply Nat.div_lt_upper_bound; lia.
      + replace i with (last_slot W n * W + (i - last_slot W n * W)) by lia. apply H2. lia.
  Qed.
  Lemma masked_0 n w : 0 < n → small w →
    (N.land w (last_bits W n) = 0%N ↔ ∀ j, j < used W n → N.testbit w (N.of_nat j) = false).
  Proof.
    intros Hn Hs. pose proof (used_pos W HW n Hn). rewrite (word_0 W); [by apply small_land|]. split.
    - intros H1 j Hj. specialize (H1 j ltac:(lia)). rewrite masked_bit // in H1; [lia|]. rewrite bool_decide_true // andb_true_r in H1. done.
    - intros H1 j Hj. rewrite masked_bit //. case_bool_decide; [by rewrite H1|by rewrite andb_false_r].
  Qed.
  Lemma masked_full n w : 0 < n → small w →
    (N.land w (last_bits W n) = last_bits W n ↔ ∀ j, j < used W n → N.testbit w (N.of_nat j) = true).
  Proof.
    intros Hn Hs. pose proof (used_pos W HW n Hn). split.
    - intros H1 j Hj. assert (N.testbit (N.land w (last_bits W n)) (N.of_nat j) = true) as H2.
      { rewrite H1 last_bits_bit //; [lia|]. by rewrite bool_decide_true. }
      rewrite masked_bit // in H2; [lia|]. by apply andb_true_iff in H2 as [? _].
    - intros H1. apply (word_ext W); [by apply small_land|by apply last_bits_small|]. intros j Hj.
      rewrite masked_bit // last_bits_bit //. case_bool_decide; [by rewrite H1|by rewrite andb_false_r].
  Qed.

  Lemma any_zero n ws : 0 < n → wf n ws → ∀ wl, ws !! last_slot W n = Some wl →
    (∀ i, i < n → wbit ws i = false) ↔
    (¬ ∃ i, i < last_slot W n ∧ negb (N.eqb (default 0%N (ws !! i)) 0) = true) ∧ N.land wl (last_bits W n) = 0%N.
  Proof.
    intros Hn Hwf wl Hwl. destruct (last_slot_lt n Hn) as (?&_&_). pose proof (used_pos W HW n Hn).
    assert (small wl) as Hsl by (destruct Hwf as [_ Hs]; rewrite Forall_lookup in Hs; eauto).
    rewrite (visible_split n (λ i, wbit ws i = false)) // masked_0 //. f_equiv.
    - split.
      + intros H1 (i&Hi&Hb). destruct (wf_lookup W HW n ws i Hwf) as (w&Hw&Hs); [lia|]. rewrite Hw /= in Hb.
        apply negb_true_iff, N.eqb_neq in Hb. apply Hb. apply (word_0 W); [done|]. intros j Hj.
        rewrite -(wbit_word W HW ws i j w) //. auto.
      + intros H1 i j Hi Hj. destruct (wf_lookup W HW n ws i Hwf) as (w&Hw&Hs); [lia|].
        rewrite (wbit_word W HW ws i j w) //. revert j Hj. apply (word_0 W); [done|].
        destruct (N.eqb_spec w 0) as [|Hne]; [done|]. exfalso. apply H1. exists i. split; [done|]. rewrite Hw /=.
        by apply negb_true_iff, N.eqb_neq.
    - split; intros H1 j Hj; specialize (H1 j Hj); rewrite (wbit_word W HW ws _ j wl) // in H1 |- *; lia.
  Qed.
  Lemma all_ones n ws : 0 < n → wf n ws → ∀ wl, ws !! last_slot W n = Some wl →
    (∀ i, i < n → wbit ws i = true) ↔
    (¬ ∃ i, i < last_slot W n ∧ negb (N.eqb (default 0%N (ws !! i)) (all1 W)) = true) ∧ N.land wl (last_bits W n) = last_bits W n.
  Proof.
    intros Hn Hwf wl Hwl. destruct (last_slot_lt n Hn) as (?&_&_). pose proof (used_pos W HW n Hn).
    assert (small wl) as Hsl by (destruct Hwf as [_ Hs]; rewrite Forall_lookup in Hs; eauto).
    rewrite (visible_split n (λ i, wbit ws i = true)) // masked_full //. f_equiv.
    - split.
      + intros H1 (i&Hi&Hb). destruct (wf_lookup W HW n ws i Hwf) as (w&Hw&Hs); [lia|]. rewrite Hw /= in Hb.
        apply negb_true_iff, N.eqb_neq in Hb. apply Hb. apply (word_ext W); [done|apply small_all1|]. intros j Hj.
        rewrite -(wbit_word W HW ws i j w) // all1_bit //. auto.
      + intros H1 i j Hi Hj. destruct (wf_lookup W HW n ws i Hwf) as (w&Hw&Hs); [lia|].
        rewrite (wbit_word W HW ws i j w) //. assert (w = all1 W) as ->; [|by apply all1_bit].
        destruct (N.eqb_spec w (all1 W)) as [|Hne]; [done|]. exfalso. apply H1. exists i. split; [done|]. rewrite Hw /=.
        by apply negb_true_iff, N.eqb_neq.
    - split; intros H1 j Hj; specialize (H1 j Hj); rewrite (wbit_word W HW ws _ j wl) // in H1 |- *; lia.
  Qed.
  Lemma lxor_0_bit a b j : N.testbit (N.lxor a b) j = false ↔ N.testbit a j = N.testbit b j.
  Proof. rewrite N.lxor_spec. by destruct (N.testbit a j), (N.testbit b j). Qed.
  Lemma same_bits n ws vs : 0 < n → wf n ws → wf n vs → ∀ wl vl, ws !! last_slot W n = Some wl → vs !! last_slot W n = Some vl →
    (∀ i, i < n → wbit ws i = wbit vs i) ↔
    (¬ ∃ i, i < last_slot W n ∧ negb (N.eqb (default 0%N (ws !! i)) (default 0%N (vs !! i))) = true) ∧
    N.land (N.lxor wl vl) (last_bits W n) = 0%N.
  Proof.
    intros Hn Hwf Hwv wl vl Hwl Hvl. destruct (last_slot_lt n Hn) as (?&_&_). pose proof (used_pos W HW n Hn).
    assert (small wl) as Hsl by (destruct Hwf as [_ Hs]; rewrite Forall_lookup in Hs; eauto).
    assert (small vl) as Hsv by (destruct Hwv as [_ Hs]; rewrite Forall_lookup in Hs; eauto).
    rewrite (visible_split n (λ i, wbit ws i = wbit vs i)) // masked_0 //; [by apply small_lxor|]. f_equiv.
    - split.
      + intros H1 (i&Hi&Hb). destruct (wf_lookup W HW n ws i Hwf) as (w&Hw&Hs), (wf_lookup W HW n vs i Hwv) as (v&Hv&Hs'); [lia..|]. rewrite Hw Hv /= in Hb.
        apply negb_true_iff, N.eqb_neq in Hb. apply Hb. apply (word_ext W); [done..|]. intros j Hj.
        rewrite -(wbit_word W HW ws i j w) // -(wbit_word W HW vs i j v) //. auto.
      + intros H1 i j Hi Hj. destruct (wf_lookup W HW n ws i Hwf) as (w&Hw&Hs), (wf_lookup W HW n vs i Hwv) as (v&Hv&Hs'); [lia..|].
        rewrite (wbit_word W HW ws i j w) // (wbit_word W HW vs i j v) //. assert (w = v) as ->; [|done].
        destruct (N.eqb_spec w v) as [|Hne]; [done|]. exfalso. apply H1. exists i. split; [done|]. rewrite Hw Hv /=.
        by apply negb_true_iff, N.eqb_neq.
    - split; intros H1 j Hj; specialize (H1 j Hj).
      + apply lxor_0_bit. rewrite -(wbit_word W HW ws (last_slot W n) j wl ltac:(lia) Hwl) -(wbit_word W HW vs (last_slot W n) j vl ltac:(lia) Hvl) //.
      + apply lxor_0_bit in H1. rewrite (wbit_word W HW ws (last_slot W n) j wl ltac:(lia) Hwl) (wbit_word W HW vs (last_slot W n) j vl ltac:(lia) Hvl) //.
  Qed.

  Lemma vis_all n ws b : (∀ i, i < n → wbit ws i = b) ↔ Forall (λ x, x = b) (vis n ws).
  Proof.
    rewrite Forall_lookup. split.
    - intros H1 i x Hx. pose proof (lookup_lt_Some _ _ _ Hx) as Hi. rewrite vis_length in Hi. rewrite vis_lookup // in Hx. simplify_eq. auto.
    - intros H1 i Hi. apply (H1 i). by apply vis_lookup.
  Qed.
  Lemma none_Forall (bs : list bool) : true ∉ bs ↔ Forall (λ x, x = false) bs.
  Proof.
    rewrite Forall_forall. split.
    - intros H1 x Hx. destruct x; [done|done].
    - intros H1 Hx. by apply H1 in Hx.
  Qed.
  Lemma vis_eq_iff n ws vs : (∀ i, i < n → wbit ws i = wbit vs i) ↔ vis n ws = vis n vs.
  Proof.
    split.
    - intros H1. apply (vis_eq W HW); [apply vis_length|]. intros i Hi. rewrite vis_lookup // H1 //.
    - intros H1 i Hi. assert (vis n ws !! i = vis n vs !! i) as H2 by (by rewrite H1). rewrite !vis_lookup // in H2. by simplify_eq.
  Qed.

  Lemma b_none_answers fuel n o ws p : p !! o = Some (Some <$> ws) → wf n ws → n < ulim → n < fuel →
    answers (b_none W ulim fuel n o) p (bool_decide (true ∉ vis n ws)).
  Proof.
    intros Ho Hwf Hu Hf. unfold b_none. destruct (decide (n = 0)) as [->|]; [by apply gives_ret|].
    destruct (last_slot_lt n ltac:(lia)) as (Hls&?&?). destruct (wf_lookup W HW n ws _ Hwf Hls) as (wl&Hwl&_).
    pose proof (any_zero n ws ltac:(lia) Hwf wl Hwl) as Hiff. rewrite vis_all -none_Forall in Hiff.
    apply gives_bind. eapply gives_conseq.
    { apply (find_u_gives W ulim HW (λ i, negb (N.eqb (default 0%N (ws !! i)) 0)) fuel (last_slot W n)); [lia|lia|].
      intros i Hi. destruct (wf_lookup W HW n ws i Hwf) as (w&Hw&_); [lia|]. unfold bind. rewrite (rd_eq p o ws i w) // Hw //. }
    intros r p' [-> Hr]. destruct r.
    - apply gives_ret. split; [done|]. symmetry. apply bool_decide_eq_false_2. rewrite Hiff. intros [H1 _]. apply H1. by apply Hr.
    - apply gives_bind. eapply gives_eq; [by apply (rd_eq p o ws _ wl)|]. apply gives_ret. split; [done|].
      symmetry. destruct (N.eqb_spec (N.land wl (last_bits W n)) 0).
      + apply bool_decide_eq_true_2. apply Hiff. split; [|done]. by intros ?%Hr.
      + apply bool_decide_eq_false_2. rewrite Hiff. naive_solver.
  Qed.
  Lemma b_any_answers fuel n o ws p : p !! o = Some (Some <$> ws) → wf n ws → n < ulim → n < fuel →
    answers (b_any W ulim fuel n o) p (bool_decide (true ∈ vis n ws)).
  Proof.
    intros Ho Hwf Hu Hf. unfold b_any. destruct (decide (n = 0)) as [->|]; [by apply gives_ret|].
    destruct (last_slot_lt n ltac:(lia)) as (Hls&?&?). destruct (wf_lookup W HW n ws _ Hwf Hls) as (wl&Hwl&_).
    pose proof (any_zero n ws ltac:(lia) Hwf wl Hwl) as Hiff. rewrite vis_all -none_Forall in Hiff.
    assert (true ∈ vis n ws ↔ ¬ ((¬ ∃ i, i < last_slot W n ∧ negb (N.eqb (default 0%N (ws !! i)) 0) = true) ∧ N.land wl (last_bits W n) = 0%N)) as Hiff2.
    { rewrite -Hiff. split; [by intros ??|]. intros H1. destruct (decide (true ∈ vis n ws)); [done|]. by exfalso. }
    apply gives_bind. eapply gives_conseq.
    { apply (find_u_gives W ulim HW (λ i, negb (N.eqb (default 0%N (ws !! i)) 0)) fuel (last_slot W n)); [lia|lia|].
      intros i Hi. destruct (wf_lookup W HW n ws i Hwf) as (w&Hw&_); [lia|]. unfold bind. rewrite (rd_eq p o ws i w) // Hw //. }
    intros r p' [-> Hr]. destruct r.
    - apply gives_ret. split; [done|]. symmetry. apply bool_decide_eq_true_2. rewrite Hiff2. intros [H1 _]. apply H1. by apply Hr.
    - apply gives_bind. eapply gives_eq; [by apply (rd_eq p o ws _ wl)|]. apply gives_ret. split; [done|].
      symmetry. destruct (N.eqb_spec (N.land wl (last_bits W n)) 0); simpl.
      + apply bool_decide_eq_false_2. rewrite Hiff2. intros H1. apply H1. split; [|done]. by intros ?%Hr.
      + apply bool_decide_eq_true_2. rewrite Hiff2. naive_solver.
  Qed.
  Lemma b_all_answers fuel n o ws p : 0 < n → p !! o = Some (Some <$> ws) → wf n ws → n < ulim → n < fuel →
    answers (b_all W ulim fuel n o) p (bool_decide (Forall (λ b, b = true) (vis n ws))).
  Proof.
    intros Hn Ho Hwf Hu Hf. unfold b_all. dF.
    destruct (last_slot_lt n ltac:(lia)) as (Hls&?&?). destruct (wf_lookup W HW n ws _ Hwf Hls) as (wl&Hwl&_).
    pose proof (all_ones n ws ltac:(lia) Hwf wl Hwl) as Hiff. rewrite vis_all in Hiff.
    apply gives_bind. eapply gives_conseq.
    { apply (find_u_gives W ulim HW (λ i, negb (N.eqb (default 0%N (ws !! i)) (all1 W))) fuel (last_slot W n)); [lia|lia|].
      intros i Hi. destruct (wf_lookup W HW n ws i Hwf) as (w&Hw&_); [lia|]. unfold bind. rewrite (rd_eq p o ws i w) // Hw //. }
    intros r p' [-> Hr]. destruct r.
    - apply gives_ret. split; [done|]. symmetry. apply bool_decide_eq_false_2. rewrite Hiff. intros [H1 _]. apply H1. by apply Hr.
    - apply gives_bind. eapply gives_eq; [by apply (rd_eq p o ws _ wl)|]. apply gives_ret. split; [done|].
      symmetry. destruct (N.eqb_spec (N.land wl (last_bits W n)) (last_bits W n)).
      + apply bool_decide_eq_true_2. apply Hiff. split; [|done]. by intros ?%Hr.
      + apply bool_decide_eq_false_2. rewrite Hiff. naive_solver.
  Qed.
  Lemma b_eq_answers fuel n o ws q vs p : p !! o = Some (Some <$> ws) → wf n ws → p !! q = Some (Some <$> vs) → wf n vs →
    n < ulim → n < fuel → answers (b_eq W ulim fuel n o q) p (bool_decide (vis n ws = vis n vs)).
  Proof.
    intros Ho Hwf Hq Hwv Hu Hf. unfold b_eq. destruct (decide (n = 0)) as [->|]; [by apply gives_ret|].
    destruct (last_slot_lt n ltac:(lia)) as (Hls&?&?). destruct (wf_lookup W HW n ws _ Hwf Hls) as (wl&Hwl&_).
    destruct (wf_lookup W HW n vs _ Hwv Hls) as (vl&Hvl&_).
    pose proof (same_bits n ws vs ltac:(lia) Hwf Hwv wl vl Hwl Hvl) as Hiff. rewrite vis_eq_iff in Hiff.
    apply gives_bind. eapply gives_conseq.
    { apply (find_u_gives W ulim HW (λ i, negb (N.eqb (default 0%N (ws !! i)) (default 0%N (vs !! i)))) fuel (last_slot W n)); [lia|lia|].
      intros i Hi. destruct (wf_lookup W HW n ws i Hwf) as (w&Hw&_), (wf_lookup W HW n vs i Hwv) as (v&Hv&_); [lia..|].
      unfold bind. rewrite (rd_eq p o ws i w) // (rd_eq p q vs i v) // Hw Hv //. }
    intros r p' [-> Hr]. destruct r.
    - apply gives_ret. split; [done|]. symmetry. apply bool_decide_eq_false_2. rewrite Hiff. intros [H1 _]. apply H1. by apply Hr.
    - apply gives_bind. eapply gives_eq; [by apply (rd_eq p o ws _ wl)|]. apply gives_bind.
      eapply gives_eq; [by apply (rd_eq p q vs _ vl)|]. apply gives_ret. split; [done|].
      symmetry. destruct (N.eqb_spec (N.land (N.lxor wl vl) (last_bits W n)) 0).
      + apply bool_decide_eq_true_2. apply Hiff. split; [|done]. by intros ?%Hr.
      + apply bool_decide_eq_false_2. rewrite Hiff. naive_solver.
  Qed.

  (** *** count *)
  Definition ones_below ws k : nat := length (filter (λ i, wbit ws i = true) (seq 0 k)).
  Lemma ones_in_vis n ws : ones_in (vis n ws) = ones_below ws n.
  Proof.
    unfold ones_in, BitPure.vis, ones_below. generalize (seq 0 n). intros l. induction l as [|i l IH]; [done|].
    rewrite fmap_cons !filter_cons. destruct (decide _); simpl; by rewrite IH.
  Qed.
  Lemma filter_testbit_shift ws i w r : ws !! i = Some w → r ≤ W →
    length (filter (λ x, wbit ws x = true) (seq (i * W) r)) = length (filter (λ j, N.testbit w (N.of_nat j) = true) (seq 0 r)).
  Proof.
    intros Hw Hr. rewrite -(Nat.add_0_r (i * W)) -fmap_add_seq.
    assert (∀ l, Forall (λ j, j < W) l → length (filter (λ x, wbit ws x = true) ((Nat.add (i * W)) <$> l)) =
      length (filter (λ j, N.testbit w (N.of_nat j) = true) l)) as Hg.
    { intros l. induction l as [|j l IH]; [done|]. intros [Hj Hl]%Forall_cons. rewrite fmap_cons !filter_cons (wbit_word W HW ws i j w) //.
      destruct (decide _); simpl; by rewrite IH. }
    apply Hg. apply Forall_seq. lia.
  Qed.
  Lemma ones_below_word ws i w r : ws !! i = Some w → r ≤ W →
    ones_below ws (i * W + r) = ones_below ws (i * W) + length (filter (λ j, N.testbit w (N.of_nat j) = true) (seq 0 r)).
  Proof. intros. unfold ones_below. rewrite seq_app filter_app app_length Nat.add_0_l (filter_testbit_shift ws i w) //. Qed.
  Lemma popcount_masked n w : 0 < n → small w →
    popcount W (N.land w (last_bits W n)) = length (filter (λ j, N.testbit w (N.of_nat j) = true) (seq 0 (used W n))).
  Proof.
    intros Hn Hs. pose proof (used_pos W HW n Hn). unfold popcount.
    assert (seq 0 W = seq 0 (used W n) ++ seq (used W n) (W - used W n)) as Hsq.
    { rewrite -(seq_app _ _ 0). f_equal. lia. }
    rewrite Hsq filter_app app_length.
    assert (∀ l, Forall (λ j, used W n ≤ j ∧ j < W) l → filter (λ i, N.testbit (N.land w (last_bits W n)) (N.of_nat i) = true) l = []) as H1.
    { intros l. induction l as [|j l IH]; [done|]. intros [Hj Hl]%Forall_cons. rewrite filter_cons masked_bit //; [lia|].
      rewrite (bool_decide_false (j < used W n)); [lia|]. rewrite andb_false_r. destruct (decide _); [done|]. auto. }
    rewrite (H1 (seq (used W n) (W - used W n))); [apply Forall_seq; intros; lia|]. rewrite Nat.add_0_r.
    assert (∀ l, Forall (λ j, j < used W n) l → filter (λ i, N.testbit (N.land w (last_bits W n)) (N.of_nat i) = true) l = filter (λ i, N.testbit w (N.of_nat i) = true) l) as H2.
    { intros l. induction l as [|j l IH]; [done|]. intros [Hj Hl]%Forall_cons. rewrite !filter_cons masked_bit //; [lia|].
      rewrite (bool_decide_true (j < used W n)) // andb_true_r. rewrite IH //. }
    rewrite H2 //. apply Forall_seq. intros; lia.
  Qed.
  Lemma popcount_loop_gives fuel w p : small w → W < fuel →
    gives (popcount_loop fuel w) p (λ k p', k = popcount W w ∧ p' = p).
  Proof.
    intros Hs Hf. apply (gives_loop (λ '(b, c) p', p' = p ∧ small b ∧ c + popcount W b = popcount W w) (λ '(b, c), popcount W b)).
    { done. }
    { pose proof (popcount_le W w). lia. }
    intros [b c] p' (->&Hb&Hc). destruct (N.eqb_spec b 0) as [->|Hne].
    - apply gives_ret. rewrite popcount_0 Nat.add_0_r in Hc. done.
    - apply gives_ret. pose proof (popcount_step W b Hne Hb). split; [|lia]. split; [done|]. split; [by apply small_land|lia].
  Qed.
  Lemma b_count_answers fuel n o ws p : p !! o = Some (Some <$> ws) → wf n ws → n < ulim → n < fuel → W < fuel →
    answers (b_count W ulim gnuc fuel n o) p (ones_in (vis n ws)).
  Proof.
    intros Ho Hwf Hu Hf HfW. unfold b_count. destruct (decide (n = 0)) as [->|]; [by apply gives_ret|].
    pose proof (nwords_le W HW n). pose proof (nwords_pos W HW n ltac:(lia)). rewrite ones_in_vis.
    assert (last_slot W n = nwords W n - 1) as Hls by (unfold last_slot; dF; lia).
    assert (last_slot W n * W ≤ n) as Hln. { pose proof (nwords_lt W HW n ltac:(lia)). rewrite Hls. lia. }
    apply (gives_loop (λ '(i, c) p', p' = p ∧ i ≤ nwords W n ∧ c = ones_below ws (if decide (i = nwords W n) then n else i * W)) (λ '(i, c), nwords W n - i)).
    { split; [done|]. split; [lia|]. by dF. }
    { lia. }
    intros [i c] p' (->&Hi&->). destruct (decide (i < nwords W n)) as [Hlt|].
    - destruct (wf_lookup W HW n ws i Hwf Hlt) as (w&Hw&Hs). dF. apply gives_bind. eapply gives_eq; [by apply (rd_eq p o ws _ w)|].
      set (b := if decide (i = last_slot W n) then _ else _).
      assert (small b) as Hsb. { unfold b. destruct (decide _); [by apply small_land|done]. }
      apply gives_bind. apply (gives_conseq _ _ (λ k p', k = popcount W b ∧ p' = p)).
      { destruct gnuc; [by apply gives_ret|by apply popcount_loop_gives]. }
      intros k p' [-> ->]. apply gives_ret. rewrite Nat.mod_small; [lia|]. split; [|lia]. split; [done|]. split; [lia|].
      unfold b. destruct (decide (i = last_slot W n)) as [He|Hne].
      + dT. rewrite popcount_masked //; [lia|]. rewrite -(ones_below_word ws i w) //; [pose proof (used_pos W HW n); lia|].
        f_equal. unfold used. rewrite He. lia.
      + dF. replace (S i * W) with (i * W + W) by lia. by rewrite (ones_below_word ws i w).
    - apply gives_ret. split; [done|]. rewrite decide_True //. lia.
  Qed.

  (** *** Conversion to integers *)
  Lemma num_of_word k u (bs : list bool) : (u < 2 ^ N.of_nat k)%N →
    (∀ j, j < k → N.testbit u (N.of_nat j) = default false (bs !! j)) → u = num_of (take k bs).
  Proof.
    intros Hs H1. apply (word_ext k); [done| |].
    - eapply N.lt_le_trans; [apply num_of_small|]. apply N.pow_le_mono_r; [done|]. rewrite take_length. lia.
    - intros j Hj. rewrite H1 // num_of_bit lookup_take //.
  Qed.
  Lemma vis_default n ws j : default false (vis n ws !! j) = bool_decide (j < n) && wbit ws j.
  Proof.
    destruct (decide (j < n)).
    - by rewrite vis_lookup // bool_decide_true.
    - rewrite lookup_ge_None_2 ?bool_decide_false //. rewrite vis_length. lia.
  Qed.
  Lemma used_small n : 0 < n → n ≤ W → used W n = n.
  Proof.
    intros. unfold used, last_slot. dF. pose proof (nwords_lt W HW n ltac:(lia)). pose proof (nwords_pos W HW n ltac:(lia)).
    assert (nwords W n - 1 = 0); [|lia]. destruct (nwords W n - 1); [done|]. nia.
  Qed.
  Lemma b_to_ulong_answers n o ws p : p !! o = Some (Some <$> ws) → wf n ws →
    answers (b_to_ulong W n o) p (num_of (take W (vis n ws))).
  Proof.
    intros Ho Hwf. unfold b_to_ulong. destruct (decide (n = 0)) as [->|]; [by apply gives_ret; rewrite take_nil|].
    destruct (wf_lookup W HW n ws 0 Hwf) as (w&Hw&Hs); [apply nwords_pos; lia|]. apply gives_bind.
    eapply gives_eq; [by apply (rd_eq p o ws _ w)|]. apply gives_ret. split; [done|]. apply num_of_word; [by apply small_land_r|].
    intros j Hj. rewrite vis_default N.land_spec. pose proof (wbit_word W HW ws 0 j w Hj Hw) as Hb. rewrite Nat.mul_0_l Nat.add_0_l in Hb. rewrite Hb.
    f_equal. destruct (decide (n < W)).
    - rewrite last_bits_bit //; [lia|]. rewrite used_small //; lia.
    - rewrite all1_bit // bool_decide_true //. lia.
  Qed.
  Lemma b_to_ullong_answers n o ws p : (if long_lt then LLW = 2 * W else LLW = W) → p !! o = Some (Some <$> ws) → wf n ws →
    answers (b_to_ullong W LLW long_lt n o) p (num_of (take LLW (vis n ws))).
  Proof.
    intros Hll Ho Hwf. unfold b_to_ullong. destruct (decide (n = 0)) as [->|]; [by apply gives_ret; rewrite take_nil|].
    destruct long_lt; [|rewrite Hll; by apply b_to_ulong_answers].
    apply gives_bind. eapply gives_conseq; [by apply (b_to_ulong_answers n o ws)|].
    intros lo p' [-> ->].
    assert (∀ j, N.testbit (num_of (take W (vis n ws))) (N.of_nat j) = bool_decide (j < W) && (bool_decide (j < n) && wbit ws j)) as Hlo.
    { intros j. rewrite num_of_bit. destruct (decide (j < W)).
      - rewrite lookup_take // vis_default (bool_decide_true (j < W)) //.
      - rewrite lookup_take_ge; [lia|]. rewrite bool_decide_false //. }
    destruct (decide (n < W + 1)) as [Hn|Hn].
    - apply gives_ret. split; [done|]. apply num_of_word.
      { eapply N.lt_le_trans; [apply num_of_small|]. apply N.pow_le_mono_r; [done|]. rewrite take_length. lia. }
      intros j Hj. rewrite Hlo vis_default. destruct (decide (j < W)); [by rewrite bool_decide_true|].
      rewrite (bool_decide_false (j < W)) // (bool_decide_false (j < n)) //. lia.
    - assert (1 < nwords W n) as Hnw. { pose proof (nwords_ge W HW n). destruct (nwords W n) as [|[|]]; lia. }
      destruct (wf_lookup W HW n ws 1 Hwf Hnw) as (w&Hw&Hs). apply gives_bind.
      eapply gives_eq; [by apply (rd_eq p o ws _ w)|]. apply gives_ret. split; [done|].
      set (w1 := N.land w _).
      assert (small w1) as Hs1 by (unfold w1; by apply small_land).
      apply num_of_word.
      { apply small_lor.
        - eapply N.lt_le_trans; [apply num_of_small|]. apply N.pow_le_mono_r; [done|]. rewrite take_length. lia.
        - apply N.mod_lt. by apply N.pow_nonzero. }
      intros j Hj. rewrite N.lor_spec Hlo vis_default N.mod_pow2_bits_low; [lia|]. destruct (decide (j < W)).
      + rewrite N.shiftl_spec_low; [lia|]. rewrite orb_false_r (bool_decide_true (j < W)) //.
      + rewrite N.shiftl_spec_high'; [lia|]. rewrite (bool_decide_false (j < W)) // orb_false_l.
        replace (N.of_nat j - N.of_nat W)%N with (N.of_nat (j - W)) by lia.
        pose proof (wbit_word W HW ws 1 (j - W) w ltac:(lia) Hw) as Hb. replace (1 * W + (j - W)) with j in Hb by lia. rewrite Hb.
        unfold w1. rewrite N.land_spec andb_comm. f_equal. destruct (decide (n < W * 2)).
        * rewrite last_bits_bit; [done|lia|lia|]. apply bool_decide_ext.
          assert (last_slot W n = 1); [|unfold used; lia]. unfold last_slot. dF. pose proof (nwords_lt W HW n ltac:(lia)).
          destruct (nwords W n) as [|[|[|k]]]; simpl in *; lia || nia.
        * rewrite all1_bit; [lia|]. rewrite bool_decide_true //. lia.
  Qed.
End proofs.
