(** bitset: words and bits. *)
From Coq Require Import ssreflect.
From Verif Require Import BitSpec.
Local Open Scope general_if_scope.

Lemma small_bits (w : N) k : (w < 2 ^ k)%N ↔ ∀ i, (k ≤ i)%N → N.testbit w i = false.
Proof.
  split.
  - intros Hw i Hi. destruct (decide (w = 0%N)) as [->|Hne]; [by rewrite N.bits_0|].
    apply N.bits_above_log2. apply N.lt_le_trans with k; [|done]. apply N.log2_lt_pow2; lia.
  - intros H. destruct (decide (w = 0%N)) as [->|Hne].
    { apply N.neq_0_lt_0. by apply N.pow_nonzero. }
    apply N.log2_lt_pow2; [lia|]. destruct (decide (N.log2 w < k)%N) as [|Hge]; [done|].
    assert (N.testbit w (N.log2 w) = true) as Hb by (by apply N.bit_log2). rewrite H in Hb; [lia|done].
Qed.

Section words.
  Context (W : nat).
  Notation small w := (w < 2 ^ N.of_nat W)%N.

  Lemma small_land a b : small a → small (N.land a b).
  Proof. rewrite !small_bits. intros H i Hi. by rewrite N.land_spec H. Qed.
  Lemma small_land_r a b : small b → small (N.land a b).
  Proof. rewrite !small_bits. intros H i Hi. by rewrite N.land_spec H // andb_false_r. Qed.
  Lemma small_lor a b : small a → small b → small (N.lor a b).
  Proof. rewrite !small_bits. intros Ha Hb i Hi. by rewrite N.lor_spec Ha // Hb. Qed.
  Lemma small_lxor a b : small a → small b → small (N.lxor a b).
  Proof. rewrite !small_bits. intros Ha Hb i Hi. by rewrite N.lxor_spec Ha // Hb. Qed.
  Lemma small_0 : small 0%N.
  Proof. apply small_bits. intros. apply N.bits_0. Qed.
  Lemma small_all1 : small (all1 W).
  Proof. apply small_bits. intros. by apply N.ones_spec_high. Qed.
  Lemma all1_bit j : j < W → N.testbit (all1 W) (N.of_nat j) = true.
  Proof. intros. apply N.ones_spec_low. lia. Qed.
  Lemma small_wnot a : small a → small (wnot W a).
  Proof. intros. apply small_lxor; [done|apply small_all1]. Qed.
  Lemma wnot_bit a j : j < W → N.testbit (wnot W a) (N.of_nat j) = negb (N.testbit a (N.of_nat j)).
  Proof. intros. unfold wnot. by rewrite N.lxor_spec all1_bit // xorb_true_r. Qed.
  Lemma wneg_bit v j : j < W → N.testbit (wneg W v) (N.of_nat j) = v.
  Proof. intros. destruct v; [by apply all1_bit|apply N.bits_0]. Qed.
  Lemma wshl_small x b : small (wshl W x b).
  Proof. apply N.mod_lt. by apply N.pow_nonzero. Qed.
  Lemma wshl_bit v k j : j < W → k < W →
    N.testbit (wshl W (wbool v) (N.of_nat k)) (N.of_nat j) = v && bool_decide (j = k).
  Proof.
    intros Hj Hk. unfold wshl. rewrite N.mod_pow2_bits_low; [lia|].
    destruct v; cbn [wbool andb].
    - rewrite N.shiftl_1_l N.pow2_bits_eqb. case_bool_decide.
      + subst. apply N.eqb_refl.
      + apply N.eqb_neq. lia.
    - rewrite N.shiftl_0_l. apply N.bits_0.
  Qed.
  Lemma wshl1_bit k j : j < W → k < W →
    N.testbit (wshl W 1 (N.of_nat k)) (N.of_nat j) = bool_decide (j = k).
  Proof. intros. by rewrite (wshl_bit true). Qed.
  Lemma word_ext a b : small a → small b →
    (∀ j, j < W → N.testbit a (N.of_nat j) = N.testbit b (N.of_nat j)) → a = b.
  Proof.
    rewrite !small_bits. intros Ha Hb H. apply N.bits_inj. intros i.
    destruct (decide (N.of_nat W ≤ i)%N) as [|Hlt]; [by rewrite Ha // Hb|].
    rewrite -(N2Nat.id i). apply H. lia.
  Qed.
  Lemma word_0 a : small a → (a = 0%N ↔ ∀ j, j < W → N.testbit a (N.of_nat j) = false).
  Proof.
    intros Ha. split; [intros ->; intros; apply N.bits_0|].
    intros H. apply word_ext; [done|apply small_0|]. intros j Hj. by rewrite H // N.bits_0.
  Qed.

  (** the number of words *)
  Hypothesis HW : 0 < W.
  Lemma nwords_ge n : n ≤ nwords W n * W.
  Proof.
    unfold nwords. pose proof (Nat.div_mod (n + W - 1) W ltac:(lia)).
    pose proof (Nat.mod_upper_bound (n + W - 1) W ltac:(lia)). nia.
  Qed.
  Lemma nwords_lt n : 0 < n → (nwords W n - 1) * W < n.
  Proof.
    unfold nwords. pose proof (Nat.div_mod (n + W - 1) W ltac:(lia)). intros. nia.
  Qed.
  Lemma nwords_pos n : 0 < n → 0 < nwords W n.
  Proof. intros. pose proof (nwords_ge n). destruct (nwords W n); lia. Qed.
  Lemma nwords_0 : nwords W 0 = 0.
  Proof. unfold nwords. apply Nat.div_small. lia. Qed.
  Lemma nwords_le n : nwords W n ≤ n.
  Proof.
    destruct (decide (n = 0)) as [->|]; [rewrite nwords_0; lia|].
    pose proof (nwords_lt n ltac:(lia)). nia.
  Qed.
  Lemma nwords_mono n m : n ≤ m → nwords W n ≤ nwords W m.
  Proof. intros. unfold nwords. apply Nat.div_le_mono; lia. Qed.
  Lemma slot_lt p n : p < n → p / W < nwords W n.
  Proof. intros. pose proof (nwords_ge n). apply Nat.div_lt_upper_bound; lia. Qed.
  Lemma slot_lt_cap p n : p < nwords W n * W → p / W < nwords W n.
  Proof. intros. apply Nat.div_lt_upper_bound; lia. Qed.
  Lemma mod_lt p : p mod W < W.
  Proof. apply Nat.mod_upper_bound. lia. Qed.
  Lemma div_mul_mod p : p = (p / W) * W + p mod W.
  Proof. pose proof (Nat.div_mod p W ltac:(lia)). lia. Qed.
  Lemma slot_of_word i j : j < W → (i * W + j) / W = i.
  Proof. intros. rewrite Nat.add_comm Nat.div_add; [lia|]. by rewrite Nat.div_small. Qed.
  Lemma bit_of_word i j : j < W → (i * W + j) mod W = j.
  Proof. intros. rewrite Nat.add_comm Nat.mod_add; [lia|]. by rewrite Nat.mod_small. Qed.

  (** the bits of the last word that are used *)
  Definition used n := n - last_slot W n * W.
  Lemma used_pos n : 0 < n → 0 < used n ≤ W.
  Proof.
    intros. unfold used, last_slot. rewrite decide_False; [lia|].
    pose proof (nwords_lt n ltac:(lia)). pose proof (nwords_ge n). pose proof (nwords_pos n ltac:(lia)).
    assert (nwords W n = S (nwords W n - 1)) by lia. nia.
  Qed.
  Lemma last_bits_bit n j : 0 < n → j < W → N.testbit (last_bits W n) (N.of_nat j) = bool_decide (j < used n).
  Proof.
    intros Hn Hj. pose proof (nwords_lt n ltac:(lia)). pose proof (nwords_ge n). pose proof (nwords_pos n ltac:(lia)).
    assert (last_slot W n = nwords W n - 1) as Hl by (unfold last_slot; rewrite decide_False; lia).
    assert (nwords W n = S (nwords W n - 1)) as Hs by lia. unfold last_bits, used. rewrite Hl. destruct (decide _) as [He|He].
    - rewrite all1_bit //. rewrite bool_decide_true //. nia.
    - assert (n mod W = n - (nwords W n - 1) * W) as Hm.
      { symmetry. apply Nat.mod_unique with (nwords W n - 1); nia. }
      unfold wshl. rewrite N.shiftl_1_l. rewrite N.mod_small.
      { apply N.pow_lt_mono_r; [lia|]. pose proof (mod_lt n). lia. }
      rewrite N.sub_1_r -N.ones_equiv. rewrite -Hm. case_bool_decide.
      + apply N.ones_spec_low. lia.
      + apply N.ones_spec_high. lia.
  Qed.
  Lemma last_bits_small n : 0 < n → small (last_bits W n).
  Proof.
    intros. unfold last_bits. destruct (decide _); [apply small_all1|].
    eapply N.le_lt_trans; [apply N.le_sub_l|apply wshl_small].
  Qed.
  Lemma masked_bit n w j : 0 < n → small w → j < W →
    N.testbit (N.land w (last_bits W n)) (N.of_nat j) = N.testbit w (N.of_nat j) && bool_decide (j < used n).
  Proof. intros. by rewrite N.land_spec last_bits_bit. Qed.

  (** *** Bits of a word list *)
  Definition wbit (ws : list N) (i : nat) : bool :=
    match ws !! (i / W) with Some w => N.testbit w (N.of_nat (i mod W)) | None => false end.
  Definition wf (n : nat) (ws : list N) : Prop := length ws = nwords W n ∧ Forall (λ w, small w) ws.
  Lemma wf_lookup n ws i : wf n ws → i < nwords W n → ∃ w, ws !! i = Some w ∧ small w.
  Proof.
    intros [Hl Hs] Hi. destruct (lookup_lt_is_Some_2 ws i) as [w Hw]; [lia|]. exists w. split; [done|].
    rewrite Forall_lookup in Hs. eauto.
  Qed.
  Lemma wbit_word ws i j w : j < W → ws !! i = Some w → wbit ws (i * W + j) = N.testbit w (N.of_nat j).
  Proof. intros Hj Hw. unfold wbit. by rewrite slot_of_word // bit_of_word // Hw. Qed.
  (** writing word [i] *)
  Lemma wbit_insert ws i w k : i < length ws →
    wbit (<[i := w]> ws) k = if decide (k / W = i) then N.testbit w (N.of_nat (k mod W)) else wbit ws k.
  Proof.
    intros Hi. unfold wbit. destruct (decide _) as [->|Hne].
    - by rewrite list_lookup_insert.
    - by rewrite list_lookup_insert_ne.
  Qed.
  Lemma wf_insert n ws i w : wf n ws → small w → wf n (<[i := w]> ws).
  Proof. intros [? ?] ?. split; [by rewrite insert_length|]. by apply Forall_insert. Qed.
  Lemma wbit_fmap f ws k : k / W < length ws → (∀ w j, j < W → w ∈ ws → N.testbit (f w) (N.of_nat j) = negb (N.testbit w (N.of_nat j))) →
    wbit (f <$> ws) k = negb (wbit ws k).
  Proof.
    intros Hk Hf. unfold wbit. rewrite list_lookup_fmap. destruct (lookup_lt_is_Some_2 _ _ Hk) as [w Hw].
    rewrite Hw /=. apply Hf; [apply mod_lt|]. by eapply elem_of_list_lookup_2.
  Qed.
  Lemma wbit_replicate m w k : k / W < m → wbit (replicate m w) k = N.testbit w (N.of_nat (k mod W)).
  Proof. intros. unfold wbit. by rewrite lookup_replicate_2. Qed.
  Lemma wf_ext n ws vs : wf n ws → wf n vs → (∀ i, i < nwords W n * W → wbit ws i = wbit vs i) → ws = vs.
  Proof.
    intros Hw Hv H. destruct (Hw) as [Hlw _], (Hv) as [Hlv _]. apply list_eq. intros i.
    destruct (decide (i < nwords W n)) as [Hi|Hi].
    - destruct (wf_lookup n ws i Hw Hi) as (w&Hwi&Hsw), (wf_lookup n vs i Hv Hi) as (v&Hvi&Hsv). rewrite Hwi Hvi. f_equal.
      apply word_ext; [done..|]. intros j Hj. rewrite -(wbit_word ws i) // -(wbit_word vs i) //. apply H. nia.
    - rewrite !lookup_ge_None_2 //; lia.
  Qed.
  (** bit lists *)
  Definition vis (n : nat) (ws : list N) : list bool := wbit ws <$> seq 0 n.
  Lemma vis_length n ws : length (vis n ws) = n.
  Proof. unfold vis. by rewrite fmap_length seq_length. Qed.
  Lemma vis_lookup n ws i : i < n → vis n ws !! i = Some (wbit ws i).
  Proof. intros. unfold vis. rewrite list_lookup_fmap lookup_seq_lt //. Qed.
  Lemma vis_eq n ws bs : length bs = n → (∀ i, i < n → bs !! i = Some (wbit ws i)) → vis n ws = bs.
  Proof.
    intros Hl H. apply list_eq. intros i. destruct (decide (i < n)).
    - by rewrite vis_lookup // H.
    - rewrite !lookup_ge_None_2 //; rewrite ?vis_length; lia.
  Qed.
  Lemma shows_iff p o bs : shows W p o bs ↔
    ∃ ws, p !! o = Some (Some <$> ws) ∧ wf (length bs) ws ∧ vis (length bs) ws = bs.
  Proof.
    split.
    - intros (ws&Ho&Hl&Hs&Hb). exists ws. split; [done|]. split; [done|]. apply vis_eq; [done|].
      intros i Hi. destruct (lookup_lt_is_Some_2 bs i Hi) as [b Hbi]. rewrite Hbi.
      destruct (Hb _ _ Hbi) as (w&Hw&->). unfold wbit. by rewrite Hw.
    - intros (ws&Ho&Hwf&Hv). exists ws. destruct (Hwf) as [Hl Hs]. split_and!; [done..|].
      intros i b Hbi. pose proof (lookup_lt_Some _ _ _ Hbi) as Hi.
      destruct (wf_lookup _ ws (i / W) Hwf) as (w&Hw&_); [by apply slot_lt|]. exists w. split; [done|].
      rewrite -Hv vis_lookup // in Hbi. simplify_eq. unfold wbit. by rewrite Hw.
  Qed.
End words.

(** *** Numbers *)
Lemma num_of_bit bs i : N.testbit (num_of bs) (N.of_nat i) = default false (bs !! i).
Proof.
  revert i. induction bs as [|b bs IH]; intros i; cbn [num_of]; [by rewrite N.bits_0|].
  destruct i as [|i]; cbn [lookup list_lookup].
  - change (N.of_nat 0) with 0%N. destruct b.
    + rewrite N.add_comm. apply N.testbit_odd_0.
    + rewrite N.add_0_l. apply N.testbit_even_0.
  - rewrite -IH Nnat.Nat2N.inj_succ. destruct b.
    + rewrite N.add_comm N.testbit_odd_succ; [lia|done].
    + rewrite N.add_0_l N.testbit_even_succ; [lia|done].
Qed.
Lemma num_of_small bs : (num_of bs < 2 ^ N.of_nat (length bs))%N.
Proof.
  apply small_bits. intros i Hi. rewrite -(N2Nat.id i) num_of_bit lookup_ge_None_2 //. lia.
Qed.
Lemma digits_of_lookup k u i : i < k → digits_of k u !! i = Some (N.testbit u (N.of_nat i)).
Proof. intros. unfold digits_of. by rewrite list_lookup_fmap lookup_seq_lt. Qed.
Lemma digits_of_length k u : length (digits_of k u) = k.
Proof. unfold digits_of. by rewrite fmap_length seq_length. Qed.
(** the two directions are inverse to each other *)
Lemma num_of_digits k u : num_of (digits_of k u) = N.modulo u (2 ^ N.of_nat k).
Proof.
  apply N.bits_inj. intros i. rewrite -(N2Nat.id i) num_of_bit.
  destruct (decide (N.to_nat i < k)).
  - rewrite digits_of_lookup // N.mod_pow2_bits_low //. lia.
  - rewrite lookup_ge_None_2; [rewrite digits_of_length; lia|]. rewrite N.mod_pow2_bits_high //. lia.
Qed.
