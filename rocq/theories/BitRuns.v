(** bitset: the property lemmas, in the vocabulary of BitSpec.v and State.v only. *)
From Coq Require Import ssreflect.
From Verif Require Import BitSpec BitPure BitProofs BitProofs2 BitProofs3 BitHistory.
Local Open Scope general_if_scope.
(*@HEADER
From Verif Require Import BitSpec BitRuns.
Local Open Scope general_if_scope.

Section bitset.
  Context (W LLW ulim : nat) (gnuc long_lt : bool) (fresh : nat → option N).
@*)
(*@FOOTER
End bitset.
@*)

Section bitset.
  Context (W LLW ulim : nat) (gnuc long_lt : bool) (fresh : nat → option N).

  (** *** Histories *)
  (*@ C42,C43,C44,C48,C45_partial,C46_partial,C47_partial,C63_partial Whole programs on any number of bitsets of any sizes, starting
     with the default constructors: they observe what the abstract bitsets prescribe, and at the end
     every object has its abstract value. No uninitialised word is read and no access leaves an
     object. ([b_spec] has no answer for the cases of C45, C47 and C63.) *)
  Lemma bitset_history sizes fuel ops st rs : widths W LLW long_lt →
    b_spec_run W LLW (b_initial sizes) ops = Some (st, rs) →
    Forall (string_words_readable W fresh) ops →
    W < fuel → Forall (λ n, n < ulim ∧ n < fuel) sizes → 0 < ulim →
    gives (b_program W LLW ulim gnuc long_lt fresh sizes fuel ops) [] (λ out p,
      out = rs ∧ length p = length sizes ∧
      ∀ o bs cl, st !! o = Some (bs, cl) → shows W p o bs ∧ (cl = true → clean_pad W p o (length bs))).
  Proof.
    intros [HW Hll] Hsp Hstr HfW Hsz Hu. eapply gives_conseq; [by apply (b_program_gives W LLW ulim gnuc long_lt fresh sizes HW fuel ops st rs)|].
    intros out p [-> HR]. split; [done|]. split.
    - destruct HR as [-> _]. assert (∀ st0 st1 rs, b_spec_run W LLW st0 ops = Some (st1, rs) → length st1 = length st0) as Hl.
      { clear. induction ops as [|op ops IH]; intros st0 st1 rs Hr; simplify_eq/=; [done|].
        destruct (b_spec W LLW st0 op) as [[s1 r]|] eqn:H1; simplify_eq/=. destruct (b_spec_run W LLW s1 ops) as [[s2 rs2]|] eqn:H2; simplify_eq/=.
        rewrite (IH _ _ _ H2). clear -H1. destruct op; cbn [b_spec] in H1; unfold b_upd, b_upd_at, b_bin, b_un, b_conv, b_obs in H1;
          repeat (match goal with
            | H : _ ≫= _ = Some _ |- _ => apply bind_Some in H as (?&?&H)
            | _ => progress simplify_eq
            | _ => case_decide
            end); by rewrite ?insert_length. }
      rewrite (Hl _ _ _ Hsp). unfold b_initial. by rewrite fmap_length.
    - intros o bs cl Ho. by eapply bR_shows.
  Qed.

  (** *** Single calls, for objects in any state *)
  Lemma changes_becomes n m p o F bs : 0 < W → changes W n m p o F → length bs = n → o < length p →
    (∀ i, i < n → bs !! i = Some (F i)) → becomes W m p o bs.
  Proof.
    intros HW Hm <- Ho Hb. eapply gives_conseq; [exact Hm|]. intros [] p' (ws'&->&Hwf&HF). split_and!.
    - apply (shows_iff W HW). exists ws'. split; [by rewrite list_lookup_insert|]. split; [done|].
      apply (vis_eq W HW); [done|]. intros i Hi. rewrite HF; [by apply cap_ge|auto].
    - by rewrite insert_length.
    - intros q Hq. by rewrite list_lookup_insert_ne.
  Qed.
  Lemma builds_makes n m p F bs : 0 < W → builds W n m p F → length bs = n →
    (∀ i, i < n → bs !! i = Some (F i)) → makes W m p bs.
  Proof.
    intros HW Hm <- Hb. eapply gives_conseq; [exact Hm|]. intros t p' (ts&wt&->&Ht&Hlt&Hwf&HF). exists ts. split_and!; [done..|].
    apply (shows_iff W HW). exists wt. split; [done|]. split; [done|].
    apply (vis_eq W HW); [done|]. intros i Hi. rewrite HF; [by apply cap_ge|auto].
  Qed.
  Lemma shows_inv p o bs : 0 < W → shows W p o bs → ∃ ws, p !! o = Some (Some <$> ws) ∧ wf W (length bs) ws ∧
    vis W (length bs) ws = bs ∧ o < length p ∧ ∀ i, i < length bs → bs !! i = Some (wbit W ws i).
  Proof.
    intros HW (ws&Ho&Hwf&Hv)%(shows_iff W HW). exists ws. split_and!; [done..|by eapply lookup_lt_Some|].
    intros i Hi. by rewrite -{1}Hv vis_lookup.
  Qed.
  Lemma at_becomes n m p o ws bs bs' pos f : 0 < W → p !! o = Some (Some <$> ws) → pos < n → length bs = n →
    (∀ i, i < n → bs !! i = Some (wbit W ws i)) → o < length p →
    changes W n m p o (λ i, if decide (i = pos) then f (wbit W ws i) else wbit W ws i) →
    length bs' = n → (∀ b, bs !! pos = Some b → bs' !! pos = Some (f b)) → (∀ i, i ≠ pos → bs' !! i = bs !! i) →
    becomes W m p o bs'.
  Proof.
    intros HW Ho Hp Hl Hb Hop Hm Hl' Hpos Hne. eapply changes_becomes; [done|exact Hm|done|done|].
    intros i Hi. cbn beta. destruct (decide (i = pos)) as [->|]; [by apply Hpos, Hb|by rewrite Hne // Hb].
  Qed.

  (*@ C42 set(p) *)
  Lemma bitset_set_at p o bs pos : 0 < W → shows W p o bs → pos < length bs →
    becomes W (b_set W (length bs) o pos) p o (<[pos := true]> bs).
  Proof.
    intros HW Hs Hp. destruct (shows_inv _ _ _ HW Hs) as (ws&Ho&Hwf&_&Hop&Hb).
    eapply (at_becomes _ _ _ _ ws bs _ pos (λ _, true)); [done..|apply b_set_gives; [done|lia|done|done|by apply cap_ge]|by rewrite insert_length| |].
    - intros b _. by rewrite list_lookup_insert.
    - intros i Hi. by rewrite list_lookup_insert_ne.
  Qed.
  (*@ C42 reset(p) *)
  Lemma bitset_reset_at p o bs pos : 0 < W → shows W p o bs → pos < length bs →
    becomes W (b_reset W (length bs) o pos) p o (<[pos := false]> bs).
  Proof.
    intros HW Hs Hp. destruct (shows_inv _ _ _ HW Hs) as (ws&Ho&Hwf&_&Hop&Hb).
    eapply (at_becomes _ _ _ _ ws bs _ pos (λ _, false)); [done..|apply b_reset_gives; [done|lia|done|done|by apply cap_ge]|by rewrite insert_length| |].
    - intros b _. by rewrite list_lookup_insert.
    - intros i Hi. by rewrite list_lookup_insert_ne.
  Qed.
  (*@ C42 flip(p) *)
  Lemma bitset_flip_at p o bs pos b : 0 < W → shows W p o bs → bs !! pos = Some b →
    becomes W (b_flip W (length bs) o pos) p o (<[pos := negb b]> bs).
  Proof.
    intros HW Hs Hpb. pose proof (lookup_lt_Some _ _ _ Hpb) as Hp. destruct (shows_inv _ _ _ HW Hs) as (ws&Ho&Hwf&_&Hop&Hb).
    eapply (at_becomes _ _ _ _ ws bs _ pos negb); [done..|apply b_flip_gives; [done|lia|done|done|by apply cap_ge]|by rewrite insert_length| |].
    - intros b' Hb'. rewrite list_lookup_insert //. congruence.
    - intros i Hi. by rewrite list_lookup_insert_ne.
  Qed.
  (*@ C42 b[p] = v *)
  Lemma bitset_ref_assign p o bs pos v : 0 < W → shows W p o bs → pos < length bs →
    becomes W (ref_assign W (b_ref W (length bs) o pos) v) p o (<[pos := v]> bs).
  Proof.
    intros HW Hs Hp. destruct (shows_inv _ _ _ HW Hs) as (ws&Ho&Hwf&_&Hop&Hb).
    eapply (at_becomes _ _ _ _ ws bs _ pos (λ _, v)); [done..|by apply ref_assign_gives|by rewrite insert_length| |].
    - intros b _. by rewrite list_lookup_insert.
    - intros i Hi. by rewrite list_lookup_insert_ne.
  Qed.
  (*@ C42 b[p].flip() *)
  Lemma bitset_ref_flip p o bs pos b : 0 < W → shows W p o bs → bs !! pos = Some b →
    becomes W (ref_flip (b_ref W (length bs) o pos)) p o (<[pos := negb b]> bs).
  Proof.
    intros HW Hs Hpb. pose proof (lookup_lt_Some _ _ _ Hpb) as Hp. destruct (shows_inv _ _ _ HW Hs) as (ws&Ho&Hwf&_&Hop&Hb).
    eapply (at_becomes _ _ _ _ ws bs _ pos negb); [done..|by apply ref_flip_gives|by rewrite insert_length| |].
    - intros b' Hb'. rewrite list_lookup_insert //. congruence.
    - intros i Hi. by rewrite list_lookup_insert_ne.
  Qed.
  (*@ C42 set() *)
  Lemma bitset_set_all p o bs fuel : 0 < W → shows W p o bs → length bs < ulim → length bs < fuel →
    becomes W (b_set_all W ulim fuel (length bs) o) p o (replicate (length bs) true).
  Proof.
    intros HW Hs Hu Hf. destruct (shows_inv _ _ _ HW Hs) as (ws&Ho&Hwf&_&Hop&Hb).
    eapply changes_becomes; [done|eapply (b_set_all_gives W ulim HW); [done|rewrite fmap_length; apply Hwf|done|done]|by rewrite replicate_length|done|].
    intros i Hi. by rewrite lookup_replicate_2.
  Qed.
  (*@ C42 reset() *)
  Lemma bitset_reset_all p o bs fuel : 0 < W → shows W p o bs → length bs < ulim → length bs < fuel →
    becomes W (b_reset_all W ulim fuel (length bs) o) p o (replicate (length bs) false).
  Proof.
    intros HW Hs Hu Hf. destruct (shows_inv _ _ _ HW Hs) as (ws&Ho&Hwf&_&Hop&Hb).
    eapply changes_becomes; [done|eapply (b_reset_all_gives W ulim HW); [done|rewrite fmap_length; apply Hwf|done|done]|by rewrite replicate_length|done|].
    intros i Hi. by rewrite lookup_replicate_2.
  Qed.
  (*@ C42 flip() *)
  Lemma bitset_flip_all p o bs fuel : 0 < W → shows W p o bs → length bs < ulim → length bs < fuel →
    becomes W (b_flip_all W ulim fuel (length bs) o) p o (negb <$> bs).
  Proof.
    intros HW Hs Hu Hf. destruct (shows_inv _ _ _ HW Hs) as (ws&Ho&Hwf&_&Hop&Hb).
    eapply changes_becomes; [done|by eapply (b_flip_all_gives W ulim HW)|by rewrite fmap_length|done|].
    intros i Hi. by rewrite list_lookup_fmap Hb.
  Qed.
  Lemma op_eq_becomes f g p o q bs cs fuel : bitwise W f g → 0 < W → shows W p o bs → shows W p q cs → length cs = length bs →
    length bs < ulim → length bs < fuel →
    becomes W (b_op_eq W ulim f fuel (length bs) o q) p o (zip_with g bs cs).
  Proof.
    intros Hbw HW Hs Hq Hl Hu Hf. destruct (shows_inv _ _ _ HW Hs) as (ws&Ho&Hwf&_&Hop&Hb).
    destruct (shows_inv _ _ _ HW Hq) as (vs&Ho'&Hwf'&_&Hop'&Hb'). rewrite Hl in Hwf', Hb'.
    eapply changes_becomes; [done|by eapply (b_op_eq_gives W ulim HW f g)|rewrite zip_with_length; lia|done|].
    intros i Hi. by rewrite lookup_zip_with Hb //= Hb'.
  Qed.
  (*@ C42 &= *)
  Lemma bitset_and_eq p o q bs cs fuel : 0 < W → shows W p o bs → shows W p q cs → length cs = length bs →
    length bs < ulim → length bs < fuel →
    becomes W (b_and_eq W ulim fuel (length bs) o q) p o (zip_with andb bs cs).
  Proof. intros. apply op_eq_becomes; [by apply bitwise_and|done..]. Qed.
  (*@ C42 |= *)
  Lemma bitset_or_eq p o q bs cs fuel : 0 < W → shows W p o bs → shows W p q cs → length cs = length bs →
    length bs < ulim → length bs < fuel →
    becomes W (b_or_eq W ulim fuel (length bs) o q) p o (zip_with orb bs cs).
  Proof. intros. apply op_eq_becomes; [by apply bitwise_or|done..]. Qed.
  (*@ C42 ^= *)
  Lemma bitset_xor_eq p o q bs cs fuel : 0 < W → shows W p o bs → shows W p q cs → length cs = length bs →
    length bs < ulim → length bs < fuel →
    becomes W (b_xor_eq W ulim fuel (length bs) o q) p o (zip_with xorb bs cs).
  Proof. intros. apply op_eq_becomes; [by apply bitwise_xor|done..]. Qed.
  (*@ C42 ~ *)
  Lemma bitset_not p o bs fuel : 0 < W → shows W p o bs → length bs < ulim → length bs < fuel →
    makes W (b_not W ulim fresh fuel (length bs) o) p (negb <$> bs).
  Proof.
    intros HW Hs Hu Hf. destruct (shows_inv _ _ _ HW Hs) as (ws&Ho&Hwf&_&Hop&Hb).
    eapply builds_makes; [done|by eapply b_not_builds|by rewrite fmap_length|].
    intros i Hi. by rewrite list_lookup_fmap Hb.
  Qed.
  (*@ C42 The default constructor clears all bits. *)
  Lemma bitset_new p n fuel : 0 < W → n < ulim → n < fuel → makes W (b_new W ulim fresh fuel n) p (replicate n false).
  Proof.
    intros HW Hu Hf. eapply builds_makes; [done|by eapply b_new_builds|by rewrite replicate_length|].
    intros i Hi. by rewrite lookup_replicate_2.
  Qed.
  (*@ C42 The copy constructor copies all bits. *)
  Lemma bitset_copy p o bs fuel : 0 < W → shows W p o bs → length bs < ulim → length bs < fuel →
    makes W (b_copy W ulim fresh fuel (length bs) o) p bs.
  Proof.
    intros HW Hs Hu Hf. destruct (shows_inv _ _ _ HW Hs) as (ws&Ho&Hwf&Hv&_).
    eapply gives_conseq; [by apply (b_copy_builds W ulim fresh HW fuel (length bs) o ws)|].
    intros t p' [-> ->]. exists [Some <$> ws]. split_and!; [done..|]. apply (shows_iff W HW). exists ws. by rewrite top_lookup.
  Qed.
  (*@ C42 b[p], b.test(p), ~b[p]; test() of a position beyond the end is false *)
  Lemma bitset_test p o bs pos : 0 < W → shows W p o bs →
    answers (b_test W (length bs) o pos) p (default false (bs !! pos)) ∧
    ∀ b, bs !! pos = Some b →
      answers (ref_bool (b_ref W (length bs) o pos)) p b ∧
      answers (ref_not (b_ref W (length bs) o pos)) p (negb b).
  Proof.
    intros HW Hs. destruct (shows_inv _ _ _ HW Hs) as (ws&Ho&Hwf&Hv&Hop&Hb). split.
    - eapply gives_eq; [by apply (b_test_eq W HW (length bs) o ws p pos)|]. split; [done|]. rewrite -{3}Hv. by rewrite vis_default.
    - intros b Hpb. pose proof (lookup_lt_Some _ _ _ Hpb) as Hp. rewrite Hb // in Hpb. simplify_eq. split.
      + eapply gives_eq; [by apply (ref_bool_eq W HW (length bs) o ws p pos)|done].
      + eapply gives_eq; [by apply (ref_not_eq W HW (length bs) o ws p pos)|done].
  Qed.

  (** *** Observers: nothing is assumed about the unused bits *)
  (*@ C43 count() *)
  Lemma bitset_count p o bs fuel : 0 < W → shows W p o bs → length bs < ulim → length bs < fuel → W < fuel →
    answers (b_count W ulim gnuc fuel (length bs) o) p (ones_in bs).
  Proof.
    intros HW Hs Hu Hf HfW. destruct (shows_inv _ _ _ HW Hs) as (ws&Ho&Hwf&Hv&_). rewrite -{2}Hv. by apply b_count_answers.
  Qed.
  (*@ C43 none() *)
  Lemma bitset_none p o bs fuel : 0 < W → shows W p o bs → length bs < ulim → length bs < fuel →
    answers (b_none W ulim fuel (length bs) o) p (bool_decide (true ∉ bs)).
  Proof.
    intros HW Hs Hu Hf. destruct (shows_inv _ _ _ HW Hs) as (ws&Ho&Hwf&Hv&_). pose proof (b_none_answers W ulim HW fuel (length bs) o ws p Ho Hwf Hu Hf) as H1. by rewrite Hv in H1.
  Qed.
  (*@ C43 any() *)
  Lemma bitset_any p o bs fuel : 0 < W → shows W p o bs → length bs < ulim → length bs < fuel →
    answers (b_any W ulim fuel (length bs) o) p (bool_decide (true ∈ bs)).
  Proof.
    intros HW Hs Hu Hf. destruct (shows_inv _ _ _ HW Hs) as (ws&Ho&Hwf&Hv&_). pose proof (b_any_answers W ulim HW fuel (length bs) o ws p Ho Hwf Hu Hf) as H1. by rewrite Hv in H1.
  Qed.
  (*@ C43 all() *)
  Lemma bitset_all p o bs fuel : 0 < W → shows W p o bs → bs ≠ [] → length bs < ulim → length bs < fuel →
    answers (b_all W ulim fuel (length bs) o) p (bool_decide (Forall (λ b, b = true) bs)).
  Proof.
    intros HW Hs Hne Hu Hf. destruct (shows_inv _ _ _ HW Hs) as (ws&Ho&Hwf&Hv&_). assert (0 < length bs) as Hn by (destruct bs; simpl; [done|lia]).
    pose proof (b_all_answers W ulim HW fuel (length bs) o ws p Hn Ho Hwf Hu Hf) as H1. by rewrite Hv in H1.
  Qed.
  (*@ C43 == *)
  Lemma bitset_eq p o bs q cs fuel : 0 < W → shows W p o bs → shows W p q cs → length cs = length bs →
    length bs < ulim → length bs < fuel →
    answers (b_eq W ulim fuel (length bs) o q) p (bool_decide (bs = cs)).
  Proof.
    intros HW Hs Hq Hl Hu Hf. destruct (shows_inv _ _ _ HW Hs) as (ws&Ho&Hwf&Hv&_). destruct (shows_inv _ _ _ HW Hq) as (vs&Ho'&Hwf'&Hv'&_).
    rewrite Hl in Hwf', Hv'. pose proof (b_eq_answers W ulim HW fuel (length bs) o ws q vs p Ho Hwf Ho' Hwf' Hu Hf) as H1. by rewrite Hv Hv' in H1.
  Qed.
  (*@ C43 != *)
  Lemma bitset_ne p o bs q cs fuel : 0 < W → shows W p o bs → shows W p q cs → length cs = length bs →
    length bs < ulim → length bs < fuel →
    answers (b_ne W ulim fuel (length bs) o q) p (bool_decide (bs ≠ cs)).
  Proof.
    intros. unfold b_ne. apply gives_bind. eapply gives_conseq; [by eapply (bitset_eq p o bs q cs)|].
    intros b p' [-> ->]. apply gives_ret. by rewrite bool_decide_not.
  Qed.
  (*@ C43 b == bitset<0>() is none() *)
  Lemma bitset_eq0 p o bs fuel : 0 < W → shows W p o bs → length bs < ulim → length bs < fuel →
    answers (b_eq0 W ulim fuel (length bs) o) p (bool_decide (true ∉ bs)).
  Proof. apply bitset_none. Qed.
  (*@ C43 to_ulong() *)
  Lemma bitset_to_ulong p o bs : 0 < W → shows W p o bs →
    answers (b_to_ulong W (length bs) o) p (num_of (take W bs)).
  Proof.
    intros HW Hs. destruct (shows_inv _ _ _ HW Hs) as (ws&Ho&Hwf&Hv&_). rewrite -{2}Hv. by apply b_to_ulong_answers.
  Qed.
  (*@ C43 to_ullong() *)
  Lemma bitset_to_ullong p o bs : widths W LLW long_lt → shows W p o bs →
    answers (b_to_ullong W LLW long_lt (length bs) o) p (num_of (take LLW bs)).
  Proof.
    intros [HW Hll] Hs. destruct (shows_inv _ _ _ HW Hs) as (ws&Ho&Hwf&Hv&_). rewrite -{2}Hv. by apply b_to_ullong_answers.
  Qed.

  (** *** Shifts *)
  (*@ C44 b << s *)
  Lemma bitset_shl p o bs s fuel : 0 < W → shows W p o bs → length bs < ulim → length bs < fuel →
    ∃ res, makes W (b_shl W ulim fresh fuel (length bs) o s) p res ∧ length res = length bs ∧
      ∀ i, i < length bs → res !! i = if decide (i < s) then Some false else bs !! (i - s).
  Proof.
    intros HW Hs Hu Hf. destruct (shows_inv _ _ _ HW Hs) as (ws&Ho&Hwf&_&Hop&Hb). exists (shifted_up s bs). split_and!.
    - eapply builds_makes; [done|by eapply b_shl_builds|by rewrite (shifted_up_length W HW)|].
      intros i Hi. rewrite (shifted_up_lookup W HW) //. f_equal. destruct (decide (s ≤ i)).
      + rewrite bool_decide_true // Hb //. lia.
      + rewrite bool_decide_false //. lia.
    - apply (shifted_up_length W HW).
    - intros i Hi. rewrite (shifted_up_lookup W HW) //. destruct (decide (s ≤ i)), (decide (i < s)); try lia; [|done].
      rewrite Hb //. lia.
  Qed.
  (*@ C44 b >> s *)
  Lemma bitset_shr p o bs s fuel : 0 < W → shows W p o bs → length bs < ulim → length bs < fuel →
    ∃ res, makes W (b_shr W ulim fresh fuel (length bs) o s) p res ∧ length res = length bs ∧
      ∀ i, i < length bs → res !! i = if decide (i + s < length bs) then bs !! (i + s) else Some false.
  Proof.
    intros HW Hs Hu Hf. destruct (shows_inv _ _ _ HW Hs) as (ws&Ho&Hwf&_&Hop&Hb). exists (shifted_down s bs). split_and!.
    - eapply builds_makes; [done|by eapply b_shr_builds|by rewrite (shifted_down_length W HW)|].
      intros i Hi. rewrite (shifted_down_lookup W HW) //. f_equal. destruct (decide (i + s < length bs)).
      + rewrite bool_decide_true // Hb //.
      + rewrite bool_decide_false // lookup_ge_None_2 //. lia.
    - apply (shifted_down_length W HW).
    - intros i Hi. rewrite (shifted_down_lookup W HW) //. destruct (decide _).
      + by rewrite Hb.
      + rewrite lookup_ge_None_2 //. lia.
  Qed.

  (** *** set(p, v) *)
  (*@ C45_partial set(p, v), exactly: the bit becomes (old || v). This is v for v = true, or
     if the bit was not set. *)
  Lemma bitset_put p o bs pos b v : 0 < W → shows W p o bs → bs !! pos = Some b →
    becomes W (b_put W (length bs) o pos v) p o (<[pos := v || b]> bs).
  Proof.
    intros HW Hs Hpb. pose proof (lookup_lt_Some _ _ _ Hpb) as Hp. destruct (shows_inv _ _ _ HW Hs) as (ws&Ho&Hwf&_&Hop&Hb).
    eapply (at_becomes _ _ _ _ ws bs _ pos (orb v)); [done..|apply b_put_gives; [done|lia|done|done|by apply cap_ge]|by rewrite insert_length| |].
    - intros b' Hb'. rewrite list_lookup_insert //. congruence.
    - intros i Hi. by rewrite list_lookup_insert_ne.
  Qed.
  (*@ C45_refuted set(p, false) does not clear a bit that is set: the object stays as it is. *)
  Lemma bitset_put_false p o bs pos : 0 < W → shows W p o bs → bs !! pos = Some true →
    becomes W (b_put W (length bs) o pos false) p o bs ∧
    gives (b_put W (length bs) o pos false ;! b_test W (length bs) o pos) p (λ r _, r = true).
  Proof.
    intros HW Hs Hb. pose proof (bitset_put p o bs pos true false HW Hs Hb) as Hp. simpl in Hp. rewrite list_insert_id // in Hp.
    split; [done|]. apply gives_bind. eapply gives_conseq; [exact Hp|]. intros [] p' (Hs'&_).
    eapply gives_conseq; [by apply (bitset_test p' o bs pos HW Hs')|]. intros r p'' [_ ->]. by rewrite Hb.
  Qed.

  (** *** b[i] = b2[j] *)
  (*@ C46_partial b[i] = b2[j], exactly: in the word of bit i all other bits are cleared, bit i
     becomes (old || new); the other words do not change. *)
  Lemma bitset_ref_copy p o bs pos o2 bs2 pos2 b b2 : 0 < W → shows W p o bs → bs !! pos = Some b →
    shows W p o2 bs2 → bs2 !! pos2 = Some b2 →
    ∃ res, becomes W (ref_copy W (b_ref W (length bs) o pos) (b_ref W (length bs2) o2 pos2)) p o res ∧
      length res = length bs ∧
      ∀ i, i < length bs → res !! i =
        if decide (i / W = pos / W) then Some (bool_decide (i = pos) && (b || b2)) else bs !! i.
  Proof.
    intros HW Hs Hpb Hs2 Hpb2. pose proof (lookup_lt_Some _ _ _ Hpb) as Hp. pose proof (lookup_lt_Some _ _ _ Hpb2) as Hp2.
    destruct (shows_inv _ _ _ HW Hs) as (ws&Ho&Hwf&_&Hop&Hb). destruct (shows_inv _ _ _ HW Hs2) as (vs&Ho2&Hwf2&_&Hop2&Hb2).
    rewrite Hb // in Hpb. rewrite Hb2 // in Hpb2. simplify_eq.
    exists ((λ i, if decide (i / W = pos / W) then bool_decide (i = pos) && (wbit W ws pos || wbit W vs pos2) else wbit W ws i) <$> seq 0 (length bs)).
    split_and!.
    - eapply changes_becomes; [done|by eapply (ref_copy_gives W HW (length bs) o ws p pos (length bs2) o2 vs pos2)|by rewrite fmap_length seq_length|done|].
      intros i Hi. by rewrite list_lookup_fmap lookup_seq_lt.
    - by rewrite fmap_length seq_length.
    - intros i Hi. rewrite list_lookup_fmap lookup_seq_lt //=. destruct (decide _); [done|]. by rewrite Hb.
  Qed.
  (*@ C46_partial It is a copy of the bit when all other bits of the word are clear and the bit was
     clear or the source is set. *)
  Lemma bitset_ref_copy_alone p o bs pos o2 bs2 pos2 b b2 : 0 < W → shows W p o bs → bs !! pos = Some b →
    shows W p o2 bs2 → bs2 !! pos2 = Some b2 → (b = false ∨ b2 = true) →
    (∀ i, i ≠ pos → i / W = pos / W → i < length bs → bs !! i = Some false) →
    becomes W (ref_copy W (b_ref W (length bs) o pos) (b_ref W (length bs2) o2 pos2)) p o (<[pos := b2]> bs).
  Proof.
    intros HW Hs Hpb Hs2 Hpb2 Hor Hal. destruct (bitset_ref_copy p o bs pos o2 bs2 pos2 b b2 HW Hs Hpb Hs2 Hpb2) as (res&Hm&Hl&Hr).
    assert (<[pos := b2]> bs = res) as ->; [|done]. pose proof (lookup_lt_Some _ _ _ Hpb) as Hp.
    apply list_eq. intros i. destruct (decide (i < length bs)) as [Hi|].
    - rewrite Hr //. destruct (decide (i = pos)) as [->|Hne].
      + rewrite list_lookup_insert // decide_True // bool_decide_true //. destruct Hor, b, b2; by simplify_eq.
      + rewrite list_lookup_insert_ne //. destruct (decide _); [|done]. rewrite bool_decide_false //=. by apply Hal.
    - rewrite !lookup_ge_None_2 ?insert_length //; lia.
  Qed.
  (*@ C46_refuted b[i] = b2[j] clears every other bit of the word of bit i. *)
  Lemma bitset_ref_copy_clears p o bs pos o2 bs2 pos2 b b2 i : 0 < W → shows W p o bs → bs !! pos = Some b →
    shows W p o2 bs2 → bs2 !! pos2 = Some b2 → i ≠ pos → i / W = pos / W → i < length bs →
    gives (ref_copy W (b_ref W (length bs) o pos) (b_ref W (length bs2) o2 pos2) ;! b_test W (length bs) o i) p (λ r _, r = false).
  Proof.
    intros HW Hs Hpb Hs2 Hpb2 Hne Hw Hi. destruct (bitset_ref_copy p o bs pos o2 bs2 pos2 b b2 HW Hs Hpb Hs2 Hpb2) as (res&Hm&Hl&Hr).
    apply gives_bind. eapply gives_conseq; [exact Hm|]. intros [] p' (Hs'&_). rewrite -Hl.
    eapply gives_conseq; [by apply (bitset_test p' o res i HW Hs')|]. intros r p'' [_ ->].
    rewrite Hr // decide_True // bool_decide_false //.
  Qed.
  (*@ C46_refuted b[i] = b2[j] does not clear b[i]. *)
  Lemma bitset_ref_copy_keeps p o bs pos o2 bs2 pos2 : 0 < W → shows W p o bs → bs !! pos = Some true →
    shows W p o2 bs2 → bs2 !! pos2 = Some false →
    gives (ref_copy W (b_ref W (length bs) o pos) (b_ref W (length bs2) o2 pos2) ;! b_test W (length bs) o pos) p (λ r _, r = true).
  Proof.
    intros HW Hs Hpb Hs2 Hpb2. destruct (bitset_ref_copy p o bs pos o2 bs2 pos2 _ _ HW Hs Hpb Hs2 Hpb2) as (res&Hm&Hl&Hr).
    apply gives_bind. eapply gives_conseq; [exact Hm|]. intros [] p' (Hs'&_). rewrite -Hl.
    eapply gives_conseq; [by apply (bitset_test p' o res pos HW Hs')|]. intros r p'' [_ ->].
    pose proof (lookup_lt_Some _ _ _ Hpb). rewrite Hr // decide_True // bool_decide_true //.
  Qed.

  (** *** Conversion between sizes *)
  Lemma convert_bits p q cs n : 0 < W → shows W p q cs →
    (n ≤ length cs ∨ clean_pad W p q (length cs) ∨ length cs mod W = 0) →
    ∃ vs, p !! q = Some (Some <$> vs) ∧ wf W (length cs) vs ∧ ∀ i, i < n → resize n false cs !! i = Some (wbit W vs i).
  Proof.
    intros HW Hq Hc. destruct (shows_inv _ _ _ HW Hq) as (vs&Ho&Hwf&_&_&Hb). exists vs. split; [done|]. split; [done|].
    intros i Hi. rewrite (resize_lookup W HW) //. f_equal. destruct (decide (i < length cs)) as [|Hge]; [by rewrite Hb|].
    rewrite lookup_ge_None_2; [lia|]. simpl. unfold wbit. destruct (vs !! (i / W)) as [w|] eqn:Hw; simpl; [|done].
    destruct Hc as [Hc|[Hc|Hc]]; [lia| |].
    - symmetry. eapply Hc; [exact Ho| |]; [lia|]. by rewrite list_lookup_fmap Hw.
    - exfalso. eapply (no_pad_none W HW (length cs) i); [unfold no_pad; by apply bool_decide_eq_true|]. split; [lia|].
      apply lookup_lt_Some in Hw. destruct Hwf as [Hl _]. rewrite Hl in Hw. rewrite (div_mul_mod W HW i).
      pose proof (mod_lt W HW i). nia.
  Qed.
  (*@ C47_partial o = q for a larger or smaller q: the common bits are copied and the others are
     cleared, provided that a smaller q has no unused bits set. *)
  Lemma bitset_convert p o bs q cs fuel : 0 < W → shows W p o bs → shows W p q cs →
    (length bs ≤ length cs ∨ clean_pad W p q (length cs) ∨ length cs mod W = 0) →
    length bs < ulim → length bs < fuel →
    becomes W (b_convert W ulim fuel (length bs) (length cs) o q) p o (resize (length bs) false cs).
  Proof.
    intros HW Hs Hq Hc Hu Hf. destruct (shows_inv _ _ _ HW Hs) as (ws&Ho&Hwf&_&Hop&_).
    destruct (convert_bits p q cs (length bs) HW Hq Hc) as (vs&Ho'&Hwf'&Hb).
    eapply changes_becomes; [done|eapply (b_convert_gives W ulim HW); [done|rewrite fmap_length; apply Hwf|done..]|by rewrite resize_length|done|done].
  Qed.
  (*@ C47_partial The same for bitset<n>(q). *)
  Lemma bitset_construct p q cs n fuel : 0 < W → shows W p q cs →
    (n ≤ length cs ∨ clean_pad W p q (length cs) ∨ length cs mod W = 0) →
    n < ulim → n < fuel →
    makes W (b_from W ulim fresh fuel n (length cs) q) p (resize n false cs).
  Proof.
    intros HW Hq Hc Hu Hf. destruct (convert_bits p q cs n HW Hq Hc) as (vs&Ho'&Hwf'&Hb).
    eapply builds_makes; [done|by eapply b_from_builds|by rewrite resize_length|done].
  Qed.
  (*@ C47_refuted Whenever bitset<m> has unused bits: after q.set(), bitset<n>(q) with n > m has
     bit m set. *)
  Lemma bitset_convert_padding p q cs n fuel : 0 < W → shows W p q cs → length cs < n → length cs mod W ≠ 0 →
    n < ulim → n < fuel →
    gives (b_set_all W ulim fuel (length cs) q ;! let! t := b_from W ulim fresh fuel n (length cs) q in b_test W n t (length cs)) p
      (λ r _, r = true).
  Proof.
    intros HW Hq Hn Hm Hu Hf. destruct (shows_inv _ _ _ HW Hq) as (vs&Ho&Hwf&_&Hop&_).
    apply gives_bind. eapply gives_conseq; [apply (b_set_all_gives W ulim HW fuel (length cs) q (Some <$> vs)); [done|rewrite fmap_length; apply Hwf|lia|lia]|].
    intros [] p' (ws'&->&Hwf'&HF). apply gives_bind. eapply gives_conseq.
    { eapply (b_from_builds W ulim fresh HW fuel n (length cs) q ws'); [by rewrite list_lookup_insert|done..]. }
    intros t p' (ts&wt&->&Ht&_&Hwt&HFt). eapply gives_eq; [by apply (b_test_eq W HW n t wt)|]. cbn beta.
    rewrite bool_decide_true //=. rewrite HFt; [by apply cap_ge|]. apply HF.
    pose proof (nwords_ge W HW (length cs)). destruct (decide (length cs = nwords W (length cs) * W)) as [He|]; [|lia].
    exfalso. apply Hm. rewrite He. apply Nat.mod_mul. lia.
  Qed.

  (** *** Integers and strings *)
  (*@ C48 bitset<n>(unsigned long) has the digits of the number. *)
  Lemma bitset_of_ulong p n u fuel : 0 < W → 0 < n → (u < 2 ^ N.of_nat W)%N → n < ulim → n < fuel →
    makes W (b_of_ulong W ulim fresh fuel n u) p (digits_of n u).
  Proof.
    intros HW Hn Hu' Hu Hf. eapply builds_makes; [done|by apply b_of_ulong_builds|apply digits_of_length|].
    intros i Hi. by apply digits_of_lookup.
  Qed.
  (*@ C48 bitset<n>(unsigned long long) has the digits of the number. *)
  Lemma bitset_of_ullong p n u fuel : widths W LLW long_lt → 0 < n → (u < 2 ^ N.of_nat LLW)%N → n < ulim → n < fuel →
    makes W (b_of_ullong W ulim long_lt fresh fuel n u) p (digits_of n u).
  Proof.
    intros [HW Hll] Hn Hu' Hu Hf. eapply builds_makes; [done|apply b_of_ullong_builds; try done|apply digits_of_length|].
    - destruct long_lt; [done|]. by rewrite -Hll.
    - intros i Hi. by apply digits_of_lookup.
  Qed.
  Lemma take_digits k n u : take k (digits_of n u) = digits_of (k `min` n) u.
  Proof.
    apply list_eq. intros i. destruct (decide (i < k `min` n)) as [Hi|Hi].
    - rewrite lookup_take; [lia|]. rewrite !digits_of_lookup //. lia.
    - rewrite !lookup_ge_None_2 //; rewrite ?take_length ?digits_of_length; lia.
  Qed.
  (*@ C48 bitset<n>(u).to_ulong() is u modulo 2^min(n, W). *)
  Lemma bitset_ulong_round_trip p n u fuel : 0 < W → 0 < n → (u < 2 ^ N.of_nat W)%N → n < ulim → n < fuel →
    gives (let! t := b_of_ulong W ulim fresh fuel n u in b_to_ulong W n t) p
      (λ r _, r = N.modulo u (2 ^ N.of_nat (W `min` n))).
  Proof.
    intros HW Hn Hu' Hu Hf. apply gives_bind. eapply gives_conseq; [by apply bitset_of_ulong|].
    intros t p' (ts&->&_&Hs). eapply gives_conseq.
    { pose proof (bitset_to_ulong _ _ _ HW Hs) as Ht. rewrite digits_of_length in Ht. exact Ht. }
    intros r p'' [_ ->]. by rewrite take_digits num_of_digits.
  Qed.
  (*@ C48 bitset<n>(u).to_ullong() is u modulo 2^min(n, LLW). *)
  Lemma bitset_ullong_round_trip p n u fuel : widths W LLW long_lt → 0 < n → (u < 2 ^ N.of_nat LLW)%N → n < ulim → n < fuel →
    gives (let! t := b_of_ullong W ulim long_lt fresh fuel n u in b_to_ullong W LLW long_lt n t) p
      (λ r _, r = N.modulo u (2 ^ N.of_nat (LLW `min` n))).
  Proof.
    intros HW Hn Hu' Hu Hf. apply gives_bind. eapply gives_conseq; [by apply bitset_of_ullong|].
    intros t p' (ts&->&_&Hs). eapply gives_conseq.
    { pose proof (bitset_to_ullong _ _ _ HW Hs) as Ht. rewrite digits_of_length in Ht. exact Ht. }
    intros r p'' [_ ->]. by rewrite take_digits num_of_digits.
  Qed.
  (*@ C48 bitset<n>(cs, len, zero, one): [ds] are the leading digits of the string; digit k is bit
     (length ds - 1 - k), the other bits are clear. *)
  Lemma bitset_of_string p n cs len zero one fuel ds : 0 < W →
    ds = binary_prefix zero one (take len cs) →
    len ≤ length cs ∨ length ds < length cs → length ds ≤ n →
    (∀ i, i < length ds / W → ∃ w, fresh i = Some w ∧ (w < 2 ^ N.of_nat W)%N) → n < fuel →
    ∃ res, makes W (b_of_string W fresh fuel n cs len zero one) p res ∧ length res = n ∧
      (∀ k c, ds !! k = Some c → res !! (length ds - 1 - k) = Some (bool_decide (c ≠ zero))) ∧
      ∀ i, length ds ≤ i < n → res !! i = Some false.
  Proof.
    intros HW -> Hend Hl Hfresh Hf. set (ds := binary_prefix _ _ _) in *.
    set (F := λ i, match ds !! (length ds - 1 - i) with Some c => bool_decide (i < length ds ∧ c ≠ zero) | None => false end).
    exists (F <$> seq 0 n). split_and!.
    - eapply builds_makes; [done|by apply b_of_string_builds|by rewrite fmap_length seq_length|].
      intros i Hi. by rewrite list_lookup_fmap lookup_seq_lt.
    - by rewrite fmap_length seq_length.
    - intros k c Hk. pose proof (lookup_lt_Some _ _ _ Hk). rewrite list_lookup_fmap lookup_seq_lt; [lia|]. simpl. f_equal.
      unfold F. replace (length ds - 1 - (length ds - 1 - k)) with k by lia. rewrite Hk. apply bool_decide_ext. split; [naive_solver|]. split; [lia|done].
    - intros i Hi. rewrite list_lookup_fmap lookup_seq_lt; [lia|]. simpl. f_equal. unfold F. destruct (ds !! _); [|done].
      apply bool_decide_eq_false_2. lia.
  Qed.

  (** *** Undefined behaviour *)
  Lemma string_count fuel cs len zero one ds (p : pool) : 0 < W → ds = binary_prefix zero one (take len cs) →
    len ≤ length cs ∨ length ds < length cs → length ds < fuel →
    gives (loop fuel (λ i,
        if decide (i < len) then
          let! c := ch_rd cs i in
          if decide (c = zero ∨ c = one) then ret (inl (S i)) else ret (inr i)
        else ret (inr i)) 0) p (λ i p', i = length ds ∧ p' = p).
  Proof.
    intros HW -> Hend Hf. set (m := length (binary_prefix zero one (take len cs))) in *.
    assert (m ≤ len) as Hmlen. { unfold m. etrans; [apply (prefix_le W HW)|]. rewrite take_length. lia. }
    apply (gives_loop (λ i p', p' = p ∧ i ≤ m) (λ i, m - i)); [split; [done|lia]|lia|].
    intros i p' [-> Hi]. destruct (decide (i < len)) as [Hlt|Hge].
    - assert (i < length cs) as Hics.
      { destruct (decide (i < m)) as [Him|]; [|lia]. destruct (prefix_in W HW zero one (take len cs) i Him) as (c&Hc&_).
        apply lookup_take_Some in Hc as [Hc _]. by apply lookup_lt_Some in Hc. }
      destruct (lookup_lt_is_Some_2 cs i Hics) as [c Hc]. apply gives_bind. unfold ch_rd. rewrite Hc. apply gives_ret.
      destruct (decide (c = zero ∨ c = one)) as [Hz|Hz]; apply gives_ret.
      + split; [split; [done|]|]; destruct (decide (i = m)) as [->|]; try lia; exfalso;
          (eapply (prefix_next zero one (take len cs)); [|exact Hz]; by rewrite lookup_take).
      + split; [|done]. destruct (decide (i = m)) as [|Hne]; [done|].
        destruct (prefix_in W HW zero one (take len cs) i) as (c'&Hc'&_&Hz'); [lia|]. rewrite lookup_take // in Hc'. simplify_eq.
    - apply gives_ret. split; [lia|done].
  Qed.
  Definition digit_step (n : nat) (cs : list nat) (zero one t : nat) : nat * nat → M pool ((nat * nat) + nat) :=
    λ '(i, k),
        if decide (i = 0) then ret (inr t) else
          let i := i - 1 in
          let! c := ch_rd cs k in
          if decide (c = zero) then b_reset W n t i ;! ret (inl (i, S k))
          else if decide (c = one) then b_set W n t i ;! ret (inl (i, S k))
          else ret (inr t).
  (** after the digits were counted and the words from there on cleared *)
  Lemma string_tail fuel n cs len zero one ds p u : 0 < W →
    ds = binary_prefix zero one (take len cs) → len ≤ length cs ∨ length ds < length cs → length ds < fuel → n < fuel →
    (∀ c, length c = nwords W n → (∀ i, i < length ds / W → c !! i = (fresh <$> seq 0 (nwords W n)) !! i) →
       (∀ i, length ds / W ≤ i < nwords W n → c !! i = Some (Some 0%N)) →
       goes_wrong (loop fuel (digit_step n cs zero one (length p)) (length ds, 0)) (p ++ [c]) u) →
    goes_wrong (b_of_string W fresh fuel n cs len zero one) p u.
  Proof.
    intros HW Hds Hend Hf1 Hf2 Hw. unfold b_of_string.
    eapply wrong_bind; [eapply gives_eq; [apply uninit_eq|]; instantiate (1 := λ t p', t = length p ∧ p' = p ++ [fresh <$> seq 0 (nwords W n)]); done|].
    intros t p' [-> ->]. set (c0 := fresh <$> seq 0 (nwords W n)) in *.
    assert (length c0 = nwords W n) as Hl0 by (apply uninit_length; done).
    eapply wrong_bind; [by apply (string_count fuel cs len zero one ds)|]. intros i p' [-> ->].
    pose proof (nwords_le W HW n).
    apply (wrong_bind _ _ _ (λ _ p', ∃ c, p' = p ++ [c] ∧ length c = nwords W n ∧
      (∀ i, i < length ds / W → c !! i = c0 !! i) ∧ ∀ i, length ds / W ≤ i < nwords W n → c !! i = Some (Some 0%N))).
    { apply (gives_loop (λ s p', length ds / W ≤ s ∧ ∃ c, p' = p ++ [c] ∧ length c = nwords W n ∧
        (∀ i, i < length ds / W → c !! i = c0 !! i) ∧ ∀ i, length ds / W ≤ i < s → i < nwords W n → c !! i = Some (Some 0%N)) (λ s, nwords W n - s)).
      - split; [done|]. exists c0. split_and!; try done. intros; lia.
      - lia.
      - intros s p' (Hs&c&->&Hl&Hlow&Hhigh). destruct (decide (s < nwords W n)).
        + apply gives_bind. eapply gives_eq; [apply wr_eq; [apply top_lookup; done|lia]|]. apply gives_ret. split; [|lia]. split; [lia|].
          exists (<[s := Some 0%N]> c). rewrite top_insert //. split_and!; [done|by rewrite insert_length| |].
          * intros i Hi. rewrite list_lookup_insert_ne; [lia|]. by apply Hlow.
          * intros i Hi Hi2. destruct (decide (i = s)) as [->|]; [rewrite list_lookup_insert //; lia|].
            rewrite list_lookup_insert_ne; [done|]. apply Hhigh; lia.
        + apply gives_ret. exists c. split_and!; try done. intros i Hi. apply Hhigh; lia. }
    intros [] p' (c&->&Hl&Hlow&Hhigh). by apply Hw.
  Qed.
  Lemma digit_step_wrong n cs zero one t i k p u c : i ≠ 0 → cs !! k = Some c → (c = zero ∨ c = one) → n ≠ 0 →
    goes_wrong (bit_rd t ((i - 1) / W)) p u → ∀ fuel, goes_wrong (loop (S fuel) (digit_step n cs zero one t) (i, k)) p u.
  Proof.
    intros Hi Hc Hz Hn Hb fuel. cbn [loop]. apply wrong_bind_l. unfold digit_step. rewrite decide_False //.
    eapply wrong_bind; [unfold ch_rd; rewrite Hc; by apply gives_ret; instantiate (1 := λ c' p', c' = c ∧ p' = p)|].
    intros c' p' [-> ->]. destruct (decide (c = zero)).
    - apply wrong_bind_l. unfold b_reset. rewrite decide_False //. apply wrong_bind_l. unfold slot_nc. by rewrite decide_False.
    - rewrite decide_True; [naive_solver|]. apply wrong_bind_l. unfold b_set. rewrite decide_False //. apply wrong_bind_l. unfold slot_nc. by rewrite decide_False.
  Qed.
  (*@ C63_refuted bitset(const char *, ...) reads uninitialised storage whenever the string has at
     least W digits (as many as a word has bits), even if they fit. *)
  Lemma bitset_string_uninitialised p n cs len zero one fuel ds : 0 < W →
    ds = binary_prefix zero one (take len cs) → len ≤ length cs ∨ length ds < length cs →
    W ≤ length ds → length ds ≤ n → n < fuel → (∀ i, fresh i = None) →
    goes_wrong (b_of_string W fresh fuel n cs len zero one) p NoObject.
  Proof.
    intros HW Hds Hend HWl Hln Hf Hfr. eapply string_tail; [done|exact Hds|done|lia|done|].
    intros c Hl Hlow Hhigh. set (m := length ds) in *. set (j := m / W) in *.
    assert (j * W ≤ m < j * W + W) as Hj. { pose proof (div_mul_mod W HW m). pose proof (mod_lt W HW m). unfold j. lia. }
    assert (0 < j). { unfold j. apply Nat.div_str_pos. lia. }
    assert (∀ k, k < m → ∃ x, cs !! k = Some x ∧ (x = zero ∨ x = one)) as Hin.
    { intros k Hk. subst ds. destruct (prefix_in W HW zero one (take len cs) k Hk) as (x&Hx&_&?). exists x. split; [|done].
      by apply lookup_take_Some in Hx as [? _]. }
    assert (j ≤ nwords W n) as Hjn. { pose proof (nwords_ge W HW n). unfold j. apply Nat.div_le_upper_bound; lia. }
    assert (c !! (j - 1) = Some None) as Hcn. { rewrite Hlow; [lia|]. rewrite list_lookup_fmap lookup_seq_lt; [lia|]. simpl. by rewrite Hfr. }
    assert (∀ r fuel i k (c : list (option N)), i = j * W + r → r < W → i + k = m → r < fuel → length c = nwords W n → c !! (j - 1) = Some None →
      (0 < r → ∃ w, c !! j = Some (Some w)) →
      goes_wrong (loop fuel (digit_step n cs zero one (length p)) (i, k)) (p ++ [c]) NoObject) as Hloop.
    { clear fuel Hf c Hl Hlow Hhigh Hcn. induction r as [|r IH]; intros fuel i k c Hi Hr Hik Hf Hl Hcn Hcj; (destruct fuel as [|fuel]; [lia|]).
      - destruct (Hin k) as (x&Hx&Hz); [lia|]. eapply digit_step_wrong; [lia|done|done|lia|].
        unfold goes_wrong, bit_rd. rewrite top_lookup //. replace ((i - 1) / W) with (j - 1); [by rewrite Hcn|].
        replace (i - 1) with ((j - 1) * W + (W - 1)) by nia. rewrite slot_of_word //. lia.
      - destruct (Hin k) as (x&Hx&Hz); [lia|]. destruct Hcj as [w Hw]; [lia|].
        assert ((i - 1) / W = j) as Hdiv. { replace (i - 1) with (j * W + r) by lia. rewrite slot_of_word //. lia. }
        cbn [loop].
        apply (wrong_bind _ _ _ (λ r' p', ∃ w', r' = inl (i - 1, S k) ∧ p' = p ++ [<[j := Some w']> c])).
        + assert (∀ f, gives (upd (length p) ((i - 1) / W) f) (p ++ [c]) (λ _ p', p' = p ++ [<[j := Some (f w)]> c])) as Hupd.
          { intros f. unfold upd. apply gives_bind. eapply gives_eq; [unfold bit_rd; rewrite top_lookup // Hdiv Hw //|].
            eapply gives_eq; [apply wr_eq; [by apply top_lookup|]|]; [rewrite Hdiv; by eapply lookup_lt_Some|]. rewrite top_insert // Hdiv //. }
          unfold digit_step. rewrite decide_False; [lia|]. apply gives_bind. unfold ch_rd. rewrite Hx. apply gives_ret.
          destruct (decide (x = zero)).
          * apply gives_bind. unfold b_reset, slot_nc. rewrite !decide_False; [lia|lia|]. eapply gives_conseq; [apply Hupd|].
            intros [] p' ->. apply gives_ret. by eexists.
          * rewrite decide_True; [naive_solver|]. apply gives_bind. unfold b_set, slot_nc. rewrite !decide_False; [lia|lia|]. eapply gives_conseq; [apply Hupd|].
            intros [] p' ->. apply gives_ret. by eexists.
        + intros r' p' (w'&->&->). simpl. apply IH; [lia..|by rewrite insert_length| |].
          * rewrite list_lookup_insert_ne //. lia.
          * intros _. exists w'. rewrite list_lookup_insert //. by eapply lookup_lt_Some. }
    eapply (Hloop (m - j * W)); [lia..|done|done|]. intros Hr. exists 0%N. apply Hhigh. split; [done|].
    pose proof (nwords_ge W HW n). nia.
  Qed.
  (*@ C63_refuted A string with more digits than the object has bits (and unused bits) is written
     outside the object. *)
  Lemma bitset_string_overflow p n cs len zero one fuel ds : 0 < W → 0 < n →
    ds = binary_prefix zero one (take len cs) → len ≤ length cs ∨ length ds < length cs →
    b_capacity W n < length ds → length ds < fuel →
    goes_wrong (b_of_string W fresh fuel n cs len zero one) p OutOfBounds.
  Proof.
    intros HW Hn Hds Hend Hcap Hf. unfold b_capacity in Hcap. pose proof (nwords_ge W HW n).
    eapply string_tail; [done|exact Hds|done|lia|lia|]. intros c Hl _ _.
    destruct (prefix_in W HW zero one (take len cs) 0) as (x&Hx&_&Hz); [rewrite -Hds; lia|]. apply lookup_take_Some in Hx as [Hx _].
    destruct fuel as [|fuel]; [lia|]. eapply digit_step_wrong; [lia|done|done|lia|].
    unfold goes_wrong, bit_rd. rewrite top_lookup // lookup_ge_None_2 // Hl. apply Nat.div_le_lower_bound; lia.
  Qed.
  (*@ C63_refuted bitset<0>(unsigned long) writes outside the object. *)
  Lemma bitset0_of_ulong p u fuel : 0 < W → goes_wrong (b_of_ulong W ulim fresh fuel 0 u) p OutOfBounds.
  Proof.
    intros HW. unfold b_of_ulong, goes_wrong, bind, b_uninit. rewrite nwords_0 //. unfold bit_wr. simpl. rewrite top_lookup //.
  Qed.
  (*@ C63_partial Positions are not checked: set(p), reset(p), flip(p), set(p, v) and b[p] access storage outside
     the object if p is beyond its words. *)
  Lemma bitset_position_unchecked p o bs pos v : 0 < W → shows W p o bs → bs ≠ [] → b_capacity W (length bs) ≤ pos →
    goes_wrong (b_set W (length bs) o pos) p OutOfBounds ∧
    goes_wrong (b_reset W (length bs) o pos) p OutOfBounds ∧
    goes_wrong (b_flip W (length bs) o pos) p OutOfBounds ∧
    goes_wrong (b_put W (length bs) o pos v) p OutOfBounds ∧
    goes_wrong (ref_bool (b_ref W (length bs) o pos)) p OutOfBounds ∧
    goes_wrong (ref_assign W (b_ref W (length bs) o pos) v) p OutOfBounds.
  Proof.
    intros HW Hs Hne Hp. destruct (shows_inv _ _ _ HW Hs) as (ws&Ho&Hwf&_). unfold b_capacity in Hp.
    assert (length bs ≠ 0) by (by destruct bs).
    assert (goes_wrong (bit_rd o (slot_nc W (length bs) pos)) p OutOfBounds) as Hw.
    { unfold goes_wrong, bit_rd. rewrite Ho list_lookup_fmap lookup_ge_None_2 //. unfold slot_nc. rewrite decide_False //.
      destruct Hwf as [-> _]. apply Nat.div_le_lower_bound; lia. }
    unfold b_set, b_reset, b_flip, b_put. rewrite !decide_False //. split_and!; by apply wrong_bind_l.
  Qed.
  (*@ C64_refuted bitset<0>::all() returns false, although no bit of it is clear and count() == size(). *)
  Lemma bitset0_all p o fuel : shows W p o [] → answers (b_all W ulim fuel 0 o) p false.
  Proof. intros _. by apply gives_ret. Qed.
  (*@ C64_partial The other observers of bitset<0> answer as for an empty set of bits. *)
  Lemma bitset0_observers p o q pos fuel : 0 < W → shows W p o [] → shows W p q [] →
    answers (b_any W ulim fuel 0 o) p false ∧ answers (b_none W ulim fuel 0 o) p true ∧
    answers (b_count W ulim gnuc fuel 0 o) p 0 ∧ answers (b_eq W ulim fuel 0 o q) p true ∧
    answers (b_ne W ulim fuel 0 o q) p false ∧ answers (b_test W 0 o pos) p false ∧
    answers (b_to_ulong W 0 o) p 0%N ∧ answers (b_to_ullong W LLW long_lt 0 o) p 0%N.
  Proof. intros HW Ho Hq. split_and!; by apply gives_ret. Qed.
End bitset.
