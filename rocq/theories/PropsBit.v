(** GENERATED by tools/genprops.py from BitRuns.v: property theorems only.
    Every proof is the lemma of the same statement proved there. *)
From Verif Require Import BitSpec BitRuns.
Local Open Scope general_if_scope.

Section bitset.
  Context (W LLW ulim : nat) (gnuc long_lt : bool) (fresh : nat → option N).

  (** Whole programs on any number of bitsets of any sizes, starting
     with the default constructors: they observe what the abstract bitsets prescribe, and at the end
     every object has its abstract value. No uninitialised word is read and no access leaves an
     object. ([b_spec] has no answer for the cases of C45, C47 and C63.) *)
  Theorem C42_bitset_history :
    ∀ sizes fuel ops st rs,
 widths W LLW long_lt →
    b_spec_run W LLW (b_initial sizes) ops = Some (st, rs) →
    Forall (string_words_readable W fresh) ops →
    W < fuel → Forall (λ n, n < ulim ∧ n < fuel) sizes → 0 < ulim →
    gives (b_program W LLW ulim gnuc long_lt fresh sizes fuel ops) [] (λ out p,
      out = rs ∧ length p = length sizes ∧
      ∀ o bs cl, st !! o = Some (bs, cl) → shows W p o bs ∧ (cl = true → clean_pad W p o (length bs))).
  Proof. first [exact bitset_history | apply bitset_history | intros; eapply bitset_history; eassumption]. Qed.

  (** Whole programs on any number of bitsets of any sizes, starting
     with the default constructors: they observe what the abstract bitsets prescribe, and at the end
     every object has its abstract value. No uninitialised word is read and no access leaves an
     object. ([b_spec] has no answer for the cases of C45, C47 and C63.) *)
  Theorem C43_bitset_history :
    ∀ sizes fuel ops st rs,
 widths W LLW long_lt →
    b_spec_run W LLW (b_initial sizes) ops = Some (st, rs) →
    Forall (string_words_readable W fresh) ops →
    W < fuel → Forall (λ n, n < ulim ∧ n < fuel) sizes → 0 < ulim →
    gives (b_program W LLW ulim gnuc long_lt fresh sizes fuel ops) [] (λ out p,
      out = rs ∧ length p = length sizes ∧
      ∀ o bs cl, st !! o = Some (bs, cl) → shows W p o bs ∧ (cl = true → clean_pad W p o (length bs))).
  Proof. first [exact bitset_history | apply bitset_history | intros; eapply bitset_history; eassumption]. Qed.

  (** Whole programs on any number of bitsets of any sizes, starting
     with the default constructors: they observe what the abstract bitsets prescribe, and at the end
     every object has its abstract value. No uninitialised word is read and no access leaves an
     object. ([b_spec] has no answer for the cases of C45, C47 and C63.) *)
  Theorem C44_bitset_history :
    ∀ sizes fuel ops st rs,
 widths W LLW long_lt →
    b_spec_run W LLW (b_initial sizes) ops = Some (st, rs) →
    Forall (string_words_readable W fresh) ops →
    W < fuel → Forall (λ n, n < ulim ∧ n < fuel) sizes → 0 < ulim →
    gives (b_program W LLW ulim gnuc long_lt fresh sizes fuel ops) [] (λ out p,
      out = rs ∧ length p = length sizes ∧
      ∀ o bs cl, st !! o = Some (bs, cl) → shows W p o bs ∧ (cl = true → clean_pad W p o (length bs))).
  Proof. first [exact bitset_history | apply bitset_history | intros; eapply bitset_history; eassumption]. Qed.

  (** Whole programs on any number of bitsets of any sizes, starting
     with the default constructors: they observe what the abstract bitsets prescribe, and at the end
     every object has its abstract value. No uninitialised word is read and no access leaves an
     object. ([b_spec] has no answer for the cases of C45, C47 and C63.) *)
  Theorem C48_bitset_history :
    ∀ sizes fuel ops st rs,
 widths W LLW long_lt →
    b_spec_run W LLW (b_initial sizes) ops = Some (st, rs) →
    Forall (string_words_readable W fresh) ops →
    W < fuel → Forall (λ n, n < ulim ∧ n < fuel) sizes → 0 < ulim →
    gives (b_program W LLW ulim gnuc long_lt fresh sizes fuel ops) [] (λ out p,
      out = rs ∧ length p = length sizes ∧
      ∀ o bs cl, st !! o = Some (bs, cl) → shows W p o bs ∧ (cl = true → clean_pad W p o (length bs))).
  Proof. first [exact bitset_history | apply bitset_history | intros; eapply bitset_history; eassumption]. Qed.

  (** Whole programs on any number of bitsets of any sizes, starting
     with the default constructors: they observe what the abstract bitsets prescribe, and at the end
     every object has its abstract value. No uninitialised word is read and no access leaves an
     object. ([b_spec] has no answer for the cases of C45, C47 and C63.) *)
  Theorem C45_bitset_history_partial :
    ∀ sizes fuel ops st rs,
 widths W LLW long_lt →
    b_spec_run W LLW (b_initial sizes) ops = Some (st, rs) →
    Forall (string_words_readable W fresh) ops →
    W < fuel → Forall (λ n, n < ulim ∧ n < fuel) sizes → 0 < ulim →
    gives (b_program W LLW ulim gnuc long_lt fresh sizes fuel ops) [] (λ out p,
      out = rs ∧ length p = length sizes ∧
      ∀ o bs cl, st !! o = Some (bs, cl) → shows W p o bs ∧ (cl = true → clean_pad W p o (length bs))).
  Proof. first [exact bitset_history | apply bitset_history | intros; eapply bitset_history; eassumption]. Qed.

  (** Whole programs on any number of bitsets of any sizes, starting
     with the default constructors: they observe what the abstract bitsets prescribe, and at the end
     every object has its abstract value. No uninitialised word is read and no access leaves an
     object. ([b_spec] has no answer for the cases of C45, C47 and C63.) *)
  Theorem C46_bitset_history_partial :
    ∀ sizes fuel ops st rs,
 widths W LLW long_lt →
    b_spec_run W LLW (b_initial sizes) ops = Some (st, rs) →
    Forall (string_words_readable W fresh) ops →
    W < fuel → Forall (λ n, n < ulim ∧ n < fuel) sizes → 0 < ulim →
    gives (b_program W LLW ulim gnuc long_lt fresh sizes fuel ops) [] (λ out p,
      out = rs ∧ length p = length sizes ∧
      ∀ o bs cl, st !! o = Some (bs, cl) → shows W p o bs ∧ (cl = true → clean_pad W p o (length bs))).
  Proof. first [exact bitset_history | apply bitset_history | intros; eapply bitset_history; eassumption]. Qed.

  (** Whole programs on any number of bitsets of any sizes, starting
     with the default constructors: they observe what the abstract bitsets prescribe, and at the end
     every object has its abstract value. No uninitialised word is read and no access leaves an
     object. ([b_spec] has no answer for the cases of C45, C47 and C63.) *)
  Theorem C47_bitset_history_partial :
    ∀ sizes fuel ops st rs,
 widths W LLW long_lt →
    b_spec_run W LLW (b_initial sizes) ops = Some (st, rs) →
    Forall (string_words_readable W fresh) ops →
    W < fuel → Forall (λ n, n < ulim ∧ n < fuel) sizes → 0 < ulim →
    gives (b_program W LLW ulim gnuc long_lt fresh sizes fuel ops) [] (λ out p,
      out = rs ∧ length p = length sizes ∧
      ∀ o bs cl, st !! o = Some (bs, cl) → shows W p o bs ∧ (cl = true → clean_pad W p o (length bs))).
  Proof. first [exact bitset_history | apply bitset_history | intros; eapply bitset_history; eassumption]. Qed.

  (** Whole programs on any number of bitsets of any sizes, starting
     with the default constructors: they observe what the abstract bitsets prescribe, and at the end
     every object has its abstract value. No uninitialised word is read and no access leaves an
     object. ([b_spec] has no answer for the cases of C45, C47 and C63.) *)
  Theorem C63_bitset_history_partial :
    ∀ sizes fuel ops st rs,
 widths W LLW long_lt →
    b_spec_run W LLW (b_initial sizes) ops = Some (st, rs) →
    Forall (string_words_readable W fresh) ops →
    W < fuel → Forall (λ n, n < ulim ∧ n < fuel) sizes → 0 < ulim →
    gives (b_program W LLW ulim gnuc long_lt fresh sizes fuel ops) [] (λ out p,
      out = rs ∧ length p = length sizes ∧
      ∀ o bs cl, st !! o = Some (bs, cl) → shows W p o bs ∧ (cl = true → clean_pad W p o (length bs))).
  Proof. first [exact bitset_history | apply bitset_history | intros; eapply bitset_history; eassumption]. Qed.

  (** set(p) *)
  Theorem C42_bitset_set_at :
    ∀ p o bs pos,
 0 < W → shows W p o bs → pos < length bs →
    becomes W (b_set W (length bs) o pos) p o (<[pos := true]> bs).
  Proof. first [exact bitset_set_at | apply bitset_set_at | intros; eapply bitset_set_at; eassumption]. Qed.

  (** reset(p) *)
  Theorem C42_bitset_reset_at :
    ∀ p o bs pos,
 0 < W → shows W p o bs → pos < length bs →
    becomes W (b_reset W (length bs) o pos) p o (<[pos := false]> bs).
  Proof. first [exact bitset_reset_at | apply bitset_reset_at | intros; eapply bitset_reset_at; eassumption]. Qed.

  (** flip(p) *)
  Theorem C42_bitset_flip_at :
    ∀ p o bs pos b,
 0 < W → shows W p o bs → bs !! pos = Some b →
    becomes W (b_flip W (length bs) o pos) p o (<[pos := negb b]> bs).
  Proof. first [exact bitset_flip_at | apply bitset_flip_at | intros; eapply bitset_flip_at; eassumption]. Qed.

  (** b[p] = v *)
  Theorem C42_bitset_ref_assign :
    ∀ p o bs pos v,
 0 < W → shows W p o bs → pos < length bs →
    becomes W (ref_assign W (b_ref W (length bs) o pos) v) p o (<[pos := v]> bs).
  Proof. first [exact bitset_ref_assign | apply bitset_ref_assign | intros; eapply bitset_ref_assign; eassumption]. Qed.

  (** b[p].flip() *)
  Theorem C42_bitset_ref_flip :
    ∀ p o bs pos b,
 0 < W → shows W p o bs → bs !! pos = Some b →
    becomes W (ref_flip (b_ref W (length bs) o pos)) p o (<[pos := negb b]> bs).
  Proof. first [exact bitset_ref_flip | apply bitset_ref_flip | intros; eapply bitset_ref_flip; eassumption]. Qed.

  (** set() *)
  Theorem C42_bitset_set_all :
    ∀ p o bs fuel,
 0 < W → shows W p o bs → length bs < ulim → length bs < fuel →
    becomes W (b_set_all W ulim fuel (length bs) o) p o (replicate (length bs) true).
  Proof. first [exact bitset_set_all | apply bitset_set_all | intros; eapply bitset_set_all; eassumption]. Qed.

  (** reset() *)
  Theorem C42_bitset_reset_all :
    ∀ p o bs fuel,
 0 < W → shows W p o bs → length bs < ulim → length bs < fuel →
    becomes W (b_reset_all W ulim fuel (length bs) o) p o (replicate (length bs) false).
  Proof. first [exact bitset_reset_all | apply bitset_reset_all | intros; eapply bitset_reset_all; eassumption]. Qed.

  (** flip() *)
  Theorem C42_bitset_flip_all :
    ∀ p o bs fuel,
 0 < W → shows W p o bs → length bs < ulim → length bs < fuel →
    becomes W (b_flip_all W ulim fuel (length bs) o) p o (negb <$> bs).
  Proof. first [exact bitset_flip_all | apply bitset_flip_all | intros; eapply bitset_flip_all; eassumption]. Qed.

  (** &= *)
  Theorem C42_bitset_and_eq :
    ∀ p o q bs cs fuel,
 0 < W → shows W p o bs → shows W p q cs → length cs = length bs →
    length bs < ulim → length bs < fuel →
    becomes W (b_and_eq W ulim fuel (length bs) o q) p o (zip_with andb bs cs).
  Proof. first [exact bitset_and_eq | apply bitset_and_eq | intros; eapply bitset_and_eq; eassumption]. Qed.

  (** |= *)
  Theorem C42_bitset_or_eq :
    ∀ p o q bs cs fuel,
 0 < W → shows W p o bs → shows W p q cs → length cs = length bs →
    length bs < ulim → length bs < fuel →
    becomes W (b_or_eq W ulim fuel (length bs) o q) p o (zip_with orb bs cs).
  Proof. first [exact bitset_or_eq | apply bitset_or_eq | intros; eapply bitset_or_eq; eassumption]. Qed.

  (** ^= *)
  Theorem C42_bitset_xor_eq :
    ∀ p o q bs cs fuel,
 0 < W → shows W p o bs → shows W p q cs → length cs = length bs →
    length bs < ulim → length bs < fuel →
    becomes W (b_xor_eq W ulim fuel (length bs) o q) p o (zip_with xorb bs cs).
  Proof. first [exact bitset_xor_eq | apply bitset_xor_eq | intros; eapply bitset_xor_eq; eassumption]. Qed.

  (** ~ *)
  Theorem C42_bitset_not :
    ∀ p o bs fuel,
 0 < W → shows W p o bs → length bs < ulim → length bs < fuel →
    makes W (b_not W ulim fresh fuel (length bs) o) p (negb <$> bs).
  Proof. first [exact bitset_not | apply bitset_not | intros; eapply bitset_not; eassumption]. Qed.

  (** The default constructor clears all bits. *)
  Theorem C42_bitset_new :
    ∀ p n fuel,
 0 < W → n < ulim → n < fuel → makes W (b_new W ulim fresh fuel n) p (replicate n false).
  Proof. first [exact bitset_new | apply bitset_new | intros; eapply bitset_new; eassumption]. Qed.

  (** The copy constructor copies all bits. *)
  Theorem C42_bitset_copy :
    ∀ p o bs fuel,
 0 < W → shows W p o bs → length bs < ulim → length bs < fuel →
    makes W (b_copy W ulim fresh fuel (length bs) o) p bs.
  Proof. first [exact bitset_copy | apply bitset_copy | intros; eapply bitset_copy; eassumption]. Qed.

  (** b[p], b.test(p), ~b[p]; test() of a position beyond the end is false *)
  Theorem C42_bitset_test :
    ∀ p o bs pos,
 0 < W → shows W p o bs →
    answers (b_test W (length bs) o pos) p (default false (bs !! pos)) ∧
    ∀ b, bs !! pos = Some b →
      answers (ref_bool (b_ref W (length bs) o pos)) p b ∧
      answers (ref_not (b_ref W (length bs) o pos)) p (negb b).
  Proof. first [exact bitset_test | apply bitset_test | intros; eapply bitset_test; eassumption]. Qed.

  (** count() *)
  Theorem C43_bitset_count :
    ∀ p o bs fuel,
 0 < W → shows W p o bs → length bs < ulim → length bs < fuel → W < fuel →
    answers (b_count W ulim gnuc fuel (length bs) o) p (ones_in bs).
  Proof. first [exact bitset_count | apply bitset_count | intros; eapply bitset_count; eassumption]. Qed.

  (** none() *)
  Theorem C43_bitset_none :
    ∀ p o bs fuel,
 0 < W → shows W p o bs → length bs < ulim → length bs < fuel →
    answers (b_none W ulim fuel (length bs) o) p (bool_decide (true ∉ bs)).
  Proof. first [exact bitset_none | apply bitset_none | intros; eapply bitset_none; eassumption]. Qed.

  (** any() *)
  Theorem C43_bitset_any :
    ∀ p o bs fuel,
 0 < W → shows W p o bs → length bs < ulim → length bs < fuel →
    answers (b_any W ulim fuel (length bs) o) p (bool_decide (true ∈ bs)).
  Proof. first [exact bitset_any | apply bitset_any | intros; eapply bitset_any; eassumption]. Qed.

  (** all() *)
  Theorem C43_bitset_all :
    ∀ p o bs fuel,
 0 < W → shows W p o bs → bs ≠ [] → length bs < ulim → length bs < fuel →
    answers (b_all W ulim fuel (length bs) o) p (bool_decide (Forall (λ b, b = true) bs)).
  Proof. first [exact bitset_all | apply bitset_all | intros; eapply bitset_all; eassumption]. Qed.

  (** == *)
  Theorem C43_bitset_eq :
    ∀ p o bs q cs fuel,
 0 < W → shows W p o bs → shows W p q cs → length cs = length bs →
    length bs < ulim → length bs < fuel →
    answers (b_eq W ulim fuel (length bs) o q) p (bool_decide (bs = cs)).
  Proof. first [exact bitset_eq | apply bitset_eq | intros; eapply bitset_eq; eassumption]. Qed.

  (** != *)
  Theorem C43_bitset_ne :
    ∀ p o bs q cs fuel,
 0 < W → shows W p o bs → shows W p q cs → length cs = length bs →
    length bs < ulim → length bs < fuel →
    answers (b_ne W ulim fuel (length bs) o q) p (bool_decide (bs ≠ cs)).
  Proof. first [exact bitset_ne | apply bitset_ne | intros; eapply bitset_ne; eassumption]. Qed.

  (** b == bitset<0>() is none() *)
  Theorem C43_bitset_eq0 :
    ∀ p o bs fuel,
 0 < W → shows W p o bs → length bs < ulim → length bs < fuel →
    answers (b_eq0 W ulim fuel (length bs) o) p (bool_decide (true ∉ bs)).
  Proof. first [exact bitset_eq0 | apply bitset_eq0 | intros; eapply bitset_eq0; eassumption]. Qed.

  (** to_ulong() *)
  Theorem C43_bitset_to_ulong :
    ∀ p o bs,
 0 < W → shows W p o bs →
    answers (b_to_ulong W (length bs) o) p (num_of (take W bs)).
  Proof. first [exact bitset_to_ulong | apply bitset_to_ulong | intros; eapply bitset_to_ulong; eassumption]. Qed.

  (** to_ullong() *)
  Theorem C43_bitset_to_ullong :
    ∀ p o bs,
 widths W LLW long_lt → shows W p o bs →
    answers (b_to_ullong W LLW long_lt (length bs) o) p (num_of (take LLW bs)).
  Proof. first [exact bitset_to_ullong | apply bitset_to_ullong | intros; eapply bitset_to_ullong; eassumption]. Qed.

  (** b << s *)
  Theorem C44_bitset_shl :
    ∀ p o bs s fuel,
 0 < W → shows W p o bs → length bs < ulim → length bs < fuel →
    ∃ res, makes W (b_shl W ulim fresh fuel (length bs) o s) p res ∧ length res = length bs ∧
      ∀ i, i < length bs → res !! i = if decide (i < s) then Some false else bs !! (i - s).
  Proof. first [exact bitset_shl | apply bitset_shl | intros; eapply bitset_shl; eassumption]. Qed.

  (** b >> s *)
  Theorem C44_bitset_shr :
    ∀ p o bs s fuel,
 0 < W → shows W p o bs → length bs < ulim → length bs < fuel →
    ∃ res, makes W (b_shr W ulim fresh fuel (length bs) o s) p res ∧ length res = length bs ∧
      ∀ i, i < length bs → res !! i = if decide (i + s < length bs) then bs !! (i + s) else Some false.
  Proof. first [exact bitset_shr | apply bitset_shr | intros; eapply bitset_shr; eassumption]. Qed.

  (** set(p, v), exactly: the bit becomes (old || v). This is v for v = true, or
     if the bit was not set. *)
  Theorem C45_bitset_put_partial :
    ∀ p o bs pos b v,
 0 < W → shows W p o bs → bs !! pos = Some b →
    becomes W (b_put W (length bs) o pos v) p o (<[pos := v || b]> bs).
  Proof. first [exact bitset_put | apply bitset_put | intros; eapply bitset_put; eassumption]. Qed.

  (** set(p, false) does not clear a bit that is set: the object stays as it is. *)
  Theorem C45_bitset_put_false_refuted :
    ∀ p o bs pos,
 0 < W → shows W p o bs → bs !! pos = Some true →
    becomes W (b_put W (length bs) o pos false) p o bs ∧
    gives (b_put W (length bs) o pos false ;! b_test W (length bs) o pos) p (λ r _, r = true).
  Proof. first [exact bitset_put_false | apply bitset_put_false | intros; eapply bitset_put_false; eassumption]. Qed.

  (** b[i] = b2[j], exactly: in the word of bit i all other bits are cleared, bit i
     becomes (old || new); the other words do not change. *)
  Theorem C46_bitset_ref_copy_partial :
    ∀ p o bs pos o2 bs2 pos2 b b2,
 0 < W → shows W p o bs → bs !! pos = Some b →
    shows W p o2 bs2 → bs2 !! pos2 = Some b2 →
    ∃ res, becomes W (ref_copy W (b_ref W (length bs) o pos) (b_ref W (length bs2) o2 pos2)) p o res ∧
      length res = length bs ∧
      ∀ i, i < length bs → res !! i =
        if decide (i / W = pos / W) then Some (bool_decide (i = pos) && (b || b2)) else bs !! i.
  Proof. first [exact bitset_ref_copy | apply bitset_ref_copy | intros; eapply bitset_ref_copy; eassumption]. Qed.

  (** It is a copy of the bit when all other bits of the word are clear and the bit was
     clear or the source is set. *)
  Theorem C46_bitset_ref_copy_alone_partial :
    ∀ p o bs pos o2 bs2 pos2 b b2,
 0 < W → shows W p o bs → bs !! pos = Some b →
    shows W p o2 bs2 → bs2 !! pos2 = Some b2 → (b = false ∨ b2 = true) →
    (∀ i, i ≠ pos → i / W = pos / W → i < length bs → bs !! i = Some false) →
    becomes W (ref_copy W (b_ref W (length bs) o pos) (b_ref W (length bs2) o2 pos2)) p o (<[pos := b2]> bs).
  Proof. first [exact bitset_ref_copy_alone | apply bitset_ref_copy_alone | intros; eapply bitset_ref_copy_alone; eassumption]. Qed.

  (** b[i] = b2[j] clears every other bit of the word of bit i. *)
  Theorem C46_bitset_ref_copy_clears_refuted :
    ∀ p o bs pos o2 bs2 pos2 b b2 i,
 0 < W → shows W p o bs → bs !! pos = Some b →
    shows W p o2 bs2 → bs2 !! pos2 = Some b2 → i ≠ pos → i / W = pos / W → i < length bs →
    gives (ref_copy W (b_ref W (length bs) o pos) (b_ref W (length bs2) o2 pos2) ;! b_test W (length bs) o i) p (λ r _, r = false).
  Proof. first [exact bitset_ref_copy_clears | apply bitset_ref_copy_clears | intros; eapply bitset_ref_copy_clears; eassumption]. Qed.

  (** b[i] = b2[j] does not clear b[i]. *)
  Theorem C46_bitset_ref_copy_keeps_refuted :
    ∀ p o bs pos o2 bs2 pos2,
 0 < W → shows W p o bs → bs !! pos = Some true →
    shows W p o2 bs2 → bs2 !! pos2 = Some false →
    gives (ref_copy W (b_ref W (length bs) o pos) (b_ref W (length bs2) o2 pos2) ;! b_test W (length bs) o pos) p (λ r _, r = true).
  Proof. first [exact bitset_ref_copy_keeps | apply bitset_ref_copy_keeps | intros; eapply bitset_ref_copy_keeps; eassumption]. Qed.

  (** o = q for a larger or smaller q: the common bits are copied and the others are
     cleared, provided that a smaller q has no unused bits set. *)
  Theorem C47_bitset_convert_partial :
    ∀ p o bs q cs fuel,
 0 < W → shows W p o bs → shows W p q cs →
    (length bs ≤ length cs ∨ clean_pad W p q (length cs) ∨ length cs mod W = 0) →
    length bs < ulim → length bs < fuel →
    becomes W (b_convert W ulim fuel (length bs) (length cs) o q) p o (resize (length bs) false cs).
  Proof. first [exact bitset_convert | apply bitset_convert | intros; eapply bitset_convert; eassumption]. Qed.

  (** The same for bitset<n>(q). *)
  Theorem C47_bitset_construct_partial :
    ∀ p q cs n fuel,
 0 < W → shows W p q cs →
    (n ≤ length cs ∨ clean_pad W p q (length cs) ∨ length cs mod W = 0) →
    n < ulim → n < fuel →
    makes W (b_from W ulim fresh fuel n (length cs) q) p (resize n false cs).
  Proof. first [exact bitset_construct | apply bitset_construct | intros; eapply bitset_construct; eassumption]. Qed.

  (** Whenever bitset<m> has unused bits: after q.set(), bitset<n>(q) with n > m has
     bit m set. *)
  Theorem C47_bitset_convert_padding_refuted :
    ∀ p q cs n fuel,
 0 < W → shows W p q cs → length cs < n → length cs mod W ≠ 0 →
    n < ulim → n < fuel →
    gives (b_set_all W ulim fuel (length cs) q ;! let! t := b_from W ulim fresh fuel n (length cs) q in b_test W n t (length cs)) p
      (λ r _, r = true).
  Proof. first [exact bitset_convert_padding | apply bitset_convert_padding | intros; eapply bitset_convert_padding; eassumption]. Qed.

  (** bitset<n>(unsigned long) has the digits of the number. *)
  Theorem C48_bitset_of_ulong :
    ∀ p n u fuel,
 0 < W → 0 < n → (u < 2 ^ N.of_nat W)%N → n < ulim → n < fuel →
    makes W (b_of_ulong W ulim fresh fuel n u) p (digits_of n u).
  Proof. first [exact bitset_of_ulong | apply bitset_of_ulong | intros; eapply bitset_of_ulong; eassumption]. Qed.

  (** bitset<n>(unsigned long long) has the digits of the number. *)
  Theorem C48_bitset_of_ullong :
    ∀ p n u fuel,
 widths W LLW long_lt → 0 < n → (u < 2 ^ N.of_nat LLW)%N → n < ulim → n < fuel →
    makes W (b_of_ullong W ulim long_lt fresh fuel n u) p (digits_of n u).
  Proof. first [exact bitset_of_ullong | apply bitset_of_ullong | intros; eapply bitset_of_ullong; eassumption]. Qed.

  (** bitset<n>(u).to_ulong() is u modulo 2^min(n, W). *)
  Theorem C48_bitset_ulong_round_trip :
    ∀ p n u fuel,
 0 < W → 0 < n → (u < 2 ^ N.of_nat W)%N → n < ulim → n < fuel →
    gives (let! t := b_of_ulong W ulim fresh fuel n u in b_to_ulong W n t) p
      (λ r _, r = N.modulo u (2 ^ N.of_nat (W `min` n))).
  Proof. first [exact bitset_ulong_round_trip | apply bitset_ulong_round_trip | intros; eapply bitset_ulong_round_trip; eassumption]. Qed.

  (** bitset<n>(u).to_ullong() is u modulo 2^min(n, LLW). *)
  Theorem C48_bitset_ullong_round_trip :
    ∀ p n u fuel,
 widths W LLW long_lt → 0 < n → (u < 2 ^ N.of_nat LLW)%N → n < ulim → n < fuel →
    gives (let! t := b_of_ullong W ulim long_lt fresh fuel n u in b_to_ullong W LLW long_lt n t) p
      (λ r _, r = N.modulo u (2 ^ N.of_nat (LLW `min` n))).
  Proof. first [exact bitset_ullong_round_trip | apply bitset_ullong_round_trip | intros; eapply bitset_ullong_round_trip; eassumption]. Qed.

  (** bitset<n>(cs, len, zero, one): [ds] are the leading digits of the string; digit k is bit
     (length ds - 1 - k), the other bits are clear. *)
  Theorem C48_bitset_of_string :
    ∀ p n cs len zero one fuel ds,
 0 < W →
    ds = binary_prefix zero one (take len cs) →
    len ≤ length cs ∨ length ds < length cs → length ds ≤ n →
    (∀ i, i < length ds / W → ∃ w, fresh i = Some w ∧ (w < 2 ^ N.of_nat W)%N) → n < fuel →
    ∃ res, makes W (b_of_string W fresh fuel n cs len zero one) p res ∧ length res = n ∧
      (∀ k c, ds !! k = Some c → res !! (length ds - 1 - k) = Some (bool_decide (c ≠ zero))) ∧
      ∀ i, length ds ≤ i < n → res !! i = Some false.
  Proof. first [exact bitset_of_string | apply bitset_of_string | intros; eapply bitset_of_string; eassumption]. Qed.

  (** bitset(const char *, ...) reads uninitialised storage whenever the string has at
     least W digits (as many as a word has bits), even if they fit. *)
  Theorem C63_bitset_string_uninitialised_refuted :
    ∀ p n cs len zero one fuel ds,
 0 < W →
    ds = binary_prefix zero one (take len cs) → len ≤ length cs ∨ length ds < length cs →
    W ≤ length ds → length ds ≤ n → n < fuel → (∀ i, fresh i = None) →
    goes_wrong (b_of_string W fresh fuel n cs len zero one) p NoObject.
  Proof. first [exact bitset_string_uninitialised | apply bitset_string_uninitialised | intros; eapply bitset_string_uninitialised; eassumption]. Qed.

  (** A string with more digits than the object has bits (and unused bits) is written
     outside the object. *)
  Theorem C63_bitset_string_overflow_refuted :
    ∀ p n cs len zero one fuel ds,
 0 < W → 0 < n →
    ds = binary_prefix zero one (take len cs) → len ≤ length cs ∨ length ds < length cs →
    b_capacity W n < length ds → length ds < fuel →
    goes_wrong (b_of_string W fresh fuel n cs len zero one) p OutOfBounds.
  Proof. first [exact bitset_string_overflow | apply bitset_string_overflow | intros; eapply bitset_string_overflow; eassumption]. Qed.

  (** bitset<0>(unsigned long) writes outside the object. *)
  Theorem C63_bitset0_of_ulong_refuted :
    ∀ p u fuel,
 0 < W → goes_wrong (b_of_ulong W ulim fresh fuel 0 u) p OutOfBounds.
  Proof. first [exact bitset0_of_ulong | apply bitset0_of_ulong | intros; eapply bitset0_of_ulong; eassumption]. Qed.

  (** Positions are not checked: set(p), reset(p), flip(p), set(p, v) and b[p] access storage outside
     the object if p is beyond its words. *)
  Theorem C63_bitset_position_unchecked_partial :
    ∀ p o bs pos v,
 0 < W → shows W p o bs → bs ≠ [] → b_capacity W (length bs) ≤ pos →
    goes_wrong (b_set W (length bs) o pos) p OutOfBounds ∧
    goes_wrong (b_reset W (length bs) o pos) p OutOfBounds ∧
    goes_wrong (b_flip W (length bs) o pos) p OutOfBounds ∧
    goes_wrong (b_put W (length bs) o pos v) p OutOfBounds ∧
    goes_wrong (ref_bool (b_ref W (length bs) o pos)) p OutOfBounds ∧
    goes_wrong (ref_assign W (b_ref W (length bs) o pos) v) p OutOfBounds.
  Proof. first [exact bitset_position_unchecked | apply bitset_position_unchecked | intros; eapply bitset_position_unchecked; eassumption]. Qed.

  (** bitset<0>::all() returns false, although no bit of it is clear and count() == size(). *)
  Theorem C64_bitset0_all_refuted :
    ∀ p o fuel,
 shows W p o [] → answers (b_all W ulim fuel 0 o) p false.
  Proof. first [exact bitset0_all | apply bitset0_all | intros; eapply bitset0_all; eassumption]. Qed.

  (** The other observers of bitset<0> answer as for an empty set of bits. *)
  Theorem C64_bitset0_observers_partial :
    ∀ p o q pos fuel,
 0 < W → shows W p o [] → shows W p q [] →
    answers (b_any W ulim fuel 0 o) p false ∧ answers (b_none W ulim fuel 0 o) p true ∧
    answers (b_count W ulim gnuc fuel 0 o) p 0 ∧ answers (b_eq W ulim fuel 0 o q) p true ∧
    answers (b_ne W ulim fuel 0 o q) p false ∧ answers (b_test W 0 o pos) p false ∧
    answers (b_to_ulong W 0 o) p 0%N ∧ answers (b_to_ullong W LLW long_lt 0 o) p 0%N.
  Proof. first [exact bitset0_observers | apply bitset0_observers | intros; eapply bitset0_observers; eassumption]. Qed.

End bitset.

Print Assumptions C42_bitset_history.
Print Assumptions C43_bitset_history.
Print Assumptions C44_bitset_history.
Print Assumptions C48_bitset_history.
Print Assumptions C45_bitset_history_partial.
Print Assumptions C46_bitset_history_partial.
Print Assumptions C47_bitset_history_partial.
Print Assumptions C63_bitset_history_partial.
Print Assumptions C42_bitset_set_at.
Print Assumptions C42_bitset_reset_at.
Print Assumptions C42_bitset_flip_at.
Print Assumptions C42_bitset_ref_assign.
Print Assumptions C42_bitset_ref_flip.
Print Assumptions C42_bitset_set_all.
Print Assumptions C42_bitset_reset_all.
Print Assumptions C42_bitset_flip_all.
Print Assumptions C42_bitset_and_eq.
Print Assumptions C42_bitset_or_eq.
Print Assumptions C42_bitset_xor_eq.
Print Assumptions C42_bitset_not.
Print Assumptions C42_bitset_new.
Print Assumptions C42_bitset_copy.
Print Assumptions C42_bitset_test.
Print Assumptions C43_bitset_count.
Print Assumptions C43_bitset_none.
Print Assumptions C43_bitset_any.
Print Assumptions C43_bitset_all.
Print Assumptions C43_bitset_eq.
Print Assumptions C43_bitset_ne.
Print Assumptions C43_bitset_eq0.
Print Assumptions C43_bitset_to_ulong.
Print Assumptions C43_bitset_to_ullong.
Print Assumptions C44_bitset_shl.
Print Assumptions C44_bitset_shr.
Print Assumptions C45_bitset_put_partial.
Print Assumptions C45_bitset_put_false_refuted.
Print Assumptions C46_bitset_ref_copy_partial.
Print Assumptions C46_bitset_ref_copy_alone_partial.
Print Assumptions C46_bitset_ref_copy_clears_refuted.
Print Assumptions C46_bitset_ref_copy_keeps_refuted.
Print Assumptions C47_bitset_convert_partial.
Print Assumptions C47_bitset_construct_partial.
Print Assumptions C47_bitset_convert_padding_refuted.
Print Assumptions C48_bitset_of_ulong.
Print Assumptions C48_bitset_of_ullong.
Print Assumptions C48_bitset_ulong_round_trip.
Print Assumptions C48_bitset_ullong_round_trip.
Print Assumptions C48_bitset_of_string.
Print Assumptions C63_bitset_string_uninitialised_refuted.
Print Assumptions C63_bitset_string_overflow_refuted.
Print Assumptions C63_bitset0_of_ulong_refuted.
Print Assumptions C63_bitset_position_unchecked_partial.
Print Assumptions C64_bitset0_all_refuted.
Print Assumptions C64_bitset0_observers_partial.
