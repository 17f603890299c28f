(** bitset: what each function does to the pool, in terms of word lists. *)
From Coq Require Import ssreflect.
From Verif Require Import BitSpec BitPure.
Local Open Scope general_if_scope.

Ltac dT := match goal with |- context [decide ?P] =>
  let H := fresh in destruct (decide P) as [_|H]; [|exfalso; simpl in *; lia] end.
Ltac dF := match goal with |- context [decide ?P] =>
  let H := fresh in destruct (decide P) as [H|_]; [exfalso; simpl in *; lia|] end.

Section pool.
  Implicit Types (p : pool) (ws : list N).
  Lemma rd_eq p o ws i w : p !! o = Some (Some <$> ws) → ws !! i = Some w → bit_rd o i p = Ok (w, p).
  Proof. intros Ho Hi. unfold bit_rd. by rewrite Ho list_lookup_fmap Hi. Qed.
  Lemma wr_eq p o (c : list (option N)) i w : p !! o = Some c → i < length c →
    bit_wr o i w p = Ok (tt, <[o := <[i := Some w]> c]> p).
  Proof. intros Ho Hi. unfold bit_wr. rewrite Ho. by dT. Qed.
  Lemma upd_eq p o ws i w f : p !! o = Some (Some <$> ws) → ws !! i = Some w →
    upd o i f p = Ok (tt, <[o := Some <$> <[i := f w]> ws]> p).
  Proof.
    intros Ho Hi. unfold upd, bind. rewrite (rd_eq p o ws i w) // (wr_eq p o (Some <$> ws)) //.
    - rewrite fmap_length. by eapply lookup_lt_Some.
    - by rewrite list_fmap_insert.
  Qed.
End pool.

Section proofs.
  Context (W LLW ulim : nat) (gnuc long_lt : bool) (fresh : nat → option N).
  Hypothesis HW : 0 < W.
  Implicit Types (p : pool) (ws : list N).
  Notation small w := (w < 2 ^ N.of_nat W)%N.
  Notation cap n := (nwords W n * W).
  Notation wf := (wf W).
  Notation wbit := (wbit W).

  (** *** The loops over words *)
  Lemma for_u_gives (I : nat → pool → Prop) fuel from e body p :
    from ≤ e → e < ulim → e - from < fuel → I from p →
    (∀ i p, from ≤ i < e → I i p → gives (body i) p (λ _ p', I (S i) p')) →
    gives (for_u ulim fuel from e body) p (λ i p', i = e ∧ I e p').
  Proof.
    intros Hfe Hu Hf HI Hb. unfold for_u.
    apply (gives_loop (λ i p, from ≤ i ≤ e ∧ I i p) (λ i, e - i)); [by split|done|].
    intros i p' [Hi HIi]. destruct (decide (i < e)).
    - apply gives_bind. eapply gives_conseq; [by apply Hb; [lia|]|].
      intros [] p2 HI2. simpl in HI2. apply gives_ret. simpl. rewrite Nat.mod_small; [lia|]. split; [|lia]. split; [lia|done].
    - apply gives_ret. assert (i = e) as -> by lia. done.
  Qed.
  Lemma find_u_gives (g : nat → bool) fuel e body p :
    e < ulim → e < fuel → (∀ i, i < e → body i p = Ok (g i, p)) →
    gives (find_u ulim fuel e body) p (λ r p', p' = p ∧ (r = true ↔ ∃ i, i < e ∧ g i = true)).
  Proof.
    intros Hu Hf Hb. unfold find_u.
    apply (gives_loop (λ i p', p' = p ∧ i ≤ e ∧ ∀ j, j < i → g j = false) (λ i, e - i)).
    { split; [done|]. split; [lia|]. intros; lia. }
    { lia. }
    intros i p' (->&Hi&Hg). destruct (decide (i < e)) as [Hlt|].
    - apply gives_bind. eapply gives_eq; [by apply Hb|]. destruct (g i) eqn:Hgi; apply gives_ret.
      + split; [done|]. split; [|done]. intros _. by exists i.
      + rewrite Nat.mod_small; [lia|]. split; [|lia]. split_and!; [done|lia|]. intros j Hj.
        destruct (decide (j = i)) as [->|]; [done|]. apply Hg. lia.
    - apply gives_ret. split; [done|]. split; [done|]. intros (j&Hj&Hgj). rewrite Hg // in Hgj. lia.
  Qed.
  (** Words [from] to [e] of object [o] are overwritten by those of [tgt]; the body may read word
      [i] of any object. *)
  Lemma for_u_write fuel from e body o p (old tgt : list (option N)) :
    p !! o = Some old → length tgt = length old → from ≤ e → e ≤ length old → e < ulim → e - from < fuel →
    take from tgt = take from old →
    (∀ i p', from ≤ i < e →
       (∀ q wq w, p !! q = Some (Some <$> wq) → wq !! i = Some w → bit_rd q i p' = Ok (w, p')) →
       ∃ w, tgt !! i = Some (Some w) ∧ body i p' = bit_wr o i w p') →
    gives (for_u ulim fuel from e body) p (λ i p', i = e ∧ p' = <[o := take e tgt ++ drop e old]> p).
  Proof.
    intros Ho Hl Hfe He Hu Hf Ht Hb.
    apply (for_u_gives (λ i p', p' = <[o := take i tgt ++ drop i old]> p)); [done..| |].
    { by rewrite Ht take_drop list_insert_id. }
    intros i p' Hi ->.
    assert (o < length p) as Hop by (by eapply lookup_lt_Some).
    destruct (Hb i (<[o := take i tgt ++ drop i old]> p) Hi) as (w&Hw&Hbody).
    { intros q wq w Hq Hw. unfold bit_rd. destruct (decide (q = o)) as [->|Hne].
      - rewrite list_lookup_insert // lookup_app_r; [rewrite take_length; lia|].
        rewrite take_length lookup_drop. replace (i + (i - i `min` length tgt)) with i by lia.
        rewrite Ho in Hq. simplify_eq. by rewrite list_lookup_fmap Hw.
      - rewrite list_lookup_insert_ne // Hq list_lookup_fmap Hw //. }
    eexists tt, _. split.
    - rewrite Hbody. apply wr_eq; [by rewrite list_lookup_insert|]. rewrite app_length take_length drop_length. lia.
    - rewrite list_insert_insert. f_equal.
      rewrite insert_app_r_alt; [rewrite take_length; lia|].
      rewrite (take_S_r _ _ _ Hw) -app_assoc. f_equal.
      rewrite take_length. replace (i - i `min` length tgt) with 0 by lia.
      destruct (lookup_lt_is_Some_2 old i) as [x Hx]; [lia|]. by rewrite (drop_S _ _ _ Hx).
  Qed.
  Lemma for_u_all fuel n body o p (old : list (option N)) tgt :
    p !! o = Some old → length old = nwords W n → length tgt = nwords W n → n < ulim → n < fuel →
    (∀ i p', i < nwords W n →
       (∀ q wq w, p !! q = Some (Some <$> wq) → wq !! i = Some w → bit_rd q i p' = Ok (w, p')) →
       ∃ w, tgt !! i = Some w ∧ body i p' = bit_wr o i w p') →
    gives (for_u ulim fuel 0 (nwords W n) body) p (λ i p', i = nwords W n ∧ p' = <[o := Some <$> tgt]> p).
  Proof.
    intros Ho Hl Ht Hu Hf Hb. pose proof (nwords_le W HW n).
    eapply gives_conseq; [eapply (for_u_write _ 0 _ body o p old (Some <$> tgt)); [done|rewrite fmap_length; lia|lia|lia|lia|lia|done|]|].
    - intros i p' Hi Hr. destruct (Hb i p' ltac:(lia) Hr) as (w&Hw&He). exists w. split; [|done].
      by rewrite list_lookup_fmap Hw.
    - simpl. intros i p' [-> ->]. split; [done|]. rewrite take_ge; [rewrite fmap_length; lia|].
      rewrite drop_ge; [lia|]. by rewrite app_nil_r.
  Qed.

  (** *** Single positions *)
  Definition changes n (m : M pool unit) p o (F : nat → bool) : Prop :=
    gives m p (λ _ p', ∃ ws', p' = <[o := Some <$> ws']> p ∧ wf n ws' ∧ ∀ i, i < cap n → wbit ws' i = F i).
  Lemma changes_at n o ws p pos f F : 0 < n → p !! o = Some (Some <$> ws) → wf n ws → pos < cap n →
    (∀ w, small w → small (f w)) →
    (∀ w j, small w → j < W → N.testbit (f w) (N.of_nat j) =
       if decide (j = pos mod W) then F (N.testbit w (N.of_nat j)) else N.testbit w (N.of_nat j)) →
    changes n (upd o (slot_nc W n pos) f) p o
      (λ i, if decide (i = pos) then F (wbit ws i) else wbit ws i).
  Proof.
    intros Hn Ho Hwf Hp Hs Hf. unfold slot_nc. dF.
    destruct (wf_lookup W HW n ws (pos / W) Hwf) as (w&Hw&Hws); [by apply slot_lt_cap|].
    eapply gives_eq; [by apply upd_eq|]. eexists. split; [done|]. split; [apply wf_insert; auto|].
    intros i Hi. rewrite wbit_insert; [by eapply lookup_lt_Some|]. destruct (decide (i / W = pos / W)) as [He|Hne].
    - rewrite Hf //; [by apply mod_lt|]. unfold BitPure.wbit. rewrite He Hw.
      destruct (decide (i = pos)) as [->|Hip]; [by dT|]. rewrite decide_False //.
      intros Hm. apply Hip. rewrite (div_mul_mod W HW i) (div_mul_mod W HW pos) He Hm //.
    - rewrite decide_False //. by intros ->.
  Qed.
  Lemma b_set_gives n o ws p pos : 0 < n → p !! o = Some (Some <$> ws) → wf n ws → pos < cap n →
    changes n (b_set W n o pos) p o (λ i, if decide (i = pos) then true else wbit ws i).
  Proof.
    intros Hn Ho Hwf Hp. unfold b_set. dF. apply (changes_at _ _ _ _ _ _ (λ _, true)); [done..| |].
    - intros w Hw. apply small_lor; [done|apply wshl_small].
    - intros w j Hw Hj. rewrite N.lor_spec wshl1_bit //; [by apply mod_lt|].
      destruct (decide _); [rewrite bool_decide_true // orb_true_r //|rewrite bool_decide_false // orb_false_r //].
  Qed.
  Lemma b_reset_gives n o ws p pos : 0 < n → p !! o = Some (Some <$> ws) → wf n ws → pos < cap n →
    changes n (b_reset W n o pos) p o (λ i, if decide (i = pos) then false else wbit ws i).
  Proof.
    intros Hn Ho Hwf Hp. unfold b_reset. dF. apply (changes_at _ _ _ _ _ _ (λ _, false)); [done..| |].
    - intros w Hw. by apply small_land.
    - intros w j Hw Hj. rewrite N.land_spec wnot_bit // wshl1_bit //; [by apply mod_lt|].
      destruct (decide _); [rewrite bool_decide_true // andb_false_r //|rewrite bool_decide_false // andb_true_r //].
  Qed.
  Lemma b_flip_gives n o ws p pos : 0 < n → p !! o = Some (Some <$> ws) → wf n ws → pos < cap n →
    changes n (b_flip W n o pos) p o (λ i, if decide (i = pos) then negb (wbit ws i) else wbit ws i).
  Proof.
    intros Hn Ho Hwf Hp. unfold b_flip. dF. apply (changes_at _ _ _ _ _ _ negb); [done..| |].
    - intros w Hw. apply small_lxor; [done|apply wshl_small].
    - intros w j Hw Hj. rewrite N.lxor_spec wshl1_bit //; [by apply mod_lt|].
      destruct (decide _); [rewrite bool_decide_true // xorb_true_r //|rewrite bool_decide_false // xorb_false_r //].
  Qed.
  Lemma b_put_gives n o ws p pos v : 0 < n → p !! o = Some (Some <$> ws) → wf n ws → pos < cap n →
    changes n (b_put W n o pos v) p o (λ i, if decide (i = pos) then v || wbit ws i else wbit ws i).
  Proof.
    intros Hn Ho Hwf Hp. unfold b_put. dF. apply (changes_at _ _ _ _ _ _ (λ b, v || b)); [done..| |].
    - intros w Hw. apply small_lor; [by apply small_land|apply wshl_small].
    - intros w j Hw Hj. rewrite N.lor_spec N.land_spec wnot_bit // wshl_bit //; [by apply mod_lt|].
      destruct (decide _); [rewrite bool_decide_true // andb_true_r|rewrite bool_decide_false // andb_false_r].
      + destruct v, (N.testbit w _); done.
      + destruct (N.testbit w _); done.
  Qed.
  Lemma ref_eq n o pos : 0 < n → pos < n → b_ref W n o pos = BRef o (pos / W) (wshl W 1 (bit_of W pos)).
  Proof. intros. unfold b_ref, slot_nc. dF. by rewrite bool_decide_true. Qed.
  Lemma cap_ge n i : i < n → i < cap n.
  Proof. pose proof (nwords_ge W HW n). lia. Qed.
  Lemma ref_assign_gives n o ws p pos v : pos < n → p !! o = Some (Some <$> ws) → wf n ws →
    changes n (ref_assign W (b_ref W n o pos) v) p o (λ i, if decide (i = pos) then v else wbit ws i).
  Proof.
    intros Hp Ho Hwf. rewrite ref_eq //; [lia|]. unfold ref_assign. simpl.
    pose proof (changes_at n o ws p pos (λ w, N.lor (N.land w (wnot W (wshl W 1 (bit_of W pos)))) (N.land (wneg W v) (wshl W 1 (bit_of W pos)))) (λ _, v)) as Hc.
    unfold slot_nc in Hc. destruct (decide (n = 0)); [lia|]. apply Hc; [lia|done|done|by apply cap_ge| |].
    - intros w Hw. apply small_lor; [by apply small_land|apply small_land_r, wshl_small].
    - intros w j Hw Hj. rewrite N.lor_spec !N.land_spec wnot_bit // wshl1_bit //; [by apply mod_lt|]. rewrite wneg_bit //.
      destruct (decide _); [rewrite bool_decide_true // |rewrite bool_decide_false //].
      + rewrite andb_false_r orb_false_l andb_true_r //.
      + rewrite andb_true_r andb_false_r orb_false_r //.
  Qed.
  Lemma ref_flip_gives n o ws p pos : pos < n → p !! o = Some (Some <$> ws) → wf n ws →
    changes n (ref_flip (b_ref W n o pos)) p o (λ i, if decide (i = pos) then negb (wbit ws i) else wbit ws i).
  Proof.
    intros Hp Ho Hwf. pose proof (b_flip_gives n o ws p pos ltac:(lia) Ho Hwf (cap_ge n pos Hp)) as Hb.
    rewrite ref_eq //; [lia|]. unfold b_flip, slot_nc in Hb. destruct (decide (n = 0)); [lia|]. exact Hb.
  Qed.
  Lemma mask_test n ws pos w : 0 < n → wf n ws → ws !! (pos / W) = Some w →
    negb (N.eqb (N.land w (wshl W 1 (bit_of W pos))) 0) = wbit ws pos.
  Proof.
    intros Hn Hwf Hw. assert (small w) as Hs.
    { destruct Hwf as [_ Hs]. rewrite Forall_lookup in Hs. eauto. }
    unfold BitPure.wbit. rewrite Hw. pose proof (mod_lt W HW pos).
    destruct (N.eqb_spec (N.land w (wshl W 1 (bit_of W pos))) 0) as [He|He]; simpl.
    - rewrite (word_0 W) in He; [by apply small_land|]. specialize (He (pos mod W) ltac:(done)).
      rewrite N.land_spec wshl1_bit // bool_decide_true // andb_true_r in He. by rewrite He.
    - destruct (N.testbit w (N.of_nat (pos mod W))) eqn:Hb; [done|]. exfalso. apply He.
      apply (word_0 W); [by apply small_land|]. intros j Hj. rewrite N.land_spec wshl1_bit //.
      destruct (decide (j = pos mod W)) as [->|Hne]; [by rewrite Hb|]. by rewrite bool_decide_false // andb_false_r.
  Qed.
  Lemma b_test_eq n o ws p pos : p !! o = Some (Some <$> ws) → wf n ws →
    b_test W n o pos p = Ok (bool_decide (pos < n) && wbit ws pos, p).
  Proof.
    intros Ho Hwf. unfold b_test. destruct (decide (pos < n)) as [Hp|Hp].
    - destruct (wf_lookup W HW n ws (pos / W) Hwf) as (w&Hw&_); [by apply slot_lt|]. unfold bind, slot_of.
      rewrite (rd_eq p o ws _ w) // bool_decide_true //. unfold ret. rewrite (mask_test n ws) //. lia.
    - by rewrite bool_decide_false.
  Qed.
  Lemma ref_bool_eq n o ws p pos : p !! o = Some (Some <$> ws) → wf n ws → pos < n →
    ref_bool (b_ref W n o pos) p = Ok (wbit ws pos, p).
  Proof.
    intros Ho Hwf Hp. rewrite ref_eq //; [lia|]. unfold ref_bool, bind; simpl.
    destruct (wf_lookup W HW n ws (pos / W) Hwf) as (w&Hw&_); [by apply slot_lt|].
    rewrite (rd_eq p o ws _ w) //. unfold ret. rewrite (mask_test n ws) //. lia.
  Qed.
  Lemma ref_not_eq n o ws p pos : p !! o = Some (Some <$> ws) → wf n ws → pos < n →
    ref_not (b_ref W n o pos) p = Ok (negb (wbit ws pos), p).
  Proof.
    intros Ho Hwf Hp. rewrite ref_eq //; [lia|]. unfold ref_not, bind; simpl.
    destruct (wf_lookup W HW n ws (pos / W) Hwf) as (w&Hw&_); [by apply slot_lt|].
    rewrite (rd_eq p o ws _ w) //. unfold ret. rewrite -(mask_test n ws pos w) // ?negb_involutive //. lia.
  Qed.
  (** b[i] = b2[j]: what it really does *)
  Lemma ref_copy_gives n o ws p pos n2 o2 ws2 pos2 : pos < n → p !! o = Some (Some <$> ws) → wf n ws →
    pos2 < n2 → p !! o2 = Some (Some <$> ws2) → wf n2 ws2 →
    changes n (ref_copy W (b_ref W n o pos) (b_ref W n2 o2 pos2)) p o
      (λ i, if decide (i / W = pos / W) then bool_decide (i = pos) && (wbit ws pos || wbit ws2 pos2) else wbit ws i).
  Proof.
    intros Hp Ho Hwf Hp2 Ho2 Hwf2. unfold changes, ref_copy.
    destruct (wf_lookup W HW n ws (pos / W) Hwf) as (w&Hw&Hs); [by apply slot_lt|].
    apply gives_bind. rewrite (ref_eq n o pos) //; [lia|]. simpl. eapply gives_eq; [by apply (rd_eq p o ws)|].
    apply gives_bind. eapply gives_eq; [by apply (ref_bool_eq n2 o2 ws2)|].
    eapply gives_eq; [eapply wr_eq; [done|]|].
    { rewrite fmap_length. by eapply lookup_lt_Some. }
    eexists. split; [by rewrite -list_fmap_insert|]. split.
    { apply wf_insert; [done|]. apply small_lor; [by apply small_land|apply small_land_r, wshl_small]. }
    intros i Hi. rewrite wbit_insert; [by eapply lookup_lt_Some|]. destruct (decide (i / W = pos / W)) as [He|]; [|done].
    pose proof (mod_lt W HW i). pose proof (mod_lt W HW pos).
    rewrite N.lor_spec !N.land_spec wshl1_bit // wneg_bit //. unfold BitPure.wbit at 2. rewrite Hw.
    destruct (decide (i = pos)) as [->|Hne].
    - rewrite !bool_decide_true // !andb_true_r //.
    - rewrite (bool_decide_false (i = pos)) // bool_decide_false.
      + intros Hm. apply Hne. rewrite (div_mul_mod W HW i) (div_mul_mod W HW pos) He Hm //.
      + by rewrite !andb_false_r.
  Qed.

  (** *** Whole objects *)
  Lemma wf_replicate n w : small w → wf n (replicate (nwords W n) w).
  Proof. intros. split; [by rewrite replicate_length|]. by apply Forall_replicate. Qed.
  Lemma insert_self_changes n p o ws : p !! o = Some (Some <$> ws) → wf n ws → n = 0 → ∀ F,
    changes n (ret tt) p o F.
  Proof.
    intros Ho Hwf -> F. apply gives_ret. exists ws. split_and!; [by rewrite list_insert_id|done|].
    intros i. rewrite nwords_0 //. lia.
  Qed.
  Lemma b_set_all_gives fuel n o c p : p !! o = Some c → length c = nwords W n → n < ulim → n < fuel →
    changes n (b_set_all W ulim fuel n o) p o (λ _, true).
  Proof.
    intros Ho Hl Hu Hf. unfold b_set_all. destruct (decide (n = 0)) as [->|].
    { rewrite nwords_0 // in Hl. destruct c; [|done]. apply (insert_self_changes 0 p o []); try done.
      split; [by rewrite nwords_0|done]. }
    apply gives_bind. eapply gives_conseq.
    - eapply (for_u_all fuel n _ o p c (replicate (nwords W n) (all1 W))); [done..|by rewrite replicate_length|done|done|].
      intros i p' Hi Hr. exists (all1 W). split; [by apply lookup_replicate_2|done].
    - intros i p' [-> ->]. apply gives_ret. eexists. split; [done|]. split; [apply wf_replicate, small_all1|].
      intros i Hi. rewrite wbit_replicate; [by apply slot_lt_cap|]. apply all1_bit. by apply mod_lt.
  Qed.
  Lemma b_reset_all_gives fuel n o c p : p !! o = Some c → length c = nwords W n → n < ulim → n < fuel →
    changes n (b_reset_all W ulim fuel n o) p o (λ _, false).
  Proof.
    intros Ho Hl Hu Hf. unfold b_reset_all. destruct (decide (n = 0)) as [->|].
    { rewrite nwords_0 // in Hl. destruct c; [|done]. apply (insert_self_changes 0 p o []); try done.
      split; [by rewrite nwords_0|done]. }
    apply gives_bind. eapply gives_conseq.
    - eapply (for_u_all fuel n _ o p c (replicate (nwords W n) 0%N)); [done..|by rewrite replicate_length|done|done|].
      intros i p' Hi Hr. exists 0%N. split; [by apply lookup_replicate_2|done].
    - intros i p' [-> ->]. apply gives_ret. eexists. split; [done|]. split; [apply wf_replicate, small_0|].
      intros i Hi. rewrite wbit_replicate; [by apply slot_lt_cap|]. apply N.bits_0.
  Qed.
  Lemma wf_wnot n ws : wf n ws → wf n (wnot W <$> ws) ∧ ∀ i, i < cap n → wbit (wnot W <$> ws) i = negb (wbit ws i).
  Proof.
    intros [Hl Hs]. split.
    - split; [by rewrite fmap_length|]. apply Forall_fmap. eapply Forall_impl; [done|]. intros w Hw. simpl. by apply small_wnot.
    - intros i Hi. apply wbit_fmap; [done|rewrite Hl; by apply slot_lt_cap|]. intros. by apply wnot_bit.
  Qed.
  Lemma b_flip_all_gives fuel n o ws p : p !! o = Some (Some <$> ws) → wf n ws → n < ulim → n < fuel →
    changes n (b_flip_all W ulim fuel n o) p o (λ i, negb (wbit ws i)).
  Proof.
    intros Ho Hwf Hu Hf. unfold b_flip_all. destruct (decide (n = 0)) as [->|]; [by eapply insert_self_changes|].
    destruct (Hwf) as [Hl Hs].
    apply gives_bind. eapply gives_conseq.
    - eapply (for_u_all fuel n _ o p (Some <$> ws) (wnot W <$> ws)); [done|by rewrite fmap_length|by rewrite fmap_length|done|done|].
      intros i p' Hi Hr. destruct (wf_lookup W HW n ws i Hwf Hi) as (w&Hw&_). exists (wnot W w). split; [by rewrite list_lookup_fmap Hw|].
      unfold upd, bind. by rewrite (Hr o ws w).
    - intros i p' [-> ->]. apply gives_ret. eexists. split; [done|]. by apply wf_wnot.
  Qed.
  (** words combined pairwise *)
  Definition bitwise (f : N → N → N) (g : bool → bool → bool) : Prop :=
    (∀ a b, small a → small b → small (f a b)) ∧
    ∀ a b j, N.testbit (f a b) j = g (N.testbit a j) (N.testbit b j).
  Lemma bitwise_and : bitwise N.land andb.
  Proof. split; [intros; by apply small_land|intros; apply N.land_spec]. Qed.
  Lemma bitwise_or : bitwise N.lor orb.
  Proof. split; [intros; by apply small_lor|intros; apply N.lor_spec]. Qed.
  Lemma bitwise_xor : bitwise N.lxor xorb.
  Proof. split; [intros; by apply small_lxor|intros; apply N.lxor_spec]. Qed.
  Lemma wf_zip f g n ws vs : bitwise f g → wf n ws → wf n vs →
    wf n (zip_with f ws vs) ∧ ∀ i, i < cap n → wbit (zip_with f ws vs) i = g (wbit ws i) (wbit vs i).
  Proof.
    intros [Hf Hg] Hw Hv. destruct (Hw) as [Hlw Hsw], (Hv) as [Hlv Hsv]. split.
    - split; [rewrite zip_with_length; lia|]. apply Forall_lookup. intros i x Hx.
      apply lookup_zip_with_Some in Hx as (a&b&->&Ha&Hb). rewrite !Forall_lookup in Hsw, Hsv. eauto.
    - intros i Hi. unfold BitPure.wbit.
      destruct (wf_lookup W HW n ws (i / W) Hw) as (w&Hwi&_); [by apply slot_lt_cap|].
      destruct (wf_lookup W HW n vs (i / W) Hv) as (v&Hvi&_); [by apply slot_lt_cap|].
      rewrite lookup_zip_with Hwi Hvi /=. apply Hg.
  Qed.
  Lemma b_op_eq_gives f g fuel n o ws q vs p : bitwise f g → p !! o = Some (Some <$> ws) → wf n ws →
    p !! q = Some (Some <$> vs) → wf n vs → n < ulim → n < fuel →
    changes n (b_op_eq W ulim f fuel n o q) p o (λ i, g (wbit ws i) (wbit vs i)).
  Proof.
    intros Hbit Ho Hwf Hq Hwfv Hu Hf. unfold b_op_eq. destruct (decide (n = 0)) as [->|]; [by eapply insert_self_changes|].
    destruct (Hwf) as [Hl Hs], (Hwfv) as [Hlv Hsv].
    apply gives_bind. eapply gives_conseq.
    - eapply (for_u_all fuel n _ o p (Some <$> ws) (zip_with f ws vs)); [done|by rewrite fmap_length|rewrite zip_with_length; lia|done|done|].
      intros i p' Hi Hr. destruct (wf_lookup W HW n ws i Hwf Hi) as (w&Hw&_), (wf_lookup W HW n vs i Hwfv Hi) as (v&Hv&_).
      exists (f w v). split; [by rewrite lookup_zip_with Hw Hv|].
      unfold upd, bind. by rewrite (Hr q vs v) // (Hr o ws w).
    - intros i p' [-> ->]. apply gives_ret. eexists. split; [done|]. by apply wf_zip.
  Qed.
  Lemma b_assign_gives fuel n o c q vs p : p !! o = Some c → length c = nwords W n →
    p !! q = Some (Some <$> vs) → wf n vs → n < ulim → n < fuel →
    gives (b_assign W ulim fuel n o q) p (λ _ p', p' = <[o := Some <$> vs]> p).
  Proof.
    intros Ho Hl Hq Hwf Hu Hf. unfold b_assign. apply gives_bind. eapply gives_conseq.
    - eapply (for_u_all fuel n _ o p c vs); [done|done|apply Hwf|done|done|].
      intros i p' Hi Hr. destruct (wf_lookup W HW n vs i Hwf Hi) as (v&Hv&_). exists v. split; [done|].
      unfold bind. by rewrite (Hr q vs v).
    - intros i p' [-> ->]. by apply gives_ret.
  Qed.
End proofs.
