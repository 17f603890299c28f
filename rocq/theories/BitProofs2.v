(** bitset: constructors and operators that build a new object. *)
From Coq Require Import ssreflect.
From Verif Require Import BitSpec BitPure BitProofs.
Local Open Scope general_if_scope.

Section proofs.
  Context (W LLW ulim : nat) (gnuc long_lt : bool) (fresh : nat → option N).
  Hypothesis HW : 0 < W.
  Implicit Types (p : pool) (ws : list N).
  Notation small w := (w < 2 ^ N.of_nat W)%N.
  Notation cap n := (nwords W n * W).
  Notation wf := (wf W).
  Notation wbit := (wbit W).
  Notation changes := (changes W).

  Definition builds n (m : M pool nat) p (F : nat → bool) : Prop :=
    gives m p (λ t p', ∃ ts wt, p' = p ++ ts ∧ p' !! t = Some (Some <$> wt) ∧ length p ≤ t ∧
      wf n wt ∧ ∀ i, i < cap n → wbit wt i = F i).
  Lemma builds_F n m p F G : builds n m p F → (∀ i, i < cap n → F i = G i) → builds n m p G.
  Proof.
    intros Hb HFG. eapply gives_conseq; [done|]. intros t p' (ts&wt&?&?&?&?&HF). exists ts, wt.
    split_and!; try done. intros i Hi. rewrite HF //. by apply HFG.
  Qed.

  Lemma uninit_eq n p : b_uninit W fresh n p = Ok (length p, p ++ [fresh <$> seq 0 (nwords W n)]).
  Proof. done. Qed.
  Lemma uninit_length n : length (fresh <$> seq 0 (nwords W n)) = nwords W n.
  Proof. by rewrite fmap_length seq_length. Qed.
  Lemma top_lookup p (c : list (option N)) : (p ++ [c]) !! length p = Some c.
  Proof. by rewrite list_lookup_middle. Qed.
  Lemma top_insert p (c c' : list (option N)) : <[length p := c']> (p ++ [c]) = p ++ [c'].
  Proof. rewrite insert_app_r_alt // Nat.sub_diag //. Qed.
  Lemma low_lookup p (ts : pool) q c : p !! q = Some c → (p ++ ts) !! q = Some c.
  Proof. intros. by apply lookup_app_l_Some. Qed.
  (** a temporary that is built by changing an uninitialised object *)
  Lemma builds_changes n (m : nat → M pool unit) p F :
    changes n (m (length p)) (p ++ [fresh <$> seq 0 (nwords W n)]) (length p) F →
    builds n (let! t := b_uninit W fresh n in m t ;! ret t) p F.
  Proof.
    intros Hm. apply gives_bind. eapply gives_eq; [apply uninit_eq|]. apply gives_bind.
    eapply gives_conseq; [exact Hm|]. intros [] p' (wt&->&Hwf&HF). apply gives_ret.
    exists [Some <$> wt], wt. rewrite top_insert top_lookup. done.
  Qed.

  Lemma b_new_builds fuel n p : n < ulim → n < fuel → builds n (b_new W ulim fresh fuel n) p (λ _, false).
  Proof.
    intros. apply (builds_changes n (b_reset_all W ulim fuel n)). eapply b_reset_all_gives; [done|apply top_lookup|apply uninit_length|done..].
  Qed.
  Lemma b_copy_builds fuel n q vs p : p !! q = Some (Some <$> vs) → wf n vs → n < ulim → n < fuel →
    gives (b_copy W ulim fresh fuel n q) p (λ t p', t = length p ∧ p' = p ++ [Some <$> vs]).
  Proof.
    intros Hq Hwf Hu Hf. apply gives_bind. eapply gives_eq; [apply uninit_eq|]. apply gives_bind.
    eapply gives_conseq; [eapply (b_assign_gives W ulim HW fuel n _ _ q vs); [apply top_lookup|apply uninit_length|by apply low_lookup|done..]|].
    intros [] p' ->. apply gives_ret. split; [done|]. by rewrite top_insert.
  Qed.
  Lemma b_binop_builds f g fuel n o ws q vs p : bitwise W f g → p !! o = Some (Some <$> ws) → wf n ws →
    p !! q = Some (Some <$> vs) → wf n vs → n < ulim → n < fuel →
    builds n (b_binop W ulim fresh f fuel n o q) p (λ i, g (wbit ws i) (wbit vs i)).
  Proof.
    intros Hbit Ho Hw Hq Hv Hu Hf. apply gives_bind. eapply gives_conseq; [by apply (b_copy_builds fuel n o ws)|].
    intros t p' [-> ->]. apply gives_bind.
    eapply gives_conseq; [eapply (b_op_eq_gives W ulim HW f g fuel n (length p) ws q vs); [done|apply top_lookup|done|by apply low_lookup|done..]|].
    intros [] p' (wt&->&Hwf&HF). rewrite top_insert.
    eapply gives_conseq; [by apply (b_copy_builds fuel n (length p) wt); [apply top_lookup|..]|].
    intros t p' [-> ->]. exists [Some <$> wt; Some <$> wt], wt. rewrite top_lookup -app_assoc. split_and!; try done.
    rewrite app_length. lia.
  Qed.
  Lemma b_not_builds fuel n o ws p : p !! o = Some (Some <$> ws) → wf n ws → n < ulim → n < fuel →
    builds n (b_not W ulim fresh fuel n o) p (λ i, negb (wbit ws i)).
  Proof.
    intros Ho Hw Hu Hf. unfold b_not. destruct (decide (n = 0)) as [->|].
    { eapply builds_F; [by apply b_new_builds|]. intros i. rewrite nwords_0 //. lia. }
    apply gives_bind. eapply gives_eq; [apply uninit_eq|]. apply gives_bind. eapply gives_conseq.
    - eapply (for_u_all W ulim HW fuel n _ (length p) _ _ (wnot W <$> ws)); [apply top_lookup|apply uninit_length|rewrite fmap_length; apply Hw|done..|].
      intros i p' Hi Hr. destruct (wf_lookup W HW n ws i Hw Hi) as (w&Hwi&_). exists (wnot W w).
      split; [by rewrite list_lookup_fmap Hwi|]. unfold bind. rewrite (Hr o ws w) //. by apply low_lookup.
    - intros i p' [-> ->]. apply gives_ret. exists [Some <$> (wnot W <$> ws)], (wnot W <$> ws).
      rewrite top_insert top_lookup. split_and!; try done; by apply wf_wnot.
  Qed.

  (** *** Shifts *)
  Lemma set_top n p wt pos : 0 < n → wf n wt → pos < n →
    gives (b_set W n (length p) pos) (p ++ [Some <$> wt]) (λ _ p', ∃ wt', p' = p ++ [Some <$> wt'] ∧ wf n wt' ∧
      ∀ i, i < cap n → wbit wt' i = if decide (i = pos) then true else wbit wt i).
  Proof.
    intros Hn Hwf Hp. eapply gives_conseq; [apply (b_set_gives W HW n (length p) wt); [done|apply top_lookup|done|by apply cap_ge]|].
    intros [] p' (wt'&->&?&?). exists wt'. by rewrite top_insert.
  Qed.
  Lemma reset_top n p wt pos : 0 < n → wf n wt → pos < n →
    gives (b_reset W n (length p) pos) (p ++ [Some <$> wt]) (λ _ p', ∃ wt', p' = p ++ [Some <$> wt'] ∧ wf n wt' ∧
      ∀ i, i < cap n → wbit wt' i = if decide (i = pos) then false else wbit wt i).
  Proof.
    intros Hn Hwf Hp. eapply gives_conseq; [apply (b_reset_gives W HW n (length p) wt); [done|apply top_lookup|done|by apply cap_ge]|].
    intros [] p' (wt'&->&?&?). exists wt'. by rewrite top_insert.
  Qed.
  Lemma b_new_top fuel n p : n < ulim → n < fuel →
    gives (b_new W ulim fresh fuel n) p (λ t p', t = length p ∧ ∃ wt, p' = p ++ [Some <$> wt] ∧ wf n wt ∧
      ∀ i, i < cap n → wbit wt i = false).
  Proof.
    intros. apply gives_bind. eapply gives_eq; [apply uninit_eq|]. apply gives_bind.
    eapply gives_conseq; [eapply (b_reset_all_gives W ulim HW); [apply top_lookup|apply uninit_length|done..]|].
    intros [] p' (wt&->&?&?). apply gives_ret. split; [done|]. exists wt. by rewrite top_insert.
  Qed.
  Lemma b_shl_builds fuel n o ws p s : p !! o = Some (Some <$> ws) → wf n ws → n < ulim → n < fuel →
    builds n (b_shl W ulim fresh fuel n o s) p (λ i, bool_decide (s ≤ i < n) && wbit ws (i - s)).
  Proof.
    intros Ho Hw Hu Hf. unfold b_shl. apply gives_bind. eapply gives_conseq; [by apply b_new_top|].
    intros t p' (->&wt0&->&Hwf0&HF0). destruct (decide (n = 0)) as [->|].
    { apply gives_ret. exists [Some <$> wt0], wt0. rewrite top_lookup. split_and!; try done.
      intros i. rewrite nwords_0 //. lia. }
    apply (gives_loop (λ '(i, pos) p', pos = s + i ∧ (pos ≤ n ∨ i = 0) ∧ ∃ wt, p' = p ++ [Some <$> wt] ∧ wf n wt ∧
      ∀ x, x < cap n → wbit wt x = bool_decide (s ≤ x < pos) && wbit ws (x - s)) (λ '(i, pos), n - pos)).
    { split; [lia|]. split; [by right|]. exists wt0. split_and!; try done. intros x Hx. rewrite HF0 // bool_decide_false //. lia. }
    { lia. }
    intros [i pos] p' (->&Hp&wt&->&Hwf&HF). destruct (decide (s + i < n)) as [Hlt|Hge].
    - apply gives_bind. eapply gives_eq; [by apply (b_test_eq W HW n o ws); [apply low_lookup|]|].
      rewrite bool_decide_true; [lia|]. rewrite andb_true_l. apply gives_bind. destruct (wbit ws i) eqn:Hb.
      + eapply gives_conseq; [by apply set_top; [lia| |]|]. intros [] p' (wt'&->&Hwf'&HF'). apply gives_ret.
        rewrite Nat.mod_small; [lia|]. split; [|lia]. split; [lia|]. split; [lia|]. exists wt'. split_and!; try done.
        intros x Hx. rewrite HF' //. destruct (decide (x = s + i)) as [->|].
        * rewrite bool_decide_true; [lia|]. replace (s + i - s) with i by lia. by rewrite Hb.
        * rewrite HF //. f_equal. apply bool_decide_ext. lia.
      + apply gives_ret. apply gives_ret.
        rewrite Nat.mod_small; [lia|]. split; [|lia]. split; [lia|]. split; [lia|]. exists wt. split_and!; try done.
        intros x Hx. rewrite HF //. destruct (decide (x = s + i)) as [->|].
        * replace (s + i - s) with i by lia. by rewrite Hb !andb_false_r.
        * f_equal. apply bool_decide_ext. lia.
    - apply gives_ret. exists [Some <$> wt], wt. rewrite top_lookup. split_and!; try done. intros x Hx. rewrite HF //.
      f_equal. apply bool_decide_ext. lia.
  Qed.
  Lemma b_shr_builds fuel n o ws p s : p !! o = Some (Some <$> ws) → wf n ws → n < ulim → n < fuel →
    builds n (b_shr W ulim fresh fuel n o s) p (λ i, bool_decide (i + s < n) && wbit ws (i + s)).
  Proof.
    intros Ho Hw Hu Hf. unfold b_shr. apply gives_bind. eapply gives_conseq; [by apply b_new_top|].
    intros t p' (->&wt0&->&Hwf0&HF0). destruct (decide (n = 0)) as [->|].
    { apply gives_ret. exists [Some <$> wt0], wt0. rewrite top_lookup. split_and!; try done. }
    apply (gives_loop (λ '(i, pos) p', pos = s + i ∧ (pos ≤ n ∨ i = 0) ∧ ∃ wt, p' = p ++ [Some <$> wt] ∧ wf n wt ∧
      ∀ x, x < cap n → wbit wt x = bool_decide (x < i) && wbit ws (x + s)) (λ '(i, pos), n - pos)).
    { split; [lia|]. split; [by right|]. exists wt0. split_and!; done. }
    { lia. }
    intros [i pos] p' (->&Hp&wt&->&Hwf&HF). destruct (decide (s + i < n)) as [Hlt|Hge].
    - apply gives_bind. eapply gives_eq; [by apply (b_test_eq W HW n o ws); [apply low_lookup|]|].
      rewrite bool_decide_true; [lia|]. rewrite andb_true_l. apply gives_bind. destruct (wbit ws (s + i)) eqn:Hb.
      + eapply gives_conseq; [apply set_top; [lia|done|lia]|]. intros [] p' (wt'&->&Hwf'&HF'). apply gives_ret.
        rewrite Nat.mod_small; [lia|]. split; [|lia]. split; [lia|]. split; [lia|]. exists wt'. split_and!; try done.
        intros x Hx. rewrite HF' //. destruct (decide (x = i)) as [->|].
        * rewrite bool_decide_true; [lia|]. by rewrite (Nat.add_comm i s) Hb.
        * rewrite HF //. f_equal. apply bool_decide_ext. lia.
      + apply gives_ret. apply gives_ret.
        rewrite Nat.mod_small; [lia|]. split; [|lia]. split; [lia|]. split; [lia|]. exists wt. split_and!; try done.
        intros x Hx. rewrite HF //. destruct (decide (x = i)) as [->|].
        * by rewrite (Nat.add_comm i s) Hb !andb_false_r.
        * f_equal. apply bool_decide_ext. lia.
    - apply gives_ret. exists [Some <$> wt], wt. rewrite top_lookup. split_and!; try done. intros x Hx. rewrite HF //.
      destruct (decide (x < i)).
      + rewrite !bool_decide_true //; lia.
      + rewrite !bool_decide_false //; lia.
  Qed.

  (** *** Conversion *)
  Lemma b_convert_gives fuel n m o c q vs p : p !! o = Some c → length c = nwords W n →
    p !! q = Some (Some <$> vs) → wf m vs → n < ulim → n < fuel →
    changes n (b_convert W ulim fuel n m o q) p o (λ i, wbit vs i).
  Proof.
    intros Ho Hl Hq Hwf Hu Hf. pose proof (nwords_le W HW n). destruct (Hwf) as [Hlv Hsv]. unfold b_convert, b_capacity.
    rewrite !Nat.div_mul; [lia..|]. set (k := if decide (n < m) then nwords W n else nwords W m).
    assert (k = nwords W n `min` nwords W m) as Hk.
    { unfold k. destruct (decide (n < m)); [pose proof (nwords_mono W HW n m)|pose proof (nwords_mono W HW m n)]; lia. }
    clearbody k. apply gives_bind. set (tg := (Some <$> take k vs) ++ drop k c).
    assert (length tg = length c) as Htl. { unfold tg. rewrite app_length fmap_length take_length drop_length. lia. }
    eapply gives_conseq.
    { eapply (for_u_write W ulim HW fuel 0 k _ o p c tg); [done|done|lia|lia|lia|lia|done|].
      intros i p' Hi Hr. destruct (wf_lookup W HW m vs i Hwf) as (v&Hv&_); [lia|]. exists v. split.
      - unfold tg. rewrite lookup_app_l; [rewrite fmap_length take_length; lia|].
        rewrite list_lookup_fmap lookup_take; [lia|]. by rewrite Hv.
      - unfold bind. by rewrite (Hr q vs v). }
    simpl. intros i p' [-> ->]. apply gives_bind.
    assert (take k tg = Some <$> take k vs) as Htk.
    { unfold tg. rewrite take_app_alt //. rewrite fmap_length take_length. lia. }
    rewrite Htk. fold tg. set (p1 := <[o:=tg]> p).
    assert (o < length p) as Hop by (by eapply lookup_lt_Some).
    set (new := take k vs ++ replicate (nwords W n - k) 0%N).
    assert (length new = nwords W n) as Hnl. { unfold new. rewrite app_length take_length replicate_length. lia. }
    eapply gives_conseq.
    { eapply (for_u_write W ulim HW fuel k (nwords W n) _ o p1 tg (Some <$> new)).
      - unfold p1. by rewrite list_lookup_insert.
      - rewrite fmap_length. lia.
      - lia.
      - lia.
      - lia.
      - lia.
      - rewrite Htk. unfold new. rewrite fmap_app take_app_alt //. rewrite fmap_length take_length. lia.
      - intros i p' Hi Hr. exists 0%N. split; [|done]. rewrite list_lookup_fmap. unfold new.
        rewrite lookup_app_r; [rewrite take_length; lia|]. rewrite lookup_replicate_2 //. rewrite take_length. lia. }
    simpl. intros i p' [-> ->]. apply gives_ret. exists new. unfold p1. rewrite list_insert_insert. split.
    { f_equal. rewrite take_ge; [rewrite fmap_length; lia|]. rewrite drop_ge; [lia|]. by rewrite app_nil_r. }
    split.
    - split; [done|]. apply Forall_app. split; [by apply Forall_take|]. apply Forall_replicate, small_0.
    - intros i Hi. pose proof (slot_lt_cap W HW i n Hi) as His. unfold BitPure.wbit, new. destruct (decide (i / W < k)).
      + rewrite lookup_app_l; [rewrite take_length; lia|]. by rewrite lookup_take.
      + rewrite lookup_app_r; [rewrite take_length; lia|]. rewrite take_length lookup_replicate_2; [lia|].
        rewrite N.bits_0. rewrite lookup_ge_None_2 //. lia.
  Qed.
  Lemma b_from_builds fuel n m q vs p : p !! q = Some (Some <$> vs) → wf m vs → n < ulim → n < fuel →
    builds n (b_from W ulim fresh fuel n m q) p (λ i, wbit vs i).
  Proof.
    intros Hq Hwf Hu Hf. apply (builds_changes n (λ t, b_convert W ulim fuel n m t q)).
    eapply b_convert_gives; [apply top_lookup|apply uninit_length|by apply low_lookup|done..].
  Qed.

  (** *** Integers *)
  Lemma ulong_loop fuel n p (c : list (option N)) u : 0 < n → length c = nwords W n → small u → n < ulim → n < fuel →
    gives (bit_wr (length p) 0 u ;! for_u ulim fuel 1 (nwords W n) (λ i, bit_wr (length p) i 0%N) ;! ret (length p)) (p ++ [c])
      (λ t p', ∃ ts wt, p' = p ++ ts ∧ p' !! t = Some (Some <$> wt) ∧ length p ≤ t ∧ wf n wt ∧
        ∀ i, i < cap n → wbit wt i = N.testbit u (N.of_nat i)).
  Proof.
    intros Hn Hl Hs Hu Hf. pose proof (nwords_pos W HW n Hn). pose proof (nwords_le W HW n).
    apply gives_bind. eapply gives_eq; [apply wr_eq; [apply top_lookup|lia]|]. rewrite top_insert. apply gives_bind.
    set (new := u :: replicate (nwords W n - 1) 0%N).
    assert (length new = nwords W n) as Hnl by (unfold new; simpl; rewrite replicate_length; lia).
    eapply gives_conseq.
    { eapply (for_u_write W ulim HW fuel 1 (nwords W n) _ (length p) _ (<[0:=Some u]> c) (Some <$> new)).
      - apply top_lookup.
      - rewrite fmap_length insert_length. lia.
      - lia.
      - rewrite insert_length. lia.
      - lia.
      - lia.
      - unfold new. destruct c; [simpl in *; lia|done].
      - intros i p' Hi Hr. exists 0%N. split; [|done]. rewrite list_lookup_fmap. unfold new.
        rewrite lookup_cons_ne_0; [lia|]. rewrite lookup_replicate_2 //. lia. }
    intros i p' [-> ->]. apply gives_ret. rewrite top_insert.
    assert (take (nwords W n) (Some <$> new) ++ drop (nwords W n) (<[0:=Some u]> c) = Some <$> new) as ->.
    { rewrite take_ge; [by rewrite fmap_length; lia|]. rewrite drop_ge; [by rewrite insert_length; lia|]. by rewrite app_nil_r. }
    exists [Some <$> new], new. split; [done|]. rewrite top_lookup.
    split; [done|]. split; [done|]. split.
    - split; [done|]. constructor; [done|]. apply Forall_replicate, small_0.
    - intros i Hi. pose proof (slot_lt_cap W HW i n Hi) as His. unfold BitPure.wbit, new. destruct (decide (i < W)).
      + by rewrite Nat.div_small // Nat.mod_small.
      + assert (i / W ≠ 0) by (rewrite Nat.div_small_iff; lia).
        rewrite lookup_cons_ne_0 // lookup_replicate_2; [lia|]. rewrite N.bits_0.
        symmetry. apply (proj1 (small_bits u _) Hs). lia.
  Qed.
  Lemma b_of_ulong_builds fuel n u p : 0 < n → small u → n < ulim → n < fuel →
    builds n (b_of_ulong W ulim fresh fuel n u) p (λ i, N.testbit u (N.of_nat i)).
  Proof.
    intros. apply gives_bind. eapply gives_eq; [apply uninit_eq|]. apply ulong_loop; [done|apply uninit_length|done..].
  Qed.
  Lemma b_of_ullong_builds fuel n u p : 0 < n → (if long_lt then True else small u) → n < ulim → n < fuel →
    builds n (b_of_ullong W ulim long_lt fresh fuel n u) p (λ i, N.testbit u (N.of_nat i)).
  Proof.
    intros Hn Hs Hu Hf. pose proof (nwords_le W HW n). apply gives_bind. eapply gives_eq; [apply uninit_eq|]. destruct long_lt.
    - set (c0 := fresh <$> seq 0 (nwords W n)).
      assert (length c0 = nwords W n) as Hl by apply uninit_length. clearbody c0.
      set (new := (λ i, N.land (N.shiftr u (N.of_nat (i * W))) (all1 W)) <$> seq 0 (nwords W n)).
      assert (length new = nwords W n) as Hnl by (unfold new; by rewrite fmap_length seq_length).
      apply (gives_loop (λ '(i, v) p', i ≤ nwords W n ∧ v = N.shiftr u (N.of_nat (i * W)) ∧
        p' = p ++ [(Some <$> take i new) ++ drop i c0]) (λ '(i, v), nwords W n - i)).
      { split; [lia|]. split; [by rewrite N.shiftr_0_r|done]. }
      { lia. }
      intros [i v] p' (Hi&->&->). destruct (decide (i < nwords W n)) as [Hlt|Hge].
      + assert (new !! i = Some (N.land (N.shiftr u (N.of_nat (i * W))) (all1 W))) as Hni.
        { unfold new. by rewrite list_lookup_fmap lookup_seq_lt. }
        apply gives_bind. eapply gives_eq; [apply wr_eq; [apply top_lookup|]|].
        { rewrite app_length fmap_length take_length drop_length. lia. }
        apply gives_ret. rewrite top_insert Nat.mod_small; [lia|]. split; [|lia]. split; [lia|]. split.
        { rewrite N.shiftr_shiftr. f_equal. lia. }
        do 2 f_equal. rewrite insert_app_r_alt; [rewrite fmap_length take_length; lia|].
        rewrite (take_S_r _ _ _ Hni) fmap_app -app_assoc. f_equal.
        rewrite fmap_length take_length. replace (i - i `min` length new) with 0 by lia.
        destruct (lookup_lt_is_Some_2 c0 i) as [x Hx]; [lia|]. by rewrite (drop_S _ _ _ Hx).
      + apply gives_ret. assert (i = nwords W n) as -> by lia. rewrite take_ge; [lia|]. rewrite drop_ge; [lia|]. rewrite app_nil_r.
        exists [Some <$> new], new. rewrite top_lookup. split_and!; try done.
        * split; [done|]. apply Forall_fmap, Forall_forall. intros i _. simpl. apply small_land_r, small_all1.
        * intros i Hi'. pose proof (slot_lt_cap W HW i n Hi') as His. unfold BitPure.wbit, new.
          rewrite list_lookup_fmap lookup_seq_lt // /= N.land_spec all1_bit; [by apply mod_lt|].
          rewrite andb_true_r N.shiftr_spec'. f_equal. pose proof (div_mul_mod W HW i). lia.
    - rewrite N.mod_small //. apply ulong_loop; [done|apply uninit_length|done..].
  Qed.

  (** *** Strings *)
  Lemma prefix_le zero one cs : length (binary_prefix zero one cs) ≤ length cs.
  Proof. induction cs as [|c cs IH]; simpl; [lia|]. destruct (decide _); simpl; lia. Qed.
  Lemma prefix_in zero one cs i : i < length (binary_prefix zero one cs) →
    ∃ c, cs !! i = Some c ∧ binary_prefix zero one cs !! i = Some c ∧ (c = zero ∨ c = one).
  Proof.
    revert i. induction cs as [|c cs IH]; simpl; [lia|]. intros i. destruct (decide _); simpl; [|lia].
    destruct i as [|i]; simpl; [by exists c|]. intros Hi. apply IH. lia.
  Qed.
  Lemma prefix_next zero one cs c : cs !! length (binary_prefix zero one cs) = Some c → ¬ (c = zero ∨ c = one).
  Proof.
    induction cs as [|d cs IH]; simpl; [done|]. destruct (decide _) as [|Hd]; simpl; [done|]. by intros [= ->].
  Qed.
  Lemma b_of_string_builds fuel n cs len zero one p :
    let ds := binary_prefix zero one (take len cs) in
    len ≤ length cs ∨ length ds < length cs → length ds ≤ n →
    (∀ i, i < length ds / W → ∃ w, fresh i = Some w ∧ small w) → n < fuel →
    builds n (b_of_string W fresh fuel n cs len zero one) p
      (λ i, match ds !! (length ds - 1 - i) with Some c => bool_decide (i < length ds ∧ c ≠ zero) | None => false end).
  Proof.
    intros ds Hend Hm Hfresh Hf. set (m := length ds) in *.
    assert (m ≤ len) as Hmlen. { unfold m, ds. etrans; [apply prefix_le|]. rewrite take_length. lia. }
    assert (∀ i, i < m → ∃ c, cs !! i = Some c ∧ ds !! i = Some c ∧ (c = zero ∨ c = one)) as Hin.
    { intros i Hi. destruct (prefix_in zero one (take len cs) i Hi) as (c&Hc&Hd&Hz). exists c. split_and!; try done.
      rewrite lookup_take in Hc; [lia|done]. }
    unfold b_of_string. apply gives_bind. eapply gives_eq; [apply uninit_eq|].
    set (c0 := fresh <$> seq 0 (nwords W n)).
    assert (length c0 = nwords W n) as Hl by apply uninit_length.
    (* counting the digits *)
    apply gives_bind. eapply gives_conseq.
    { apply (gives_loop (λ i p', p' = p ++ [c0] ∧ i ≤ m) (λ i, m - i) (λ i p', p' = p ++ [c0] ∧ i = m)); [split; [done|lia]|lia|].
      intros i p' [-> Hi]. destruct (decide (i < len)) as [Hlt|Hge].
      - assert (i < length cs) as Hics. { destruct (decide (i < m)) as [Him|]; [|lia]. destruct (Hin i Him) as (c&Hc&_). by apply lookup_lt_Some in Hc. }
        destruct (lookup_lt_is_Some_2 cs i Hics) as [c Hc]. apply gives_bind. unfold ch_rd. rewrite Hc. apply gives_ret.
        destruct (decide (c = zero ∨ c = one)) as [Hz|Hz]; apply gives_ret.
        + split; [split; [done|]|]; destruct (decide (i = m)) as [->|]; try lia; exfalso;
            (eapply (prefix_next zero one (take len cs)); [|exact Hz]; by rewrite lookup_take).
        + split; [done|]. destruct (decide (i = m)) as [|Hne]; [done|]. destruct (Hin i ltac:(lia)) as (c'&Hc'&_&Hz'). simplify_eq.
      - apply gives_ret. split; [done|lia]. }
    intros i p' [-> ->]. apply gives_bind.
    (* clearing the words from m / W on *)
    set (j0 := m / W).
    assert (j0 ≤ nwords W n) as Hj0.
    { unfold j0. pose proof (nwords_ge W HW n). apply Nat.div_le_upper_bound; [lia|]. lia. }
    set (keep := default 0%N <$> take j0 c0).
    assert (Some <$> keep = take j0 c0) as Hkeep.
    { unfold keep. rewrite -list_fmap_compose. apply list_eq. intros i. rewrite list_lookup_fmap. destruct (decide (i < j0)).
      - rewrite lookup_take //. unfold c0. rewrite list_lookup_fmap lookup_seq_lt /=; [lia|]. destruct (Hfresh i) as (w&Hw&_); [done|]. by rewrite Hw.
      - rewrite lookup_take_ge; [lia|done]. }
    assert (Forall (λ w, small w) keep) as Hks.
    { unfold keep. apply Forall_fmap, Forall_lookup. intros i x Hx. apply lookup_take_Some in Hx as [Hx Hi].
      unfold c0 in Hx. rewrite list_lookup_fmap lookup_seq_lt /= in Hx; [lia|]. destruct (Hfresh i) as (w&Hw&?); [done|]. rewrite Hw in Hx. by simplify_eq. }
    assert (length keep = j0) as Hkl by (unfold keep; rewrite fmap_length take_length; lia).
    eapply gives_conseq.
    { apply (gives_loop (λ s p', j0 ≤ s ≤ nwords W n ∧ p' = p ++ [(Some <$> keep ++ replicate (s - j0) 0%N) ++ drop s c0]) (λ s, nwords W n - s)
        (λ _ p', p' = p ++ [Some <$> keep ++ replicate (nwords W n - j0) 0%N])).
      - split; [lia|]. rewrite Nat.sub_diag /= app_nil_r Hkeep take_drop //.
      - pose proof (nwords_le W HW n). lia.
      - intros s p' [Hs ->]. destruct (decide (s < nwords W n)) as [Hlt|Hge].
        + apply gives_bind. eapply gives_eq; [apply wr_eq; [apply top_lookup|]|].
          { rewrite app_length fmap_length app_length replicate_length drop_length. lia. }
          apply gives_ret. split; [|lia]. split; [lia|]. rewrite top_insert. do 2 f_equal.
          rewrite insert_app_r_alt; [rewrite fmap_length app_length replicate_length; lia|].
          rewrite fmap_length app_length replicate_length. replace (s - (length keep + (s - j0))) with 0 by lia.
          destruct (lookup_lt_is_Some_2 c0 s) as [x Hx]; [lia|]. rewrite (drop_S _ _ _ Hx) /=.
          replace (S s - j0) with ((s - j0) + 1) by lia. rewrite replicate_add !fmap_app -!app_assoc //.
        + apply gives_ret. assert (s = nwords W n) as -> by lia. rewrite drop_ge; [lia|]. by rewrite app_nil_r. }
    intros [] p' ->. set (w0 := keep ++ replicate (nwords W n - j0) 0%N).
    assert (wf n w0) as Hw0.
    { split; [unfold w0; rewrite app_length replicate_length; lia|]. apply Forall_app. split; [done|]. apply Forall_replicate, small_0. }
    assert (∀ x, m ≤ x → x < cap n → wbit w0 x = false) as Hw0z.
    { intros x Hx Hxc. assert (j0 ≤ x / W) by (by apply Nat.div_le_mono; lia). pose proof (slot_lt_cap W HW x n Hxc).
      unfold BitPure.wbit, w0. rewrite lookup_app_r; [lia|]. rewrite lookup_replicate_2; [lia|]. apply N.bits_0. }
    (* storing the digits *)
    apply (gives_loop (λ '(i, k) p', i + k = m ∧ ∃ wt, p' = p ++ [Some <$> wt] ∧ wf n wt ∧
      ∀ x, i ≤ x → x < cap n → wbit wt x = match ds !! (m - 1 - x) with Some c => bool_decide (x < m ∧ c ≠ zero) | None => false end) (λ '(i, k), i)).
    { split; [lia|]. exists w0. split_and!; try done. intros x Hx Hxc. rewrite Hw0z //.
      destruct (ds !! _); [|done]. rewrite bool_decide_false //. lia. }
    { lia. }
    intros [i k] p' (Hik&wt&->&Hwf&HF). destruct (decide (i = 0)) as [->|Hi].
    { apply gives_ret. exists [Some <$> wt], wt. rewrite top_lookup. split_and!; try done. intros x Hx. apply HF; [lia|done]. }
    destruct (Hin k ltac:(lia)) as (c&Hc&Hd&Hz).
    apply gives_bind. unfold ch_rd. rewrite Hc. apply gives_ret.
    assert (m - 1 - (i - 1) = k) as Hk by lia.
    destruct (decide (c = zero)) as [->|Hcz].
    - apply gives_bind. eapply gives_conseq; [apply reset_top; [lia|done|lia]|].
      intros [] p' (wt'&->&Hwf'&HF'). apply gives_ret. split; [|lia]. split; [lia|]. exists wt'. split_and!; try done.
      intros x Hx Hxc. rewrite HF' //. destruct (decide (x = i - 1)) as [->|].
      + rewrite Hk Hd bool_decide_false //. naive_solver.
      + apply HF; [lia|done].
    - rewrite decide_True; [naive_solver|]. apply gives_bind. eapply gives_conseq; [apply set_top; [lia|done|lia]|].
      intros [] p' (wt'&->&Hwf'&HF'). apply gives_ret. split; [|lia]. split; [lia|]. exists wt'. split_and!; try done.
      intros x Hx Hxc. rewrite HF' //. destruct (decide (x = i - 1)) as [->|].
      + rewrite Hk Hd bool_decide_true //. split; [lia|done].
      + apply HF; [lia|done].
  Qed.
End proofs.
