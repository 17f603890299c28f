(** bitset: histories. *)
From Coq Require Import ssreflect.
From Verif Require Import BitSpec BitPure BitProofs BitProofs2 BitProofs3.
Local Open Scope general_if_scope.

Section proofs.
  Context (W LLW ulim : nat) (gnuc long_lt : bool) (fresh : nat → option N) (sizes : list nat).
  Hypothesis HW : 0 < W.
  Implicit Types (p : pool) (ws : list N) (st : b_state).
  Notation small w := (w < 2 ^ N.of_nat W)%N.
  Notation cap n := (nwords W n * W).
  Notation wf := (wf W).
  Notation wbit := (wbit W).
  Notation vis := (vis W).
  Notation size_of := (size_of sizes).

  Definition obj p o (bs : list bool) (cl : bool) ws : Prop :=
    p !! o = Some (Some <$> ws) ∧ wf (length bs) ws ∧ vis (length bs) ws = bs ∧
    (cl = true → ∀ i, length bs ≤ i < cap (length bs) → wbit ws i = false).
  Definition bR st p : Prop :=
    length p = length st ∧
    ∀ o bs cl, st !! o = Some (bs, cl) → size_of o = length bs ∧ ∃ ws, obj p o bs cl ws.

  Lemma bR_obj st p o s : bR st p → st !! o = Some s → size_of o = length s.1 ∧ ∃ ws, obj p o s.1 s.2 ws.
  Proof. intros [_ H]. destruct s. apply H. Qed.
  Lemma vis_bit p o bs cl ws i b : obj p o bs cl ws → bs !! i = Some b → wbit ws i = b.
  Proof.
    intros (_&_&Hv&_) Hb. pose proof (lookup_lt_Some _ _ _ Hb) as Hi. rewrite -Hv vis_lookup // in Hb. by simplify_eq.
  Qed.
  Lemma vis_bit_lt p o bs cl ws i : obj p o bs cl ws → i < length bs → bs !! i = Some (wbit ws i).
  Proof. intros Ho Hi. destruct (lookup_lt_is_Some_2 bs i Hi) as [b Hb]. by rewrite (vis_bit p o bs cl ws i b). Qed.

  (** the new value of an object *)
  Lemma bR_insert st p o bs0 cl0 bs cl ws : bR st p → st !! o = Some (bs0, cl0) → length bs = length bs0 →
    wf (length bs) ws → (∀ i, i < length bs → bs !! i = Some (wbit ws i)) →
    (cl = true → ∀ i, length bs ≤ i < cap (length bs) → wbit ws i = false) →
    bR (<[o := (bs, cl)]> st) (<[o := Some <$> ws]> p).
  Proof.
    intros [Hl HR] Ho Hbl Hwf Hb Hc. split; [by rewrite !insert_length|]. intros q bs' cl' Hq.
    pose proof (lookup_lt_Some _ _ _ Ho). destruct (decide (q = o)) as [->|Hne].
    - rewrite list_lookup_insert // in Hq. simplify_eq. split; [rewrite Hbl; by apply (HR _ _ _ Ho)|].
      exists ws. split; [rewrite list_lookup_insert //; lia|]. split; [done|]. split; [|done]. by apply (vis_eq W HW).
    - rewrite list_lookup_insert_ne // in Hq. destruct (HR _ _ _ Hq) as (?&ws'&?&?). split; [done|]. exists ws'.
      split; [|done]. by rewrite list_lookup_insert_ne.
  Qed.
  Lemma changes_done st p o s bs cl m F n : bR st p → st !! o = Some s → n = length s.1 → length bs = length s.1 →
    changes W n m p o F → (∀ i, i < n → bs !! i = Some (F i)) →
    (cl = true → ∀ i, n ≤ i < cap n → F i = false) →
    gives m p (λ _ p', bR (<[o := (bs, cl)]> st) p').
  Proof.
    intros HR Ho -> Hl Hm Hb Hc. destruct s as [bs0 cl0]. simpl in *.
    eapply gives_conseq; [exact Hm|]. intros [] p' (ws'&->&Hwf&HF). rewrite -Hl in Hwf, Hb, Hc, HF. eapply bR_insert; [done..| |].
    - intros i Hi. rewrite HF; [|by apply Hb]. by apply cap_ge.
    - intros Hcl i Hi. rewrite HF; [lia|]. by apply Hc.
  Qed.
  Lemma done_gives st' m p : gives m p (λ _ p', bR st' p') → gives (b_done m) p (λ r p', r = GDone ∧ bR st' p').
  Proof. intros Hm. apply gives_bind. eapply gives_conseq; [exact Hm|]. intros [] p' HR. by apply gives_ret. Qed.
  Lemma bool_gives st m p a a' : bR st p → answers m p a → a = a' → gives (b_bool m) p (λ r p', r = GBool a' ∧ bR st p').
  Proof. intros HR Hm <-. apply gives_bind. eapply gives_conseq; [exact Hm|]. intros r p' [-> ->]. by apply gives_ret. Qed.

  (** o = <temporary> *)
  Lemma temp_assign fuel st p o s bs cl p' t wt ts : bR st p → st !! o = Some s → length bs = length s.1 →
    p' = p ++ ts → p' !! t = Some (Some <$> wt) → wf (length s.1) wt →
    size_of o < ulim → size_of o < fuel →
    (∀ i, i < length s.1 → bs !! i = Some (wbit wt i)) →
    (cl = true → ∀ i, length s.1 ≤ i < cap (length s.1) → wbit wt i = false) →
    gives (b_assign W ulim fuel (size_of o) o t ;! bit_cut (length p) ;! ret GDone) p'
      (λ r p', r = GDone ∧ bR (<[o := (bs, cl)]> st) p').
  Proof.
    intros HR Ho Hl -> Ht Hwf Hu Hf Hb Hc. destruct (bR_obj _ _ _ _ HR Ho) as (Hsz&ws&Hobj). destruct Hobj as (Hpo&Hwo&_).
    destruct s as [bs0 cl0]. simpl in *.
    apply gives_bind. eapply gives_conseq.
    { eapply (b_assign_gives W ulim HW fuel (size_of o) o (Some <$> ws) t wt).
      - apply lookup_app_l_Some. done.
      - rewrite fmap_length Hsz. apply Hwo.
      - done.
      - by rewrite Hsz.
      - done.
      - done. }
    intros [] p'' ->. pose proof (lookup_lt_Some _ _ _ Hpo). rewrite insert_app_l //.
    apply gives_bind. eapply gives_eq; [done|]. apply gives_ret. split; [done|].
    rewrite take_app_alt; [by rewrite insert_length|]. eapply bR_insert; [done..| | |].
    - by rewrite Hl.
    - by rewrite Hl.
    - by rewrite Hl.
  Qed.
  Lemma store_gives fuel st p o s bs cl e F : bR st p → st !! o = Some s → length bs = length s.1 →
    size_of o < ulim → size_of o < fuel → builds W (length s.1) e p F →
    (∀ i, i < length s.1 → bs !! i = Some (F i)) →
    (cl = true → ∀ i, length s.1 ≤ i < cap (length s.1) → F i = false) →
    gives (b_store W ulim sizes fuel o e) p (λ r p', r = GDone ∧ bR (<[o := (bs, cl)]> st) p').
  Proof.
    intros HR Ho Hl Hu Hf He Hb Hc. unfold b_store. apply gives_bind. eapply gives_eq; [done|].
    apply gives_bind. eapply gives_conseq; [exact He|]. intros t p' (ts&wt&->&Ht&_&Hwf&HF).
    eapply temp_assign; [done..| |].
    - intros i Hi. rewrite HF; [by apply cap_ge|by apply Hb].
    - intros Hcl i Hi. rewrite HF; [lia|by apply Hc].
  Qed.
  (** o op= s through a temporary *)
  Lemma shift_eq_gives fuel st p o s bs cl e F : bR st p → st !! o = Some s → length bs = length s.1 →
    size_of o < ulim → size_of o < fuel → builds W (length s.1) e p F →
    (∀ i, i < length s.1 → bs !! i = Some (F i)) →
    (cl = true → ∀ i, length s.1 ≤ i < cap (length s.1) → F i = false) →
    gives (let! k := bit_mark in (let! t := e in b_assign W ulim fuel (size_of o) o t) ;! bit_cut k ;! ret GDone) p
      (λ r p', r = GDone ∧ bR (<[o := (bs, cl)]> st) p').
  Proof.
    intros HR Ho Hl Hu Hf He Hb Hc. pose proof (store_gives fuel st p o s bs cl e F HR Ho Hl Hu Hf He Hb Hc) as Hs.
    unfold b_store in Hs. destruct Hs as (a&p'&Hm&HQ). exists a, p'. split; [|done]. rewrite -Hm.
    unfold bind, bit_mark. by destruct (e p) as [[t p2]| |].
  Qed.

  Lemma no_pad_cap n : no_pad W n = true → cap n = n.
  Proof.
    unfold no_pad. rewrite bool_decide_eq_true. intros Hm. pose proof (div_mul_mod W HW n) as Hd. rewrite Hm Nat.add_0_r in Hd.
    unfold nwords. rewrite {1}Hd. replace (n / W * W + W - 1) with ((W - 1) + n / W * W) by lia.
    rewrite Nat.div_add; [lia|]. rewrite Nat.div_small; lia.
  Qed.
  Lemma no_pad_none n i : no_pad W n = true → n ≤ i < cap n → False.
  Proof. intros H1%no_pad_cap H2. lia. Qed.

  (** digits beyond a bound *)
  Lemma testbit_high u k i : (u < 2 ^ N.of_nat k)%N → k ≤ i → N.testbit u (N.of_nat i) = false.
  Proof. intros Hu Hi. rewrite small_bits in Hu. apply Hu. lia. Qed.
  Lemma shifted_up_lookup s bs i : i < length bs → shifted_up s bs !! i = Some (if decide (s ≤ i) then default false (bs !! (i - s)) else false).
  Proof.
    intros Hi. unfold shifted_up. rewrite lookup_take //. destruct (decide (s ≤ i)).
    - rewrite lookup_app_r; rewrite replicate_length //. destruct (bs !! (i - s)) eqn:He; [done|].
      apply lookup_ge_None in He. lia.
    - rewrite lookup_app_l; rewrite ?replicate_length; [lia|]. rewrite lookup_replicate_2 //. lia.
  Qed.
  Lemma shifted_up_length s bs : length (shifted_up s bs) = length bs.
  Proof. unfold shifted_up. rewrite take_length app_length replicate_length. lia. Qed.
  Lemma shifted_down_lookup s bs i : i < length bs → shifted_down s bs !! i = Some (default false (bs !! (i + s))).
  Proof.
    intros Hi. unfold shifted_down. destruct (decide (i + s < length bs)).
    - rewrite lookup_app_l; [rewrite drop_length; lia|]. rewrite lookup_drop Nat.add_comm.
      destruct (bs !! (i + s)) eqn:He; [done|]. apply lookup_ge_None in He. lia.
    - rewrite lookup_app_r; [rewrite drop_length; lia|]. rewrite (lookup_ge_None_2 bs); [lia|]. rewrite drop_length.
      rewrite lookup_replicate_2 //. lia.
  Qed.
  Lemma shifted_down_length s bs : length (shifted_down s bs) = length bs.
  Proof. unfold shifted_down. rewrite app_length drop_length replicate_length. lia. Qed.
  Lemma resize_lookup n (bs : list bool) i : i < n → resize n false bs !! i = Some (default false (bs !! i)).
  Proof.
    intros Hi. destruct (decide (i < length bs)).
    - rewrite lookup_resize //. destruct (bs !! i) eqn:He; [done|]. apply lookup_ge_None in He. lia.
    - rewrite lookup_resize_new; [lia|done|]. rewrite (lookup_ge_None_2 bs); [lia|done].
  Qed.

  (** no operation of a history reads an uninitialised word, except for long strings *)
  Notation str_ok := (string_words_readable W fresh).
  Definition flags_ok (f g : bool → bool → bool) : Prop :=
    ∀ c1 c2 x y, g c1 c2 = true → (c1 = true → x = false) → (c2 = true → y = false) → f x y = false.
  Lemma and_flags : flags_ok andb orb.
  Proof. intros [] [] [] []; naive_solver. Qed.
  Lemma or_flags : flags_ok orb andb.
  Proof. intros [] [] [] []; naive_solver. Qed.
  Lemma xor_flags : flags_ok xorb andb.
  Proof. intros [] [] [] []; naive_solver. Qed.
  Lemma zip_facts p q1 q2 a b c1 c2 ws1 ws2 f g : flags_ok f g →
    obj p q1 a c1 ws1 → obj p q2 b c2 ws2 → length b = length a →
    length (zip_with f a b) = length a ∧
    (∀ i, i < length a → zip_with f a b !! i = Some (f (wbit ws1 i) (wbit ws2 i))) ∧
    (g c1 c2 = true → ∀ i, length a ≤ i < cap (length a) → f (wbit ws1 i) (wbit ws2 i) = false).
  Proof.
    intros Hfg H1 H2 Hl. split_and!.
    - rewrite zip_with_length. lia.
    - intros i Hi. rewrite lookup_zip_with (vis_bit_lt p q1 a c1 ws1) //= (vis_bit_lt p q2 b c2 ws2) //. lia.
    - intros Hg i Hi. destruct H1 as (_&_&_&H1), H2 as (_&_&_&H2). rewrite Hl in H2. eapply Hfg; eauto.
  Qed.

  Lemma bR_step fuel st p op st' r : bR st p → b_spec W LLW st op = Some (st', r) →
    (if long_lt then LLW = 2 * W else LLW = W) → str_ok op → W < fuel →
    (∀ o, size_of o < ulim ∧ size_of o < fuel) →
    gives (b_step W LLW ulim gnuc long_lt fresh sizes fuel op) p (λ a p', a = r ∧ bR st' p').
  Proof.
    intros HR Hsp Hll Hstr HfW Hsz.
    assert (∀ o s, st !! o = Some s → size_of o = length s.1 ∧ length s.1 < ulim ∧ length s.1 < fuel ∧ ∃ ws, obj p o s.1 s.2 ws) as Hlook.
    { intros o s Hs. destruct (bR_obj _ _ _ _ HR Hs) as (Hz&ws&Hob). destruct (Hsz o). rewrite -Hz. eauto. }
    (* one position *)
    assert (∀ o pos f st' r (m : nat → M pool unit), b_upd_at st o pos f = Some (st', r) →
      (∀ n ws, pos < n → p !! o = Some (Some <$> ws) → wf n ws →
         changes W n (m n) p o (λ i, if decide (i = pos) then f (wbit ws i) else wbit ws i)) →
      gives (b_done (m (size_of o))) p (λ a p', a = r ∧ bR st' p')) as Hat.
    { intros o pos f st2 r2 m Hu Hm. unfold b_upd_at in Hu. destruct (st !! o) as [s|] eqn:Hs; simplify_eq/=.
      destruct (s.1 !! pos) as [b|] eqn:Hb; simplify_eq/=. destruct (Hlook _ _ Hs) as (Hz&_&_&ws&Hob).
      pose proof (lookup_lt_Some _ _ _ Hb) as Hlt. rewrite Hz. pose proof Hob as (Ho&Hwf&_&Hcl). apply done_gives. eapply changes_done; [done|done|reflexivity|by rewrite insert_length|by apply (Hm (length s.1) ws)| |].
      - simpl. intros i Hi. destruct (decide (i = pos)) as [->|].
        + rewrite list_lookup_insert // (vis_bit p o s.1 s.2 ws pos b) //.
        + rewrite list_lookup_insert_ne //. by eapply vis_bit_lt.
      - simpl. intros Hc i Hi. destruct (decide (i = pos)); [lia|]. by apply Hcl. }
    (* o op= q; o = q op r *)
    assert (∀ o q f g st' r (F : N → N → N), b_bin st o o q f g = Some (st', r) → flags_ok f g → bitwise W F f →
      gives (b_done (b_op_eq W ulim F fuel (size_of o) o q)) p (λ a p', a = r ∧ bR st' p')) as Hbineq.
    { intros o q f g st2 r2 F Hu Hfl Hbw. unfold b_bin in Hu. destruct (st !! o) as [s|] eqn:Hs; simplify_eq/=.
      destruct (st !! q) as [a|] eqn:Ha; simplify_eq/=. case_decide as Hl; simplify_eq. destruct Hl as [_ Hl].
      destruct (Hlook _ _ Hs) as (Hz&?&?&ws&Hob). destruct (Hlook _ _ Ha) as (Hza&_&_&vs&Hoa). pose proof Hob as (Ho&Hwf&_). pose proof Hoa as (Ho'&Hwf'&_).
      destruct (zip_facts p o q s.1 a.1 s.2 a.2 ws vs f g Hfl Hob Hoa Hl) as (?&?&?). rewrite Hl in Hwf'.
      apply done_gives. rewrite Hz. eapply changes_done; [done|done|reflexivity|done|by eapply (b_op_eq_gives W ulim HW F f)|done|done]. }
    assert (∀ o q q' f g st' r (F : N → N → N), b_bin st o q q' f g = Some (st', r) → flags_ok f g → bitwise W F f →
      gives (b_store W ulim sizes fuel o (b_binop W ulim fresh F fuel (size_of o) q q')) p (λ a p', a = r ∧ bR st' p')) as Hbin.
    { intros o q q' f g st2 r2 F Hu Hfl Hbw. unfold b_bin in Hu. destruct (st !! o) as [s|] eqn:Hs; simplify_eq/=.
      destruct (st !! q) as [a|] eqn:Ha; simplify_eq/=. destruct (st !! q') as [a'|] eqn:Ha'; simplify_eq/=. case_decide as Hl; simplify_eq. destruct Hl as [Hl Hl'].
      destruct (Hlook _ _ Hs) as (Hz&?&?&_). destruct (Hlook _ _ Ha) as (Hza&_&_&ws&Hob). destruct (Hlook _ _ Ha') as (Hza'&_&_&vs&Hoa). pose proof Hob as (Ho&Hwf&_). pose proof Hoa as (Ho'&Hwf'&_).
      destruct (zip_facts p q q' a.1 a'.1 a.2 a'.2 ws vs f g Hfl Hob Hoa) as (?&?&?); [lia|]. rewrite Hl in Hwf, H1, H2, H3. rewrite Hl' in Hwf'.
      rewrite Hz. eapply store_gives; [done|done|done|lia|lia|by eapply (b_binop_builds W ulim fresh HW F f)|done|done]. }
    assert (∀ o q f g st' r, b_un st o q f g = Some (st', r) →
      ∃ s a, st !! o = Some s ∧ st !! q = Some a ∧ length a.1 = length s.1 ∧ st' = <[o := (f a.1, g a.2)]> st ∧ r = GDone) as Hun.
    { intros o q f g st2 r2 Hu. unfold b_un in Hu. destruct (st !! o) as [s|] eqn:Hs; simplify_eq/=.
      destruct (st !! q) as [a|] eqn:Ha; simplify_eq/=. case_decide as Hl; simplify_eq. by exists s, a. }
    assert (∀ o q st' r, b_conv W st o q = Some (st', r) →
      ∃ s a ws, st !! o = Some s ∧ st !! q = Some a ∧ obj p q a.1 a.2 ws ∧
        st' = <[o := (resize (length s.1) false a.1, bool_decide (length a.1 < length s.1) || no_pad W (length s.1))]> st ∧ r = GDone ∧
        (∀ i, i < length s.1 → resize (length s.1) false a.1 !! i = Some (wbit ws i)) ∧
        (bool_decide (length a.1 < length s.1) || no_pad W (length s.1) = true → ∀ i, length s.1 ≤ i < cap (length s.1) → wbit ws i = false)) as Hconv.
    { intros o q st2 r2 Hu. unfold b_conv in Hu. destruct (st !! o) as [s|] eqn:Hs; simplify_eq/=.
      destruct (st !! q) as [a|] eqn:Ha; simplify_eq/=. case_decide as Hl; simplify_eq. destruct (Hlook _ _ Ha) as (Hza&_&_&ws&Hob).
      pose proof Hob as (Ho&Hwf&_&Hcl).
      assert (length a.1 < length s.1 → ∀ i, length a.1 ≤ i → wbit ws i = false) as Hhigh.
      { intros Hlt i Hi. destruct (decide (i < cap (length a.1))).
        - destruct Hl as [_ [Hl|[Hl|Hl]]]; [lia|by apply Hcl|]. exfalso. eapply no_pad_none; [|split; [exact Hi|done]].
          unfold no_pad. by apply bool_decide_eq_true.
        - unfold BitPure.wbit. rewrite lookup_ge_None_2 //. destruct Hwf as [-> _]. apply Nat.div_le_lower_bound; lia. }
      exists s, a, ws. split_and!; try done.
      - intros i Hi. rewrite resize_lookup //. f_equal. destruct (decide (i < length a.1)).
        + by rewrite (vis_bit_lt p q a.1 a.2 ws).
        + rewrite lookup_ge_None_2; [lia|]. simpl. rewrite Hhigh //; lia.
      - rewrite orb_true_iff bool_decide_eq_true. intros [Hc|Hc] i Hi; [apply Hhigh; lia|by destruct (no_pad_none _ i Hc)]. }
    assert (∀ q bs cl ws s i, obj p q bs cl ws → i < length bs →
      shifted_up s bs !! i = Some (bool_decide (s ≤ i < length bs) && wbit ws (i - s))) as Hup.
    { intros q bs cl ws s i Hob Hi. rewrite shifted_up_lookup //. f_equal. destruct (decide (s ≤ i)).
      - rewrite bool_decide_true //. rewrite (vis_bit_lt p q bs cl ws) //. lia.
      - rewrite bool_decide_false //. lia. }
    assert (∀ q bs cl ws s i, obj p q bs cl ws → i < length bs →
      shifted_down s bs !! i = Some (bool_decide (i + s < length bs) && wbit ws (i + s))) as Hdown.
    { intros q bs cl ws s i Hob Hi. rewrite shifted_down_lookup //. f_equal. destruct (decide (i + s < length bs)).
      - rewrite bool_decide_true //. rewrite (vis_bit_lt p q bs cl ws) //.
      - rewrite bool_decide_false //. rewrite lookup_ge_None_2 //. lia. }
    assert (∀ o f st' r, b_obs st o f = Some (st', r) → ∃ s ws, st !! o = Some s ∧ obj p o s.1 s.2 ws ∧ st' = st ∧ r = f s.1) as Hobs.
    { intros o f st2 r2 Hu. unfold b_obs in Hu. destruct (st !! o) as [s|] eqn:Hs; simplify_eq/=.
      destruct (Hlook _ _ Hs) as (_&_&_&ws&Hob). by exists s, ws. }
    destruct op; cbn [b_step b_spec] in *.
    - (* reset *)
      unfold b_upd in Hsp. destruct (st !! o) as [s|] eqn:Hs; simplify_eq/=. destruct (Hlook _ _ Hs) as (Hz&?&?&ws&Ho&Hwf&_). rewrite Hz.
      apply done_gives. eapply changes_done; [done|done|reflexivity|by rewrite replicate_length|eapply (b_reset_all_gives W ulim HW)| |].
      + done.
      + rewrite fmap_length. apply Hwf.
      + done.
      + done.
      + intros i Hi. by rewrite lookup_replicate_2.
      + done.
    - eapply (Hat o p0 (λ _, false) _ _ (λ n, b_reset W n o p0)); [done|]. intros. apply b_reset_gives; [done|lia|done|done|]. by apply cap_ge.
    - (* set *)
      destruct (st !! o) as [s|] eqn:Hs; simplify_eq/=. unfold b_upd in Hsp. rewrite Hs in Hsp. simplify_eq/=. destruct (Hlook _ _ Hs) as (Hz&?&?&ws&Ho&Hwf&_). rewrite Hz.
      apply done_gives. eapply changes_done; [done|done|reflexivity|by rewrite replicate_length|eapply (b_set_all_gives W ulim HW)| |].
      + done.
      + rewrite fmap_length. apply Hwf.
      + done.
      + done.
      + intros i Hi. by rewrite lookup_replicate_2.
      + intros Hc i Hi. by destruct (no_pad_none _ i Hc).
    - eapply (Hat o p0 (λ _, true) _ _ (λ n, b_set W n o p0)); [done|]. intros. apply b_set_gives; [done|lia|done|done|]. by apply cap_ge.
    - (* set(p, v) *)
      destruct (st !! o) as [s|] eqn:Hs; simplify_eq/=. destruct (s.1 !! p0) as [b|] eqn:Hb; simplify_eq/=. case_decide as Hv; [|done].
      eapply (Hat o p0 (λ b, v || b) _ _ (λ n, b_put W n o p0 v)).
      + rewrite -Hsp. unfold b_upd_at. rewrite Hs /= Hb /=. do 4 f_equal. destruct Hv as [->| ->]; [done|by rewrite orb_false_r].
      + intros n ws ???. eapply gives_conseq; [apply (b_put_gives W HW n o ws p p0 v)|]; [lia|done|done|by apply cap_ge|].
        intros [] p' (ws'&->&?&HF). exists ws'. split_and!; [done..|]. intros i Hi. rewrite HF //. 
    - (* flip *)
      destruct (st !! o) as [s|] eqn:Hs; simplify_eq/=. unfold b_upd in Hsp. rewrite Hs in Hsp. simplify_eq/=. destruct (Hlook _ _ Hs) as (Hz&?&?&ws&Hob). rewrite Hz.
      pose proof Hob as (Ho&Hwf&_).
      apply done_gives. eapply changes_done; [done|done|reflexivity|by rewrite fmap_length|by eapply (b_flip_all_gives W ulim HW)| |].
      + intros i Hi. rewrite list_lookup_fmap. by rewrite (vis_bit_lt p o s.1 s.2 ws).
      + intros Hc i Hi. by destruct (no_pad_none _ i Hc).
    - eapply (Hat o p0 negb _ _ (λ n, b_flip W n o p0)); [done|]. intros. apply b_flip_gives; [done|lia|done|done|]. by apply cap_ge.
    - eapply (Hat o p0 (λ _, v) _ _ (λ n, ref_assign W (b_ref W n o p0) v)); [done|]. intros. by apply ref_assign_gives.
    - eapply (Hat o p0 negb _ _ (λ n, ref_flip (b_ref W n o p0))); [done|]. intros. by apply ref_flip_gives.
    - (* &= *) eapply (Hbineq o q andb orb _ _ N.land); [done|apply and_flags|apply bitwise_and; done].
    - (* |= *) eapply (Hbineq o q orb andb _ _ N.lor); [done|apply or_flags|apply bitwise_or; done].
    - (* ^= *) eapply (Hbineq o q xorb andb _ _ N.lxor); [done|apply xor_flags|apply bitwise_xor; done].
    - (* & *) eapply (Hbin o q r0 andb orb _ _ N.land); [done|apply and_flags|apply bitwise_and; done].
    - (* | *) eapply (Hbin o q r0 orb andb _ _ N.lor); [done|apply or_flags|apply bitwise_or; done].
    - (* ^ *) eapply (Hbin o q r0 xorb andb _ _ N.lxor); [done|apply xor_flags|apply bitwise_xor; done].
    - (* ~ *)
      destruct (st !! o) as [s|] eqn:Hs; simplify_eq/=. destruct (Hun o q _ _ _ _ Hsp) as (s'&a&Hs'&Ha&Hl&->&->). rewrite Hs in Hs'. simplify_eq.
      destruct (Hlook _ _ Hs) as (Hz&?&?&_). destruct (Hlook _ _ Ha) as (Hza&?&?&ws&Hob). pose proof Hob as (Ho&Hwf&_).
      rewrite Hl in Hwf. rewrite Hz. eapply store_gives; [done|done|by rewrite fmap_length|lia|lia|by eapply b_not_builds| |].
      + intros i Hi. rewrite list_lookup_fmap (vis_bit_lt p q a.1 a.2 ws) //. lia.
      + intros Hc i Hi. by destruct (no_pad_none _ i Hc).
    - (* = *)
      destruct (Hun o q _ _ _ _ Hsp) as (s&a&Hs&Ha&Hl&->&->).
      destruct (Hlook _ _ Hs) as (Hz&?&?&wo&Hoo&Hwo&_). destruct (Hlook _ _ Ha) as (Hza&?&?&ws&Hob). pose proof Hob as (Ho&Hwf&_&Hcl).
      rewrite Hl in Hwf. apply done_gives. rewrite Hz. eapply gives_conseq.
      { eapply (b_assign_gives W ulim HW fuel (length s.1) o (Some <$> wo) q ws); [done|rewrite fmap_length; apply Hwo|done..]. }
      intros [] p' ->. destruct s as [bs0 cl0]. eapply bR_insert; [done|done|done|by rewrite Hl| |].
      + intros i Hi. by eapply vis_bit_lt.
      + done.
    - (* conversion *)
      destruct (Hconv o q _ _ Hsp) as (s&a&ws&Hs&Ha&Hob&->&->&Hb&Hc). destruct (Hlook _ _ Hs) as (Hz&?&?&wo&Hoo&Hwo&_).
      destruct (Hlook _ _ Ha) as (Hza&_). pose proof Hob as (Ho&Hwf&_).
      rewrite Hz Hza. apply done_gives. eapply changes_done; [done|done|reflexivity|by rewrite resize_length|eapply (b_convert_gives W ulim HW)| |].
      + done.
      + rewrite fmap_length. apply Hwo.
      + done.
      + done.
      + done.
      + done.
      + done.
      + done.
    - (* construction from another size *)
      destruct (Hconv o q _ _ Hsp) as (s&a&ws&Hs&Ha&Hob&->&->&Hb&Hc). destruct (Hlook _ _ Hs) as (Hz&?&?&_).
      destruct (Hlook _ _ Ha) as (Hza&_). pose proof Hob as (Ho&Hwf&_).
      rewrite Hz Hza. eapply store_gives; [done|done|by rewrite resize_length|lia|lia|by eapply b_from_builds|done|done].
    - (* << *)
      destruct (Hun o q _ _ _ _ Hsp) as (s1&a&Hs&Ha&Hl&->&->). destruct (Hlook _ _ Hs) as (Hz&?&?&_).
      destruct (Hlook _ _ Ha) as (Hza&?&?&ws&Hob). pose proof Hob as (Ho&Hwf&_). rewrite Hl in Hwf. rewrite Hz.
      eapply store_gives; [done|done|by rewrite shifted_up_length|lia|lia|by eapply b_shl_builds| |].
      + intros i Hi. rewrite -Hl; eapply Hup; [exact Hob|lia].
      + intros _ i Hi. cbn beta. rewrite bool_decide_false //. lia.
    - (* >> *)
      destruct (Hun o q _ _ _ _ Hsp) as (s1&a&Hs&Ha&Hl&->&->). destruct (Hlook _ _ Hs) as (Hz&?&?&_).
      destruct (Hlook _ _ Ha) as (Hza&?&?&ws&Hob). pose proof Hob as (Ho&Hwf&_). rewrite Hl in Hwf. rewrite Hz.
      eapply store_gives; [done|done|by rewrite shifted_down_length|lia|lia|by eapply b_shr_builds| |].
      + intros i Hi. rewrite -Hl; eapply Hdown; [exact Hob|lia].
      + intros _ i Hi. cbn beta. rewrite bool_decide_false //. lia.
    - (* <<= *)
      unfold b_upd in Hsp. destruct (st !! o) as [a|] eqn:Hs; simplify_eq/=. destruct (Hlook _ _ Hs) as (Hz&?&?&ws&Hob). pose proof Hob as (Ho&Hwf&_).
      unfold b_shl_eq. eapply shift_eq_gives; [done|done|by rewrite shifted_up_length|lia|lia|rewrite Hz; by eapply b_shl_builds| |].
      + intros i Hi. eapply Hup; [exact Hob|lia].
      + intros _ i Hi. cbn beta. rewrite bool_decide_false //. lia.
    - (* >>= *)
      unfold b_upd in Hsp. destruct (st !! o) as [a|] eqn:Hs; simplify_eq/=. destruct (Hlook _ _ Hs) as (Hz&?&?&ws&Hob). pose proof Hob as (Ho&Hwf&_).
      unfold b_shr_eq. eapply shift_eq_gives; [done|done|by rewrite shifted_down_length|lia|lia|rewrite Hz; by eapply b_shr_builds| |].
      + intros i Hi. eapply Hdown; [exact Hob|lia].
      + intros _ i Hi. cbn beta. rewrite bool_decide_false //. lia.
    - (* unsigned long *)
      destruct (st !! o) as [s|] eqn:Hs; simplify_eq/=. case_decide as Hu; [|done]. unfold b_upd in Hsp. rewrite Hs in Hsp. simplify_eq/=.
      destruct Hu as [Hne Hu]. destruct (Hlook _ _ Hs) as (Hz&?&?&_). assert (0 < length s.1) by (destruct s.1; simpl; [done|lia]).
      rewrite Hz. eapply store_gives; [done|done|apply digits_of_length|lia|lia|by apply b_of_ulong_builds| |].
      + intros i Hi. by apply digits_of_lookup.
      + rewrite orb_true_iff !bool_decide_eq_true. intros [Hc|Hc] i Hi; [eapply (testbit_high _ W)|eapply testbit_high]; [done|lia|done|lia].
    - (* unsigned long long *)
      destruct (st !! o) as [s|] eqn:Hs; simplify_eq/=. case_decide as Hu; [|done]. unfold b_upd in Hsp. rewrite Hs in Hsp. simplify_eq/=.
      destruct Hu as [Hne Hu]. destruct (Hlook _ _ Hs) as (Hz&?&?&_). assert (0 < length s.1) by (destruct s.1; simpl; [done|lia]).
      rewrite Hz. eapply store_gives; [done|done|apply digits_of_length|lia|lia|apply b_of_ullong_builds; [done|done| |done|done]| |].
      + destruct long_lt; [done|]. by rewrite -Hll.
      + intros i Hi. by apply digits_of_lookup.
      + rewrite orb_true_iff bool_decide_eq_true. intros [Hc|Hc] i Hi; [by destruct (no_pad_none _ i Hc)|eapply testbit_high; [done|lia]].
    - (* string *)
      destruct (st !! o) as [s|] eqn:Hs; simplify_eq/=. case_decide as Hu; [|done]. unfold b_upd in Hsp. rewrite Hs in Hsp. simplify_eq/=.
      destruct Hu as [Hne Hu]. destruct (Hlook _ _ Hs) as (Hz&?&?&_). set (ds := binary_prefix zero one (take len cs)) in *.
      rewrite Hz. eapply store_gives; [done|done|apply resize_length|lia|lia|by apply b_of_string_builds| |].
      + intros i Hi. rewrite resize_lookup //. f_equal. fold ds. destruct (decide (i < length ds)).
        * rewrite reverse_lookup; [rewrite fmap_length; lia|]. rewrite fmap_length list_lookup_fmap.
          replace (length ds - S i) with (length ds - 1 - i) by lia.
          destruct (ds !! (length ds - 1 - i)) as [c|] eqn:Hc; simpl; [|apply lookup_ge_None in Hc; lia].
          apply bool_decide_ext. naive_solver.
        * rewrite (lookup_ge_None_2 (reverse _)); [rewrite reverse_length fmap_length; lia|]. simpl.
          destruct (ds !! _); [|done]. rewrite bool_decide_false //. lia.
      + intros _ i Hi. cbn beta. fold ds. destruct (ds !! _); [|done]. rewrite bool_decide_false //. lia.
    - (* test *)
      destruct (Hobs o _ _ _ Hsp) as (s&ws&Hs&Hob&->&->). destruct (Hlook _ _ Hs) as (Hz&_). rewrite Hz. pose proof Hob as (Ho&Hwf&Hv&_).
      eapply bool_gives; [done|eapply gives_eq; [by apply (b_test_eq W HW (length s.1) o ws p p0)|done]|].
      rewrite -{3}Hv. by rewrite vis_default.
    - (* bool(o[p]) *)
      destruct (st !! o) as [s|] eqn:Hs; simplify_eq/=. destruct (s.1 !! p0) as [b|] eqn:Hb; simplify_eq/=. destruct (Hlook _ _ Hs) as (Hz&?&?&ws&Hob).
      pose proof Hob as (Ho&Hwf&Hv&_). pose proof (lookup_lt_Some _ _ _ Hb). rewrite Hz.
      eapply bool_gives; [done|eapply gives_eq; [by apply (ref_bool_eq W HW (length s.1) o ws p p0)|done]|]. by eapply vis_bit.
    - (* ~o[p] *)
      destruct (st !! o) as [s|] eqn:Hs; simplify_eq/=. destruct (s.1 !! p0) as [b|] eqn:Hb; simplify_eq/=. destruct (Hlook _ _ Hs) as (Hz&?&?&ws&Hob).
      pose proof Hob as (Ho&Hwf&Hv&_). pose proof (lookup_lt_Some _ _ _ Hb). rewrite Hz.
      eapply bool_gives; [done|eapply gives_eq; [by apply (ref_not_eq W HW (length s.1) o ws p p0)|done]|]. f_equal. by eapply vis_bit.
    - (* count *)
      destruct (Hobs o _ _ _ Hsp) as (s&ws&Hs&Hob&->&->). destruct (Hlook _ _ Hs) as (Hz&?&?&_). rewrite Hz. pose proof Hob as (Ho&Hwf&Hv&_).
      apply gives_bind. eapply gives_conseq; [by apply (b_count_answers W ulim gnuc HW fuel (length s.1) o ws p)|].
      intros k p' [-> ->]. apply gives_ret. by rewrite Hv.
    - (* all *)
      destruct (st !! o) as [s|] eqn:Hs; simplify_eq/=. case_decide as Hne; simplify_eq. destruct (Hlook _ _ Hs) as (Hz&?&?&ws&Hob).
      rewrite Hz. pose proof Hob as (Ho&Hwf&Hv&_). eapply bool_gives; [done|apply (b_all_answers W ulim HW fuel (length s.1) o ws p); try done|].
      + destruct s.1; simpl; [done|lia].
      + by rewrite Hv.
    - (* any *)
      destruct (Hobs o _ _ _ Hsp) as (s&ws&Hs&Hob&->&->). destruct (Hlook _ _ Hs) as (Hz&?&?&_). rewrite Hz. pose proof Hob as (Ho&Hwf&Hv&_).
      eapply bool_gives; [done|by apply (b_any_answers W ulim HW fuel (length s.1) o ws p)|]. by rewrite Hv.
    - (* none *)
      destruct (Hobs o _ _ _ Hsp) as (s&ws&Hs&Hob&->&->). destruct (Hlook _ _ Hs) as (Hz&?&?&_). rewrite Hz. pose proof Hob as (Ho&Hwf&Hv&_).
      eapply bool_gives; [done|by apply (b_none_answers W ulim HW fuel (length s.1) o ws p)|]. by rewrite Hv.
    - (* == *)
      destruct (st !! o) as [s|] eqn:Hs; simplify_eq/=. destruct (st !! q) as [a|] eqn:Ha; simplify_eq/=. case_decide as Hl; simplify_eq.
      destruct (Hlook _ _ Hs) as (Hz&?&?&ws&Hob). destruct (Hlook _ _ Ha) as (Hza&_&_&vs&Hoa). rewrite Hz. pose proof Hob as (Ho&Hwf&Hv&_). pose proof Hoa as (Ho'&Hwf'&Hv'&_).
      rewrite Hl in Hwf', Hv'. eapply bool_gives; [done|by apply (b_eq_answers W ulim HW fuel (length s.1) o ws q vs p)|]. by rewrite Hv Hv'.
    - (* != *)
      destruct (st !! o) as [s|] eqn:Hs; simplify_eq/=. destruct (st !! q) as [a|] eqn:Ha; simplify_eq/=. case_decide as Hl; simplify_eq.
      destruct (Hlook _ _ Hs) as (Hz&?&?&ws&Hob). destruct (Hlook _ _ Ha) as (Hza&_&_&vs&Hoa). rewrite Hz. pose proof Hob as (Ho&Hwf&Hv&_). pose proof Hoa as (Ho'&Hwf'&Hv'&_).
      rewrite Hl in Hwf', Hv'. unfold b_ne. eapply (bool_gives _ _ _ (negb (bool_decide (s.1 = a.1)))); [done| |].
      + apply gives_bind. eapply gives_conseq; [by apply (b_eq_answers W ulim HW fuel (length s.1) o ws q vs p)|].
        intros b p' [-> ->]. apply gives_ret. by rewrite Hv Hv'.
      + by rewrite bool_decide_not.
    - (* == bitset<0> *)
      destruct (Hobs o _ _ _ Hsp) as (s&ws&Hs&Hob&->&->). destruct (Hlook _ _ Hs) as (Hz&?&?&_). rewrite Hz. pose proof Hob as (Ho&Hwf&Hv&_).
      eapply bool_gives; [done|by apply (b_none_answers W ulim HW fuel (length s.1) o ws p)|]. by rewrite Hv.
    - (* to_ulong *)
      destruct (Hobs o _ _ _ Hsp) as (s&ws&Hs&Hob&->&->). destruct (Hlook _ _ Hs) as (Hz&?&?&_). rewrite Hz. pose proof Hob as (Ho&Hwf&Hv&_).
      apply gives_bind. eapply gives_conseq; [by apply (b_to_ulong_answers W HW (length s.1) o ws p)|].
      intros k p' [-> ->]. apply gives_ret. by rewrite Hv.
    - (* to_ullong *)
      destruct (Hobs o _ _ _ Hsp) as (s&ws&Hs&Hob&->&->). destruct (Hlook _ _ Hs) as (Hz&?&?&_). rewrite Hz. pose proof Hob as (Ho&Hwf&Hv&_).
      apply gives_bind. eapply gives_conseq; [by apply (b_to_ullong_answers W LLW long_lt HW (length s.1) o ws p)|].
      intros k p' [-> ->]. apply gives_ret. by rewrite Hv.
    - (* size *)
      destruct (Hobs o _ _ _ Hsp) as (s&ws&Hs&Hob&->&->). destruct (Hlook _ _ Hs) as (Hz&?&?&_). apply gives_ret. by rewrite Hz.
  Qed.

  Lemma bR_run fuel ops : ∀ st p st' rs, bR st p → b_spec_run W LLW st ops = Some (st', rs) →
    (if long_lt then LLW = 2 * W else LLW = W) → Forall str_ok ops → W < fuel →
    (∀ o, size_of o < ulim ∧ size_of o < fuel) →
    gives (b_run W LLW ulim gnuc long_lt fresh sizes fuel ops) p (λ a p', a = rs ∧ bR st' p').
  Proof.
    induction ops as [|op ops IH]; intros st p st' rs HR Hsp Hll Hstr HfW Hsz; simpl in Hsp.
    { simplify_eq. by apply gives_ret. }
    destruct (b_spec W LLW st op) as [[st1 r]|] eqn:H1; simplify_eq/=.
    destruct (b_spec_run W LLW st1 ops) as [[st2 rs2]|] eqn:H2; simplify_eq/=. apply Forall_cons in Hstr as [??].
    apply gives_bind. eapply gives_conseq; [by eapply bR_step|]. intros a p' [-> HR'].
    apply gives_bind. eapply gives_conseq; [by eapply IH|]. intros rs p'' [-> HR'']. by apply gives_ret.
  Qed.

  Lemma bR_start fuel ns : Forall (λ n, n < ulim ∧ n < fuel) ns → ∀ p ps, 
    length p = length ps → sizes = ps ++ ns → bR (b_initial ps) p →
    gives (b_start W ulim fresh fuel ns) p (λ _ p', bR (b_initial sizes) p').
  Proof.
    intros Hns. induction Hns as [|n ns [Hu Hf] Hns IH]; intros p ps Hl Hsz HR.
    { apply gives_ret. by rewrite Hsz app_nil_r. }
    cbn [b_start]. apply gives_bind. eapply gives_conseq; [by apply (b_new_top W ulim fresh HW)|].
    intros t p' (->&wt&->&Hwf&HF). apply (IH _ (ps ++ [n])).
    - rewrite !app_length /=. lia.
    - by rewrite -app_assoc.
    - destruct HR as [HRl HR]. unfold b_initial. rewrite fmap_app. split; [rewrite !app_length; f_equal; done|].
      intros o bs cl [Ho|[Ho1 Ho]]%lookup_app_Some.
      + destruct (HR _ _ _ Ho) as (Hz&ws&Hpo&?). split; [done|]. exists ws. split; [|done]. by apply lookup_app_l_Some.
      + rewrite fmap_length in Ho1, Ho. destruct (o - length ps) as [|k] eqn:Hk; simplify_eq/=. assert (o = length ps) as -> by lia.
        rewrite replicate_length. split.
        * unfold BitSpec.size_of. rewrite Hsz list_lookup_middle //.
        * exists wt. split; [by rewrite -Hl top_lookup|]. rewrite replicate_length. split; [done|]. split.
          -- apply (vis_eq W HW); [by rewrite replicate_length|]. intros i Hi. rewrite lookup_replicate_2 // HF //. by apply cap_ge.
          -- intros _ i Hi. apply HF. lia.
  Qed.
  Lemma b_program_gives fuel ops st rs : b_spec_run W LLW (b_initial sizes) ops = Some (st, rs) →
    (if long_lt then LLW = 2 * W else LLW = W) → Forall str_ok ops → W < fuel →
    Forall (λ n, n < ulim ∧ n < fuel) sizes → 0 < ulim →
    gives (b_program W LLW ulim gnuc long_lt fresh sizes fuel ops) [] (λ a p', a = rs ∧ bR st p').
  Proof.
    intros Hsp Hll Hstr HfW Hsz Hu0. apply gives_bind. eapply gives_conseq.
    { apply (bR_start fuel sizes Hsz [] []); [done..|]. split; [done|]. intros o bs cl. done. }
    intros [] p HR. eapply bR_run; [done..|]. intros o. unfold BitSpec.size_of. destruct (sizes !! o) as [n|] eqn:Hn; simpl; [|lia].
    rewrite Forall_lookup in Hsz. eauto.
  Qed.
  Lemma bR_shows st p o bs cl : bR st p → st !! o = Some (bs, cl) → shows W p o bs ∧ (cl = true → clean_pad W p o (length bs)).
  Proof.
    intros HR Ho. destruct (bR_obj _ _ _ _ HR Ho) as (_&ws&Hpo&Hwf&Hv&Hc). simpl in *. split.
    - apply (shows_iff W HW). by exists ws.
    - intros Hcl ws' i w Hp Hi Hw. rewrite Hpo in Hp. simplify_eq. rewrite list_lookup_fmap in Hw.
      destruct (ws !! (i / W)) as [w'|] eqn:Hw'; simplify_eq/=.
      assert (i < cap (length bs)) as Hlt.
      { apply lookup_lt_Some in Hw'. destruct Hwf as [Hl _]. rewrite Hl in Hw'. rewrite (div_mul_mod W HW i).
        pose proof (mod_lt W HW i). nia. }
      specialize (Hc eq_refl i ltac:(lia)). unfold BitPure.wbit in Hc. by rewrite Hw' in Hc.
  Qed.
End proofs.
