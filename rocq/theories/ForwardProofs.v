(** forward_list: proofs of the statements in PropsForward.v. *)
From Verif Require Export ForwardSpec SlistOps.

Section forward.
  Context {V : Type} `{Allocator (cell V)}.
  Notation C := (cell V).
  Notation iProp := (bi_car (hpropI C)).
  Implicit Types (xs ys : list (loc * V)) (v : V) (r : vref V) (this : loc).

  Lemma flist_at this xs i :
    i ≤ length xs →
    ∃ ns1 l s, pos_at this xs i = Some l ∧
      (∀ ys, flist this (take i xs ++ ys) = cells (ns1 ++ (l,s) :: live ys) None) ∧
      flist this xs = cells (ns1 ++ (l,s) :: live (drop i xs)) None ∧
      (∀ r v, refers xs r v → nrefers (ns1 ++ (l,s) :: live (drop i xs)) r v) ∧
      (∀ ys, (this :: (take i xs ++ ys).*1) = ns1.*1 ++ l :: ys.*1).
  Proof.
    intros Hi. destruct (hnodes_split this xs i Hi) as (l&s&Hp&Hs).
    exists (take i (hnodes this xs)), l, s. split; [done|].
    assert (hnodes this xs = take i (hnodes this xs) ++ (l, s) :: live (drop i xs)) as Heq.
    { rewrite -Hs. by rewrite take_drop. }
    split_and!.
    - intros ys. unfold flist. rewrite -Hs. done.
    - unfold flist. by rewrite -Heq.
    - intros r v Hr. rewrite -Heq. by apply nrefers_live.
    - intros ys. specialize (Hs ys). apply (f_equal (fmap fst)) in Hs.
      rewrite fmap_app in Hs. unfold hnodes in Hs at 1. rewrite !fmap_cons !live_locs in Hs. done.
  Qed.

  Lemma flist_nodup this xs : flist this xs ⊢ ⌜NoDup (this :: xs.*1)⌝.
  Proof. unfold flist. rewrite cells_nodup fmap_cons live_locs. done. Qed.

  Lemma pos_at_S this xs i : pos_at this xs (S i) = first (drop i xs) None.
  Proof.
    unfold pos_at. simpl. revert i. induction xs as [|[l v] xs IH]; intros [|i]; try done.
    simpl. apply IH.
  Qed.

  Lemma not_elem_of_opt (l : option loc) (ls : list loc) :
    (∀ x, l = Some x → x ∉ ls) → l ∉ Some <$> ls.
  Proof. intros Hl (x&->&Hx)%elem_of_list_fmap. by eapply Hl. Qed.

  Lemma wp_get_next_cells ns1 l s ns2 q Q :
    cells (ns1 ++ (l,s) :: ns2) q -∗
    (cells (ns1 ++ (l,s) :: ns2) q -∗ Q (first ns2 q)) -∗
    wp (get_next (V:=V) (Some l)) Q.
  Proof.
    iIntros "H HQ". iDestruct (cells_focus with "H") as "(H1&Hl&H2)".
    iApply (wp_get_next with "Hl"). iIntros "Hl". iApply "HQ".
    iApply cells_focus. iFrame.
  Qed.

  Lemma wp_fl_get_next this xs i Q :
    i ≤ length xs →
    flist this xs -∗ (flist this xs -∗ Q (pos_at this xs (S i))) -∗
    wp (get_next (pos_at this xs i)) Q.
  Proof.
    iIntros (Hi) "H HQ". destruct (flist_at this xs i Hi) as (ns1&l&s&->&Hys&Heq&_).
    rewrite Heq. iApply (wp_get_next_cells with "H"). iIntros "H".
    rewrite first_live pos_at_S. by iApply "HQ".
  Qed.

  Lemma wp_it_advance this xs i n Q :
    i + n ≤ S (length xs) →
    flist this xs -∗ (flist this xs -∗ Q (pos_at this xs (i + n))) -∗
    wp (it_advance n (pos_at this xs i)) Q.
  Proof.
    revert i. induction n as [|n IH]; iIntros (i Hn) "H HQ"; cbn [it_advance].
    - wstep. rewrite Nat.add_0_r. by iApply "HQ".
    - wstep. iApply (wp_fl_get_next with "H"); [lia|]. iIntros "H".
      iApply (IH (S i) with "H"); [lia|]. rewrite Nat.add_succ_comm. done.
  Qed.
  Lemma wp_fl_at this xs i Q :
    i ≤ S (length xs) →
    flist this xs -∗ (flist this xs -∗ Q (pos_at this xs i)) -∗
    wp (fl_at this i) Q.
  Proof. intros Hi. apply (wp_it_advance this xs 0 i); lia. Qed.

  (** *** element access *)
  Lemma pos_at_elem this xs i l v : xs !! i = Some (l, v) → pos_at this xs (S i) = Some l.
  Proof. unfold pos_at. simpl. rewrite list_lookup_fmap. intros ->. done. Qed.
  Lemma wp_fl_value this xs i l v Q :
    xs !! i = Some (l, v) →
    flist this xs -∗ (flist this xs -∗ Q v) -∗ wp (value_at (pos_at this xs (S i))) Q.
  Proof.
    iIntros (Hl) "H HQ". rewrite (pos_at_elem _ _ _ _ _ Hl).
    apply elem_of_list_lookup_2 in Hl.
    iApply (wp_deref _ _ (InNode l) v with "H HQ").
    apply (nrefers_live this xs (InNode l)). done.
  Qed.
  Lemma wp_own_ref this xs i l v Q :
    xs !! i = Some (l, v) →
    flist this xs -∗ (flist this xs -∗ Q (InNode l)) -∗ wp (own_ref this i) Q.
  Proof.
    iIntros (Hl) "H HQ". unfold own_ref. wstep.
    assert (i < length xs) by (by eapply lookup_lt_Some).
    iApply (wp_fl_at with "H"); [lia|]. iIntros "H". rewrite (pos_at_elem _ _ _ _ _ Hl).
    wsteps. by iApply "HQ".
  Qed.

  (** *** forward_list operations *)
  Lemma wp_fl_new : emp ⊢ wp fl_new (λ this, flist this []).
  Proof. iIntros "_". unfold fl_new. wstep. unfold flist. simpl. iFrame. Qed.

  Lemma wp_fl_insert_after this xs i r v :
    i ≤ length xs → refers xs r v →
    flist this xs ⊢ wp (fl_insert_after (pos_at this xs i) r) (λ p,
      ∃ l, ⌜p = Some l⌝ ∧ flist this (take i xs ++ (l,v) :: drop i xs)).
  Proof.
    iIntros (Hi Hr) "H". destruct (flist_at this xs i Hi) as (ns1&l&s&->&Hys&Heq&Hr'&_).
    rewrite Heq. unfold fl_insert_after.
    iApply (wp_new_insert with "H"); [by apply Hr'|].
    iIntros (n) "H". iExists n. iSplit; [done|]. by rewrite Hys.
  Qed.
  Lemma wp_fl_push_front this xs r v :
    refers xs r v →
    flist this xs ⊢ wp (fl_push_front this r) (λ _, ∃ l, flist this ((l,v) :: xs)).
  Proof.
    iIntros (Hr) "H". unfold fl_push_front.
    iApply (wp_new_insert_k [] with "H"); [by apply nrefers_live|].
    iIntros (n) "H". wsteps. iExists n. done.
  Qed.
  Lemma wp_fl_pop_front this l v xs :
    flist this ((l,v) :: xs) ⊢ wp (fl_pop_front this) (λ _, flist this xs).
  Proof.
    iIntros "(Ht&Hl&H)". unfold fl_pop_front. wstep.
    iApply (wp_unlink_next with "Ht Hl"). iIntros "Ht Hl".
    iApply (wp_delete_node with "Hl"). unfold flist. simpl. iFrame.
  Qed.
  Lemma wp_fl_insert_after_n this xs i n r v :
    i ≤ length xs → refers xs r v →
    flist this xs ⊢ wp (fl_insert_after_n (pos_at this xs i) n r) (λ p,
      ∃ ys, ⌜ys.*2 = replicate n v⌝ ∧ ⌜p = pos_at this (take i xs ++ ys) (i + n)⌝ ∧
        flist this (take i xs ++ ys ++ drop i xs)).
  Proof.
    iIntros (Hi Hr) "H". destruct (flist_at this xs i Hi) as (ns1&l&s&->&Hys&Heq&Hr'&Hloc).
    rewrite Heq. iApply (wp_wand with "[H]").
    { iApply (wp_insert_n with "H"). by apply Hr'. }
    iIntros (p) "H". iDestruct "H" as (ys Hv ->) "H". iExists ys.
    iSplit; [done|]. iSplit.
    - iPureIntro. unfold pos_at. rewrite Hloc.
      assert (length ns1 = i) as Hlen.
      { specialize (Hloc []). apply (f_equal length) in Hloc.
        rewrite app_nil_r in Hloc. simpl in Hloc.
        rewrite app_length !fmap_length take_length in Hloc. simpl in Hloc. lia. }
      rewrite lookup_app_r ?fmap_length; [|lia].
      replace (i + n - length ns1) with n by lia.
      assert (length ys = n) as <- by (rewrite -(fmap_length snd ys) Hv replicate_length; done).
      clear. revert l. induction ys as [|[m w] ys IH]; intros l; [done|].
      rewrite last_loc_cons IH. done.
    - by rewrite Hys live_app.
  Qed.
  Lemma wp_fl_insert_after_ext this xs i vs :
    i ≤ length xs →
    flist this xs ⊢ wp (fl_insert_after_ext (pos_at this xs i) vs) (λ p,
      ∃ ys, ⌜ys.*2 = vs⌝ ∧ flist this (take i xs ++ ys ++ drop i xs)).
  Proof.
    iIntros (Hi) "H". destruct (flist_at this xs i Hi) as (ns1&l&s&->&Hys&Heq&Hr'&Hloc).
    rewrite Heq. iApply (wp_wand with "[H]").
    { iApply (wp_insert_ext with "H"). }
    iIntros (p) "H". iDestruct "H" as (ys Hv ->) "H". iExists ys.
    iSplit; [done|]. by rewrite Hys live_app.
  Qed.
  Lemma wp_fl_erase_after this xs i l v :
    xs !! i = Some (l, v) →
    flist this xs ⊢ wp (fl_erase_after (pos_at this xs i)) (λ p,
      ⌜p = pos_at this xs (S (S i))⌝ ∧ flist this (take i xs ++ drop (S i) xs)).
  Proof.
    iIntros (Hl) "H". assert (i < length xs) by (by eapply lookup_lt_Some).
    destruct (flist_at this xs i) as (ns1&p&s&->&Hys&Heq&_); [lia|].
    rewrite Heq (drop_S _ _ _ Hl) live_cons. iApply (wp_wand with "[H]").
    { iApply (wp_erase_after with "H"). }
    iIntros (p') "[-> H]". rewrite first_live pos_at_S. iSplit; [done|]. by rewrite Hys.
  Qed.
  Lemma wp_fl_erase_after_range fuel this xs i j :
    i < j ≤ S (length xs) → length xs < fuel →
    flist this xs ⊢ wp (fl_erase_after_range fuel (pos_at this xs i) (pos_at this xs j)) (λ p,
      ⌜p = pos_at this xs j⌝ ∧ flist this (take i xs ++ drop (j - 1) xs)).
  Proof.
    iIntros (Hij Hf) "H". iDestruct (flist_nodup with "H") as %Hnd.
    destruct (flist_at this xs i) as (ns1&p&s&->&Hys&Heq&_); [lia|].
    assert (drop i xs = take (j - 1 - i) (drop i xs) ++ drop (j - 1) xs) as Hdrop.
    { rewrite -{1}(take_drop (j - 1 - i) (drop i xs)) drop_drop.
      by replace (i + (j - 1 - i)) with (j - 1) by lia. }
    assert (pos_at this xs j = first (drop (j-1) xs) None) as ->
      by (rewrite -(pos_at_S this); f_equal; lia).
    rewrite Heq Hdrop live_app -(first_live (drop (j-1) xs)). iApply (wp_wand with "[H]").
    { iApply (wp_erase_range with "H").
      - rewrite take_length drop_length. lia.
      - rewrite first_live. apply not_elem_of_opt. intros l Hl.
        assert (l ∈ (drop (j - 1) xs).*1).
        { destruct (drop (j-1) xs) as [|[]]; [done|]. injection Hl as <-. constructor. }
        rewrite NoDup_cons in Hnd. destruct Hnd as [_ Hnd].
        rewrite -(take_drop i xs) fmap_app Hdrop fmap_app in Hnd.
        apply NoDup_app in Hnd as (_&_&Hnd).
        apply NoDup_app in Hnd as (_&Hnd&_). intros Hin. by eapply Hnd. }
    iIntros (p') "[-> H]". iSplit; [done|]. by rewrite Hys.
  Qed.
  Lemma wp_fl_clear fuel this xs :
    length xs < fuel → flist this xs ⊢ wp (fl_clear fuel this) (λ _, flist this []).
  Proof.
    iIntros (Hf) "H". iApply (wp_wand with "[H]"); [by iApply (wp_clear with "H")|].
    iIntros (_) "H". unfold flist. simpl. iFrame.
  Qed.
  Lemma wp_fl_destroy fuel this xs :
    length xs < fuel → flist this xs ⊢ wp (fl_destroy fuel this) (λ _, emp).
  Proof.
    iIntros (Hf) "H". unfold fl_destroy. wstep.
    iApply (wp_wand with "[H]"); [by iApply (wp_clear with "H")|].
    iIntros (_) "H". wstep. done.
  Qed.
  Lemma wp_fl_reverse fuel this xs :
    length xs < fuel → flist this xs ⊢ wp (fl_reverse fuel this) (λ _, flist this (reverse xs)).
  Proof.
    iIntros (Hf) "H". unfold fl_reverse, flist. iApply (wp_wand with "[H]").
    { iApply (wp_reverse with "H"). by rewrite live_length. }
    iIntros (_) "H". unfold live. by rewrite fmap_reverse.
  Qed.
  Lemma wp_fl_swap a b xs ys :
    flist a xs ∗ flist b ys ⊢ wp (fl_swap a b) (λ _, flist a ys ∗ flist b xs).
  Proof. apply wp_swap. Qed.
  Lemma wp_fl_swap_self a xs : flist a xs ⊢ wp (fl_swap a a) (λ _, flist a xs).
  Proof.
    iIntros "[Ha H]". unfold fl_swap.
    wstep. iApply (wp_get_next with "Ha"). iIntros "Ha".
    wstep. iApply (wp_get_next with "Ha"). iIntros "Ha".
    wstep. iApply (wp_set_next with "Ha"). iIntros "Ha".
    iApply (wp_set_next with "Ha"). iIntros "Ha". unfold flist. simpl. iFrame.
  Qed.
  Lemma wp_fl_begin this xs Q :
    flist this xs -∗ (flist this xs -∗ Q (first xs None)) -∗ wp (fl_begin this) Q.
  Proof.
    iIntros "[Ht H] HQ". unfold fl_begin. iApply (wp_get_next with "Ht"). iIntros "Ht".
    simpl. rewrite first_live. iApply "HQ". unfold flist. simpl. rewrite first_live. iFrame.
  Qed.
  Lemma wp_fl_insert_its fuel this other xs :
    length xs < fuel →
    flist this [] ∗ flist other xs ⊢
    wp (fl_insert_after_its fuel (Some this) (first xs None) fl_end) (λ _,
      ∃ ys, ⌜ys.*2 = xs.*2⌝ ∧ flist this ys ∗ flist other xs).
  Proof.
    iIntros (Hf) "[H [Ho Hx]]". iApply (wp_wand with "[H Hx]").
    { iApply (wp_insert_its fuel [] this Hdr [] None xs None with "[H $Hx]"); [done| |done].
      by apply not_elem_of_opt. }
    iIntros (p) "H". iDestruct "H" as (ys Hv ->) "[H Hx]". iExists ys. iSplit; [done|].
    unfold flist. rewrite app_nil_r /=. iFrame.
  Qed.
  Lemma wp_fl_copy fuel other xs :
    length xs < fuel →
    flist other xs ⊢ wp (fl_copy fuel other) (λ this,
      ∃ ys, ⌜ys.*2 = xs.*2⌝ ∧ flist this ys ∗ flist other xs).
  Proof.
    iIntros (Hf) "Ho". unfold fl_copy. wstep.
    iApply (wp_wand with "[]"); [by iApply wp_fl_new|]. iIntros (this) "H".
    wstep. iApply (wp_fl_begin with "Ho"). iIntros "Ho". wstep.
    iApply (wp_wand with "[H Ho]"); [iApply wp_fl_insert_its; [done|iFrame]|].
    iIntros (p) "H". iDestruct "H" as (ys Hv) "H". wsteps. iExists ys. by iFrame.
  Qed.
  Lemma wp_fl_assign_from fuel this other xs ys :
    length xs < fuel → length ys < fuel →
    flist this xs ∗ flist other ys ⊢ wp (fl_assign_from fuel this other) (λ _,
      ∃ zs, ⌜zs.*2 = ys.*2⌝ ∧ flist this zs ∗ flist other ys).
  Proof.
    iIntros (Hf1 Hf2) "[H Ho]". unfold fl_assign_from. wstep.
    iApply (wp_wand with "[H]"); [by iApply (wp_fl_clear with "H")|]. iIntros (_) "H".
    wstep. iApply (wp_fl_begin with "Ho"). iIntros "Ho". wstep.
    iApply (wp_wand with "[H Ho]"); [iApply wp_fl_insert_its; [done|iFrame]|].
    iIntros (p) "H". iDestruct "H" as (zs Hv) "H". wsteps. iExists zs. by iFrame.
  Qed.
  Lemma wp_fl_assign_ext fuel this xs vs :
    length xs < fuel →
    flist this xs ⊢ wp (fl_assign_ext fuel this vs) (λ _, ∃ zs, ⌜zs.*2 = vs⌝ ∧ flist this zs).
  Proof.
    iIntros (Hf1) "H". unfold fl_assign_ext. wstep.
    iApply (wp_wand with "[H]"); [by iApply (wp_fl_clear with "H")|]. iIntros (_) "H".
    wstep. iApply (wp_wand with "[H]"); [by iApply (wp_fl_insert_after_ext this [] 0)|].
    iIntros (p) "H". iDestruct "H" as (zs Hv) "H". wsteps. iExists zs. rewrite /= app_nil_r.
    by iFrame.
  Qed.
  Lemma wp_fl_assign_n fuel this xs n v :
    length xs < fuel →
    flist this xs ⊢ wp (fl_assign_n fuel this n (ExtVal v)) (λ _,
      ∃ zs, ⌜zs.*2 = replicate n v⌝ ∧ flist this zs).
  Proof.
    iIntros (Hf1) "H". unfold fl_assign_n. wstep.
    iApply (wp_wand with "[H]"); [by iApply (wp_fl_clear with "H")|]. iIntros (_) "H".
    wstep. iApply (wp_wand with "[H]"); [by iApply (wp_fl_insert_after_n this [] 0)|].
    iIntros (p) "H". iDestruct "H" as (zs Hv ->) "H". wsteps. iExists zs. rewrite /= app_nil_r.
    by iFrame.
  Qed.
  Lemma wp_fl_front this l v xs :
    flist this ((l,v) :: xs) ⊢ wp (fl_front this) (λ w, ⌜w = v⌝ ∧ flist this ((l,v) :: xs)).
  Proof.
    iIntros "H". unfold fl_front. wstep. iApply (wp_fl_begin with "H"). iIntros "H".
    iApply (wp_fl_value this ((l,v)::xs) 0 l v with "H"); [done|]. iIntros "H". by iFrame.
  Qed.
  Lemma wp_fl_empty this xs :
    flist this xs ⊢ wp (fl_empty this) (λ b, ⌜b = bool_decide (xs = [])⌝ ∧ flist this xs).
  Proof.
    iIntros "H". unfold fl_empty. wstep. iApply (wp_fl_begin with "H"). iIntros "H". wstep.
    iFrame. iPureIntro. split; [|done]. apply bool_decide_ext. by destruct xs as [|[]].
  Qed.
  Lemma wp_fl_eq eqb fuel a b xs ys :
    length xs < fuel →
    flist a xs ∗ flist b ys ⊢ wp (fl_eq eqb fuel a b) (λ e,
      ⌜e = true ↔ Forall2 (λ x y, eqb x y = true) xs.*2 ys.*2⌝ ∧ flist a xs ∗ flist b ys).
  Proof.
    iIntros (Hf) "[Ha Hb]". unfold fl_eq. wstep.
    iApply (wp_fl_begin with "Ha"). iIntros "[Ha Hxs]". wstep.
    iApply (wp_fl_begin with "Hb"). iIntros "[Hb Hys]".
    iApply (wp_wand with "[Hxs Hys]"); [iApply (wp_equal eqb); [done|iFrame]|].
    iIntros (r) "[% [Hxs Hys]]". iSplit; [done|]. unfold flist. simpl. iFrame.
  Qed.

  Lemma wp_contents_loop fuel xs acc :
    length xs < fuel →
    cells (live xs) None ⊢ wp (loop fuel (λ '(p, acc),
      if decide (p ≠ fl_end) then
        let! v := value_at p in
        let! p' := it_incr p in
        ret (inl (p', acc ++ [v]))
      else ret (inr acc)) (first xs None, acc))
      (λ vs, ⌜vs = acc ++ xs.*2⌝ ∧ cells (live xs) None).
  Proof.
    revert fuel acc.
    induction xs as [|[l v] xs IH]; iIntros (fuel acc Hf) "H";
      (destruct fuel as [|fuel]; [simpl in Hf; lia|]); cbn [loop].
    - wstep. dec_false. wsteps. rewrite app_nil_r. by iFrame.
    - iDestruct (cells_cons l (Live v) (live xs) with "H") as "[Hl H]".
      cbn [first]. wstep. dec_true.
      wstep. iApply (wp_value_at with "Hl"). iIntros "Hl".
      wstep. iApply (wp_get_next with "Hl"). iIntros "Hl". wsteps. simpl. rewrite first_live.
      iApply (wp_wand with "[H]").
      { iApply (IH with "H"). simpl in *; lia. }
      iIntros (vs) "[-> H]". rewrite -app_assoc /=. by iFrame.
  Qed.
  Lemma wp_fl_contents fuel this xs :
    length xs < fuel →
    flist this xs ⊢ wp (fl_contents fuel this) (λ vs, ⌜vs = xs.*2⌝ ∧ flist this xs).
  Proof.
    iIntros (Hf) "H". unfold fl_contents. wstep. iApply (wp_fl_begin with "H").
    iIntros "[Ht H]".
    iApply (wp_wand with "[H]"); [by iApply (wp_contents_loop _ _ [])|].
    iIntros (vs) "[-> H]". unfold flist. simpl. by iFrame.
  Qed.

  (** *** splicing between two lists *)
  Lemma wp_fl_splice_all fuel this other xs ys i :
    i ≤ length xs → ys ≠ [] → length ys < fuel →
    flist this xs ∗ flist other ys ⊢
    wp (fl_splice_all fuel (pos_at this xs i) other) (λ _,
      flist this (take i xs ++ ys ++ drop i xs) ∗ flist other []).
  Proof.
    iIntros (Hi Hne Hf) "[H Ho]".
    destruct (flist_at this xs i) as (ns1&p&s&->&Hys&Heq&_); [lia|].
    rewrite Heq. unfold fl_splice_all. iApply (wp_wand with "[H Ho]").
    { 
      iApply (wp_splice2 fuel ns1 p s _ None [] other Hdr (live ys) [] None).
      - by rewrite live_length.
      - by destruct ys.
      - by apply not_elem_of_opt.
      - rewrite app_nil_r. iFrame. }
    iIntros (_) "[H Ho]". rewrite Hys live_app. iFrame.
  Qed.
  Lemma pos_at_ne this other xs ys i j :
    i ≤ length xs →
    flist this xs ∗ flist other ys ⊢ ⌜pos_at other ys j ≠ pos_at this xs i⌝.
  Proof.
    iIntros (Hi) "[H Ho] %Heq".
    destruct (flist_at this xs i Hi) as (ns1&l&s&Hp&_&Hfl&_).
    rewrite Hfl. rewrite Hp in Heq.
    iDestruct (cells_focus with "H") as "(H1&Hl&H2)".
    assert (j ≤ length ys) as Hj.
    { apply lookup_lt_Some in Heq. simpl in Heq. rewrite fmap_length in Heq. lia. }
    destruct (flist_at other ys j Hj) as (ms1&l'&s'&Hp'&_&Hfl'&_).
    rewrite Hfl'. rewrite Hp' in Heq. injection Heq as ->.
    iDestruct (cells_focus with "Ho") as "(M1&Hl'&M2)".
    iDestruct (pto_excl with "[$Hl $Hl']") as %[].
  Qed.
  Lemma wp_fl_splice_one this other xs ys i j l v :
    i ≤ length xs → ys !! j = Some (l, v) →
    flist this xs ∗ flist other ys ⊢
    wp (fl_splice_one (pos_at this xs i) (pos_at other ys j)) (λ _,
      flist this (take i xs ++ (l,v) :: drop i xs) ∗
      flist other (take j ys ++ drop (S j) ys)).
  Proof.
    iIntros (Hi Hj) "H". assert (j < length ys) by (by eapply lookup_lt_Some).
    iDestruct (pos_at_ne _ _ _ _ _ j with "H") as %Hne; [done|]. iDestruct "H" as "[H Ho]".
    unfold fl_splice_one. rewrite decide_False; [|done].
    destruct (flist_at this xs i) as (ns1&p&s&->&Hys&Heq&_); [lia|].
    destruct (flist_at other ys j) as (ms1&p'&s'&->&Hys'&Heq'&_); [lia|].
    rewrite Heq Heq' (drop_S _ _ _ Hj) live_cons.
    iApply (wp_wand with "[H Ho]"); [iApply wp_splice1; iFrame|].
    iIntros (_) "[H Ho]". rewrite Hys Hys'. iFrame.
  Qed.
  Lemma wp_fl_splice_range fuel this other xs ys i j k :
    i ≤ length xs → S j < k ≤ S (length ys) → length ys < fuel →
    flist this xs ∗ flist other ys ⊢
    wp (fl_splice_range fuel (pos_at this xs i) (pos_at other ys j) (pos_at other ys k)) (λ _,
      flist this (take i xs ++ take (k - 1 - j) (drop j ys) ++ drop i xs) ∗
      flist other (take j ys ++ drop (k - 1) ys)).
  Proof.
    iIntros (Hi Hjk Hf) "[H Ho]". iDestruct (flist_nodup with "Ho") as %Hnd.
    unfold fl_splice_range.
    destruct (flist_at this xs i) as (ns1&p&s&->&Hys&Heq&_); [lia|].
    destruct (flist_at other ys j) as (ms1&p'&s'&->&Hys'&Heq'&_); [lia|].
    assert (drop j ys = take (k - 1 - j) (drop j ys) ++ drop (k - 1) ys) as Hdrop.
    { rewrite -{1}(take_drop (k - 1 - j) (drop j ys)) drop_drop.
      by replace (j + (k - 1 - j)) with (k - 1) by lia. }
    assert (pos_at other ys k = first (drop (k-1) ys) None) as ->
      by (rewrite -(pos_at_S other); f_equal; lia).
    rewrite Heq Heq' {1}Hdrop live_app -(first_live (drop (k-1) ys)).
    iApply (wp_wand with "[H Ho]").
    { iApply (wp_splice2 with "[$H $Ho]").
      - rewrite live_length take_length drop_length. lia.
      - intros Hn. apply (f_equal length) in Hn.
        rewrite live_length take_length drop_length /= in Hn. lia.
      - rewrite first_live live_locs. apply not_elem_of_opt. intros l Hl.
        assert (l ∈ (drop (k - 1) ys).*1).
        { destruct (drop (k-1) ys) as [|[]]; [done|]. injection Hl as <-. constructor. }
        rewrite NoDup_cons in Hnd. destruct Hnd as [_ Hnd].
        rewrite -(take_drop j ys) fmap_app Hdrop fmap_app in Hnd.
        apply NoDup_app in Hnd as (_&_&Hnd).
        apply NoDup_app in Hnd as (_&Hnd&_). intros Hin. by eapply Hnd. }
    iIntros (_) "[H Ho]". rewrite Hys Hys' live_app. iFrame.
  Qed.
End forward.
