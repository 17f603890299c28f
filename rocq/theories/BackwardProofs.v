(** backward_list: call-level proofs. Proof file. *)
From Verif Require Export BackwardSpec ForwardHistory HistoryVLogic.
From iris.proofmode Require Import tactics.

Section backward.
  Context {V : Type} `{Allocator (cell V)}.
  Notation C := (cell V).
  Notation iProp := (bi_car (hpropI C)).
  Implicit Types (xs ys : list (loc * V)) (v : V) (r : vref V) (this : loc) (b : blist).

  Definition blistP b xs : iProp :=
    ⌜bl_tail b = Some (last_loc (bl_head b) xs)⌝ ∧ flist (bl_head b) xs.
  Lemma blist_holds b xs : Sep.plain (is_blist b xs) ⊣⊢ blistP b xs.
  Proof.
    unfold blistP. rewrite -flist_holds -plain_pure -plain_and. done.
  Qed.

  Lemma pos_at_last this xs : pos_at this xs (length xs) = Some (last_loc this xs).
  Proof.
    unfold pos_at. revert this. induction xs as [|[m w] xs IH]; intros l; [done|].
    rewrite last_loc_cons -IH. done.
  Qed.
  Lemma pos_at_inj this xs i j :
    NoDup (this :: xs.*1) → i ≤ length xs →
    pos_at this xs i = pos_at this xs j → i = j.
  Proof.
    intros Hnd Hi Heq. unfold pos_at in Heq.
    destruct (lookup_lt_is_Some_2 (this :: xs.*1) i) as [x Hx].
    { simpl. rewrite fmap_length. lia. }
    eapply NoDup_lookup; [exact Hnd|exact Hx|]. by rewrite -Heq.
  Qed.
  Lemma pos_at_is_last this xs i :
    NoDup (this :: xs.*1) → i ≤ length xs →
    pos_at this xs i = Some (last_loc this xs) ↔ i = length xs.
  Proof.
    intros Hnd Hi. rewrite -pos_at_last. split; [|by intros ->].
    by apply pos_at_inj.
  Qed.
  Lemma last_loc_head this xs :
    NoDup (this :: xs.*1) → last_loc this xs = this ↔ xs = [].
  Proof.
    intros Hnd. split; [|by intros ->]. intros Hl.
    assert (0 = length xs) as Hz.
    { apply (pos_at_is_last this); [done|lia|]. by rewrite Hl. }
    by apply nil_length_inv.
  Qed.
  Lemma last_loc_ne l xs l' : xs ≠ [] → last_loc l xs = last_loc l' xs.
  Proof. unfold last_loc. destruct xs using rev_ind; [done|]. by rewrite fmap_app last_snoc. Qed.
  Lemma last_loc_take this xs i : i < length xs → last_loc this (take i xs ++ drop i xs) = last_loc this xs.
  Proof. by rewrite take_drop. Qed.
  Lemma last_loc_ins this xs i zs :
    i < length xs → last_loc this (take i xs ++ zs ++ drop i xs) = last_loc this xs.
  Proof.
    intros Hi. assert (drop i xs ≠ []).
    { intros Hn. apply (f_equal length) in Hn. rewrite drop_length /= in Hn. lia. }
    trans (last_loc this (take i xs ++ drop i xs)); [|by rewrite take_drop].
    rewrite !last_loc_app. by apply last_loc_ne.
  Qed.
  Lemma last_loc_end this xs zs :
    last_loc this (take (length xs) xs ++ zs ++ drop (length xs) xs) =
    last_loc (last_loc this xs) zs.
  Proof. rewrite take_ge // drop_ge // app_nil_r. by rewrite last_loc_app. Qed.
  (** the node [pos_at i] is the last one of [take i xs] *)
  Lemma pos_at_take this xs i : i ≤ length xs → pos_at this xs i = Some (last_loc this (take i xs)).
  Proof.
    intros Hi. rewrite -pos_at_last take_length_le //. unfold pos_at.
    destruct i; [done|]. simpl. rewrite fmap_take lookup_take; [done|lia].
  Qed.

  (** Finishing after an insertion at position [i]: the new tail. *)
  Lemma blist_inserted b xs i zs :
    i ≤ length xs → bl_tail b = Some (last_loc (bl_head b) xs) →
    NoDup (bl_head b :: xs.*1) →
    flist (bl_head b) (take i xs ++ zs ++ drop i xs) ⊢
    blistP (if decide (pos_at (bl_head b) xs i = bl_tail b)
            then BL (bl_head b) (Some (last_loc (last_loc (bl_head b) (take i xs)) zs)) else b)
      (take i xs ++ zs ++ drop i xs).
  Proof.
    iIntros (Hi Ht Hnd) "H". unfold blistP.
    destruct (decide (pos_at (bl_head b) xs i = bl_tail b)) as [He|He]; simpl.
    - iFrame. iPureIntro. split; [|done]. rewrite Ht in He.
      apply pos_at_is_last in He; [|done|done]. subst i. rewrite last_loc_end take_ge //.
    - iFrame. iPureIntro. split; [|done].
      rewrite last_loc_ins //. destruct (decide (i = length xs)) as [->|]; [|lia].
      by rewrite Ht pos_at_last in He.
  Qed.

  Lemma wp_bl_new : ⊢ wp bl_new (λ b, blistP b []).
  Proof. iStartProof. unfold bl_new. wsteps. iSplit; [done|]. unfold flist. simpl. iFrame. Qed.

  Lemma wp_bl_push_front b xs r v :
    refers xs r v →
    blistP b xs ⊢ wp (bl_push_front b r) (λ b', ∃ l, ⌜bl_head b' = bl_head b⌝ ∧ blistP b' ((l,v) :: xs)).
  Proof.
    iIntros (Hr) "[%Ht H]". iDestruct (flist_nodup with "H") as %Hnd.
    unfold bl_push_front. 
    iApply (wp_new_insert_k [] with "H"); [by apply nrefers_live|].
    iIntros (n) "H". rewrite Ht. destruct (decide _) as [He|He]; wstep; iExists n.
    - iSplit; [done|]. iSplit; [|iFrame]. iPureIntro. injection He as He.
      apply last_loc_head in He; [|done]. subst xs. done.
    - iSplit; [done|]. iSplit; [|iFrame]. iPureIntro. rewrite Ht last_loc_cons.
      f_equal. apply last_loc_ne. intros ->. by destruct He.
  Qed.
  Lemma wp_bl_insert_after b xs i r v :
    i ≤ length xs → refers xs r v →
    blistP b xs ⊢ wp (bl_insert_after b (pos_at (bl_head b) xs i) r) (λ bp,
      ∃ l, ⌜bl_head bp.1 = bl_head b⌝ ∧ ⌜bp.2 = Some l⌝ ∧ blistP bp.1 (take i xs ++ (l,v) :: drop i xs)).
  Proof.
    iIntros (Hi Hr) "[%Ht H]". iDestruct (flist_nodup with "H") as %Hnd.
    destruct (flist_at (bl_head b) xs i Hi) as (ns1&l&s&Hp&Hys&Heq&Hr'&_).
    unfold bl_insert_after. rewrite Heq Hp.
    iApply (wp_new_insert_k with "H"); [by apply Hr'|].
    iIntros (n) "H". rewrite -(Hys ((n,v) :: drop i xs)).
    iDestruct (blist_inserted b xs i [(n,v)] Hi Ht Hnd with "H") as "H". rewrite Hp.
    destruct (decide (Some l = bl_tail b)) as [He|He]; wstep; iExists n;
      (iSplit; [done|]); (iSplit; [done|]); simpl; by iFrame.
  Qed.
  Lemma wp_bl_push_back b xs r v :
    refers xs r v →
    blistP b xs ⊢ wp (bl_push_back b r) (λ b', ∃ l, ⌜bl_head b' = bl_head b⌝ ∧ blistP b' (xs ++ [(l,v)])).
  Proof.
    iIntros (Hr) "[%Ht H]". iDestruct (flist_nodup with "H") as %Hnd.
    destruct (flist_at (bl_head b) xs (length xs) ltac:(lia)) as (ns1&l&s&Hp&Hys&Heq&Hr'&_).
    unfold bl_push_back. rewrite Heq Ht. rewrite pos_at_last in Hp. rewrite Hp.
    iApply (wp_new_insert_k with "H"); [by apply Hr'|].
    iIntros (n) "H". wsteps. iExists n. iSplit; [done|].
    unfold blistP. simpl. rewrite last_loc_snoc. iSplit; [done|].
    rewrite -(Hys ((n,v) :: drop (length xs) xs)) take_ge // drop_ge //.
  Qed.
  Lemma wp_bl_pop_front b l v l2 v2 xs :
    blistP b ((l,v) :: (l2,v2) :: xs) ⊢ wp (bl_pop_front b) (λ b', ⌜b' = b⌝ ∧ blistP b' ((l2,v2) :: xs)).
  Proof.
    iIntros "[%Ht H]". iDestruct (flist_nodup with "H") as %Hnd. unfold bl_pop_front.
    iDestruct "H" as "(Hh&Hl&H)". wstep.
    iApply (wp_unlink_next with "Hh Hl"). iIntros "Hh Hl". wstep.
    iApply (wp_delete_node with "Hl"). unfold bl_empty. rewrite Ht bool_decide_false.
    - wstep. iSplit; [done|]. unfold blistP. rewrite Ht !last_loc_cons. iSplit; [done|].
      unfold flist. simpl. iFrame.
    - intros [= He]. symmetry in He. apply last_loc_head in He; done.
  Qed.
  Lemma wp_bl_insert_after_n b xs i n r v :
    i ≤ length xs → refers xs r v →
    blistP b xs ⊢ wp (bl_insert_after_n b (pos_at (bl_head b) xs i) n r) (λ b',
      ∃ ys, ⌜ys.*2 = replicate n v⌝ ∧ ⌜bl_head b' = bl_head b⌝ ∧ blistP b' (take i xs ++ ys ++ drop i xs)).
  Proof.
    iIntros (Hi Hr) "[%Ht H]". iDestruct (flist_nodup with "H") as %Hnd.
    destruct (flist_at (bl_head b) xs i Hi) as (ns1&l&s&Hp&Hys&Heq&Hr'&_).
    unfold bl_insert_after_n. wstep. rewrite Heq Hp. iApply (wp_wand with "[H]").
    { iApply (wp_insert_n with "H"). by apply Hr'. }
    iIntros (p) "H". iDestruct "H" as (ys Hv ->) "H".
    rewrite -live_app -Hys.
    iDestruct (blist_inserted b xs i ys Hi Ht Hnd with "H") as "H". rewrite Hp.
    assert (l = last_loc (bl_head b) (take i xs)) as <-.
    { rewrite pos_at_take // in Hp. by injection Hp. }
    destruct (decide (Some l = bl_tail b)) as [He|He]; wstep; iExists ys;
      (iSplit; [done|]); (iSplit; [done|]); by iFrame.
  Qed.
  (** A range insertion: the contents are right; [tail_] only if [pos] is not
      the last position, or nothing is inserted. *)
  Lemma wp_bl_insert_after_ext b xs i vs :
    i ≤ length xs →
    blistP b xs ⊢ wp (bl_insert_after_ext b (pos_at (bl_head b) xs i) vs) (λ b',
      ∃ ys, ⌜ys.*2 = vs⌝ ∧ ⌜bl_head b' = bl_head b⌝ ∧ ⌜bl_tail b' = bl_tail b⌝ ∧
            flist (bl_head b) (take i xs ++ ys ++ drop i xs)).
  Proof.
    iIntros (Hi) "[%Ht H]". iDestruct (flist_nodup with "H") as %Hnd.
    unfold bl_insert_after_ext. wstep.
    iApply (wp_wand with "[H]"); [by iApply (wp_fl_insert_after_ext with "H")|].
    iIntros (p) "H". iDestruct "H" as (ys Hv) "H".
    destruct (decide (_ = bl_tail b)) as [He|He]; wstep; iExists ys;
      repeat (iSplit; [done|]); by iFrame.
  Qed.
  Lemma wp_bl_insert_after_ext_ok b xs i vs :
    i ≤ length xs → i < length xs ∨ vs = [] →
    blistP b xs ⊢ wp (bl_insert_after_ext b (pos_at (bl_head b) xs i) vs) (λ b',
      ∃ ys, ⌜ys.*2 = vs⌝ ∧ ⌜bl_head b' = bl_head b⌝ ∧ blistP b' (take i xs ++ ys ++ drop i xs)).
  Proof.
    iIntros (Hi Hok) "[%Ht H]". iApply (wp_wand with "[H]").
    { iApply (wp_bl_insert_after_ext b xs i vs Hi). by iFrame. }
    iIntros (b') "H". iDestruct "H" as (ys Hys Hh Ht') "H". iExists ys.
    iSplit; [done|]. iSplit; [done|]. unfold blistP. rewrite Hh Ht' Ht. iFrame. iPureIntro.
    split; [|done]. destruct Hok as [?| ->]; [by rewrite last_loc_ins|].
    destruct ys; [|done]. simpl. by rewrite take_drop.
  Qed.
  Lemma wp_bl_erase_after b xs i :
    i < length xs →
    blistP b xs ⊢ wp (bl_erase_after b (pos_at (bl_head b) xs i)) (λ bp,
      ⌜bl_head bp.1 = bl_head b⌝ ∧ ⌜bp.2 = pos_at (bl_head b) xs (S (S i))⌝ ∧
      blistP bp.1 (take i xs ++ drop (S i) xs)).
  Proof.
    iIntros (Hi) "[%Ht H]". iDestruct (flist_nodup with "H") as %Hnd.
    destruct (lookup_lt_is_Some_2 xs i Hi) as [[n v] Hl].
    assert (pos_at (bl_head b) xs (S i) = Some n) as Hpn by (by eapply pos_at_elem).
    pose proof (pos_at_take (bl_head b) xs i ltac:(lia)) as Hpi.
    destruct (flist_at (bl_head b) xs i) as (ns1&p&s&Hp&Hys&Heq&_); [lia|].
    unfold bl_erase_after. rewrite Heq Hp (drop_S _ _ _ Hl) live_cons.
    iDestruct (cells_focus with "H") as "(H1&Hp&Hn&H2)". wstep.
    iApply (wp_unlink_next with "Hp Hn"). iIntros "Hp Hn". wstep.
    iApply (wp_delete_node with "Hn"). wstep.
    iApply (wp_get_next with "Hp"). iIntros "Hp". wstep.
    iAssert (flist (bl_head b) (take i xs ++ drop (S i) xs)) with "[H1 Hp H2]" as "H".
    { rewrite Hys. iApply cells_focus. simpl. iFrame. }
    cbn [fst snd].
    iSplit; [by destruct (decide _)|]. iSplit.
    { simpl. rewrite first_live -(pos_at_S (bl_head b)). done. }
    unfold blistP. rewrite Hp in Hpi. rewrite Hpi.
    destruct (decide (Some n = bl_tail b)) as [He|He]; simpl; (iSplit; [iPureIntro|done]).
    - rewrite Ht -Hpn in He. symmetry in He. 
      assert (S i = length xs) as Hlen.
      { apply (pos_at_is_last (bl_head b)); [done|lia|done]. }
      rewrite Hlen drop_ge // app_nil_r. done.
    - rewrite Ht. f_equal. trans (last_loc (bl_head b) (take (S i) xs ++ drop (S i) xs)); [by rewrite take_drop|].
      rewrite !last_loc_app. apply last_loc_ne. intros Hn. apply (f_equal length) in Hn.
      rewrite drop_length /= in Hn. destruct He. rewrite Ht -Hpn -pos_at_last. f_equal. lia.
  Qed.
  Lemma wp_bl_erase_after_range fuel b xs i j :
    i < j ≤ S (length xs) → length xs < fuel →
    blistP b xs ⊢
    wp (bl_erase_after_range fuel b (pos_at (bl_head b) xs i) (pos_at (bl_head b) xs j)) (λ bp,
      ⌜bl_head bp.1 = bl_head b⌝ ∧ ⌜bp.2 = pos_at (bl_head b) xs j⌝ ∧
      blistP bp.1 (take i xs ++ drop (j - 1) xs)).
  Proof.
    iIntros (Hij Hf) "[%Ht H]". iDestruct (flist_nodup with "H") as %Hnd.
    unfold bl_erase_after_range. wstep.
    iApply (wp_wand with "[H]"); [by iApply (wp_fl_erase_after_range with "H")|].
    iIntros (p) "[-> H]". wstep. cbn [fst snd].
    iSplit; [by destruct (decide _)|]. iSplit; [done|].
    unfold blistP. destruct (decide (pos_at (bl_head b) xs j = None)) as [He|He]; simpl;
      (iSplit; [iPureIntro|done]).
    - apply lookup_ge_None in He. simpl in He. rewrite fmap_length in He.
      rewrite drop_ge; [|lia]. rewrite app_nil_r. apply pos_at_take. lia.
    - rewrite Ht. f_equal. trans (last_loc (bl_head b) (take (j-1) xs ++ drop (j-1) xs)); [by rewrite take_drop|].
      rewrite !last_loc_app. apply last_loc_ne. intros Hn. apply (f_equal length) in Hn.
      rewrite drop_length /= in Hn. destruct He. apply lookup_ge_None. simpl.
      rewrite fmap_length. lia.
  Qed.
  Lemma wp_bl_clear_any fuel b xs :
    length xs < fuel →
    flist (bl_head b) xs ⊢ wp (bl_clear fuel b) (λ b', ⌜bl_head b' = bl_head b⌝ ∧ blistP b' []).
  Proof.
    iIntros (Hf) "H". unfold bl_clear. wstep.
    iApply (wp_wand with "[H]"); [by iApply (wp_fl_clear with "H")|].
    iIntros (_) "H". wstep. iSplit; [done|]. by iSplit.
  Qed.
  Lemma wp_bl_clear fuel b xs :
    length xs < fuel →
    blistP b xs ⊢ wp (bl_clear fuel b) (λ b', ⌜bl_head b' = bl_head b⌝ ∧ blistP b' []).
  Proof. iIntros (Hf) "[_ H]". by iApply wp_bl_clear_any. Qed.
  Lemma wp_bl_destroy_any fuel b xs :
    length xs < fuel → flist (bl_head b) xs ⊢ wp (bl_destroy fuel b) (λ _, emp).
  Proof.
    iIntros (Hf) "H". unfold bl_destroy. wstep.
    iApply (wp_wand with "[H]"); [by iApply (wp_bl_clear_any with "H")|].
    iIntros (b') "(%Hh&_&H)". rewrite Hh. unfold flist. simpl. iDestruct "H" as "[H _]".
    by wstep.
  Qed.
  Lemma wp_bl_destroy fuel b xs :
    length xs < fuel → blistP b xs ⊢ wp (bl_destroy fuel b) (λ _, emp).
  Proof. iIntros (Hf) "[_ H]". by iApply wp_bl_destroy_any. Qed.
  Lemma wp_bl_assign_n fuel b xs n v :
    length xs < fuel →
    blistP b xs ⊢ wp (bl_assign_n fuel b n (ExtVal v)) (λ b',
      ∃ zs, ⌜zs.*2 = replicate n v⌝ ∧ ⌜bl_head b' = bl_head b⌝ ∧ blistP b' zs).
  Proof.
    iIntros (Hf) "H". unfold bl_assign_n. wstep.
    iApply (wp_wand with "[H]"); [by iApply (wp_bl_clear with "H")|]. iIntros (b') "[%Hh H]".
    iApply (wp_wand with "[H]"); [by iApply (wp_bl_insert_after_n b' [] 0 n (ExtVal v) v with "H")|].
    iIntros (b2) "H". iDestruct "H" as (zs Hv Hh') "H". iExists zs. rewrite /= app_nil_r.
    rewrite Hh' Hh. by iFrame.
  Qed.
  Lemma wp_bl_assign_ext fuel b xs vs :
    length xs < fuel →
    flist (bl_head b) xs ⊢ wp (bl_assign_ext fuel b vs) (λ b',
      ∃ zs, ⌜zs.*2 = vs⌝ ∧ ⌜bl_head b' = bl_head b⌝ ∧ ⌜bl_tail b' = Some (bl_head b)⌝ ∧
            flist (bl_head b) zs).
  Proof.
    iIntros (Hf) "H". unfold bl_assign_ext. wstep.
    iApply (wp_wand with "[H]"); [by iApply (wp_bl_clear_any with "H")|]. iIntros (b') "[%Hh [%Ht H]]".
    iApply (wp_wand with "[H]").
    { iApply (wp_bl_insert_after_ext b' [] 0 vs). done. by iFrame. }
    iIntros (b2) "H". iDestruct "H" as (zs Hv Hh' Ht') "H". iExists zs. rewrite /= app_nil_r.
    rewrite Hh' Ht' Ht Hh. by iFrame.
  Qed.
  Lemma wp_bl_insert_its fuel b other xs :
    length xs < fuel → 
    blistP b [] ∗ flist other xs ⊢
    wp (bl_insert_after_its fuel b (bl_before_begin b) (first xs None) None) (λ b',
      ∃ zs, ⌜zs.*2 = xs.*2⌝ ∧ ⌜b' = b⌝ ∧ flist (bl_head b) zs ∗ flist other xs).
  Proof.
    iIntros (Hf) "[[%Ht H] Ho]". unfold bl_insert_after_its, bl_before_begin. wstep.
    iApply (wp_wand with "[H Ho]"); [iApply wp_fl_insert_its; [done|iFrame]|].
    iIntros (p) "H". iDestruct "H" as (zs Hv) "[H Ho]".
    rewrite Ht. rewrite last_loc_nil. destruct (decide _) as [_|]; [|done]. wstep.
    iExists zs. iSplit; [done|]. iSplit; [|iFrame].
    iPureIntro. destruct b as [bh bt]; simpl in *. by rewrite Ht.
  Qed.
  Lemma wp_bl_copy fuel other xs :
    length xs < fuel →
    flist (bl_head other) xs ⊢ wp (bl_copy fuel other) (λ b,
      ∃ zs, ⌜zs.*2 = xs.*2⌝ ∧ ⌜bl_tail b = Some (bl_head b)⌝ ∧
            flist (bl_head b) zs ∗ flist (bl_head other) xs).
  Proof.
    iIntros (Hf) "Ho". unfold bl_copy. wstep.
    iApply (wp_wand with "[]"); [by iApply wp_bl_new|]. iIntros (b) "[%Ht H]".
    wstep. iApply (wp_fl_begin with "Ho"). iIntros "Ho".
    iApply (wp_wand with "[H Ho]"); [iApply wp_bl_insert_its; [done|by iFrame]|].
    iIntros (b') "H". iDestruct "H" as (zs Hv ->) "[H Ho]". iExists zs. by iFrame.
  Qed.
  Lemma wp_bl_assign_from fuel b other xs ys :
    length xs < fuel → length ys < fuel →
    flist (bl_head b) xs ∗ flist (bl_head other) ys ⊢ wp (bl_assign_from fuel b other) (λ b',
      ∃ zs, ⌜zs.*2 = ys.*2⌝ ∧ ⌜bl_head b' = bl_head b⌝ ∧ ⌜bl_tail b' = Some (bl_head b)⌝ ∧
            flist (bl_head b) zs ∗ flist (bl_head other) ys).
  Proof.
    iIntros (Hf1 Hf2) "[H Ho]". unfold bl_assign_from. wstep.
    iApply (wp_wand with "[H]"); [by iApply (wp_bl_clear_any with "H")|]. iIntros (b') "[%Hh [%Ht H]]".
    wstep. iApply (wp_fl_begin with "Ho"). iIntros "Ho".
    iApply (wp_wand with "[H Ho]"); [iApply (wp_bl_insert_its _ b'); [done|by iFrame]|].
    iIntros (b2) "H". iDestruct "H" as (zs Hv ->) "[H Ho]". iExists zs.
    rewrite Ht last_loc_nil Hh. by iFrame.
  Qed.
  Lemma wp_bl_assign_self fuel b xs :
    length xs < fuel →
    flist (bl_head b) xs ⊢ wp (bl_assign_from fuel b b) (λ b', ⌜bl_head b' = bl_head b⌝ ∧ blistP b' []).
  Proof.
    iIntros (Hf) "H". unfold bl_assign_from. wstep.
    iApply (wp_wand with "[H]"); [by iApply (wp_bl_clear_any with "H")|]. iIntros (b') "[%Hh [%Ht H]]".
    wstep. rewrite Hh. iApply (wp_fl_begin with "H"). iIntros "H". simpl.
    unfold bl_insert_after_its, fl_insert_after_its. destruct fuel as [|fuel]; [lia|].
    cbn [loop]. wsteps. dec_false. wsteps. destruct (decide _) as [Hd|].
    - wstep. iSplit; [done|]. iSplit; [|simpl; by rewrite Hh]. done.
    - wstep. iSplit; [done|]. unfold blistP. rewrite Hh. iFrame. iPureIntro. by rewrite Ht Hh.
  Qed.
  Lemma wp_bl_swap a b xs ys :
    xs ≠ [] → ys ≠ [] →
    blistP a xs ∗ blistP b ys ⊢ wp (bl_swap a b) (λ ab, ⌜bl_head ab.1 = bl_head a⌝ ∧
      ⌜bl_head ab.2 = bl_head b⌝ ∧ blistP ab.1 ys ∗ blistP ab.2 xs).
  Proof.
    iIntros (Hx Hy) "[[%Hta Ha] [%Htb Hb]]". unfold bl_swap. wstep.
    iApply (wp_wand with "[Ha Hb]"); [iApply wp_fl_swap; iFrame|]. iIntros (_) "[Ha Hb]".
    wstep. unfold blistP. simpl. rewrite Hta Htb. iFrame.
    iPureIntro. split_and!; try done; f_equal; by apply last_loc_ne.
  Qed.
  Lemma wp_bl_reverse fuel b xs :
    xs ≠ [] → length xs < fuel →
    blistP b xs ⊢ wp (bl_reverse fuel b) (λ b', ⌜bl_head b' = bl_head b⌝ ∧ blistP b' (reverse xs)).
  Proof.
    iIntros (Hne Hf) "[%Ht H]". unfold bl_reverse. wstep.
    iApply (wp_fl_begin with "H"). iIntros "H". wstep.
    iApply (wp_wand with "[H]"); [by iApply (wp_fl_reverse with "H")|].
    iIntros (_) "H". wstep. iSplit; [done|]. iSplit; [iPureIntro|done].
    simpl. destruct xs as [|[l v] xs]; [done|]. rewrite reverse_cons last_loc_snoc. done.
  Qed.
  Lemma wp_bl_front b l v xs :
    blistP b ((l,v) :: xs) ⊢ wp (bl_front b) (λ w, ⌜w = v⌝ ∧ blistP b ((l,v) :: xs)).
  Proof.
    iIntros "[%Ht H]". iApply (wp_wand with "[H]"); [by iApply (wp_fl_front with "H")|].
    iIntros (w) "[-> H]". by iFrame.
  Qed.
  Lemma wp_bl_back b l v xs :
    blistP b (xs ++ [(l,v)]) ⊢ wp (bl_back b) (λ w, ⌜w = v⌝ ∧ blistP b (xs ++ [(l,v)])).
  Proof.
    iIntros "[%Ht H]". unfold bl_back. rewrite Ht -pos_at_last app_length /= Nat.add_1_r.
    iApply (wp_fl_value with "H").
    { rewrite lookup_app_r // Nat.sub_diag //. }
    iIntros "H". iSplit; [done|]. by iFrame.
  Qed.
  Lemma bl_empty_spec b xs :
    blistP b xs ⊢ ⌜bl_empty b = bool_decide (xs = [])⌝ ∧ blistP b xs.
  Proof.
    iIntros "[%Ht H]". iDestruct (flist_nodup with "H") as %Hnd. iFrame. iPureIntro.
    split_and!; [|done|done]. unfold bl_empty. apply bool_decide_ext. rewrite Ht.
    rewrite -(last_loc_head _ _ Hnd). split; [by intros [= <-]|by intros ->].
  Qed.
  Lemma wp_bl_eq eqb fuel a b xs ys :
    length xs < fuel →
    blistP a xs ∗ blistP b ys ⊢ wp (bl_eq eqb fuel a b) (λ e,
      ⌜e = true ↔ Forall2 (λ x y, eqb x y = true) xs.*2 ys.*2⌝ ∧ blistP a xs ∗ blistP b ys).
  Proof.
    iIntros (Hf) "[[%Ha H] [%Hb Ho]]". iApply (wp_wand with "[H Ho]").
    { iApply (wp_fl_eq eqb fuel with "[$H $Ho]"). done. }
    iIntros (e) "[%He [H Ho]]". by iFrame.
  Qed.
End backward.
