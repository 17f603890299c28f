(** backward_list: the property lemmas, in the vocabulary of Triple.v,
    SlistSpec.v, BackwardSpec.v and HistoryV.v only. *)
From Verif Require Import BackwardHistory ForwardRuns.
From iris.proofmode Require Import tactics.
(*@HEADER
From Verif Require Import BackwardSpec BackwardRuns.

Section backward.
  Context {V : Type} `{Allocator (cell V)}.
@*)
(*@FOOTER
End backward.
@*)

Ltac bpre := first [rewrite plain_both !blist_holds | rewrite blist_holds]; reflexivity.

Section backward.
  Context {V : Type} `{Allocator (cell V)}.
  Notation iProp := (bi_car (hpropI (cell V))).

  Lemma plain_blist b (xs : list (loc * V)) : Sep.plain (λ h, is_blist b xs h) ⊣⊢ blistP b xs.
  Proof. apply blist_holds. Qed.
  Lemma plain_blist2 a b (xs ys : list (loc * V)) :
    Sep.plain (λ h, both (is_blist a xs) (is_blist b ys) h) ⊣⊢ blistP a xs ∗ blistP b ys.
  Proof. rewrite plain_both !blist_holds. done. Qed.

  (*@ C24_partial,C28_partial Whole programs on two backward_lists: every history that stays
     within [bl_ok] (pop_front not on a one-element list, no range insertion at
     the last position, no copy from a non-empty list, no swap involving an empty
     list, no reverse of an empty list) observes exactly what the abstract
     sequences prescribe, has no undefined behaviour and leaves no memory. Missing:
     the calls excluded by [bl_ok], on which the code is wrong (see _refuted). *)
  Lemma bl_history (eqb : V → V → bool) ops :
    v_correct bl_new bl_destroy (bl_step eqb) [] (bl_spec_ok eqb) (λ _, True) ops.
  Proof. apply bl_history_correct. Qed.
  (*@ C24_partial,C28_partial After every such history both objects are well formed backward_lists
     (tail_ on the last node) that hold the abstract sequences and own all memory. *)
  Lemma bl_reaches (eqb : V → V → bool) ops :
    v_reaches bl_new (bl_step eqb) [] (bl_spec_ok eqb)
      (λ b vs h, ∃ xs, xs.*2 = vs ∧ is_blist b xs h) ops.
  Proof. apply bl_history_reaches. Qed.

  (*@ C24 push_back appends after the last node; the other nodes stay where they are.
     [r] may refer to an element of the list itself. *)
  Lemma bl_push_back_ok b (xs : list (loc * V)) r v :
    refers xs r v →
    runs (is_blist b xs) (bl_push_back b r)
      (λ b' h, ∃ l, bl_head b' = bl_head b ∧ is_blist b' (xs ++ [(l, v)]) h).
  Proof.
    intros Hr. eapply runs_from; [bpre|by eapply wp_bl_push_back|].
    intros b'. iIntros "H". iDestruct "H" as (l Hh) "H". iExists l. iSplit; [done|].
    by rewrite plain_blist.
  Qed.
  (*@ C24 push_front. *)
  Lemma bl_push_front_ok b (xs : list (loc * V)) r v :
    refers xs r v →
    runs (is_blist b xs) (bl_push_front b r)
      (λ b' h, ∃ l, bl_head b' = bl_head b ∧ is_blist b' ((l, v) :: xs) h).
  Proof.
    intros Hr. eapply runs_from; [bpre|by eapply wp_bl_push_front|].
    intros b'. iIntros "H". iDestruct "H" as (l Hh) "H". iExists l. iSplit; [done|].
    by rewrite plain_blist.
  Qed.
  (*@ C24_partial pop_front frees exactly the first node, when it is not the only one. *)
  Lemma bl_pop_front_ok b l v (xs : list (loc * V)) :
    xs ≠ [] →
    runs (is_blist b ((l, v) :: xs)) (bl_pop_front b) (λ b' h, b' = b ∧ is_blist b xs h).
  Proof.
    intros Hne. destruct xs as [|[l2 v2] xs]; [done|].
    eapply runs_from; [bpre|by eapply wp_bl_pop_front|].
    intros b'. iIntros "[-> H]". iSplit; [done|]. by rewrite plain_blist.
  Qed.
  (*@ C24 insert_after returns an iterator to the one new node. *)
  Lemma bl_insert_after_ok b (xs : list (loc * V)) i r v :
    i ≤ length xs → refers xs r v →
    runs (is_blist b xs) (bl_insert_after b (pos_at (bl_head b) xs i) r)
      (λ '(b', p) h, ∃ l, bl_head b' = bl_head b ∧ p = Some l ∧
         is_blist b' (take i xs ++ (l, v) :: drop i xs) h).
  Proof.
    intros Hi Hr. eapply runs_from; [bpre|by eapply wp_bl_insert_after|].
    intros [b' p]. iIntros "H". iDestruct "H" as (l Hh Hp) "H". iExists l.
    iSplit; [done|]. iSplit; [done|]. by rewrite plain_blist.
  Qed.
  (*@ C24 insert_after(pos, n, value). *)
  Lemma bl_insert_after_n_ok b (xs : list (loc * V)) i n r v :
    i ≤ length xs → refers xs r v →
    runs (is_blist b xs) (bl_insert_after_n b (pos_at (bl_head b) xs i) n r)
      (λ b' h, ∃ ys, ys.*2 = replicate n v ∧ bl_head b' = bl_head b ∧
         is_blist b' (take i xs ++ ys ++ drop i xs) h).
  Proof.
    intros Hi Hr. eapply runs_from; [bpre|by eapply wp_bl_insert_after_n|].
    intros b'. iIntros "H". iDestruct "H" as (ys Hys Hh) "H". iExists ys.
    iSplit; [done|]. iSplit; [done|]. by rewrite plain_blist.
  Qed.
  (*@ C24_partial insert_after(pos, first, last) before the last position. *)
  Lemma bl_insert_after_range_ok b (xs : list (loc * V)) i vs :
    i < length xs →
    runs (is_blist b xs) (bl_insert_after_ext b (pos_at (bl_head b) xs i) vs)
      (λ b' h, ∃ ys, ys.*2 = vs ∧ bl_head b' = bl_head b ∧
         is_blist b' (take i xs ++ ys ++ drop i xs) h).
  Proof.
    intros Hi. eapply runs_from; [bpre|eapply wp_bl_insert_after_ext_ok; [lia|by left]|].
    intros b'. iIntros "H". iDestruct "H" as (ys Hys Hh) "H". iExists ys.
    iSplit; [done|]. iSplit; [done|]. by rewrite plain_blist.
  Qed.
  (*@ C24 erase_after frees exactly the node after pos, also when it is the last one. *)
  Lemma bl_erase_after_ok b (xs : list (loc * V)) i :
    i < length xs →
    runs (is_blist b xs) (bl_erase_after b (pos_at (bl_head b) xs i))
      (λ '(b', p) h, bl_head b' = bl_head b ∧ p = pos_at (bl_head b) xs (S (S i)) ∧
         is_blist b' (take i xs ++ drop (S i) xs) h).
  Proof.
    intros Hi. eapply runs_from; [bpre|by eapply wp_bl_erase_after|].
    intros [b' p]. iIntros "(%Hh&%Hp&H)". iSplit; [done|]. iSplit; [done|]. by rewrite plain_blist.
  Qed.
  (*@ C24 erase_after(pos, last) frees exactly the nodes strictly between. *)
  Lemma bl_erase_after_range_ok fuel b (xs : list (loc * V)) i j :
    i < j ≤ S (length xs) → length xs < fuel →
    runs (is_blist b xs)
      (bl_erase_after_range fuel b (pos_at (bl_head b) xs i) (pos_at (bl_head b) xs j))
      (λ '(b', p) h, bl_head b' = bl_head b ∧ p = pos_at (bl_head b) xs j ∧
         is_blist b' (take i xs ++ drop (j - 1) xs) h).
  Proof.
    intros Hi Hf. eapply runs_from; [bpre|by eapply wp_bl_erase_after_range|].
    intros [b' p]. iIntros "(%Hh&%Hp&H)". iSplit; [done|]. iSplit; [done|]. by rewrite plain_blist.
  Qed.
  (*@ C24 clear. *)
  Lemma bl_clear_ok fuel b (xs : list (loc * V)) :
    length xs < fuel →
    runs (is_blist b xs) (bl_clear fuel b) (λ b' h, bl_head b' = bl_head b ∧ is_blist b' [] h).
  Proof.
    intros Hf. eapply runs_from; [bpre|by eapply wp_bl_clear|].
    intros b'. iIntros "[% H]". iSplit; [done|]. by rewrite plain_blist.
  Qed.
  (*@ C24 the destructor releases everything, whatever tail_ holds. *)
  Lemma bl_destroy_ok fuel b (xs : list (loc * V)) :
    length xs < fuel →
    runs (is_flist (bl_head b) xs) (bl_destroy fuel b) (λ _ h, nothing h).
  Proof.
    intros Hf. eapply runs_from; [rewrite flist_holds; reflexivity|by eapply wp_bl_destroy_any|].
    intros p. change (λ h, nothing h) with (@nothing (cell V)). by rewrite plain_nothing.
  Qed.
  (*@ C24_partial reverse of a non-empty list relinks the same nodes. *)
  Lemma bl_reverse_ok fuel b (xs : list (loc * V)) :
    xs ≠ [] → length xs < fuel →
    runs (is_blist b xs) (bl_reverse fuel b)
      (λ b' h, bl_head b' = bl_head b ∧ is_blist b' (reverse xs) h).
  Proof.
    intros Hne Hf. eapply runs_from; [bpre|by eapply wp_bl_reverse|].
    intros b'. iIntros "[% H]". iSplit; [done|]. by rewrite plain_blist.
  Qed.
  (*@ C24 back() is the last element. *)
  Lemma bl_back_ok b (xs : list (loc * V)) l v :
    last xs = Some (l, v) →
    runs (is_blist b xs) (bl_back b) (λ w h, w = v ∧ is_blist b xs h).
  Proof.
    destruct xs as [|x xs _] using rev_ind; [done|]. rewrite last_snoc. intros [= ->].
    eapply runs_from; [bpre|by eapply wp_bl_back|].
    intros w. iIntros "[% H]". iSplit; [done|]. by rewrite plain_blist.
  Qed.
  (*@ C24 empty() tells whether the list is empty. *)
  Lemma bl_empty_ok b (xs : list (loc * V)) h :
    is_blist b xs h → bl_empty b = true ↔ xs = [].
  Proof.
    intros [Ht [Hnd _]]. unfold bl_empty. rewrite bool_decide_eq_true Ht.
    rewrite -(last_loc_head _ _ Hnd). split; [by intros [= <-]|by intros ->].
  Qed.
  (*@ C24 == compares the two sequences element by element. *)
  Lemma bl_eq_ok (eqb : V → V → bool) fuel a b (xs ys : list (loc * V)) :
    length xs < fuel →
    runs (both (is_blist a xs) (is_blist b ys)) (bl_eq eqb fuel a b)
      (λ r h, (r = true ↔ Forall2 (λ x y, eqb x y = true) xs.*2 ys.*2) ∧
              both (is_blist a xs) (is_blist b ys) h).
  Proof.
    intros Hf. eapply runs_from; [bpre|by eapply wp_bl_eq|].
    intros p. iIntros "[%Hr H]". iSplit; [done|]. by rewrite plain_blist2.
  Qed.
  (*@ C28_partial swap of two non-empty backward_lists exchanges the chains and
     leaves both usable. Missing: swaps involving an empty list, which are wrong. *)
  Lemma bl_swap_ok a b (xs ys : list (loc * V)) :
    xs ≠ [] → ys ≠ [] →
    runs (both (is_blist a xs) (is_blist b ys)) (bl_swap a b)
      (λ '(a', b') h, bl_head a' = bl_head a ∧ bl_head b' = bl_head b ∧
         both (is_blist a' ys) (is_blist b' xs) h).
  Proof.
    intros Hx Hy. eapply runs_from; [bpre|by eapply wp_bl_swap|].
    intros [a' b']. iIntros "(%&%&H)". iSplit; [done|]. iSplit; [done|]. by rewrite plain_blist2.
  Qed.
  (*@ C28_refuted swapping with an empty list: afterwards the empty one's tail_ is the
     address of the other object's last node (a), and the other one's tail_ is the
     address of the first object's header (b): neither is a usable list. *)
  Lemma bl_swap_empty a b (xs : list (loc * V)) :
    xs ≠ [] →
    runs (both (is_blist a xs) (is_blist b [])) (bl_swap a b)
      (λ '(a', b') h,
         bl_tail a' = Some (bl_head b) ∧ bl_tail b' = Some (last_loc (bl_head b) xs) ∧
         bl_head a' = bl_head a ∧ bl_head b' = bl_head b ∧ bl_head b ≠ bl_head a ∧
         both (is_flist (bl_head a) []) (is_flist (bl_head b) xs) h).
  Proof.
    intros Hx. eapply (runs_from _ _ _ _ (λ ab, ⌜bl_tail ab.1 = Some (bl_head b) ∧
        bl_tail ab.2 = Some (last_loc (bl_head b) xs) ∧
        bl_head ab.1 = bl_head a ∧ bl_head ab.2 = bl_head b ∧ bl_head b ≠ bl_head a⌝ ∧
        flist (bl_head a) [] ∗ flist (bl_head b) xs)%I); [bpre| |].
    - iIntros "[[%Hta Ha] [%Htb Hb]]". unfold bl_swap. wstep.
      iAssert (⌜bl_head b ≠ bl_head a⌝)%I as "%Hne".
      { iDestruct "Ha" as "[Ha _]". iDestruct "Hb" as "[Hb _]".
        iApply (pto_ne with "[$Hb $Ha]"). }
      iApply (wp_wand with "[Ha Hb]"); [iApply wp_fl_swap; iFrame|]. iIntros (_) "H".
      wstep. cbn [fst snd bl_tail bl_head]. iSplit; [iPureIntro|done]. rewrite Hta Htb.
      split_and!; try done. f_equal. by apply last_loc_ne.
    - intros [a' b']. cbn [fst snd]. iIntros "[%Hx' H]". destruct Hx' as (?&?&?&?&?).
      repeat (iSplit; [done|]). by rewrite plain_flist2.
  Qed.
  (*@ C28_refuted swapping two empty lists crosses their tail_ pointers: each
     tail_ designates the other object's header, so empty() is false for both. *)
  Lemma bl_swap_both_empty a b :
    runs (both (is_blist (V:=V) a []) (is_blist b [])) (bl_swap a b)
      (λ '(a', b') h,
         bl_tail a' = Some (bl_head b) ∧ bl_tail b' = Some (bl_head a) ∧
         bl_empty a' = false ∧ bl_empty b' = false ∧
         both (is_flist (bl_head a) []) (is_flist (bl_head b) []) h).
  Proof.
    eapply (runs_from _ _ _ _ (λ ab, ⌜bl_tail ab.1 = Some (bl_head b) ∧
        bl_tail ab.2 = Some (bl_head a) ∧ bl_empty ab.1 = false ∧ bl_empty ab.2 = false⌝ ∧
        flist (bl_head a) [] ∗ flist (bl_head b) [])%I); [bpre| |].
    - iIntros "[[%Hta Ha] [%Htb Hb]]". unfold bl_swap. wstep.
      iAssert (⌜bl_head b ≠ bl_head a⌝)%I as "%Hne".
      { iDestruct "Ha" as "[Ha _]". iDestruct "Hb" as "[Hb _]".
        iApply (pto_ne with "[$Hb $Ha]"). }
      iApply (wp_wand with "[Ha Hb]"); [iApply wp_fl_swap; iFrame|]. iIntros (_) "H".
      wstep. cbn [fst snd bl_tail bl_head]. iSplit; [iPureIntro|done].
      unfold bl_empty. cbn [bl_tail bl_head]. rewrite Hta Htb !last_loc_nil.
      split_and!; try done; apply bool_decide_false; congruence.
    - intros [a' b']. cbn [fst snd]. iIntros "[%Hx' H]". destruct Hx' as (?&?&?&?).
      repeat (iSplit; [done|]). by rewrite plain_flist2.
  Qed.
  (*@ C24_refuted popping the only element leaves tail_ pointing at the freed node:
     the list is empty but empty() answers false and push_back writes to freed memory. *)
  Lemma bl_pop_front_last b l v :
    runs (is_blist b [(l, v : V)]) (bl_pop_front b)
      (λ b' h, bl_tail b' = Some l ∧ h !! l = None ∧ bl_empty b' = false ∧
               is_flist (bl_head b) [] h).
  Proof.
    eapply (runs_from _ _ _ _ (λ b', ⌜bl_tail b' = Some l ∧ l ≠ bl_head b ∧ bl_empty b' = false⌝ ∧
              flist (bl_head b) [])%I); [bpre| |].
    - iIntros "[%Ht H]". iDestruct (flist_nodup with "H") as %Hnd. unfold bl_pop_front.
      simpl in Hnd. apply NoDup_cons in Hnd as [Hin _].
      apply not_elem_of_cons in Hin as [Hne _].
      iDestruct "H" as "(Hh&Hl&H)". wstep.
      iApply (wp_unlink_next with "Hh Hl"). iIntros "Hh Hl". wstep.
      iApply (wp_delete_node with "Hl").
      assert (bl_empty b = false) as He.
      { unfold bl_empty. rewrite Ht last_loc_cons last_loc_nil.
        apply bool_decide_false. congruence. }
      rewrite He. wstep. iSplit; [done|]. unfold flist. simpl. iFrame.
    - intros b'. iIntros "[%Hx H]". destruct Hx as (Ht&Hne&He). iSplit; [done|].
      iAssert (Sep.plain (λ h : gmap loc (cell V), h !! l = None ∧ is_flist (bl_head b) [] h)) with "[H]" as "H".
      { iStopProof. apply hentails_intro. intros σ Hσ. apply plain_holds.
        unfold flist in Hσ. apply (cells_holds [(bl_head b, Hdr)]) in Hσ as [Hnd ->].
        split; [|split; done]. simpl. by rewrite lookup_insert_ne. }
      iStopProof. apply hentails_intro. intros σ Hσ.
      apply plain_holds. destruct (proj1 (plain_holds _ _) Hσ) as [H1 H2]. split_and!; done.
  Qed.
  (*@ C24_refuted reverse of an empty list makes tail_ null. *)
  Lemma bl_reverse_empty fuel b :
    0 < fuel →
    runs (is_blist (V:=V) b []) (bl_reverse fuel b)
      (λ b' h, bl_tail b' = None ∧ is_flist (bl_head b) [] h).
  Proof.
    intros Hf. eapply (runs_from _ _ _ _ (λ b', ⌜bl_tail b' = None⌝ ∧ flist (bl_head b) [])%I); [bpre| |].
    - iIntros "[%Ht H]". unfold bl_reverse. wstep.
      iApply (wp_fl_begin with "H"). iIntros "H". wstep.
      iApply (wp_wand with "[H]"); [by iApply (wp_fl_reverse with "H")|].
      iIntros (_) "H". wstep. by iSplit.
    - intros b'. iIntros "[% H]". iSplit; [done|]. by rewrite plain_flist.
  Qed.
  (*@ C24_refuted a range insertion at the last position copies the values but does
     not move tail_: it stays on the former last node. *)
  Lemma bl_insert_after_range_last b (xs : list (loc * V)) vs :
    runs (is_blist b xs) (bl_insert_after_ext b (bl_before_end b) vs)
      (λ b' h, ∃ ys, ys.*2 = vs ∧ bl_head b' = bl_head b ∧
         bl_tail b' = Some (last_loc (bl_head b) xs) ∧ is_flist (bl_head b) (xs ++ ys) h).
  Proof.
    eapply (runs_from _ _ _ _ (λ b', ∃ ys, ⌜ys.*2 = vs⌝ ∧ ⌜bl_head b' = bl_head b⌝ ∧
         ⌜bl_tail b' = Some (last_loc (bl_head b) xs)⌝ ∧ flist (bl_head b) (xs ++ ys))%I); [bpre| |].
    - iIntros "[%Ht H]". unfold bl_before_end. rewrite Ht -pos_at_last.
      iApply (wp_wand with "[H]").
      { iApply wp_bl_insert_after_ext; [done|]. by iFrame. }
      iIntros (b') "H". iDestruct "H" as (ys Hys Hh Ht') "H". iExists ys.
      rewrite take_ge // drop_ge // app_nil_r Ht' Ht pos_at_last. repeat (iSplit; [done|]). done.
    - intros b'. iIntros "H". iDestruct "H" as (ys Hys Hh Ht) "H". iExists ys.
      repeat (iSplit; [done|]). by rewrite plain_flist.
  Qed.
  (*@ C24_refuted copy construction copies the values but leaves tail_ on the header,
     so that the copy reports empty() and its push_back prepends. *)
  Lemma bl_copy_run fuel other (xs : list (loc * V)) :
    length xs < fuel →
    runs (is_flist (bl_head other) xs) (bl_copy fuel other)
      (λ b h, ∃ zs, zs.*2 = xs.*2 ∧ bl_tail b = Some (bl_head b) ∧
         both (is_flist (bl_head b) zs) (is_flist (bl_head other) xs) h).
  Proof.
    intros Hf. eapply runs_from; [rewrite flist_holds; reflexivity|by eapply wp_bl_copy|].
    intros b'. iIntros "H". iDestruct "H" as (zs Hzs Ht) "H". iExists zs.
    repeat (iSplit; [done|]). by rewrite plain_flist2.
  Qed.
  (*@ C24_refuted the same for assignment. *)
  Lemma bl_assign_from_run fuel b other (xs ys : list (loc * V)) :
    length xs < fuel → length ys < fuel →
    runs (both (is_flist (bl_head b) xs) (is_flist (bl_head other) ys)) (bl_assign_from fuel b other)
      (λ b' h, ∃ zs, zs.*2 = ys.*2 ∧ bl_tail b' = Some (bl_head b') ∧
         both (is_flist (bl_head b') zs) (is_flist (bl_head other) ys) h).
  Proof.
    intros Hf Hf2. eapply runs_from; [rewrite plain_both !flist_holds; reflexivity|by eapply wp_bl_assign_from|].
    intros b'. iIntros "H". iDestruct "H" as (zs Hzs Hh Ht) "H". iExists zs. rewrite Hh.
    repeat (iSplit; [done|]). by rewrite plain_flist2.
  Qed.
  (*@ C07_refuted assigning a backward_list to itself empties it. *)
  Lemma bl_self_assign fuel b (xs : list (loc * V)) :
    length xs < fuel →
    runs (is_blist b xs) (bl_assign_from fuel b b)
      (λ b' h, bl_head b' = bl_head b ∧ is_blist b' [] h).
  Proof.
    intros Hf. eapply (runs_from _ _ _ (flist (bl_head b) xs)); [rewrite blist_holds; by iIntros "[_ H]"|by eapply wp_bl_assign_self|].
    intros b'. iIntros "[% H]". iSplit; [done|]. by rewrite plain_blist.
  Qed.
End backward.
