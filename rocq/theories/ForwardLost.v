(** forward_list: what splice_after leaves behind when the range is empty or already in place
    (C23). Proof file. *)
From Verif Require Import ForwardHistory ForwardSplice SepHangs.
From iris.proofmode Require Import tactics.

Section lost.
  Context {V : Type} `{Allocator (cell V)}.
  Notation C := (cell V).
  Notation heap := (gmap loc C).
  Notation iProp := (bi_car (hpropI C)).
  Implicit Types (xs ys ks bs : list (loc * V)) (this other : loc) (v : V)
    (ns ms A B : list (loc * slot V)) (s : slot V) (q : ptr).

  Lemma list_heap_dom_set ns q : dom (list_heap (V:=V) ns q) = list_to_set ns.*1.
  Proof.
    induction ns as [|[l s] ns IH]; simpl; [by rewrite dom_empty_L|]. by rewrite dom_insert_L IH.
  Qed.
  Lemma cells_dom_plain xs q : cells (live xs) q ⊢ Sep.plain (λ h' : heap, dom h' = list_to_set xs.*1).
  Proof.
    apply hentails_intro. intros σ [_ ->]%cells_holds. apply plain_holds. by rewrite list_heap_dom_set live_locs.
  Qed.
  (** the elements up to [i], those from [i] up to [j], and the others *)
  Lemma split_at i j xs : i ≤ j → j ≤ length xs → xs = take i xs ++ take (j - i) (drop i xs) ++ drop j xs.
  Proof.
    intros Hij Hj. rewrite -{1}(take_drop i xs). f_equal. rewrite -{1}(take_drop (j - i) (drop i xs)) drop_drop.
    f_equal. f_equal. lia.
  Qed.

  Lemma split_last this xs : ∃ ns l s, (this, Hdr) :: live xs = ns ++ [(l,s)] ∧
    (∀ ys, pos_at this (xs ++ ys) (length xs) = Some l) ∧
    (∀ ys, flist this (xs ++ ys) = cells (ns ++ (l,s) :: live ys) None).
  Proof.
    destruct xs as [|[l v] xs _] using rev_ind.
    - exists [], this, Hdr. done.
    - exists ((this, Hdr) :: live xs), l, (Live v). split_and!.
      + by rewrite live_app.
      + intros ys. rewrite -app_assoc app_length /= Nat.add_1_r. apply (pos_at_elem _ _ _ _ v).
        by rewrite list_lookup_middle.
      + intros ys. unfold flist. by rewrite -app_assoc live_app.
  Qed.

  (** *** the element is already behind the position *)
  Lemma wp_fl_one_in_place this xs j l v : xs !! j = Some (l, v) →
    flist this xs ⊢ wp (fl_splice_one (pos_at this xs (S j)) (pos_at this xs j)) (λ _,
      flist this (take j xs ++ drop (S j) xs) ∗ l ↦ Cell (Some l) (Live v)).
  Proof.
    iIntros (Hx) "H". pose proof (lookup_lt_Some _ _ _ Hx) as Hj. iDestruct (flist_nodup with "H") as %Hnd.
    unfold fl_splice_one. destruct (decide _) as [Heq|_].
    { exfalso. apply pos_at_inj in Heq; [lia|done|lia]. }
    rewrite (pos_at_elem _ _ _ _ _ Hx). destruct (flist_at this xs j) as (ns&o&so&->&Hys&Heq&_); [lia|].
    rewrite Heq (drop_S _ _ _ Hx) live_cons Hys. iDestruct (cells_focus with "H") as "(H1&Ho&Hl&HB)".
    unfold splice_after1. wstep. iApply (wp_get_next with "Ho"). iIntros "Ho". simpl.
    wstep. iApply (wp_get_next with "Hl"). iIntros "Hl".
    wstep. iApply (wp_set_next with "Ho"). iIntros "Ho".
    wstep. iApply (wp_get_next with "Hl"). iIntros "Hl".
    wstep. iApply (wp_set_next with "Hl"). iIntros "Hl". simpl.
    iApply (wp_set_next with "Hl"). iIntros "Hl". simpl.
    rewrite cells_focus. iFrame.
  Qed.
  (** *** the range is already behind the position *)
  Lemma wp_fl_range_in_place fuel this xs j k : S j < k ≤ S (length xs) → length xs < fuel →
    flist this xs ⊢
    wp (fl_splice_range fuel (pos_at this xs j) (pos_at this xs j) (pos_at this xs k)) (λ _,
      flist this (take j xs ++ drop (k - 1) xs) ∗
      Sep.plain (λ h', dom h' = list_to_set ((take (k - 1 - j) (drop j xs)).*1))).
  Proof.
    iIntros (Hjk Hf) "H". iDestruct (flist_nodup with "H") as %Hnd. destruct k as [|m]; [lia|]. rewrite pos_at_S /= Nat.sub_0_r.
    assert (drop j xs = take (m - j) (drop j xs) ++ drop m xs) as E.
    { rewrite -{1}(take_drop (m - j) (drop j xs)) drop_drop. f_equal. f_equal. lia. }
    destruct (flist_at this xs j) as (ns&o&so&->&Hys&Heq&_&Hloc); [lia|].
    specialize (Hloc (drop j xs)). rewrite take_drop in Hloc. rewrite Heq {1}E Hys.
    assert (length (take (m - j) (drop j xs)) = m - j) as L by (rewrite take_length drop_length; lia).
    set (zs := take (m - j) (drop j xs)) in *. set (B := drop m xs) in *. rewrite E in Hloc.
    rewrite live_app. iDestruct (cells_focus with "H") as "(H1&Ho&H)". iDestruct (cells_app with "H") as "[Hz HB]".
    unfold fl_splice_range, splice_after2.
    wstep. iApply (wp_get_next with "Ho"). iIntros "Ho". simpl.
    wstep. iApply (wp_get_next with "Ho"). iIntros "Ho". simpl.
    wstep. iApply (wp_set_next with "Ho"). iIntros "Ho". simpl.
    iApply (wp_splice_walk fuel o so (live zs) with "[Ho Hz]"); [by rewrite live_length; lia| | |].
    { rewrite live_locs. apply (first_not_in zs B o). rewrite Hloc in Hnd. apply NoDup_app in Hnd as (_&_&Hnd). done. }
    { simpl. rewrite first_app !first_live. iFrame. }
    iIntros (l' s' ms' Heq') "Hms". rewrite -Heq'. iDestruct "Hms" as "[Ho Hms]".
    iApply (wp_set_next with "Ho"). iIntros "Ho". simpl. rewrite cells_focus first_live.
    iDestruct (cells_dom_plain with "Hms") as "$". iFrame.
  Qed.

  (** *** an empty range of the list itself *)
  Lemma wp_fl_none_behind fuel this xs i j : i < j ≤ length xs → 0 < fuel →
    flist this xs ⊢
    wp (fl_splice_range fuel (pos_at this xs i) (pos_at this xs j) (pos_at this xs (S j))) (λ _,
      flist this (take i xs ++ drop j xs) ∗
      Sep.plain (λ h', dom h' = list_to_set ((take (j - i) (drop i xs)).*1))).
  Proof.
    iIntros (Hij Hf) "H". rewrite pos_at_S. pose proof (split_at i j xs) as E. specialize (E ltac:(lia) ltac:(lia)).
    assert (length (take i xs) = i) as L1 by (rewrite take_length; lia).
    assert (length (take (j - i) (drop i xs)) = j - i) as L2 by (rewrite take_length drop_length; lia).
    set (xs1 := take i xs) in *. set (xs2 := take (j - i) (drop i xs)) in *. set (B := drop j xs) in *.
    clearbody xs1 xs2 B. subst xs.
    destruct (flist_split2 this xs1 xs2) as (ns&l&s&A&o&so&Hp&Ho&Hys&HA); [intros ->; simpl in *; lia|].
    rewrite -{1}L1 Hp. replace j with (length xs1 + length xs2) by lia. rewrite Ho !Hys live_app HA -app_assoc.
    destruct fuel as [|fuel]; [lia|]. cbn [app].
    iDestruct (cells_focus with "H") as "(H1&Hl&H)". iDestruct (cells_focus with "H") as "(HA&Ho&HB)".
    unfold fl_splice_range, splice_after2. cbn [loop].
    wstep. iApply (wp_get_next with "Hl"). iIntros "Hl".
    wstep. iApply (wp_get_next with "Ho"). iIntros "Ho". simpl.
    wstep. iApply (wp_set_next with "Hl"). iIntros "Hl". simpl.
    wstep. wstep. wstep. iApply (wp_get_next with "Ho"). iIntros "Ho". cbn [next]. rewrite first_live.
    dec_false. wsteps. iApply (wp_set_next with "Ho"). iIntros "Ho". simpl.
    iApply (wp_set_next with "Ho"). iIntros "Ho". simpl.
    rewrite cells_focus first_live. iFrame "H1 Hl HB".
    iApply (cells_dom_plain xs2 (first B None)). rewrite HA cells_snoc. iFrame.
  Qed.
  (** iterating a list that runs into a cycle *)
  Lemma ihangs_fl_contents fuel this (F : iProp) ks bs : bs ≠ [] →
    ihangs (cells ((this, Hdr) :: live ks) (first bs None) ∗ cells (live bs) (first bs None) ∗ F)
      (fl_contents fuel this).
  Proof.
    intros Hb. unfold fl_contents. set (q := first bs None).
    eapply (ihangs_wp _ _ _ (cells (live ks) q ∗ cells (live bs) q ∗ (this ↦ Cell (first ks q) Hdr ∗ F))%I (first ks q)).
    { iIntros (Q) "((Ht&H)&Hr&HF) HQ". unfold fl_begin. simpl.
      iApply (wp_get_next with "Ht"). iIntros "Ht". simpl. rewrite first_live. iApply "HQ". iFrame. }
    match goal with |- context [loop fuel ?body _] => set (bd := body) end.
    generalize (this ↦ Cell (first ks q) Hdr ∗ F)%I as G. clear F.
    generalize (@nil V) as acc. revert bs Hb q ks. induction fuel as [|fuel IH]; intros bs Hb q ks acc G; [done|].
    cbn [loop]. destruct ks as [|[l v] ks].
    - destruct bs as [|[l v] bs]; [done|]. subst q. cbn [first].
      eapply (ihangs_wp _ _ _ (cells (live []) (first (bs ++ [(l,v)]) None) ∗
        cells (live (bs ++ [(l,v)])) (first (bs ++ [(l,v)]) None) ∗ G)%I (inl (first (bs ++ [(l,v)]) None, acc ++ [v]))).
      + iIntros (Q) "(_&Hr&HF) HQ". rewrite live_cons. iDestruct (cells_cons with "Hr") as "[Hl Hr]".
        unfold bd. destruct (decide _) as [_|Hx]; [|by destruct Hx]. wstep.
        iApply (wp_value_at with "Hl"). iIntros "Hl". wstep. unfold it_incr. iApply (wp_get_next with "Hl").
        iIntros "Hl". wstep. simpl. rewrite first_live first_app. cbn [first]. iApply "HQ". iFrame "HF".
        rewrite live_app cells_app. cbn [live fmap list_fmap first cells]. iFrame.
      + apply IH. by destruct bs.
    - eapply (ihangs_wp _ _ _ (cells (live ks) q ∗ cells (live bs) q ∗ (l ↦ Cell (first ks q) (Live v) ∗ G))%I
        (inl (first ks q, acc ++ [v]))).
      + iIntros (Q) "(H&Hr&HF) HQ". rewrite live_cons. iDestruct (cells_cons with "H") as "[Hl H]". unfold bd.
        destruct (decide _) as [_|Hx]; [|by destruct Hx]. wstep.
        iApply (wp_value_at with "Hl"). iIntros "Hl". wstep. unfold it_incr. iApply (wp_get_next with "Hl").
        iIntros "Hl". wstep. simpl. rewrite first_live. iApply "HQ". iFrame.
      + by apply IH.
  Qed.
  Lemma ihangs_fl_none_before fuel fuel' this xs i j : j < i ≤ length xs → 0 < fuel →
    ihangs (flist this xs)
      (fl_splice_range fuel (pos_at this xs i) (pos_at this xs j) (pos_at this xs (S j)) ;! fl_contents fuel' this).
  Proof.
    intros Hij Hf. rewrite pos_at_S. pose proof (split_at j i xs) as E. specialize (E ltac:(lia) ltac:(lia)).
    assert (length (take j xs) = j) as L1 by (rewrite take_length; lia).
    assert (length (take (i - j) (drop j xs)) = i - j) as L2 by (rewrite take_length drop_length; lia).
    assert (drop j xs = take (i - j) (drop j xs) ++ drop i xs) as E'.
    { rewrite -{1}(take_drop (i - j) (drop j xs)) drop_drop. f_equal. f_equal. lia. }
    set (xs1 := take j xs) in *. set (xs2 := take (i - j) (drop j xs)) in *. set (B := drop i xs) in *. rewrite E'. clear E'.
    clearbody xs1 xs2 B. subst xs.
    destruct (flist_split2 this xs1 xs2) as (_&_&_&A&l&s&_&Ho&_&HA); [intros ->; simpl in *; lia|].
    destruct (split_last this xs1) as (ns&o&so&Hs&Hp&Hys).
    replace i with (length xs1 + length xs2) by lia. rewrite Ho. replace j with (length xs1) by lia. rewrite Hp.
    eapply (ihangs_wp _ _ _ (cells ((this, Hdr) :: live xs1) (first xs2 None) ∗ cells (live xs2) (first xs2 None) ∗
      cells (live B) None)%I tt).
    2:{ apply ihangs_fl_contents. intros ->; simpl in *; lia. }
    iIntros (Q) "H HQ". rewrite Hs cells_snoc.
    rewrite !Hys live_app HA -app_assoc.
    destruct fuel as [|fuel]; [lia|]. cbn [app].
    iDestruct (cells_focus with "H") as "(H1&Ho&H)". iDestruct (cells_focus with "H") as "(HA&Hl&HB)".
    unfold fl_splice_range, splice_after2. cbn [loop].
    wstep. iApply (wp_get_next with "Hl"). iIntros "Hl".
    wstep. iApply (wp_get_next with "Ho"). iIntros "Ho". simpl.
    wstep. iApply (wp_set_next with "Hl"). iIntros "Hl". simpl.
    assert (first (A ++ (l, s) :: live B) None = first xs2 None) as Hfst.
    { rewrite -(first_live xs2) HA !first_app. done. }
    assert (first (xs2 ++ B) None = first xs2 None) as ->.
    { rewrite first_app. destruct xs2 as [|[]]; [simpl in *; lia|done]. }
    wstep. wstep. wstep. iApply (wp_get_next with "Ho"). iIntros "Ho". cbn [next]. rewrite Hfst.
    dec_false. wsteps. iApply (wp_set_next with "Ho"). iIntros "Ho". simpl.
    iApply (wp_set_next with "Ho"). iIntros "Ho". simpl.
    iApply "HQ". rewrite cells_snoc. iFrame.
  Qed.

  (** *** an empty range of another list: from there on the two lists share their nodes *)
  Lemma wp_fl_none_other fuel this other xs ys i j : i ≤ length xs → j ≤ length ys → length xs + length ys < fuel →
    flist this xs ∗ flist other ys ⊢
    wp (fl_splice_range fuel (pos_at this xs i) (pos_at other ys j) (pos_at other ys (S j)) ;!
        let! cs := fl_contents fuel this in let! ds := fl_contents fuel other in ret (cs, ds))
      (λ r, ⌜r = ((take i xs).*2 ++ (drop j ys).*2, ys.*2)⌝ ∧ flist other ys ∗ True).
  Proof.
    iIntros (Hi Hj Hf) "[H Ho]". rewrite pos_at_S.
    assert (length (take i xs) = i) as L1 by (rewrite take_length; lia).
    assert (length (take j ys) = j) as L2 by (rewrite take_length; lia).
    pose proof (take_drop i xs) as E1. pose proof (take_drop j ys) as E2.
    destruct (split_last this (take i xs)) as (ns&l&s&Hs&Hp&Hys). rewrite L1 in Hp.
    destruct (split_last other (take j ys)) as (ms&o&so&Hs'&Hp'&Hys'). rewrite L2 in Hp'.
    specialize (Hp (drop i xs)). rewrite E1 in Hp. specialize (Hp' (drop j ys)). rewrite E2 in Hp'.
    pose proof (Hys (drop i xs)) as Hx. rewrite E1 in Hx. pose proof (Hys' (drop j ys)) as Hy. rewrite E2 in Hy.
    rewrite Hp Hp' Hx Hy. unfold fl_splice_range. wstep.
    iDestruct (cells_focus with "H") as "(H1&Hl&H2)". iDestruct (cells_focus with "Ho") as "(HA&Ho&HB)".
    destruct fuel as [|fuel]; [lia|]. unfold splice_after2. cbn [loop]. rewrite -(first_live (drop j ys)).
    wstep. iApply (wp_get_next with "Hl"). iIntros "Hl".
    wstep. iApply (wp_get_next with "Ho"). iIntros "Ho". simpl.
    wstep. iApply (wp_set_next with "Hl"). iIntros "Hl". simpl.
    wstep. wstep. wstep. iApply (wp_get_next with "Ho"). iIntros "Ho". cbn [next].
    dec_false. wsteps. iApply (wp_set_next with "Ho"). iIntros "Ho". simpl.
    iApply (wp_set_next with "Ho"). iIntros "Ho". simpl.
    iAssert (flist this (take i xs ++ drop j ys)) with "[H1 Hl HB]" as "H".
    { rewrite Hys cells_focus. iFrame. }
    wstep. iApply (wp_wand with "[H]").
    { iApply (wp_fl_contents with "H"). rewrite app_length take_length drop_length. lia. }
    iIntros (cs) "[-> H]". rewrite Hys. iDestruct (cells_focus with "H") as "(H1&Hl&HB)".
    iAssert (flist other ys) with "[HA Ho HB]" as "Ho".
    { rewrite Hy cells_focus. iFrame. }
    wstep. iApply (wp_wand with "[Ho]").
    { iApply (wp_fl_contents with "Ho"). lia. }
    iIntros (ds) "[-> Ho]". wstep. iSplit; [by rewrite fmap_app|]. rewrite -Hy. by iFrame.
  Qed.
End lost.
