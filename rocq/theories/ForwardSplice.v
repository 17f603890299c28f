(** forward_list::splice_after inside one list, and its behaviour on an empty
    source; self-assignment. Proof file. *)
From Verif Require Export ForwardProofs.

Section splice.
  Context {V : Type} `{Allocator (cell V)}.
  Notation C := (cell V).
  Notation iProp := (bi_car (hpropI C)).
  Implicit Types (xs ys : list (loc * V)) (this : loc) (v : V)
    (ns ms A B : list (loc * slot V)) (s : slot V) (q : ptr).

  Lemma flist_split this xs :
    ∃ ns l s, pos_at this xs (length xs) = Some l ∧
      (∀ ys, flist this (xs ++ ys) = cells (ns ++ (l,s) :: live ys) None) ∧
      (∀ ys, pos_at this (xs ++ ys) (length xs) = Some l).
  Proof.
    destruct (flist_at this xs (length xs)) as (ns&l&s&Hp&Hys&_&_&Hloc); [done|].
    exists ns, l, s. rewrite take_ge in Hys; [|done]. rewrite take_ge in Hloc; [|done].
    split_and!; [done|done|]. intros ys.
    unfold pos_at in *. rewrite -{}Hp.
    rewrite fmap_app app_comm_cons lookup_app_l; [done|]. simpl. rewrite fmap_length. lia.
  Qed.

  Lemma wp_splice1_fwd ns l s A o so n sn B q :
    cells (ns ++ (l,s) :: A ++ (o,so) :: (n,sn) :: B) q ⊢
    wp (splice_after1 (V:=V) (Some l) (Some o)) (λ _,
      cells (ns ++ (l,s) :: (n,sn) :: A ++ (o,so) :: B) q).
  Proof.
    iIntros "H". iDestruct (cells_focus with "H") as "(H1&Hl&H)".
    iDestruct (cells_focus with "H") as "(HA&Ho&Hn&HB)".
    unfold splice_after1. wstep. iApply (wp_get_next with "Ho"). iIntros "Ho". simpl.
    wstep. iApply (wp_get_next with "Hn"). iIntros "Hn".
    wstep. iApply (wp_set_next with "Ho"). iIntros "Ho".
    wstep. iApply (wp_get_next with "Hl"). iIntros "Hl".
    wstep. iApply (wp_set_next with "Hn"). iIntros "Hn". simpl.
    iApply (wp_set_next with "Hl"). iIntros "Hl". simpl.
    rewrite cells_focus. rewrite cells_cons cells_focus !first_app /=. iFrame.
  Qed.
  Lemma wp_splice1_bwd ns l s A o so n sn B q :
    cells (ns ++ (o,so) :: (n,sn) :: A ++ (l,s) :: B) q ⊢
    wp (splice_after1 (V:=V) (Some l) (Some o)) (λ _,
      cells (ns ++ (o,so) :: A ++ (l,s) :: (n,sn) :: B) q).
  Proof.
    iIntros "H". iDestruct (cells_focus with "H") as "(H1&Ho&Hn&H)".
    iDestruct (cells_focus with "H") as "(HA&Hl&HB)".
    unfold splice_after1. wstep. iApply (wp_get_next with "Ho"). iIntros "Ho". simpl.
    wstep. iApply (wp_get_next with "Hn"). iIntros "Hn".
    wstep. iApply (wp_set_next with "Ho"). iIntros "Ho".
    wstep. iApply (wp_get_next with "Hl"). iIntros "Hl".
    wstep. iApply (wp_set_next with "Hn"). iIntros "Hn". simpl.
    iApply (wp_set_next with "Hl"). iIntros "Hl". simpl.
    rewrite cells_focus. rewrite cells_focus !first_app /=. iFrame.
  Qed.
  Lemma wp_splice2_fwd fuel ns l s A o so ms B q :
    length ms < fuel → ms ≠ [] → first B q ∉ Some <$> ms.*1 →
    cells (ns ++ (l,s) :: A ++ (o,so) :: ms ++ B) q ⊢
    wp (splice_after2 (V:=V) fuel (Some l) (Some o) (first B q)) (λ _,
      cells (ns ++ (l,s) :: ms ++ A ++ (o,so) :: B) q).
  Proof.
    iIntros (Hf Hne Hlst) "H". iDestruct (cells_focus with "H") as "(H1&Hl&H)".
    iDestruct (cells_focus with "H") as "(HA&Ho&H)".
    iDestruct (cells_app with "H") as "[Hms HB]".
    unfold splice_after2.
    wstep. iApply (wp_get_next with "Hl"). iIntros "Hl".
    wstep. iApply (wp_get_next with "Ho"). iIntros "Ho". simpl.
    wstep. iApply (wp_set_next with "Hl"). iIntros "Hl". simpl.
    iApply (wp_splice_walk fuel o so ms with "[Ho Hms]"); [done|done| |].
    { simpl. rewrite first_app. iFrame. }
    iIntros (l' s' ms' Heq) "Hms". rewrite -Heq.
    iDestruct "Hms" as "[Ho Hms]".
    iApply (wp_set_next with "Ho"). iIntros "Ho". simpl.
    rewrite cells_focus cells_app cells_focus !first_app /=. iFrame.
    by destruct ms as [|[]].
  Qed.
  Lemma wp_splice2_bwd fuel ns l s A o so ms B q :
    length ms < fuel → ms ≠ [] → first (A ++ (l,s) :: B) q ∉ Some <$> ms.*1 →
    cells (ns ++ (o,so) :: ms ++ A ++ (l,s) :: B) q ⊢
    wp (splice_after2 (V:=V) fuel (Some l) (Some o) (first (A ++ (l,s) :: B) q)) (λ _,
      cells (ns ++ (o,so) :: A ++ (l,s) :: ms ++ B) q).
  Proof.
    iIntros (Hf Hne Hlst) "H". iDestruct (cells_focus with "H") as "(H1&Ho&H)".
    iDestruct (cells_app with "H") as "[Hms H]".
    iDestruct (cells_focus with "H") as "(HA&Hl&HB)".
    unfold splice_after2.
    wstep. iApply (wp_get_next with "Hl"). iIntros "Hl".
    wstep. iApply (wp_get_next with "Ho"). iIntros "Ho". simpl.
    wstep. iApply (wp_set_next with "Hl"). iIntros "Hl". simpl.
    iApply (wp_splice_walk fuel o so ms with "[Ho Hms]"); [done|done| |].
    { simpl. rewrite !first_app. iFrame. }
    iIntros (l' s' ms' Heq) "Hms". rewrite -Heq.
    iDestruct "Hms" as "[Ho Hms]".
    iApply (wp_set_next with "Ho"). iIntros "Ho". simpl.
    rewrite cells_focus cells_focus cells_app !first_app /=. iFrame.
    by destruct ms as [|[]].
  Qed.

  Lemma pos_at_app this xs ys j :
    j ≤ length xs → pos_at this (xs ++ ys) j = pos_at this xs j.
  Proof.
    intros Hj. unfold pos_at. rewrite fmap_app app_comm_cons lookup_app_l; [done|].
    simpl. rewrite fmap_length. lia.
  Qed.
  Lemma pos_at_inj this xs i j :
    NoDup (this :: xs.*1) → i ≤ length xs → pos_at this xs i = pos_at this xs j → i = j.
  Proof.
    intros Hnd Hi Heq. unfold pos_at in Heq.
    destruct (lookup_lt_is_Some_2 (this :: xs.*1) i) as [l Hl].
    { simpl. rewrite fmap_length. lia. }
    rewrite Hl in Heq. symmetry in Heq. eapply NoDup_lookup; eauto.
  Qed.

  Lemma flist_split2 this xs1 xs2 :
    xs2 ≠ [] →
    ∃ ns l s A o so,
      (∀ ys, pos_at this (xs1 ++ ys) (length xs1) = Some l) ∧
      (∀ ys, pos_at this (xs1 ++ xs2 ++ ys) (length xs1 + length xs2) = Some o) ∧
      (∀ ys, flist this (xs1 ++ ys) = cells (ns ++ (l,s) :: live ys) None) ∧
      live xs2 = A ++ [(o,so)].
  Proof.
    intros Hne. destruct (flist_split this xs1) as (ns&l&s&_&Hys&Hp).
    destruct (exists_last Hne) as (xs2'&[o w]&->).
    exists ns, l, s, (live xs2'), o, (Live w). split_and!; [done| |done|by rewrite live_app].
    intros ys. rewrite assoc_L pos_at_app; [|rewrite !app_length; lia].
    rewrite app_length /=.
    replace (length xs1 + (length xs2' + 1)) with (S (length (xs1 ++ xs2')))
      by (rewrite app_length; lia).
    apply (pos_at_elem _ _ _ o w). rewrite assoc_L. by rewrite list_lookup_middle.
  Qed.

  Lemma wp_fl_splice_one_fwd this xs1 xs2 l v xs3 :
    xs2 ≠ [] →
    flist this (xs1 ++ xs2 ++ (l,v) :: xs3) ⊢
    wp (fl_splice_one (pos_at this (xs1 ++ xs2 ++ (l,v) :: xs3) (length xs1))
          (pos_at this (xs1 ++ xs2 ++ (l,v) :: xs3) (length xs1 + length xs2))) (λ _,
      flist this (xs1 ++ (l,v) :: xs2 ++ xs3)).
  Proof.
    iIntros (Hne) "H". iDestruct (flist_nodup with "H") as %Hnd.
    unfold fl_splice_one. destruct (decide _) as [Heq|_].
    { exfalso. symmetry in Heq. apply pos_at_inj in Heq; [|done|rewrite !app_length /=; lia].
      destruct xs2; simpl in *; [done|lia]. }
    destruct (flist_split2 this xs1 xs2 Hne) as (ns&p&s&A&o&so&Hp&Ho&Hys&HA).
    rewrite Hp Ho !Hys !live_app !live_cons live_app HA -!app_assoc /=.
    iApply (wp_splice1_fwd with "H").
  Qed.
  Lemma wp_fl_splice_one_bwd this xs1 xs2 l v xs3 :
    xs2 ≠ [] →
    flist this (xs1 ++ (l,v) :: xs2 ++ xs3) ⊢
    wp (fl_splice_one (pos_at this (xs1 ++ (l,v) :: xs2 ++ xs3) (length xs1 + 1 + length xs2))
          (pos_at this (xs1 ++ (l,v) :: xs2 ++ xs3) (length xs1))) (λ _,
      flist this (xs1 ++ xs2 ++ (l,v) :: xs3)).
  Proof.
    iIntros (Hne) "H". iDestruct (flist_nodup with "H") as %Hnd.
    unfold fl_splice_one. destruct (decide _) as [Heq|_].
    { exfalso. apply pos_at_inj in Heq; [|done|rewrite !app_length /=; lia]. lia. }
    destruct (flist_split2 this xs1 ((l,v)::xs2)) as (ns&p&s&A&o&so&Hp&Ho&Hys&HA); [done|].
    specialize (Ho xs3). simpl in Ho.
    replace (length xs1 + 1 + length xs2) with (length xs1 + S (length xs2)) by lia.
    rewrite Hp Ho !Hys !live_cons !live_app live_cons.
    destruct (exists_last Hne) as (xs2'&[o' w]&->).
    rewrite live_cons live_app in HA.
    change (live [(o',w)]) with [(o', Live w)] in *.
    rewrite app_comm_cons in HA. apply app_inj_tail in HA as [<- [= <- <-]].
    rewrite live_app. change (live [(o',w)]) with [(o', Live w)]. rewrite -!app_assoc /=.
    iApply (wp_splice1_bwd with "H").
  Qed.
  (** it == pos: nothing happens. *)
  Lemma fl_splice_one_same p : fl_splice_one (V:=V) p p = ret tt.
  Proof. unfold fl_splice_one. by rewrite decide_True. Qed.

  (** An empty source list truncates the destination and loses its tail. *)
  Lemma wp_fl_splice_all_empty fuel this other xs i :
    i ≤ length xs → 0 < fuel →
    flist this xs ∗ flist other [] ⊢
    wp (fl_splice_all fuel (pos_at this xs i) other) (λ _,
      flist this (take i xs) ∗ flist other [] ∗ cells (live (drop i xs)) None).
  Proof.
    iIntros (Hi Hf) "[H [Ho _]]". destruct fuel as [|fuel]; [lia|].
    destruct (flist_at this xs i) as (ns1&p&s&->&Hys&Heq&_); [lia|].
    rewrite Heq. unfold fl_splice_all, splice_after2. cbn [loop]. simpl.
    iDestruct (cells_focus with "H") as "(H1&Hl&H2)".
    wstep. iApply (wp_get_next with "Hl"). iIntros "Hl".
    wstep. iApply (wp_get_next with "Ho"). iIntros "Ho". simpl.
    wstep. iApply (wp_set_next with "Hl"). iIntros "Hl". simpl.
    wstep. wstep. wstep. iApply (wp_get_next with "Ho"). iIntros "Ho". cbn [next first].
    dec_false. wsteps. iApply (wp_set_next with "Ho"). iIntros "Ho". simpl.
    iApply (wp_set_next with "Ho"). iIntros "Ho". simpl.
    specialize (Hys []). rewrite app_nil_r in Hys. rewrite Hys cells_focus. simpl. iFrame.
  Qed.

  (** Self-assignment empties the list. *)
  Lemma wp_fl_assign_self fuel this xs :
    length xs < fuel →
    flist this xs ⊢ wp (fl_assign_from fuel this this) (λ _, flist this []).
  Proof.
    iIntros (Hf1) "H". unfold fl_assign_from. wstep.
    iApply (wp_wand with "[H]"); [by iApply (wp_fl_clear with "H")|]. iIntros (_) "H".
    wstep. iApply (wp_fl_begin with "H"). iIntros "H". wstep.
    unfold fl_insert_after_its. destruct fuel; [lia|]. cbn [loop]. wstep.
    dec_false. wsteps. done.
  Qed.

  (** *** a range of the list itself *)
  Lemma pos_at_len this xs ys : pos_at this (xs ++ ys) (S (length xs)) = first ys None.
  Proof. by rewrite pos_at_S drop_app. Qed.
  Lemma first_not_in xs ys this : NoDup (this :: (xs ++ ys).*1) → first ys None ∉ Some <$> xs.*1.
  Proof.
    intros Hnd. rewrite fmap_app in Hnd. apply not_elem_of_opt. intros l Hl Hin.
    apply NoDup_cons in Hnd as [_ Hnd]. apply NoDup_app in Hnd as (_&Hd&_). apply (Hd l Hin).
    destruct ys as [|[]]; [done|]. injection Hl as <-. constructor.
  Qed.
  Lemma wp_fl_splice_range_fwd fuel this xs1 xs2 zs xs3 :
    xs2 ≠ [] → zs ≠ [] → length zs < fuel →
    flist this (xs1 ++ xs2 ++ zs ++ xs3) ⊢
    wp (fl_splice_range fuel (pos_at this (xs1 ++ xs2 ++ zs ++ xs3) (length xs1))
          (pos_at this (xs1 ++ xs2 ++ zs ++ xs3) (length xs1 + length xs2)) (first xs3 None)) (λ _,
      flist this (xs1 ++ zs ++ xs2 ++ xs3)).
  Proof.
    iIntros (Hne Hz Hf) "H". iDestruct (flist_nodup with "H") as %Hnd. unfold fl_splice_range.
    destruct (flist_split2 this xs1 xs2 Hne) as (ns&p&s&A&o&so&Hp&Ho&Hys&HA).
    rewrite Hp Ho !Hys !live_app HA -!app_assoc -(first_live xs3).
    iApply (wp_splice2_fwd with "H"); [by rewrite live_length|by destruct zs|].
    rewrite first_live live_locs. apply (first_not_in zs xs3 this).
    rewrite !fmap_app in Hnd. rewrite fmap_app. apply NoDup_cons in Hnd as [Hn Hnd].
    apply NoDup_app in Hnd as (_&_&Hnd). apply NoDup_app in Hnd as (_&_&Hnd). constructor; [|done]. set_solver.
  Qed.
  Lemma wp_fl_splice_range_bwd fuel this xs1 zs xs2 xs3 :
    xs2 ≠ [] → zs ≠ [] → length zs < fuel →
    flist this (xs1 ++ zs ++ xs2 ++ xs3) ⊢
    wp (fl_splice_range fuel (pos_at this (xs1 ++ zs ++ xs2 ++ xs3) (length xs1 + length zs + length xs2))
          (pos_at this (xs1 ++ zs ++ xs2 ++ xs3) (length xs1)) (first (xs2 ++ xs3) None)) (λ _,
      flist this (xs1 ++ xs2 ++ zs ++ xs3)).
  Proof.
    iIntros (Hne Hz Hf) "H". iDestruct (flist_nodup with "H") as %Hnd. unfold fl_splice_range.
    destruct (flist_split2 this (xs1 ++ zs) xs2 Hne) as (_&_&_&A&o&so&_&Ho&_&HA).
    destruct (flist_split this xs1) as (ns&p&s&_&Hys&Hp).
    specialize (Ho xs3). rewrite app_length -app_assoc in Ho. rewrite Ho Hp !Hys !live_app HA -!app_assoc.
    rewrite -(first_live (xs2 ++ xs3)) live_app HA -!app_assoc. cbn [app].
    iApply (wp_splice2_bwd with "H"); [by rewrite live_length|by destruct zs|].
    assert (first (A ++ (o, so) :: live xs3) None = first (xs2 ++ xs3) None) as ->.
    { rewrite -(first_live (xs2 ++ xs3)) live_app HA -app_assoc. done. }
    rewrite live_locs. apply (first_not_in zs (xs2 ++ xs3) this).
    rewrite !fmap_app in Hnd. rewrite !fmap_app. apply NoDup_cons in Hnd as [Hn Hnd].
    apply NoDup_app in Hnd as (_&_&Hnd). constructor; [|done]. set_solver.
  Qed.

  (** in indices: the elements from [j] up to [m] go behind the first [i] ones *)
  Lemma move_fwd i j m xs : i ≤ j → j ≤ m → m ≤ length xs →
    xs = take i xs ++ take (j - i) (drop i xs) ++ take (m - j) (drop j xs) ++ drop m xs.
  Proof.
    intros Hij Hjm Hm. rewrite -{1}(take_drop i xs). f_equal.
    rewrite -{1}(take_drop (j - i) (drop i xs)) drop_drop. f_equal. replace (i + (j - i)) with j by lia.
    rewrite -{1}(take_drop (m - j) (drop j xs)) drop_drop. f_equal. f_equal. lia.
  Qed.
  Lemma wp_fl_move_range fuel this xs i j k :
    i ≤ length xs → S j ≤ k ≤ S (length xs) → (i < j ∨ k ≤ i) ∧ S j < k ∨ i = j ∧ k = S j → length xs < fuel →
    flist this xs ⊢
    wp (fl_splice_range fuel (pos_at this xs i) (pos_at this xs j) (pos_at this xs k)) (λ _,
      flist this (fmove i j (k - 1) xs)).
  Proof.
    iIntros (Hi Hjk Hc Hf) "H". destruct k as [|m]; [lia|]. rewrite pos_at_S /= Nat.sub_0_r.
    destruct Hc as [[[Hij|Hij] Hjm]|[-> [= ->]]].
    - unfold fmove. rewrite decide_True; [|lia].
      pose proof (move_fwd i j m xs) as E. specialize (E ltac:(lia) ltac:(lia) ltac:(lia)).
      set (xs1 := take i xs) in *. set (xs2 := take (j - i) (drop i xs)) in *.
      set (zs := take (m - j) (drop j xs)) in *. set (xs3 := drop m xs) in *.
      assert (length xs1 = i) as L1 by (unfold xs1; rewrite take_length; lia).
      assert (length xs2 = j - i) as L2 by (unfold xs2; rewrite take_length drop_length; lia).
      assert (length zs = m - j) as L3 by (unfold zs; rewrite take_length drop_length; lia).
      clearbody xs1 xs2 zs xs3. subst xs.
      replace i with (length xs1) at 1 by done. replace j with (length xs1 + length xs2) by lia.
      iApply (wp_fl_splice_range_fwd with "H"); [by intros ->; simpl in *; lia..|lia].
    - unfold fmove. rewrite decide_False; [|lia].
      pose proof (move_fwd j m i xs) as E. specialize (E ltac:(lia) ltac:(lia) ltac:(lia)).
      assert (drop m xs = take (i - m) (drop m xs) ++ drop i xs) as E'.
      { rewrite -{1}(take_drop (i - m) (drop m xs)) drop_drop. f_equal. f_equal. lia. }
      set (xs1 := take j xs) in *. set (xs2 := take (i - m) (drop m xs)) in *.
      set (zs := take (m - j) (drop j xs)) in *. set (xs3 := drop i xs) in *.
      assert (length xs1 = j) as L1 by (unfold xs1; rewrite take_length; lia).
      assert (length xs2 = i - m) as L2 by (unfold xs2; rewrite take_length drop_length; lia).
      assert (length zs = m - j) as L3 by (unfold zs; rewrite take_length drop_length; lia).
      rewrite E'. clearbody xs1 xs2 zs xs3. subst xs.
      replace i with (length xs1 + length zs + length xs2) at 1 by lia. replace j with (length xs1) by lia.
      iApply (wp_fl_splice_range_bwd with "H"); [by intros ->; simpl in *; lia..|lia].
    - unfold fmove. rewrite decide_True; [|lia]. rewrite Nat.sub_diag !take_0 !app_nil_l take_drop.
      destruct (flist_at this xs j) as (ns&l&s&->&Hys&Heq&_); [lia|]. destruct fuel as [|fuel]; [lia|].
      rewrite Heq -(first_live (drop j xs)). iDestruct (cells_focus with "H") as "(H1&Hl&H2)".
      unfold fl_splice_range, splice_after2. cbn [loop].
      wstep. iApply (wp_get_next with "Hl"). iIntros "Hl".
      wstep. iApply (wp_get_next with "Hl"). iIntros "Hl". simpl.
      wstep. iApply (wp_set_next with "Hl"). iIntros "Hl". simpl.
      wstep. wstep. wstep. iApply (wp_get_next with "Hl"). iIntros "Hl". cbn [next].
      dec_false. wsteps. iApply (wp_set_next with "Hl"). iIntros "Hl". simpl.
      iApply (wp_set_next with "Hl"). iIntros "Hl". simpl.
      rewrite cells_focus. iFrame.
  Qed.
  Lemma wp_fl_move_one this xs i j x :
    i ≤ length xs → xs !! j = Some x → i ≠ S j →
    flist this xs ⊢
    wp (fl_splice_one (pos_at this xs i) (pos_at this xs j)) (λ _, flist this (fmove i j (S j) xs)).
  Proof.
    iIntros (Hi Hx Hne) "H". pose proof (lookup_lt_Some _ _ _ Hx) as Hj. destruct x as [l v].
    destruct (decide (i = j)) as [->|Hij].
    { rewrite fl_splice_one_same. wstep. unfold fmove. rewrite decide_True; [|lia].
      rewrite Nat.sub_diag take_0 app_nil_l. replace (take (S j - j) (drop j xs) ++ drop (S j) xs) with (drop j xs).
      { by rewrite take_drop. }
      replace (S j - j) with 1 by lia. by rewrite (drop_S _ _ _ Hx). }
    assert (take (S j - j) (drop j xs) = [(l,v)]) as Ez.
    { replace (S j - j) with 1 by lia. by rewrite (drop_S _ _ _ Hx). }
    unfold fmove. destruct (decide (i ≤ j)) as [Hle|Hle].
    - pose proof (move_fwd i j (S j) xs) as E. specialize (E ltac:(lia) ltac:(lia) ltac:(lia)). rewrite Ez in E.
      rewrite Ez. set (xs1 := take i xs) in *. set (xs2 := take (j - i) (drop i xs)) in *. set (xs3 := drop (S j) xs) in *.
      assert (length xs1 = i) as L1 by (unfold xs1; rewrite take_length; lia).
      assert (length xs2 = j - i) as L2 by (unfold xs2; rewrite take_length drop_length; lia).
      clear Ez Hx. clearbody xs1 xs2 xs3. subst xs. cbn [app] in *.
      replace i with (length xs1) at 1 by done. replace j with (length xs1 + length xs2) by lia.
      iApply (wp_fl_splice_one_fwd with "H"). intros ->; simpl in *; lia.
    - pose proof (move_fwd j (S j) i xs) as E. specialize (E ltac:(lia) ltac:(lia) ltac:(lia)).
      replace (take (S j - j) (drop j xs)) with [(l,v)] in * by done.
      assert (drop (S j) xs = take (i - S j) (drop (S j) xs) ++ drop i xs) as E'.
      { rewrite -{1}(take_drop (i - S j) (drop (S j) xs)) drop_drop. f_equal. f_equal. lia. }
      set (xs1 := take j xs) in *. set (xs2 := take (i - S j) (drop (S j) xs)) in *. set (xs3 := drop i xs) in *.
      assert (length xs1 = j) as L1 by (unfold xs1; rewrite take_length; lia).
      assert (length xs2 = i - S j) as L2 by (unfold xs2; rewrite take_length drop_length; lia).
      clear Ez E' Hx. clearbody xs1 xs2 xs3. subst xs. cbn [app] in *.
      replace i with (length xs1 + 1 + length xs2) at 1 by lia. replace j with (length xs1) by lia.
      iApply (wp_fl_splice_one_bwd with "H"). intros ->; simpl in *; lia.
  Qed.
End splice.
