(** Segment-level specifications of the loops shared by the single-linked
    containers. Proof file. *)
From Verif Require Export SlistLogic.

Section ops.
  Context {V : Type} `{Allocator (cell V)}.
  Notation C := (cell V).
  Notation iProp := (bi_car (hpropI C)).
  Implicit Types (ns ms os : list (loc * slot V)) (xs ys : list (loc * V)) (q : ptr)
    (c : C) (s : slot V) (v : V) (r : vref V).

  Lemma nrefers_insert ns1 ms ns2 r v :
    nrefers (ns1 ++ ns2) r v → nrefers (ns1 ++ ms ++ ns2) r v.
  Proof. destruct r; simpl; [done|]. rewrite !elem_of_app. tauto. Qed.

  Lemma last_loc_cons l n v xs : last_loc l ((n, v) :: xs) = last_loc n xs.
  Proof.
    unfold last_loc. rewrite fmap_cons last_cons /=.
    by destruct (last xs.*1).
  Qed.
  Lemma last_loc_nil l : last_loc (V:=V) l [] = l.
  Proof. done. Qed.
  Lemma last_loc_app l xs ys : last_loc l (xs ++ ys) = last_loc (last_loc l xs) ys.
  Proof.
    unfold last_loc. rewrite fmap_app last_app. by destruct (last ys.*1).
  Qed.
  Lemma last_loc_snoc l xs n v : last_loc l (xs ++ [(n, v)]) = n.
  Proof. by rewrite last_loc_app last_loc_cons. Qed.


  Lemma wp_new_insert_k {A} ns1 l s ns2 q r v (k : ptr → M (gmap loc C) A) Q :
    nrefers (ns1 ++ (l,s) :: ns2) r v →
    cells (ns1 ++ (l,s) :: ns2) q -∗
    (∀ n, cells (ns1 ++ (l,s) :: (n, Live v) :: ns2) q -∗ wp (k (Some n)) Q) -∗
    wp (bind (new_node r) (λ x, bind (insert_after (Some l) x) k)) Q.
  Proof.
    iIntros (Hr) "Hns HQ". wstep. iApply (wp_new_node with "Hns"); [done|].
    iIntros (n) "Hns Hn". iDestruct (cells_focus with "Hns") as "(H1&Hl&H2)".
    wstep. iApply (wp_insert_after with "Hl Hn"). iIntros "Hl Hn". iApply "HQ".
    iApply cells_focus. simpl. iFrame.
  Qed.

  Lemma wp_insert_n ns1 l s ns2 q n r v :
    nrefers (ns1 ++ (l,s) :: ns2) r v →
    cells (ns1 ++ (l,s) :: ns2) q ⊢
    wp (fl_insert_after_n (Some l) n r) (λ p, ∃ ys,
      ⌜ys.*2 = replicate n v⌝ ∧ ⌜p = Some (last_loc l ys)⌝ ∧
      cells (ns1 ++ (l,s) :: live ys ++ ns2) q).
  Proof.
    revert ns1 l s. induction n as [|n IH]; iIntros (ns1 l s Hr) "Hns"; cbn [fl_insert_after_n].
    - wstep. iExists []. by iFrame.
    - iApply (wp_new_insert_k with "Hns"); [done|]. iIntros (x) "Hns".
      iApply (wp_wand with "[Hns]").
      { iApply (IH (ns1 ++ [(l,s)]) x (Live v)).
        - apply (nrefers_insert (ns1 ++ [(l,s)]) [(x,Live v)]).
          by rewrite -app_assoc.
        - by rewrite -app_assoc. }
      iIntros (p) "H". iDestruct "H" as (ys Hys ->) "H". iExists ((x,v)::ys).
      iSplit; [iPureIntro; simpl; by f_equal|]. iSplit; [by rewrite last_loc_cons|].
      by rewrite -app_assoc.
  Qed.

  Lemma wp_insert_ext ns1 l s ns2 q vs :
    cells (ns1 ++ (l,s) :: ns2) q ⊢
    wp (fl_insert_after_ext (Some l) vs) (λ p, ∃ ys,
      ⌜ys.*2 = vs⌝ ∧ ⌜p = Some (last_loc l ys)⌝ ∧
      cells (ns1 ++ (l,s) :: live ys ++ ns2) q).
  Proof.
    revert ns1 l s. induction vs as [|v vs IH]; iIntros (ns1 l s) "Hns"; cbn [fl_insert_after_ext].
    - wstep. iExists []. by iFrame.
    - iApply (wp_new_insert_k with "Hns"); [done|]. iIntros (x) "Hns".
      iApply (wp_wand with "[Hns]").
      { iApply (IH (ns1 ++ [(l,s)]) x (Live v)). by rewrite -app_assoc. }
      iIntros (p) "H". iDestruct "H" as (ys Hys ->) "H". iExists ((x,v)::ys).
      iSplit; [iPureIntro; simpl; by f_equal|]. iSplit; [by rewrite last_loc_cons|].
      by rewrite -app_assoc.
  Qed.

  (** Copying a range [xs] of other nodes that ends at [lst]. *)
  Lemma wp_insert_its fuel ns1 l s ns2 q xs lst :
    length xs < fuel → lst ∉ Some <$> xs.*1 →
    cells (ns1 ++ (l,s) :: ns2) q ∗ cells (live xs) lst ⊢
    wp (fl_insert_after_its fuel (Some l) (first xs lst) lst) (λ p, ∃ ys,
      ⌜ys.*2 = xs.*2⌝ ∧ ⌜p = Some (last_loc l ys)⌝ ∧
      cells (ns1 ++ (l,s) :: live ys ++ ns2) q ∗ cells (live xs) lst).
  Proof.
    unfold fl_insert_after_its. revert fuel ns1 l s.
    induction xs as [|[n v] xs IH]; iIntros (fuel ns1 l s Hf Hlst) "[Hns Hxs]";
      (destruct fuel as [|fuel]; [simpl in Hf; lia|]); cbn [loop].
    - wstep. rewrite decide_False; [|naive_solver]. wsteps. iExists []. by iFrame.
    - simpl in Hlst. apply not_elem_of_cons in Hlst as [Hne Hlst].
      simpl. wstep. rewrite decide_True; [|done]. wstep. wstep.
      iDestruct "Hxs" as "[Hn Hxs]".
      wstep. unfold new_node. wstep. iApply (wp_value_at with "Hn"). iIntros "Hn".
      wstep. wstep. wstep.
      wstep. iDestruct (cells_focus with "Hns") as "(H1&Hl&H2)".
      iApply (wp_insert_after with "Hl [$]"). iIntros "Hl Hx".
      wstep. iApply (wp_get_next with "Hn"). iIntros "Hn". wstep. simpl.
      iApply (wp_wand with "[H1 H2 Hl Hx Hxs]").
      { rewrite first_live. iApply (IH fuel (ns1 ++ [(l,s)]) l0 (Live v)); [simpl in *; lia|done|].
        iFrame. iApply cells_focus. rewrite cells_snoc. iFrame. }
      iIntros (p) "H". iDestruct "H" as (ys Hys ->) "[H Hxs]". iExists ((l0,v)::ys).
      iSplit; [iPureIntro; simpl; by f_equal|]. iSplit; [by rewrite last_loc_cons|].
      iFrame. by rewrite -app_assoc.
  Qed.

  Lemma wp_erase_after ns1 l s n v ns2 q :
    cells (ns1 ++ (l,s) :: (n, Live v) :: ns2) q ⊢
    wp (fl_erase_after (Some l)) (λ p,
      ⌜p = first ns2 q⌝ ∧ cells (ns1 ++ (l,s) :: ns2) q).
  Proof.
    iIntros "Hns". iDestruct (cells_focus with "Hns") as "(H1&Hl&Hn&H2)".
    unfold fl_erase_after. wstep. iApply (wp_unlink_next with "Hl Hn"). iIntros "Hl Hn".
    wstep. iApply (wp_delete_node with "Hn").
    iApply (wp_get_next with "Hl"). iIntros "Hl". iSplit; [done|].
    iApply cells_focus. iFrame.
  Qed.

  Lemma wp_erase_range fuel ns1 l s xs ns2 q :
    length xs < fuel → first ns2 q ∉ Some <$> xs.*1 →
    cells (ns1 ++ (l,s) :: live xs ++ ns2) q ⊢
    wp (fl_erase_after_range fuel (Some l) (first ns2 q)) (λ p,
      ⌜p = first ns2 q⌝ ∧ cells (ns1 ++ (l,s) :: ns2) q).
  Proof.
    unfold fl_erase_after_range. iIntros (Hf Hlst) "Hns". wstep.
    iApply (wp_wand _ (λ _, cells (ns1 ++ (l,s) :: ns2) q) with "[Hns]").
    - iStopProof. revert fuel Hf Hlst.
      induction xs as [|[n v] xs IH]; iIntros (fuel Hf Hlst) "Hns";
      (destruct fuel as [|fuel]; [simpl in Hf; lia|]); cbn [loop].
      + iDestruct (cells_focus with "Hns") as "(H1&Hl&H2)".
        wstep. wstep. iApply (wp_get_next with "Hl"). iIntros "Hl". simpl.
        rewrite decide_False; [|naive_solver]. wsteps. iApply cells_focus. iFrame.
      + simpl in Hlst. apply not_elem_of_cons in Hlst as [Hne Hlst].
        iDestruct (cells_focus with "Hns") as "(H1&Hl&Hn&H2)".
        wstep. wstep. iApply (wp_get_next with "Hl"). iIntros "Hl". simpl.
        rewrite decide_True; [|done].
        wstep. iApply (wp_unlink_next with "Hl Hn"). iIntros "Hl Hn".
        wstep. iApply (wp_delete_node with "Hn"). wstep.
        iApply IH; [simpl in *; lia|done|]. iApply cells_focus. iFrame.
    - iIntros (_) "Hns". iDestruct (cells_focus with "Hns") as "(H1&Hl&H2)".
      iApply (wp_get_next with "Hl"). iIntros "Hl". iSplit; [done|].
      iApply cells_focus. iFrame.
  Qed.

  Lemma wp_clear fuel l s xs :
    length xs < fuel →
    cells ((l,s) :: live xs) None ⊢ wp (fl_clear fuel l) (λ _, l ↦ Cell None s).
  Proof.
    unfold fl_clear. revert fuel.
    induction xs as [|[n v] xs IH]; iIntros (fuel Hf) "[Hl Hns]";
      (destruct fuel as [|fuel]; [simpl in Hf; lia|]); cbn [loop].
    - wstep. wstep. iApply (wp_get_next with "Hl"). iIntros "Hl". simpl. wsteps.
      iDestruct "Hns" as "_". done.
    - iDestruct "Hns" as "[Hn Hns]".
      wstep. wstep. iApply (wp_get_next with "Hl"). iIntros "Hl". simpl.
      wstep. iApply (wp_unlink_next with "Hl Hn"). iIntros "Hl Hn".
      wstep. iApply (wp_delete_node with "Hn"). wstep.
      iApply IH; [simpl in *; lia|]. iFrame.
  Qed.

  Lemma wp_reverse_loop fuel ns rs :
    length ns < fuel →
    cells ns None ∗ cells rs None ⊢
    wp (loop fuel (λ '(reversed, orig),
      match orig with
      | None => ret (inr reversed)
      | Some _ =>
          let n := orig in
          let! orig' := get_next n in
          set_next n reversed ;!
          ret (inl (n, orig'))
      end) (first rs None, first ns None)) (λ p,
      ⌜p = first (reverse ns ++ rs) None⌝ ∧ cells (reverse ns ++ rs) None).
  Proof.
    revert fuel rs.
    induction ns as [|[n v] ns IH]; iIntros (fuel rs Hf) "[Hns Hrev]";
      (destruct fuel as [|fuel]; [simpl in Hf; lia|]); cbn [loop]; simpl.
    - wsteps. iDestruct "Hns" as "_". by iFrame.
    - iDestruct "Hns" as "[Hn Hns]". wsteps.
      iApply (wp_get_next with "Hn"). iIntros "Hn". wstep. simpl.
      iApply (wp_set_next with "Hn"). iIntros "Hn". wsteps. simpl.
      rewrite reverse_cons -app_assoc /=.
      iApply (IH fuel ((n,v)::rs)); [simpl in *; lia|].
      simpl. iFrame.
  Qed.

  Lemma wp_reverse fuel l s ns :
    length ns < fuel →
    cells ((l,s) :: ns) None ⊢
    wp (reverse_nodes fuel (Some l)) (λ _, cells ((l,s) :: reverse ns) None).
  Proof.
    iIntros (Hf) "[Hl Hns]". unfold reverse_nodes.
    wstep. iApply (wp_get_next with "Hl"). iIntros "Hl". wstep. simpl.
    iApply (wp_wand with "[Hns]").
    { iApply (wp_reverse_loop fuel ns []); [done|]. iFrame. }
    rewrite app_nil_r.
    iIntros (p) "[-> Hns]". iApply (wp_set_next with "Hl"). iIntros "Hl". simpl. iFrame.
  Qed.

  Lemma wp_swap a b sa sb na nb :
    cells ((a,sa) :: na) None ∗ cells ((b,sb) :: nb) None ⊢
    wp (fl_swap (V:=V) a b) (λ _, cells ((a,sa) :: nb) None ∗ cells ((b,sb) :: na) None).
  Proof.
    iIntros "[[Ha Hna] [Hb Hnb]]". unfold fl_swap.
    wstep. iApply (wp_get_next with "Ha"). iIntros "Ha".
    wstep. iApply (wp_get_next with "Hb"). iIntros "Hb".
    wstep. iApply (wp_set_next with "Ha"). iIntros "Ha".
    iApply (wp_set_next with "Hb"). iIntros "Hb". simpl. iFrame.
  Qed.

  Lemma wp_equal (eqb : V → V → bool) fuel xs ys :
    length xs < fuel →
    cells (live xs) None ∗ cells (live ys) None ⊢
    wp (sl_equal eqb fuel (first xs None) None (first ys None) None) (λ b,
      ⌜b = true ↔ Forall2 (λ x y, eqb x y = true) xs.*2 ys.*2⌝ ∧
      cells (live xs) None ∗ cells (live ys) None).
  Proof.
    unfold sl_equal. revert fuel ys.
    induction xs as [|[n v] xs IH]; iIntros (fuel ys Hf) "[Hxs Hys]";
      (destruct fuel as [|fuel]; [simpl in Hf; lia|]); cbn [loop].
    - wstep. cbn [first]. destruct (decide _) as [[??]|_]; [done|]. wsteps. iFrame.
      iPureIntro. split; [|done]. destruct ys as [|[m w] ys]; cbn [first].
      + rewrite bool_decide_true; [|done]. split; [intros _; constructor|done].
      + rewrite bool_decide_false; [|naive_solver]. split; [done|]. by intros ?%Forall2_nil_inv_l.
    - destruct ys as [|[m w] ys].
      { wstep. cbn [first]. destruct (decide _) as [[??]|_]; [done|]. wsteps. iFrame.
        iPureIntro. split; [|done]. rewrite bool_decide_false; [|naive_solver]. split; [done|].
        by intros ?%Forall2_nil_inv_r. }
      wstep. cbn [first]. destruct (decide _) as [_|Hn]; [|naive_solver].
      iDestruct (cells_cons n (Live v) (live xs) with "Hxs") as "[Hn Hxs]".
      iDestruct (cells_cons m (Live w) (live ys) with "Hys") as "[Hm Hys]".
      wstep. iApply (wp_value_at with "Hn"). iIntros "Hn".
      wstep. iApply (wp_value_at with "Hm"). iIntros "Hm".
      cbn beta. destruct (eqb v w) eqn:Heq.
      + wstep. iApply (wp_get_next with "Hn"). iIntros "Hn".
        wstep. iApply (wp_get_next with "Hm"). iIntros "Hm".
        wsteps. simpl. rewrite !first_live.
        iApply (wp_wand with "[Hxs Hys]").
        { iApply (IH fuel ys); [simpl in *; lia|]. iFrame. }
        iIntros (b) "[%Hb [Hxs Hys]]". iFrame. iPureIntro. split; [|done]. rewrite Hb. split.
        * intros. by constructor.
        * by inversion 1.
      + wsteps. iFrame. iPureIntro. split; [|done]. split; [done|]. inversion 1; subst. congruence.
  Qed.

  (** *** splicing *)
  (** one element, between separate segments *)
  Lemma wp_splice1 ns1 l s ns2 q ms1 o so n sn ms2 q' :
    cells (ns1 ++ (l,s) :: ns2) q ∗ cells (ms1 ++ (o,so) :: (n,sn) :: ms2) q' ⊢
    wp (splice_after1 (V:=V) (Some l) (Some o)) (λ _,
      cells (ns1 ++ (l,s) :: (n,sn) :: ns2) q ∗ cells (ms1 ++ (o,so) :: ms2) q').
  Proof.
    iIntros "[Hns Hms]". iDestruct (cells_focus with "Hns") as "(H1&Hl&H2)".
    iDestruct (cells_focus with "Hms") as "(M1&Ho&Hn&M2)".
    unfold splice_after1. wstep. iApply (wp_get_next with "Ho"). iIntros "Ho". simpl.
    wstep. iApply (wp_get_next with "Hn"). iIntros "Hn".
    wstep. iApply (wp_set_next with "Ho"). iIntros "Ho".
    wstep. iApply (wp_get_next with "Hl"). iIntros "Hl".
    wstep. iApply (wp_set_next with "Hn"). iIntros "Hn". simpl.
    iApply (wp_set_next with "Hl"). iIntros "Hl". simpl.
    rewrite !cells_focus. simpl. iFrame.
  Qed.

  (** The walk of [splice_after(f, l)] to the last node before [lst]. *)
  Lemma wp_splice_walk {A} fuel f sf ms lst n (k : ptr → M (gmap loc C) A) Q :
    length ms < fuel → lst ∉ Some <$> ms.*1 →
    cells ((f,sf) :: ms) lst -∗
    (∀ l' s' ms', ⌜(f,sf) :: ms = ms' ++ [(l',s')]⌝ →
       cells (ms' ++ [(l',s')]) n -∗ wp (k (Some l')) Q) -∗
    wp (bind (loop fuel (λ o, let! on := get_next o in
      if decide (on ≠ lst) then ret (inl on) else ret (inr o)) (Some f))
      (λ o, set_next o n;! k o)) Q.
  Proof.
    iIntros (Hf Hlst) "Hns HQ". wstep.
    iApply (wp_wand _ (λ p, ∃ l' s' ms', ⌜p = Some l'⌝ ∧ ⌜(f,sf) :: ms = ms' ++ [(l',s')]⌝ ∧
      cells ((f,sf) :: ms) lst)%I with "[Hns]").
    - iStopProof. revert fuel f sf Hf Hlst.
      induction ms as [|[m sm] ms IH]; iIntros (fuel f sf Hf Hlst) "Hns";
        (destruct fuel as [|fuel]; [simpl in Hf; lia|]); cbn [loop].
      + iDestruct "Hns" as "[Hl _]".
        wstep. wstep. iApply (wp_get_next with "Hl"). iIntros "Hl". simpl.
        rewrite decide_False; [|naive_solver]. wsteps. iExists f, sf, []. simpl. by iFrame.
      + simpl in Hlst. apply not_elem_of_cons in Hlst as [Hne Hlst].
        iDestruct "Hns" as "[Hl Hns]".
        wstep. wstep. iApply (wp_get_next with "Hl"). iIntros "Hl". simpl.
        rewrite decide_True; [|done]. wsteps.
        iApply (wp_wand with "[Hns]").
        { iApply (IH with "Hns"); [simpl in *; lia|done]. }
        iIntros (p) "H". iDestruct "H" as (l' s' ms' -> Heq) "H".
        iExists l', s', ((f,sf)::ms'). iSplit; [done|]. iSplit.
        { iPureIntro. simpl. by f_equal. }
        iFrame.
    - iIntros (p) "H". iDestruct "H" as (l' s' ms' -> Heq) "H".
      rewrite Heq. iDestruct (cells_snoc with "H") as "[H1 H2]".
      wstep. iApply (wp_set_next with "H2"). iIntros "H2".
      iApply ("HQ" $! l' s' ms' eq_refl). iApply cells_snoc. iFrame.
  Qed.

  (** the elements [ms] strictly between [o] and the rest [ms2]; [ms] non-empty *)
  Lemma wp_splice2 fuel ns1 l s ns2 q ms1 o so ms ms2 q' :
    length ms < fuel → ms ≠ [] → first ms2 q' ∉ Some <$> ms.*1 →
    cells (ns1 ++ (l,s) :: ns2) q ∗ cells (ms1 ++ (o,so) :: ms ++ ms2) q' ⊢
    wp (splice_after2 (V:=V) fuel (Some l) (Some o) (first ms2 q')) (λ _,
      cells (ns1 ++ (l,s) :: ms ++ ns2) q ∗ cells (ms1 ++ (o,so) :: ms2) q').
  Proof.
    iIntros (Hf Hne Hlst) "[Hns Hms]". iDestruct (cells_focus with "Hns") as "(H1&Hl&H2)".
    iDestruct (cells_focus with "Hms") as "(M1&Ho&Hms)".
    iDestruct (cells_app with "Hms") as "[Hms M2]".
    unfold splice_after2.
    wstep. iApply (wp_get_next with "Hl"). iIntros "Hl".
    wstep. iApply (wp_get_next with "Ho"). iIntros "Ho". simpl.
    wstep. iApply (wp_set_next with "Hl"). iIntros "Hl". simpl.
    rewrite first_app.
    iApply (wp_splice_walk with "[Ho Hms]"); [done|done| |].
    { simpl. iFrame. }
    iIntros (l' s' ms' Heq) "Hms". rewrite -Heq.
    iDestruct "Hms" as "[Ho Hms]".
    iApply (wp_set_next with "Ho"). iIntros "Ho". simpl.
    rewrite !cells_focus cells_app first_app. iFrame.
    by destruct ms as [|[]].
  Qed.
End ops.
