(** list: what iterating finds after a splice of an empty range (C32). Proof file. *)
From Verif Require Import DlistHistory DlistAlias DlistSplice SepHangs.
From iris.proofmode Require Import tactics.

Section lost.
  Context {V : Type} `{Allocator (dcell V)}.
  Notation C := (dcell V).
  Notation heap := (gmap loc C).
  Notation iProp := (bi_car (hpropI C)).
  Notation node := (loc * dslot V)%type.
  Implicit Types (xs ks ys bs : list (loc * V)) (this other l : loc) (v : V) (a b z : list node).

  (** *** iterating a list that has been closed to a ring without its header *)
  Lemma ihangs_contents fuel this p (F : iProp) ks bs : bs ≠ [] →
    ihangs (seg p (DlistLogic.hd this :: dlive ks) (dfirst bs None) ∗ ring (dlive bs) ∗ F)
      (dl_contents fuel this).
  Proof.
    intros Hb. unfold dl_contents, dl_begin. set (q := dfirst bs None).
    eapply (ihangs_wp _ _ _ (this ↦ DCell p (dfirst ks q) DHdr ∗
      seg (Some this) (dlive ks) q ∗ ring (dlive bs) ∗ F)%I (dfirst ks q)).
    { iIntros (Q) "((Ht&H)&Hr&HF) HQ". simpl.
      iApply (wp_get_next with "Ht"). iIntros "Ht". simpl. rewrite dfirst_live. iApply "HQ". iFrame. }
    match goal with |- context [loop fuel ?body _] => set (bd := body) end.
    generalize (@nil V) as acc. generalize (Some this) at 1 as pp. generalize (dfirst ks q) at 1 as tn.
    revert F bs Hb q ks. induction fuel as [|fuel IH]; intros F bs Hb q ks tn pp acc; [done|].
    cbn [loop]. destruct ks as [|[l v] ks].
    - destruct bs as [|[l v] bs]; [done|]. subst q. cbn [dfirst].
      eapply (ihangs_wp _ _ _ (this ↦ DCell p tn DHdr ∗ seg pp (dlive []) (dfirst (bs ++ [(l,v)]) None) ∗
        ring (dlive (bs ++ [(l,v)])) ∗ F)%I (inl (dfirst (bs ++ [(l,v)]) None, acc ++ [v]))).
      + iIntros (Q) "(Ht&_&Hr&HF) HQ". rewrite dlive_cons. iDestruct (ring_cons with "Hr") as "[Hl Hr]".
        iDestruct (pto_ne with "[$Hl $Ht]") as %?. unfold bd.
        destruct (decide _) as [_|Hx]; [|destruct Hx; unfold dl_end; congruence]. wstep.
        iApply (wp_d_value with "Hl"). iIntros "Hl". wstep. unfold it_next. iApply (wp_get_next with "Hl").
        iIntros "Hl". wstep. simpl. rewrite dfirst_live dfirst_app. cbn [dfirst]. iApply "HQ". iFrame "Ht HF".
        rewrite dlive_app. iApply (ring_rotate [(l, DLive v)] (dlive bs)).
        iApply ring_cons. rewrite dfirst_live. iFrame.
      + apply IH. by destruct bs.
    - cbn [dlive fmap list_fmap seg dfirst].
      eapply (ihangs_wp _ _ _ (this ↦ DCell p tn DHdr ∗ seg (Some l) (dlive ks) q ∗
        ring (dlive bs) ∗ (l ↦ DCell pp (dfirst ks q) (DLive v) ∗ F))%I (inl (dfirst ks q, acc ++ [v]))).
      + iIntros (Q) "(Ht&[Hl H]&Hr&HF) HQ". iDestruct (pto_ne with "[$Hl $Ht]") as %?. unfold bd.
        destruct (decide _) as [_|Hx]; [|destruct Hx; unfold dl_end; simpl in *; congruence]. wstep.
        iApply (wp_d_value with "Hl"). iIntros "Hl". wstep. unfold it_next. iApply (wp_get_next with "Hl").
        iIntros "Hl". wstep. simpl. rewrite dfirst_live. iApply "HQ". iFrame.
      + by apply IH.
  Qed.
  Lemma ihangs_splice_none fuel this xs i j : j < i ≤ length xs →
    ihangs (dlist this xs)
      (dl_splice_range (dpos this xs i) (dpos this xs j) (dpos this xs j) ;! dl_contents fuel this).
  Proof.
    intros Hij. set (a := dlive (drop i xs) ++ DlistLogic.hd this :: dlive (take j xs)).
    eapply (ihangs_wp _ _ _ (seg (dlast (dlive (drop i xs)) (dlast a None))
        (DlistLogic.hd this :: dlive (take j xs)) (dfirst (dslice j i xs) None) ∗
      ring (dlive (dslice j i xs)) ∗ seg (dlast a None) (dlive (drop i xs)) (Some this))%I tt).
    - iIntros (Q) "H HQ". unfold dl_splice_range. iDestruct (dlist_rot _ _ j with "H") as "H". unfold rot.
      rewrite (drop_dslice j i) ?dlive_app -?app_assoc; [|lia..]. fold a.
      rewrite (dpos_slice _ _ j i) ?(dpos_rest _ _ i (dlive (take j xs))); [|lia..]. fold a.
      iDestruct (ring_rotate with "H") as "H".
      iApply (wp_node_splice_none with "H"); [unfold a; by destruct (dlive (drop i xs))|apply dslice_ne; lia|].
      iIntros "Hz H". iApply "HQ". unfold a at 3. iDestruct (seg_app with "H") as "[H1 H2]".
      rewrite dfirst_live. iFrame "H2 Hz". done.
    - apply ihangs_contents. intros He. eapply (dslice_ne j i xs); [done|]. by rewrite He.
  Qed.

  (** *** an empty range of another list *)
  Lemma ifails_splice_none fuel this other xs ys i k : i ≤ length xs → k ≤ length ys →
    length xs + length ys < fuel →
    ifails (dlist this xs ∗ dlist other ys)
      (dl_splice_range (dpos this xs i) (dpos other ys k) (dpos other ys k) ;! dl_contents fuel this) BadCast.
  Proof.
    intros Hi Hk Hf. set (a := rot this xs i). set (b := rot other ys k).
    eapply (ifails_wp _ _ _ (seg (dlast (dlive (drop i xs)) (dlast b None))
        (DlistLogic.hd this :: dlive (take i xs ++ drop k ys)) (Some other) ∗
      other ↦ DCell (dlast (dlive (drop k ys)) (dlast a None)) (dfirst (dlive (take k ys)) (dfirst b None)) DHdr ∗
      (seg (dlast b None) (dlive (drop i xs)) (Some this) ∗
       seg (Some other) (dlive (take k ys)) (dfirst b None)))%I tt).
    - iIntros (Q) "[H Ho] HQ". unfold dl_splice_range.
      iDestruct (dlist_rot _ _ i with "H") as "H". iDestruct (dlist_rot _ _ k with "Ho") as "Ho".
      rewrite -(rot_first this xs i) // -(rot_first other ys k) //. fold a b.
      iApply (wp_node_splice_other with "H Ho"); [apply rot_ne..|]. iIntros "H Ho". iApply "HQ".
      unfold a at 1, rot. iDestruct (seg_app with "H") as "[H1 H2]". iFrame "H1".
      assert (seg (dlast a None) b (dfirst b None) ⊣⊢
        seg (dlast a None) (dlive (drop k ys)) (Some other) ∗
        other ↦ DCell (dlast (dlive (drop k ys)) (dlast a None)) (dfirst (dlive (take k ys)) (dfirst b None)) DHdr ∗
        seg (Some other) (dlive (take k ys)) (dfirst b None))%I as Hs.
      { unfold b at 1, rot. rewrite seg_app. done. }
      rewrite Hs. iDestruct "Ho" as "(Ho1&$&$)". rewrite dlive_app app_comm_cons. iApply seg_app. iSplitL "H2".
      + unfold b, rot. rewrite dfirst_app. done.
      + assert (dlast a None = dlast (DlistLogic.hd this :: dlive (take i xs)) (dlast (dlive (drop i xs)) (dlast b None))) as ->.
        { unfold a, rot. rewrite dlast_app. by apply dlast_ne. }
        done.
    - apply ifails_contents. rewrite app_length take_length drop_length. lia.
  Qed.
End lost.
