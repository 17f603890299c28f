(** list: remove(x) with x a reference to an element of the list itself (C60). *)
From Verif Require Import DlistHistory.
From iris.proofmode Require Import tactics.

(** Undefined behaviour in the presence of a given rest of the memory. *)
Definition ffails {C A} (σf : gmap loc C) (P : bi_car (hpropI C)) (m : M (gmap loc C) A) (u : ub) : Prop :=
  ∀ σ, hholds P σ → σ ##ₘ σf → m (σ ∪ σf) = UB u.
Section ffails.
  Context {C : Type}.
  Notation heap := (gmap loc C).
  Notation iProp := (bi_car (hpropI C)).
  Lemma ffails_wp {A B} σf (P : iProp) (m : M heap A) (k : A → M heap B) (F : iProp) a u :
    (∀ Q, P -∗ (F -∗ Q a) -∗ wp m Q) → ffails σf F (k a) u → ffails σf P (bind m k) u.
  Proof.
    intros Hm Hk σ HP Hd.
    destruct (wp_run m P (λ b, ⌜b = a⌝ ∧ F)%I) with σ σf as (b&σ'&He&Hd'&HQ); [|done..|].
    { iIntros "H". iApply (Hm with "H"). iIntros "H". by iSplit. }
    apply hand_unfold in HQ as [->%hpure_unfold HQ]. unfold bind. rewrite He. by apply Hk.
  Qed.
  Lemma ffails_bind_l {A B} σf (P : iProp) (m : M heap A) (k : A → M heap B) u :
    ffails σf P m u → ffails σf P (bind m k) u.
  Proof. intros Hm σ HP Hd. unfold bind. by rewrite Hm. Qed.
  Lemma ffails_pure {A} σf (φ : Prop) (P : iProp) (m : M heap A) u :
    (P ⊢ ⌜φ⌝) → (φ → ffails σf P m u) → ffails σf P m u.
  Proof.
    intros HP Hm σ Hh. apply Hm; [|done]. apply (proj1 (hpure_unfold φ σ)). eapply hentails; [exact HP|done].
  Qed.
End ffails.

Section alias.
  Context {V : Type} `{Allocator (dcell V)} (eqb : V → V → bool).
  Notation C := (dcell V).
  Notation heap := (gmap loc C).
  Notation iProp := (bi_car (hpropI C)).
  Implicit Types (xs ks rs js ms : list (loc * V)) (this l : loc) (v w : V).

  Lemma ffails_value_gone σf this xs l : l ≠ this → l ∉ xs.*1 → σf !! l = None →
    ffails σf (dlist this xs) (d_value (V:=V) (Some l)) Dangling.
  Proof.
    intros Hne Hl Hf σ Hh Hd. unfold d_value, loadp, addr, bind, ret, load.
    assert (σ !! l = None) as Hs.
    { apply seg_holds in Hh as [_ ->]. apply seg_heap_dom. rewrite fmap_cons dlive_locs.
      by apply not_elem_of_cons. }
    rewrite lookup_union_r // Hf //.
  Qed.

  Lemma ffails_remove_own σf fuel this js l v ms :
    ms ≠ [] → length js + 1 < fuel → eqb v v = true → σf !! l = None →
    ffails σf (dlist this (js ++ (l,v) :: ms)) (dl_remove eqb fuel this (DNode l)) Dangling.
  Proof.
    intros Hms Hfu Hv Hf. unfold dl_remove, dl_remove_by.
    eapply (ffails_wp _ _ _ _ (dlist this (js ++ (l,v) :: ms)) (dfirst (js ++ (l,v) :: ms) (Some this))).
    { iIntros (Q) "H HQ". rewrite dlist_flst. iApply (flst_next with "H"). done. }
    eapply (ffails_wp _ _ _ _ (dlist this (js ++ (l,v) :: ms)) (dfirst (drop 1 (js ++ (l,v) :: ms)) (Some this))).
    { iIntros (Q) "H HQ". rewrite dlist_flst. destruct js as [|[a w] js]; simpl.
      - iApply (flst_mid_next this _ [] with "H"). rewrite drop_0. done.
      - iApply (flst_mid_next this _ [] with "H"). rewrite drop_0. done. }
    match goal with |- context [loop fuel ?body _] => set (bd := body) end.
    assert (∀ js ks f0, length js + 1 < f0 →
      ffails σf (dlist this (ks ++ js ++ (l,v) :: ms))
        (loop f0 bd (dfirst (js ++ (l,v) :: ms) (Some this), dfirst (drop 1 (js ++ (l,v) :: ms)) (Some this)))
        Dangling) as Hg; [|by apply (Hg js [] fuel)].
    clear js Hfu. intros js. induction js as [|[a w] js IH]; intros ks f0 Hf0;
      (destruct f0 as [|f0]; [lia|]).
    - cbn [loop app dfirst drop]. simpl in Hf0. destruct ms as [|[l' w'] ms]; [done|]. clear Hms.
      eapply (ffails_pure _ (NoDup (this :: (ks ++ (l,v) :: (l',w') :: ms).*1))).
      { rewrite dlist_flst. apply flst_nodup. }
      intros [Hn1 Hn2]%NoDup_cons.
      assert (l ≠ this ∧ l' ≠ this ∧ l ∉ (ks ++ (l',w') :: ms).*1) as (Hl1&Hl2&Hl3).
      { rewrite fmap_app in Hn1. apply not_elem_of_app in Hn1 as [_ Hn1].
        apply not_elem_of_cons in Hn1 as [Hn1 Hn1']. apply not_elem_of_cons in Hn1' as [Hn1' _].
        split; [done|]. split; [done|]. rewrite fmap_app fmap_cons -Permutation_middle in Hn2.
        apply NoDup_cons in Hn2 as [Hn2 _]. by rewrite fmap_app. }
      eapply (ffails_wp _ _ _ _ (dlist this (ks ++ (l',w') :: ms)) (inl (Some l', dfirst ms (Some this)))).
      + iIntros (Q) "H HQ". unfold bd. destruct (decide _) as [_|Hne]; [|destruct Hne; congruence].
        rewrite dlist_flst. wstep. iApply (flst_mid_value with "H"). iIntros "H". wstep. simpl. wstep.
        iApply (flst_mid_value with "H"). iIntros "H". wstep. rewrite Hv. rewrite -dlist_flst. wstep. wstep.
        iApply (wp_mid_unlink with "H"). iIntros "H Hl". iApply (wp_delete_node with "Hl"). wstep. simpl.
        rewrite dlist_flst. iApply (flst_mid_next with "H"). iIntros "H". wstep. rewrite -dlist_flst. by iApply "HQ".
      + destruct f0 as [|f0]; [lia|]. cbn [loop]. unfold bd at 1. apply ffails_bind_l.
        destruct (decide _) as [_|Hne]; [|destruct Hne; congruence].
        eapply (ffails_wp _ _ _ _ (dlist this (ks ++ (l',w') :: ms)) w').
        { iIntros (Q) "H HQ". rewrite dlist_flst. iApply (flst_mid_value with "H"). done. }
        apply ffails_bind_l. unfold d_deref. apply ffails_bind_l. by apply ffails_value_gone.
    - cbn [loop app dfirst drop]. simpl in Hf0. set (rs := js ++ (l,v) :: ms).
      eapply (ffails_pure _ (a ≠ this)).
      { rewrite dlist_flst. apply flst_mid_ne. }
      intros Ha.
      eapply (ffails_wp _ _ _ _ (dlist this ((if eqb w v then ks else ks ++ [(a,w)]) ++ rs))
        (inl (dfirst rs (Some this), dfirst (drop 1 rs) (Some this)))).
      + iIntros (Q) "H HQ". unfold bd. destruct (decide _) as [_|Hne]; [|destruct Hne; congruence].
        rewrite dlist_flst. wstep. iApply (flst_mid_value with "H"). iIntros "H". wstep. simpl. wstep.
        unfold rs. rewrite (cons_middle (a,w) ks (js ++ (l,v) :: ms)).
        rewrite (app_assoc [(a,w)] js) (app_assoc ks ([(a,w)] ++ js)).
        iApply (flst_mid_value with "H"). iIntros "H". wstep.
        rewrite -(app_assoc ks ([(a,w)] ++ js)) -(app_assoc [(a,w)] js) -/rs -(cons_middle (a,w) ks rs).
        assert (∀ ks' (Q : _ → iProp), dlist this (ks' ++ rs) -∗
          (dlist this (ks' ++ rs) -∗ Q (inl (dfirst rs (Some this), dfirst (drop 1 rs) (Some this)))) -∗
          wp (get_next (dfirst rs (Some this)))
            (λ nn, wp (ret (inl (dfirst rs (Some this), nn) : _ + unit)) Q)) as Hnx.
        { iIntros (ks' Q') "H HQ". rewrite dlist_flst. unfold rs.
          destruct js as [|[b x] js]; simpl.
          - iApply (flst_mid_next with "H"). iIntros "H". wstep. rewrite -dlist_flst drop_0. by iApply "HQ".
          - iApply (flst_mid_next with "H"). iIntros "H". wstep. rewrite -dlist_flst drop_0. by iApply "HQ". }
        rewrite -dlist_flst. destruct (eqb w v).
        * wstep. wstep. iApply (wp_mid_unlink with "H"). iIntros "H Hl". iApply (wp_delete_node with "Hl"). wstep.
          iApply (Hnx with "H"). done.
        * wstep. wstep. wstep. rewrite (cons_middle (a,w) ks rs) app_assoc. iApply (Hnx with "H"). done.
      + apply IH. lia.
  Qed.

  (** *** Iterating into another list's header *)
  Lemma ifails_contents fuel this other p p' q' (F : iProp) ks : length ks < fuel →
    ifails (seg p (DlistLogic.hd this :: dlive ks) (Some other) ∗ other ↦ DCell p' q' DHdr ∗ F)
      (dl_contents fuel this) BadCast.
  Proof.
    intros Hf. unfold dl_contents, dl_begin.
    eapply (ifails_wp _ _ _ (seg (Some this) (dlive ks) (Some other) ∗
      this ↦ DCell p (dfirst ks (Some other)) DHdr ∗ other ↦ DCell p' q' DHdr ∗ F)%I (dfirst ks (Some other))).
    { iIntros (Q) "(H&Ho&HF) HQ". simpl. iDestruct "H" as "[Ht H]".
      iApply (wp_get_next with "Ht"). iIntros "Ht". simpl. rewrite dfirst_live. iApply "HQ". iFrame. }
    match goal with |- context [loop fuel ?body _] => set (bd := body) end.
    generalize (@nil V) as acc. generalize (Some this) at 1 as pp. generalize (dfirst ks (Some other)) at 1 as tn.
    revert fuel Hf F. induction ks as [|[l v] ks IH]; intros fuel Hf F tn pp acc;
      (destruct fuel as [|fuel]; [lia|]); cbn [loop dlive fmap list_fmap seg dfirst].
    - apply ifails_bind_l. unfold bd. eapply (ifails_conseq _ (⌜other ≠ this⌝ ∧
        (other ↦ DCell p' q' DHdr ∗ this ↦ DCell p tn DHdr ∗ F))).
      { iIntros "(_&Ht&Ho&HF)". iDestruct (pto_ne with "[$Ho $Ht]") as %?. iSplit; [done|]. iFrame. }
      apply ifails_pure. intros Hne. destruct (decide _) as [_|Hx]; [|destruct Hx; unfold dl_end; congruence].
      apply ifails_bind_l. apply ifails_value_hdr.
    - simpl in Hf. eapply (ifails_wp _ _ _ (seg (Some l) (dlive ks) (Some other) ∗
        this ↦ DCell p tn DHdr ∗ other ↦ DCell p' q' DHdr ∗
        (l ↦ DCell pp (dfirst ks (Some other)) (DLive v) ∗ F))%I (inl (dfirst ks (Some other), acc ++ [v]))).
      + iIntros (Q) "((Hl&H)&Ht&Ho&HF) HQ". iDestruct (pto_ne with "[$Hl $Ht]") as %?. unfold bd.
        destruct (decide _) as [_|Hx]; [|destruct Hx; unfold dl_end; simpl in *; congruence]. wstep.
        iApply (wp_d_value with "Hl"). iIntros "Hl". wstep. unfold it_next. iApply (wp_get_next with "Hl").
        iIntros "Hl". wstep. simpl. rewrite dfirst_live. iApply "HQ". iFrame.
      + apply IH. lia.
  Qed.
  Lemma ifails_splice_empty fuel this other xs i : i ≤ length xs → length xs < fuel →
    ifails (dlist this xs ∗ dlist other []) (dl_splice_all (dpos this xs i) other ;! dl_contents fuel this) BadCast.
  Proof.
    intros Hi Hf. eapply (ifails_wp _ _ _ (seg (dlast (dlive (drop i xs)) (Some other))
        (DlistLogic.hd this :: dlive (take i xs)) (Some other) ∗
      other ↦ DCell (dlast (rot this xs i) None) (Some other) DHdr ∗
      seg (Some other) (dlive (drop i xs)) (Some this))%I tt).
    - iIntros (Q) "[H Ho] HQ". iDestruct (dlist_flst with "Ho") as "[Ho _]". simpl.
      iDestruct (dlist_rot _ _ i with "H") as "H". unfold ring, dl_splice_all, node_splice.
      pose proof (rot_ne this xs i) as Hr. rewrite -rot_first //.
      wstep. iApply (wp_get_next with "Ho"). iIntros "Ho". simpl. wstep.
      iApply (wp_get_prev with "Ho"). iIntros "Ho". simpl. wstep.
      iApply (wp_set_next with "Ho"). iIntros "Ho". simpl. wstep.
      iApply (wp_get_prev with "Ho"). iIntros "Ho". simpl. wstep.
      iApply (wp_set_next with "Ho"). iIntros "Ho". simpl. wstep.
      iApply (wp_first_prev with "H"); [done|]. iIntros "H". wstep.
      iApply (wp_last_set_next (rot this xs i) _ _ (Some other) with "H"); [done|]. iIntros "H". wstep.
      iApply (wp_first_prev with "H"); [done|]. iIntros "H". wstep.
      iApply (wp_get_prev with "Ho"). iIntros "Ho". simpl. wstep.
      iApply (wp_first_set_prev _ _ (Some other) with "H"); [done|]. iIntros "H". wstep.
      iApply (wp_get_prev with "Ho"). iIntros "Ho". simpl. wstep.
      iApply (wp_set_prev with "Ho"). iIntros "Ho". simpl.
      iApply (wp_set_prev with "Ho"). iIntros "Ho". simpl. iApply "HQ".
      iDestruct (seg_app with "H") as "[H1 H2]". iFrame.
    - apply ifails_contents. rewrite take_length. lia.
  Qed.
  Lemma ifails_swap_empty rfirst fuel a b v : 1 < fuel →
    ifails (dlist a [] ∗ dlist b [])
      (dl_swap rfirst a b ;! dl_push_back a (DExt v) ;! dl_contents fuel b) BadCast.
  Proof.
    intros Hf. set (an := if rfirst then Some a else Some b).
    eapply (ifails_wp _ _ _ (a ↦ DCell (Some b) an DHdr ∗ b ↦ DCell (Some b) (Some b) DHdr)%I tt).
    - iIntros (Q) "[Ha Hb] HQ". iDestruct (dlist_flst with "Ha") as "[Ha _]". iDestruct (dlist_flst with "Hb") as "[Hb _]".
      simpl. unfold dl_swap, node_swap, halfswap, chain_assign. wstep. iApply (wp_get_next with "Ha"). iIntros "Ha".
      simpl. destruct (decide _); [done|]. wstep.
      iApply (wp_get_prev with "Hb"). iIntros "Hb". simpl. wstep. iApply (wp_set_prev with "Ha"). iIntros "Ha". wstep.
      iApply (wp_get_next with "Hb"). iIntros "Hb". simpl. wstep. iApply (wp_set_next with "Ha"). iIntros "Ha". wstep.
      destruct rfirst; simpl.
      + wstep. iApply (wp_get_next with "Hb"). iIntros "Hb". simpl. wstep.
        iApply (wp_set_prev with "Hb"). iIntros "Hb". simpl. wstep.
        iApply (wp_get_prev with "Hb"). iIntros "Hb". simpl. iApply (wp_set_next with "Ha"). iIntros "Ha". simpl. wstep.
        iApply (wp_set_next with "Hb"). iIntros "Hb". simpl. iApply (wp_set_prev with "Hb"). iIntros "Hb". simpl.
        iApply "HQ". iFrame.
      + wstep. iApply (wp_get_prev with "Hb"). iIntros "Hb". simpl. wstep.
        iApply (wp_get_next with "Hb"). iIntros "Hb". simpl. wstep.
        iApply (wp_set_prev with "Hb"). iIntros "Hb". simpl. iApply (wp_set_next with "Hb"). iIntros "Hb". simpl. wstep.
        iApply (wp_set_next with "Hb"). iIntros "Hb". simpl. iApply (wp_set_prev with "Hb"). iIntros "Hb". simpl.
        iApply "HQ". iFrame.
    - eapply (ifails_bind _ _ _ (λ _, ∃ l, seg (Some b) (DlistLogic.hd b :: dlive [(l,v)]) (Some a) ∗
        a ↦ DCell (Some l) an DHdr ∗ emp)%I).
      + iIntros "[Ha Hb]". unfold dl_push_back, new_node, insert_before. wstep. wstep. simpl. wstep. wstep.
        iApply wp_allocate. iIntros (l) "Hl". wstep. wstep. wstep. iApply (wp_get_prev with "Ha"). iIntros "Ha". simpl. wstep.
        iApply (wp_set_next with "Hb"). iIntros "Hb". simpl. wstep.
        iApply (wp_set_next with "Hl"). iIntros "Hl". simpl. wstep.
        iApply (wp_get_prev with "Ha"). iIntros "Ha". simpl. wstep.
        iApply (wp_set_prev with "Hl"). iIntros "Hl". simpl. wstep.
        iApply (wp_set_prev with "Ha"). iIntros "Ha". simpl. wstep. wstep.
        iExists l. simpl. iFrame.
      + intros _. apply ifails_exist. intros l. apply ifails_contents. simpl. lia.
  Qed.
  Lemma wp_splice_in_place l s b (Q : unit → iProp) : b ≠ [] →
    ring ((l,s) :: b) -∗ (ring b -∗ l ↦ DCell (Some l) (Some l) s -∗ Q tt) -∗
    wp (node_splice (dfirst b None) (Some l) (dfirst b None)) Q.
  Proof.
    iIntros (Hb) "H HQ". iDestruct (ring_cons with "H") as "[Hl H]".
    rewrite (dlast_ne b _ None) // (dfirst_ne b _ None) //. unfold node_splice. wstep.
    iApply (wp_first_prev with "H"); [done|]. iIntros "H". wstep.
    iApply (wp_set_next with "Hl"). iIntros "Hl". simpl. wstep.
    iApply (wp_get_prev with "Hl"). iIntros "Hl". simpl. wstep.
    iApply (wp_last_set_next b _ _ (dfirst b None) with "H"); [done|]. iIntros "H". wstep.
    iApply (wp_first_prev with "H"); [done|]. iIntros "H". wstep.
    iApply (wp_set_next with "Hl"). iIntros "Hl". simpl. wstep.
    iApply (wp_first_prev with "H"); [done|]. iIntros "H". wstep.
    iApply (wp_first_prev with "H"); [done|]. iIntros "H". wstep.
    iApply (wp_first_set_prev _ _ (Some l) with "H"); [done|]. iIntros "H". wstep.
    iApply (wp_get_prev with "Hl"). iIntros "Hl". simpl. wstep.
    iApply (wp_first_set_prev _ _ (dlast b None) with "H"); [done|]. iIntros "H".
    iApply (wp_set_prev with "Hl"). iIntros "Hl". simpl.
    iApply ("HQ" with "H Hl").
  Qed.
  Lemma wp_dl_move_in_place this xs j l v (Q : unit → iProp) : xs !! j = Some (l,v) →
    dlist this xs -∗ (dlist this (take j xs ++ drop (S j) xs) -∗ l ↦ DCell (Some l) (Some l) (DLive v) -∗ Q tt) -∗
    wp (dl_splice_one (dpos this xs (S j)) (dpos this xs j)) Q.
  Proof.
    iIntros (Hx) "H HQ". pose proof (lookup_lt_Some _ _ _ Hx) as Hj. unfold dl_splice_one.
    iDestruct (dlist_pos_inj this xs (S j) j with "H") as %Hinj; [lia..|].
    destruct (decide (dpos this xs j ≠ dpos this xs (S j))) as [Hne|He].
    2:{ exfalso. apply He. intros He'. symmetry in He'. apply Hinj in He'. lia. }
    wstep. iApply (wp_pos_next with "H"); [lia|]. iIntros "H". rewrite (dpos_elem _ _ _ _ _ Hx).
    iDestruct (dlist_rot _ _ j with "H") as "H". rewrite (rot_elem _ _ _ _ _ Hx).
    set (b := dlive (drop (S j) xs) ++ _).
    assert (dpos this xs (S j) = dfirst b None) as ->.
    { unfold b. rewrite dpos_drop; [|lia]. rewrite dfirst_app /=. by rewrite dfirst_live. }
    iApply (wp_splice_in_place with "H"); [unfold b; by destruct (dlive (drop _ _))|]. iIntros "H Hl".
    iApply ("HQ" with "[H] Hl"). iDestruct (rot_cut with "H") as "H". done.
  Qed.
End alias.

(** *** merge is the stable merge *)
Section merge.
  Context {A : Type} (cmp : A → A → bool).
  Implicit Types (x y z : A) (xs ys zs : list A).
  Lemma merge_into_nil xs : merge_into cmp xs [] = xs.
  Proof. by destruct xs. Qed.
  Lemma merge_into_perm xs ys : merge_into cmp xs ys ≡ₚ xs ++ ys.
  Proof.
    revert ys. induction xs as [|x xs IHx]; intros ys; [done|].
    induction ys as [|y ys IHy]; [by rewrite merge_into_nil app_nil_r|]. simpl in *.
    destruct (cmp y x).
    - rewrite IHy. rewrite (Permutation_middle (x :: xs) ys y). done.
    - by rewrite (IHx (y :: ys)).
  Qed.
  Lemma merge_into_stable xs ys : weak_order cmp → dsorted cmp xs → dsorted cmp ys →
    stable_merge cmp xs ys (merge_into cmp xs ys).
  Proof.
    intros [Hirr Htr Hinc] Hxs Hys. split; [apply merge_into_perm|].
    assert (∀ x y, cmp x y = true → cmp y x = false) as Has.
    { intros x y Hxy. destruct (cmp y x) eqn:Hyx; [|done]. pose proof (Hirr x). by rewrite (Htr x y x) in H. }
    revert ys Hys. induction xs as [|x xs IHx]; intros ys Hys.
    { simpl. by split. }
    apply StronglySorted_inv in Hxs as Hxs'. destruct Hxs' as [Hxs' Hx].
    induction ys as [|y ys IHy].
    { rewrite merge_into_nil. split; [done|]. intros z. by rewrite filter_nil app_nil_r. }
    apply StronglySorted_inv in Hys as Hys'. destruct Hys' as [Hys' Hy].
    specialize (IHy Hys'). destruct IHy as [IHy1 IHy2]. simpl. destruct (cmp y x) eqn:E.
    - change ((fix go (l : list A) := _) ys) with (merge_into cmp (x :: xs) ys).
      assert (Forall (λ z, cmp z y = false) (x :: xs)) as Hxy.
      { constructor; [by apply Has|]. eapply Forall_impl; [exact Hx|]. intros z Hz. simpl in Hz.
        eapply Hinc; [exact Hz|]. by apply Has. }
      split.
      + constructor; [done|]. rewrite merge_into_perm. apply Forall_app. done.
      + intros z. rewrite (filter_cons _ y (merge_into _ _ _)) (filter_cons _ y ys) IHy2.
        destruct (decide (alike cmp z y)) as [[Hz1 Hz2]|]; [|done].
        assert (filter (alike cmp z) (x :: xs) = []) as ->; [|done].
        rewrite -(app_nil_r (filter _ (x :: xs))). assert (∀ w, w ∈ x :: xs → ¬ alike cmp z w) as Hn.
        { intros w Hw [Hw1 Hw2].
          assert (cmp y w = true) as Hyw; [|by rewrite (Hinc y z w) in Hyw].
          destruct (cmp y w) eqn:Eyw; [done|]. exfalso. apply elem_of_cons in Hw as [->|Hw]; [congruence|].
          rewrite Forall_forall in Hx. specialize (Hx w Hw). simpl in Hx. by rewrite (Hinc y w x) in E. }
        clear -Hn. rewrite app_nil_r. induction (x :: xs) as [|w ws IH]; [done|].
        rewrite filter_cons_False; [|apply Hn; left]. apply IH. intros. apply Hn. by right.
    - destruct (IHx Hxs' (y :: ys) Hys) as [IH1 IH2]. split.
      + constructor; [done|]. rewrite merge_into_perm. apply Forall_app. split; [done|].
        constructor; [done|]. eapply Forall_impl; [exact Hy|]. intros z Hz. simpl in Hz. by eapply Hinc.
      + intros z. rewrite (filter_cons _ x (merge_into _ _ _)) (filter_cons _ x xs) IH2.
        by destruct (decide (alike cmp z x)).
  Qed.
End merge.
