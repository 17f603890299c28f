(** list.hpp: histories on two lists. Proof file. *)
From Verif Require Export DlistProofs3 DlistSplice HistoryLogic.
From iris.proofmode Require Import tactics.

Section hist.
  Context {V : Type} (eqb : V → V → bool) `{Allocator (dcell V)} (rfirst : bool).
  Notation C := (dcell V).
  Notation iProp := (bi_car (hpropI C)).
  Notation elems := (list (loc * V)).
  Implicit Types (xs ys zs ks rs : elems) (this other l : loc) (v : V) (r : dref V) (p q : ptr) (i j k n : nat)
    (s o : dl_state (V:=V)).

  Definition marked this (m : bool) (pv : ptr) zs : Prop :=
    if m then zs = [] ∧ ∃ d, d ≠ this ∧ pv = Some d else pv = dlast zs (Some this).
  Definition dlR this s : iProp :=
    ∃ zs pv, ⌜zs.*2 = s.1 ∧ marked this s.2 pv zs⌝ ∧ flst this pv zs.
  Definition dneed s : nat := length s.1.

  Lemma dlR_close this pv zs s : zs.*2 = s.1 → marked this s.2 pv zs → flst this pv zs ⊢ dlR this s.
  Proof. iIntros (??) "H". iExists zs, pv. by iSplit. Qed.
  Lemma dlR_dlist this zs s : zs.*2 = s.1 → s.2 = false → dlist this zs ⊢ dlR this s.
  Proof. intros Hz Hm. rewrite dlist_flst. apply dlR_close; [done|]. by rewrite Hm. Qed.
  Lemma dlR_open this s : s.2 = false ∨ s.1 ≠ [] → dlR this s ⊢ ∃ zs, ⌜zs.*2 = s.1 ∧ s.2 = false⌝ ∧ dlist this zs.
  Proof.
    iIntros (Hs) "H". iDestruct "H" as (zs pv) "[%Hz H]". destruct Hz as [Hz Hm].
    assert (s.2 = false) as Hf.
    { destruct Hs as [|Hs]; [done|]. destruct (s.2); [|done]. destruct Hm as [-> _]. by destruct Hs. }
    rewrite Hf in Hm. simpl in Hm. subst pv. rewrite -dlist_flst. iExists zs. by iSplit.
  Qed.
  Lemma dlR_holds this s : dlR this s ⊢
    Sep.plain (dl_holds this s).
  Proof.
    iIntros "H". unfold dl_holds. destruct s as [vs [|]]; simpl.
    - iDestruct "H" as (zs pv) "[%Hz H]". simpl in Hz. destruct Hz as (<-&->&d&Hd&->).
      iSplit; [done|]. iExists d. unfold flst. simpl.
      iDestruct "H" as "[H Hs]". iClear "Hs". iStopProof. apply hentails_intro. intros σ Hσ.
      apply plain_holds. split; [done|]. by apply hpto_unfold in Hσ.
    - iDestruct (dlR_open with "H") as (zs) "[%Hz H]"; [by left|]. destruct Hz as [Hz _]. iExists zs. iSplit; [done|].
      change (λ h, is_dlist this zs h) with (is_dlist this zs). by rewrite dlist_holds.
  Qed.

  (** bookkeeping on values *)
  Lemma fmap_dins i zs xs : (dins i zs xs).*2 = dins i zs.*2 xs.*2.
  Proof. unfold dins. by rewrite !fmap_app fmap_take fmap_drop. Qed.
  Lemma fmap_dcut i j xs : (dcut i j xs).*2 = dcut i j xs.*2.
  Proof. unfold dcut. by rewrite fmap_app fmap_take fmap_drop. Qed.
  Lemma fmap_dslice i j xs : (dslice i j xs).*2 = dslice i j xs.*2.
  Proof. unfold dslice. by rewrite fmap_take fmap_drop. Qed.
  Lemma fmap_dmove i j (x : loc * V) xs : (dmove i j x xs).*2 = dmove i j x.2 xs.*2.
  Proof. unfold dmove. case_decide; by rewrite fmap_dins fmap_dcut. Qed.
  Lemma fmap_dmove_range i j k xs : (dmove_range i j k xs).*2 = dmove_range i j k xs.*2.
  Proof. unfold dmove_range. case_decide; by rewrite fmap_dins fmap_dcut fmap_dslice. Qed.
  Lemma fmap_filter (f : V → bool) xs : (filter (λ z, f z.2 = false) xs).*2 = filter (λ x, f x = false) xs.*2.
  Proof.
    induction xs as [|[l v] xs IH]; [done|]. rewrite fmap_cons !filter_cons /=. case_decide; [|done].
    by rewrite fmap_cons IH.
  Qed.
  Lemma fmap_uniq f (x : loc * V) xs :
    (uniq_from (λ z1 z2, f z1.2 z2.2) x xs).*2 = uniq_from f x.2 xs.*2.
  Proof.
    revert x. induction xs as [|y xs IH]; intros x; [done|]. simpl.
    destruct (f y.2 x.2); [done|]. by rewrite fmap_cons IH.
  Qed.
  Lemma fmap_merge cmp xs ys :
    (merge_into (λ z1 z2, cmp z1.2 z2.2) xs ys).*2 = merge_into cmp xs.*2 ys.*2.
  Proof.
    revert ys. induction xs as [|x xs IHx]; intros ys; [done|].
    induction ys as [|y ys IHy]; [done|]. simpl in *. destruct (cmp y.2 x.2).
    - rewrite fmap_cons. f_equal. apply IHy.
    - rewrite fmap_cons. f_equal. apply (IHx (y :: ys)).
  Qed.
  Lemma dsorted_fmap cmp xs : dsorted cmp xs.*2 → dsorted (λ z1 z2, cmp z1.2 z2.2) xs.
  Proof.
    unfold dsorted. induction xs as [|x xs IH]; [constructor|]. rewrite fmap_cons.
    intros [Hs Hf]%StronglySorted_inv. constructor; [auto|]. by rewrite Forall_fmap in Hf.
  Qed.

  Local Ltac wr := repeat wstep.
  (** a call that leaves [other] alone, on a list that is not "cleared" *)
  Local Ltac opn Hm := iDestruct (dlR_open with "H") as (zs) "[%Hz H]"; [Hm|];
    lazymatch goal with Hz : _.*2 = _ ∧ _ = false |- _ => let H' := fresh "Hmk" in destruct Hz as [Hz H'] end.
  Local Ltac fin := wstep; iSplit; [by simplify_eq/=|]; cbn [fst snd]; iFrame "Ho".

  Lemma length_vals zs (vs : list V) : zs.*2 = vs → length zs = length vs.
  Proof. intros <-. by rewrite fmap_length. Qed.
  Lemma lookup_vals zs (vs : list V) i v : zs.*2 = vs → vs !! i = Some v → ∃ l, zs !! i = Some (l, v).
  Proof. intros <- Hv. rewrite list_lookup_fmap in Hv. destruct (zs !! i) as [[l w]|]; simplify_eq/=; eauto. Qed.

  Lemma wp_dl_clear_R fuel this s Q : dneed s < fuel →
    dlR this s -∗ (dlR this ([], s.2 || bool_decide (s.1 ≠ [])) -∗ Q tt) -∗ wp (dl_clear fuel this) Q.
  Proof.
    iIntros (Hf) "H HQ". iDestruct "H" as (zs pv) "[%Hz H]". destruct Hz as [Hz Hm].
    iDestruct (flst_nodup with "H") as %Hnd.
    iApply (wp_f_clear with "H"); [rewrite (length_vals _ _ Hz); done|]. iIntros "H". iApply "HQ".
    iApply (dlR_close this pv []); [done| |unfold flst; simpl; iFrame].
    simpl. destruct (s.2) eqn:Es; simpl in *.
    { destruct Hm as [-> Hm]. done. }
    destruct zs as [|[l v] zs _] using rev_ind; simpl in *.
    - rewrite -Hz. rewrite bool_decide_false; [|naive_solver]. done.
    - rewrite bool_decide_true; [|rewrite -Hz fmap_app; by destruct (zs.*2)]. split; [done|].
      exists l. rewrite Hm dlast_snoc. split; [|done]. intros ->.
      apply NoDup_cons in Hnd as [Hn _]. apply Hn. rewrite fmap_app. apply elem_of_app. right. left.
  Qed.

  Lemma wp_ddone {A} (m : M (gmap loc C) A) (Q : dl_out V → iProp) :
    wp m (λ _, Q DDone) -∗ wp (ddone m) Q.
  Proof. iIntros "H". unfold ddone. wstep. iApply (wp_wand with "H"). iIntros (a) "H". by wstep. Qed.
  Lemma wp_dobs {A} (f : A → dl_out V) (m : M (gmap loc C) A) (Q : dl_out V → iProp) :
    wp m (λ a, Q (f a)) -∗ wp (dobs f m) Q.
  Proof. iIntros "H". unfold dobs. wstep. iApply (wp_wand with "H"). iIntros (a) "H". by wstep. Qed.
  Lemma wp_dl_push_front this xs r v Q : drefers xs r v →
    dlist this xs -∗ (∀ l, dlist this ((l,v) :: xs) -∗ Q tt) -∗ wp (dl_push_front this r) Q.
  Proof.
    iIntros (Hr) "H HQ". unfold dl_push_front. wstep. rewrite dlist_flst.
    iApply (wp_new_node with "H"); [done|]. iIntros (l) "H Hl". wstep.
    iApply (flst_next with "H"). iIntros "H". rewrite -dlist_flst. wstep.
    iPoseProof (wp_link this xs 0 l _ v with "H Hl") as "Hw"; [lia|done|].
    rewrite dpos_drop; [|lia]. rewrite drop_0. iApply "Hw". iIntros "H". wstep. iApply "HQ".
    unfold dins. by rewrite take_0 drop_0.
  Qed.
  Lemma wp_dl_push_back this xs r v Q : drefers xs r v →
    dlist this xs -∗ (∀ l, dlist this (xs ++ [(l,v)]) -∗ Q tt) -∗ wp (dl_push_back this r) Q.
  Proof.
    iIntros (Hr) "H HQ". unfold dl_push_back. wstep. rewrite dlist_flst.
    iApply (wp_new_node with "H"); [done|]. iIntros (l) "H Hl". rewrite -dlist_flst. wstep.
    iPoseProof (wp_link this xs (length xs) l _ v with "H Hl") as "Hw"; [lia|done|].
    rewrite dpos_end. iApply "Hw". iIntros "H". wstep. iApply "HQ".
    unfold dins. by rewrite firstn_all drop_all.
  Qed.
  (** [l_at], [l_own] on a list that is not "cleared" *)
  Lemma wp_l_at this xs i Q : i ≤ length xs →
    dlist this xs -∗ (dlist this xs -∗ Q (dpos this xs i)) -∗ wp (dl_at this i) Q.
  Proof. rewrite dlist_flst. apply wp_f_at. Qed.
  Lemma wp_l_own this xs i l v Q : xs !! i = Some (l, v) →
    dlist this xs -∗ (dlist this xs -∗ Q (DNode l)) -∗ wp (dl_own this i) Q.
  Proof. rewrite dlist_flst. apply wp_f_own. Qed.
  Lemma wp_l_show this xs i Q : i ≤ length xs →
    dlist this xs -∗ (dlist this xs -∗ Q (dshow_nth xs.*2 i)) -∗ wp (dshow this (dpos this xs i)) Q.
  Proof. rewrite dlist_flst. apply wp_f_show. Qed.

  Lemma wp_dl_step fuel this other s o op s' o' out :
    dl_spec eqb s o op = Some (s', o', out) → dneed s + dneed o + dneed s' + dneed o' < fuel →
    dlR this s ∗ dlR other o ⊢
    wp (dl_step eqb rfirst fuel this other op) (λ res, ⌜res.2 = out⌝ ∧ dlR this s' ∗ dlR res.1 o').
  Proof.
    unfold dl_spec. intros Hspec Hf. destruct (decide (dl_ok s o op)) as [Hok|]; [|done].
    apply bind_Some in Hspec as ([[xs' ys'] out']&Hseq&?). simplify_eq. unfold dneed in Hf. cbn [fst] in Hf.
    iIntros "[H Ho]". unfold dl_step.
    destruct op; cbn [dl_seq dl_marks fst snd] in *; simpl in Hok; wstep.
    - (* push_front *) simplify_eq. opn ltac:(by left). iApply wp_ddone.
      iApply (wp_dl_push_front _ _ (DExt v) v with "H"); [done|]. iIntros (l) "H". fin.
      iApply (dlR_dlist with "H"); [|done]. by rewrite fmap_cons Hz.
    - (* push_front own *) apply bind_Some in Hseq as (v&Hv&?). simplify_eq. opn ltac:(by left).
      destruct (lookup_vals _ _ _ _ Hz Hv) as [l' Hl']. wstep. iApply (wp_l_own with "H"); [done|]. iIntros "H".
      iApply wp_ddone.
      iApply (wp_dl_push_front _ _ (DNode l') v with "H"); [by eapply elem_of_list_lookup_2|]. iIntros (l) "H". fin.
      iApply (dlR_dlist with "H"); [|done]. by rewrite fmap_cons Hz.
    - (* push_back *) simplify_eq. opn ltac:(by left). iApply wp_ddone.
      iApply (wp_dl_push_back _ _ (DExt v) v with "H"); [done|]. iIntros (l) "H". fin.
      iApply (dlR_dlist with "H"); [|done]. by rewrite fmap_app Hz.
    - (* push_back own *) apply bind_Some in Hseq as (v&Hv&?). simplify_eq. opn ltac:(by left).
      destruct (lookup_vals _ _ _ _ Hz Hv) as [l' Hl']. wstep. iApply (wp_l_own with "H"); [done|]. iIntros "H".
      iApply wp_ddone.
      iApply (wp_dl_push_back _ _ (DNode l') v with "H"); [by eapply elem_of_list_lookup_2|]. iIntros (l) "H". fin.
      iApply (dlR_dlist with "H"); [|done]. by rewrite fmap_app Hz.
    - (* pop_front *) destruct (decide _) as [|Hne]; [done|]. simplify_eq. opn ltac:(by right). iApply wp_ddone.
      destruct zs as [|[l v] zs]; [by rewrite -Hz in Hne|].
      iApply (wp_dl_pop_front with "H"). iIntros "H". fin.
      iApply (dlR_dlist with "H"); [|done]. by rewrite -Hz.
    - (* pop_back *) destruct (decide _) as [|Hne]; [done|]. simplify_eq. opn ltac:(by right). iApply wp_ddone.
      destruct zs as [|[l v] zs _] using rev_ind; [by rewrite -Hz in Hne|].
      iApply (wp_dl_pop_back with "H"). iIntros "H". fin.
      iApply (dlR_dlist with "H"); [|done]. rewrite -Hz. cbn [fst]. rewrite fmap_app app_length /= take_app_alt //.
      rewrite fmap_length. lia.
    - (* insert *) destruct (decide _) as [Hi|]; [|done]. simplify_eq. opn ltac:(by left).
      rewrite -(length_vals _ _ Hz) in Hi.
      wstep. iApply (wp_l_at with "H"); [done|]. iIntros "H". wstep.
      iApply (wp_dl_insert _ _ _ (DExt v) v with "H"); [done|done|]. iIntros (l) "H".
      iPoseProof (wp_l_show this (dins i [(l,v)] zs) i with "H") as "Hw"; [rewrite dins_length; simpl; lia|].
      assert (dins i [(l,v)] zs !! i = Some (l,v)) as Hl.
      { unfold dins. rewrite lookup_app_r; [|rewrite take_length; lia].
        rewrite take_length Nat.min_l // Nat.sub_diag. done. }
      rewrite (dpos_elem _ _ _ _ _ Hl). iApply "Hw". iIntros "H". unfold dshow_nth. rewrite list_lookup_fmap Hl. fin.
      iApply (dlR_dlist with "H"); [|done]. by rewrite fmap_dins Hz.
    - (* insert n *) destruct (decide _) as [Hi|]; [|done]. simplify_eq. opn ltac:(by left).
      rewrite -(length_vals _ _ Hz) in Hi.
      wstep. iApply (wp_l_at with "H"); [done|]. iIntros "H". iApply wp_ddone.
      iApply (wp_dl_insert_n _ _ _ _ (DExt v) v with "H"); [done|done|]. iIntros (zs' Hzs') "H". fin.
      iApply (dlR_dlist with "H"); [|done]. by rewrite fmap_dins Hz Hzs'.
    - (* insert own *) apply bind_Some in Hseq as (v&Hv&Hseq).
      destruct (decide _) as [Hi|]; [|done]. simplify_eq. opn ltac:(by left).
      rewrite -(length_vals _ _ Hz) in Hi. destruct (lookup_vals _ _ _ _ Hz Hv) as [l' Hl'].
      wstep. iApply (wp_l_at with "H"); [done|]. iIntros "H". wstep.
      iApply (wp_l_own with "H"); [done|]. iIntros "H". iApply wp_ddone.
      iApply (wp_dl_insert_n _ _ _ _ (DNode l') v with "H"); [done|by eapply elem_of_list_lookup_2|]. iIntros (zs' Hzs') "H". fin.
      iApply (dlR_dlist with "H"); [|done]. by rewrite fmap_dins Hz Hzs'.
    - (* insert range *) destruct (decide _) as [Hi|]; [|done]. simplify_eq. opn ltac:(by left).
      rewrite -(length_vals _ _ Hz) in Hi.
      wstep. iApply (wp_l_at with "H"); [done|]. iIntros "H". iApply wp_ddone.
      iApply (wp_dl_insert_ext with "H"); [done|]. iIntros (zs' Hzs') "H". fin.
      iApply (dlR_dlist with "H"); [|done]. by rewrite fmap_dins Hz Hzs'.
    - (* insert from other *) destruct (decide _) as [[Hi Hjk]|]; [|done]. simplify_eq. opn ltac:(by left).
      iDestruct "Ho" as (ys po) "[%Hy Ho]". destruct Hy as [Hy Hmo].
      rewrite -(length_vals _ _ Hz) in Hi. rewrite -(length_vals _ _ Hy) in Hjk.
      wstep. iApply (wp_l_at with "H"); [done|]. iIntros "H". wstep.
      iApply (wp_f_at with "Ho"); [lia|]. iIntros "Ho". wstep.
      iApply (wp_f_at with "Ho"); [lia|]. iIntros "Ho". iApply wp_ddone.
      assert (drop j ys = dslice j k ys ++ drop k ys) as Hd.
      { unfold dslice. replace (drop k ys) with (drop (k - j) (drop j ys)); [by rewrite take_drop|].
        rewrite drop_drop. f_equal. lia. }
      rewrite (dpos_drop other ys j); [|lia]. rewrite (dpos_drop other ys k); [|lia].
      assert (ys = take j ys ++ dslice j k ys ++ drop k ys) as Hys by (by rewrite -Hd take_drop).
      rewrite Hd. iPoseProof (wp_dl_insert_its fuel this zs i other po (take j ys) (dslice j k ys) (drop k ys) with "H") as "Hw".
      { done. }
      { rewrite -(length_vals _ _ Hy) in Hf. unfold dslice. rewrite take_length drop_length. lia. }
      rewrite -Hys. iApply ("Hw" with "Ho"). iIntros (zs' Hzs') "H Ho". wstep. iSplit; [done|]. cbn [fst snd].
      iSplitL "H"; [|by iApply (dlR_close with "Ho")].
      iApply (dlR_dlist with "H"); [|done]. by rewrite fmap_dins Hz Hzs' fmap_dslice Hy.
    - (* erase *) destruct (decide _) as [Hi|]; [|done]. simplify_eq.
      opn ltac:(right; intros Hx; rewrite Hx /= in Hi; lia). rewrite -(length_vals _ _ Hz) in Hi.
      wstep. iApply (wp_l_at with "H"); [lia|]. iIntros "H". wstep.
      destruct (lookup_lt_is_Some_2 zs i Hi) as [[l v] Hl]. rewrite (dpos_elem _ _ _ _ _ Hl).
      pose proof (elem_of_list_split_length _ _ _ Hl) as (ks&rs&Hks&Hi').
      subst zs i. iApply (wp_dl_erase with "H"). iIntros "H".
      iPoseProof (wp_l_show this (ks ++ rs) (length ks) with "H") as "Hw"; [rewrite app_length; lia|].
      rewrite dpos_drop; [|rewrite app_length; lia]. rewrite drop_app. iApply "Hw". iIntros "H".
      unfold dshow_nth. rewrite -Hz. wstep. iSplit.
      { iPureIntro. cbn [snd]. rewrite !fmap_app fmap_cons. rewrite lookup_app_r; [|rewrite fmap_length; lia].
        rewrite lookup_app_r; [|rewrite fmap_length; lia]. rewrite fmap_length Nat.sub_diag.
        replace (S (length ks) - length ks) with 1 by lia. done. }
      cbn [fst]. iFrame "Ho". iApply (dlR_dlist with "H"); [|done]. cbn [fst].
      unfold dcut. rewrite !fmap_app fmap_cons take_app_alt; [|by rewrite fmap_length].
      f_equal. rewrite (cons_middle _ (ks.*2)) app_assoc drop_app_alt //. rewrite app_length fmap_length /=. lia.
    - (* erase range *) destruct (decide _) as [Hi|]; [|done]. destruct Hok as [-> Hs]. simplify_eq.
      rewrite Hs /= in Hi. assert (j = 0) as -> by lia.
      iDestruct "H" as (zs pv) "[%Hz H]". destruct Hz as [Hz Hm]. rewrite Hs in Hz. apply fmap_nil_inv in Hz. subst zs.
      wstep. iApply (wp_f_at with "H"); [lia|]. iIntros "H". wstep.
      iApply (wp_f_at with "H"); [lia|]. iIntros "H". wstep. unfold dl_erase_range.
      destruct fuel as [|fuel]; [lia|]. cbn [loop dpos]. wstep. wstep.
      iApply (flst_next with "H"). iIntros "H". simpl. destruct (decide _); [done|]. wstep. wstep.
      iPoseProof (wp_f_show this pv [] 0 with "H") as "Hw"; [simpl; lia|].
      iApply "Hw". iIntros "H". rewrite Hs. fin. iApply (dlR_close with "H"); [done|done].
    - (* remove *) simplify_eq. iApply wp_ddone. destruct (decide (s.1 = [])) as [Hs|Hs].
      + iDestruct "H" as (zs pv) "[%Hz H]". destruct Hz as [Hz Hm]. rewrite Hs in Hz. apply fmap_nil_inv in Hz. subst zs.
        unfold dl_remove. iApply (wp_dl_remove_by_nil with "H"); [lia|]. iIntros "H". rewrite Hs. fin.
        by iApply (dlR_close with "H").
      + opn ltac:(by right). unfold dl_remove.
        iApply (wp_dl_remove_by _ _ _ _ (λ x, eqb x v) with "H"); [rewrite (length_vals _ _ Hz); lia| |].
        { iIntros (ks rs pv x Q _ _) "H HQ". wstep. simpl. wstep. wstep. by iApply "HQ". }
        iIntros "H". fin. iApply (dlR_dlist with "H"); [|done]. by rewrite (fmap_filter (λ x, eqb x v)) Hz.
    - (* remove own *) apply bind_Some in Hseq as (v&Hv&?). simplify_eq.
      opn ltac:(right; intros Hx; by rewrite Hx in Hv). destruct (lookup_vals _ _ _ _ Hz Hv) as [l' Hl'].
      wstep. iApply (wp_l_own with "H"); [done|]. iIntros "H". iApply wp_ddone. unfold dl_remove.
      iApply (wp_dl_remove_by _ _ _ _ (λ x, eqb x v) with "H"); [rewrite (length_vals _ _ Hz); lia| |].
      { iIntros (ks rs pv x Q Hrs [js Hjs]) "H HQ". wstep.
        iApply (flst_deref _ _ _ (DNode l') v with "H"); [|iIntros "H"; wstep; by iApply "HQ"].
        simpl. apply elem_of_app. right. rewrite Hjs in Hl'. eapply elem_of_list_lookup_2.
        rewrite lookup_app_r in Hl'; [exact Hl'|].
        apply (f_equal length) in Hjs. rewrite app_length (length_vals _ _ Hz) in Hjs. destruct rs; [done|]. simpl in Hjs. lia. }
      iIntros "H". fin. iApply (dlR_dlist with "H"); [|done]. by rewrite (fmap_filter (λ x, eqb x v)) Hz.
    - (* remove_if *) simplify_eq. iApply wp_ddone. destruct (decide (s.1 = [])) as [Hs|Hs].
      + iDestruct "H" as (zs pv) "[%Hz H]". destruct Hz as [Hz Hm]. rewrite Hs in Hz. apply fmap_nil_inv in Hz. subst zs.
        unfold dl_remove_if. iApply (wp_dl_remove_by_nil with "H"); [lia|]. iIntros "H". rewrite Hs. fin.
        by iApply (dlR_close with "H").
      + opn ltac:(by right). unfold dl_remove_if.
        iApply (wp_dl_remove_by _ _ _ _ f with "H"); [rewrite (length_vals _ _ Hz); lia| |].
        { iIntros (ks rs pv x Q _ _) "H HQ". wstep. by iApply "HQ". }
        iIntros "H". fin. iApply (dlR_dlist with "H"); [|done]. by rewrite fmap_filter Hz.
    - (* unique *) simplify_eq. iApply wp_ddone. destruct (decide (s.1 = [])) as [Hs|Hs].
      + iDestruct "H" as (zs pv) "[%Hz H]". destruct Hz as [Hz Hm]. rewrite Hs in Hz. apply fmap_nil_inv in Hz. subst zs.
        iApply (wp_dl_unique_nil with "H"); [lia|]. iIntros "H". rewrite Hs. fin.
        by iApply (dlR_close with "H").
      + opn ltac:(by right). rewrite -(length_vals _ _ Hz) in Hf. destruct zs as [|[l v] zs]; [by rewrite -Hz in Hs|].
        iApply (wp_dl_unique with "H"); [simpl in Hf; lia|]. iIntros "H". fin.
        iApply (dlR_dlist with "H"); [|done]. by rewrite fmap_cons fmap_uniq -Hz.
    - (* reverse *) simplify_eq. iApply wp_ddone. opn ltac:(by left).
      iApply (wp_dl_reverse with "H"); [rewrite (length_vals _ _ Hz); lia|]. iIntros "H". fin.
      iApply (dlR_dlist with "H"); [|done]. by rewrite fmap_reverse Hz.
    - (* resize *) simplify_eq. iApply wp_ddone. rewrite app_length take_length replicate_length in Hf.
      destruct (decide (n = 0)) as [->|Hn].
      + iDestruct "H" as (zs pv) "[%Hz H]". destruct Hz as [Hz Hm].
        iApply (wp_dl_resize_0 with "H"); [rewrite (length_vals _ _ Hz); lia|]. iIntros "H". rewrite Hok. fin.
        iApply (dlR_close with "H"); [by rewrite Hz|done].
      + opn ltac:(by left). iApply (wp_dl_resize _ _ _ _ (DExt v) v with "H"); [done|rewrite (length_vals _ _ Hz); lia|lia|done|].
        iIntros (zs' Hzs') "H". fin. iApply (dlR_dlist with "H"); [|done].
        by rewrite fmap_app fmap_take Hz Hzs' (length_vals _ _ Hz).
    - (* resize own *) apply bind_Some in Hseq as (v&Hv&?). simplify_eq.
      rewrite app_length take_length replicate_length in Hf.
      destruct (decide (n = 0)) as [->|Hn]; [by rewrite Hok in Hv|].
      opn ltac:(by left). destruct (lookup_vals _ _ _ _ Hz Hv) as [l' Hl'].
      wstep. iApply (wp_l_own with "H"); [done|]. iIntros "H". iApply wp_ddone.
      iApply (wp_dl_resize _ _ _ _ (DNode l') v with "H");
        [done|rewrite (length_vals _ _ Hz); lia|lia|by eapply elem_of_list_lookup_2|].
      iIntros (zs' Hzs') "H". fin. iApply (dlR_dlist with "H"); [|done].
      by rewrite fmap_app fmap_take Hz Hzs' (length_vals _ _ Hz).
    - (* clear *) simplify_eq. iApply wp_ddone. iApply (wp_dl_clear_R with "H"); [unfold dneed; lia|]. iIntros "H".
      fin. done.
    - (* assign range *) simplify_eq. iApply wp_ddone. unfold dl_assign_range, dl_end. wstep.
      iApply (wp_dl_clear_R with "H"); [unfold dneed; lia|]. iIntros "H".
      destruct Hok as [->|[Hs Hm]].
      + simpl. wstep. fin. done.
      + rewrite Hs Hm. opn ltac:(by left). apply fmap_nil_inv in Hz. subst zs.
        change (Some this) with (dpos this ([] : elems) 0).
        iApply (wp_dl_insert_ext with "H"); [simpl; lia|]. iIntros (zs' Hzs') "H". fin.
        iApply (dlR_dlist with "H"); [|done]. rewrite fmap_dins Hzs'. unfold dins. simpl. by rewrite app_nil_r.
    - (* assign n *) simplify_eq. iApply wp_ddone. unfold dl_assign_n, dl_end. wstep.
      iApply (wp_dl_clear_R with "H"); [unfold dneed; lia|]. iIntros "H".
      destruct Hok as [->|[Hs Hm]].
      + simpl. wstep. fin. done.
      + rewrite Hs Hm. opn ltac:(by left). apply fmap_nil_inv in Hz. subst zs.
        change (Some this) with (dpos this ([] : elems) 0).
        iApply (wp_dl_insert_n _ _ _ _ (DExt v) v with "H"); [simpl; lia|done|]. iIntros (zs' Hzs') "H". fin.
        iApply (dlR_dlist with "H"); [|done]. rewrite fmap_dins Hzs'. unfold dins. simpl. by rewrite app_nil_r.
    - (* assign from *) simplify_eq. iApply wp_ddone. unfold dl_assign_from, dl_end, dl_begin. wstep.
      iApply (wp_dl_clear_R with "H"); [unfold dneed; lia|]. iIntros "H".
      iDestruct "Ho" as (ys po) "[%Hy Ho]". destruct Hy as [Hy Hmo].
      destruct Hok as [Ho|[Hs Hm]].
      + iDestruct "H" as (zs pv) "[%Hz H]". destruct Hz as [Hz Hm]. wstep.
        iApply (flst_next with "H"). iIntros "H". wstep.
        iApply (flst_next with "Ho"). iIntros "Ho". rewrite Ho in Hy. apply fmap_nil_inv in Hy. subst ys.
        unfold dl_insert_its. destruct fuel as [|fuel]; [lia|]. cbn [loop dfirst]. wstep. destruct (decide _); [done|]. wstep. wstep.
        wstep. iSplit; [done|]. cbn [fst snd]. rewrite Ho. iSplitL "H"; [by iApply (dlR_close with "H")|]. iApply (dlR_close with "Ho"); [done|done].
      + rewrite Hs Hm. opn ltac:(by left). apply fmap_nil_inv in Hz. subst zs. rewrite dlist_flst. wstep.
        iApply (flst_next with "H"). iIntros "H". wstep.
        iApply (flst_next with "Ho"). iIntros "Ho". rewrite -dlist_flst.
        iPoseProof (wp_dl_insert_its fuel this [] 0 other po [] ys [] with "H") as "Hw"; [simpl; lia|rewrite (length_vals _ _ Hy); lia|].
        rewrite app_nil_l !app_nil_r. iApply ("Hw" with "Ho"). iIntros (zs' Hzs') "H Ho". wstep. iSplit; [done|].
        cbn [fst snd]. iSplitL "H"; [|by iApply (dlR_close with "Ho")].
        iApply (dlR_dlist with "H"); [|done]. rewrite fmap_dins Hzs'. unfold dins. simpl. by rewrite app_nil_r.
    - (* recopy *) simplify_eq. wstep. iDestruct "Ho" as (ys po) "[%Hy Ho]". destruct Hy as [Hy Hmo]. wstep.
      iApply (wp_dl_destroy with "Ho"); [rewrite (length_vals _ _ Hy); lia|]. wstep.
      iDestruct "H" as (zs pv) "[%Hz H]". destruct Hz as [Hz Hm].
      iApply (wp_dl_copy with "H"); [rewrite (length_vals _ _ Hz); lia|]. iIntros (l zs' Hzs') "Ho H". wstep.
      iSplit; [done|]. cbn [fst snd]. iSplitL "H"; [by iApply (dlR_close with "H")|].
      iApply (dlR_dlist with "Ho"); [by rewrite Hzs'|done].
    - (* recreate n *) simplify_eq. wstep. iDestruct "Ho" as (ys po) "[%Hy Ho]". destruct Hy as [Hy Hmo]. wstep.
      iApply (wp_dl_destroy with "Ho"); [rewrite (length_vals _ _ Hy); lia|]. wstep.
      iApply wp_dl_new_n. iIntros (l zs' Hzs') "Ho". wstep. iSplit; [done|]. destruct s. iFrame "H".
      by iApply (dlR_dlist with "Ho").
    - (* recreate range *) simplify_eq. wstep. iDestruct "Ho" as (ys po) "[%Hy Ho]". destruct Hy as [Hy Hmo]. wstep.
      iApply (wp_dl_destroy with "Ho"); [rewrite (length_vals _ _ Hy); lia|]. wstep.
      iApply wp_dl_new_range. iIntros (l zs' Hzs') "Ho". wstep. iSplit; [done|]. destruct s. iFrame "H".
      by iApply (dlR_dlist with "Ho").
    - (* swap *) simplify_eq. iApply wp_ddone. destruct (decide (s.1 = [])) as [Hs|Hs].
      + assert (o.1 ≠ []) as Ho' by (by destruct Hok).
        iDestruct "H" as (zs pv) "[%Hz H]". destruct Hz as [Hz Hm]. rewrite Hs in Hz. apply fmap_nil_inv in Hz. subst zs.
        iDestruct (dlR_open with "Ho") as (ys) "[%Hy Ho]"; [by right|]. destruct Hy as [Hy Hmo].
        iDestruct "H" as "[H _]". simpl.
        iApply (wp_dl_swap_l with "H Ho"); [intros ->; by rewrite -Hy in Ho'|]. iIntros "H Ho". wstep. iSplit; [done|].
        cbn [fst snd]. rewrite Hs. iSplitL "H"; [iApply (dlR_dlist with "H")|iApply (dlR_dlist with "Ho")]; done.
      + opn ltac:(by right). destruct (decide (o.1 = [])) as [Ho|Ho'].
        * iDestruct "Ho" as (ys po) "[%Hy Ho]". destruct Hy as [Hy Hmo]. rewrite Ho in Hy. apply fmap_nil_inv in Hy. subst ys.
          iDestruct "Ho" as "[Ho _]". simpl.
          iApply (wp_dl_swap_r with "H Ho"); [intros ->; by rewrite -Hz in Hs|]. iIntros "H Ho". wstep. iSplit; [done|].
          cbn [fst snd]. rewrite Ho. iSplitL "H"; [iApply (dlR_dlist with "H")|iApply (dlR_dlist with "Ho")]; done.
        * iDestruct (dlR_open with "Ho") as (ys) "[%Hy Ho]"; [by right|]. destruct Hy as [Hy Hmo].
          iApply (wp_dl_swap_both with "H Ho"); [intros ->; by rewrite -Hz in Hs|intros ->; by rewrite -Hy in Ho'|].
          iIntros "H Ho". wstep. iSplit; [done|]. cbn [fst snd]. iSplitL "H"; [iApply (dlR_dlist with "H")|iApply (dlR_dlist with "Ho")]; done.
    - (* splice all *) destruct (decide _) as [Hi|]; [|done]. simplify_eq. destruct Hok as [Hm Hne].
      opn ltac:(by left). rewrite -(length_vals _ _ Hz) in Hi.
      iDestruct (dlR_open with "Ho") as (ys) "[%Hy Ho]"; [by right|]. destruct Hy as [Hy Hmo].
      wstep. iApply (wp_l_at with "H"); [done|]. iIntros "H". iApply wp_ddone.
      iApply (wp_dl_splice_all with "H Ho"); [done|intros ->; by rewrite -Hy in Hne|]. iIntros "H Ho".
      wstep. iSplit; [done|]. cbn [fst snd]. iSplitL "H"; [iApply (dlR_dlist with "H")|iApply (dlR_dlist with "Ho")]; try done. by rewrite fmap_dins Hz Hy.
    - (* splice one *) apply bind_Some in Hseq as (v&Hv&Hseq). destruct (decide _) as [Hi|]; [|done]. simplify_eq.
      opn ltac:(by left). rewrite -(length_vals _ _ Hz) in Hi.
      iDestruct (dlR_open with "Ho") as (ys) "[%Hy Ho]"; [right; intros Hx; by rewrite Hx in Hv|]. destruct Hy as [Hy Hmo].
      destruct (lookup_vals _ _ _ _ Hy Hv) as [l' Hl'].
      wstep. iApply (wp_l_at with "H"); [done|]. iIntros "H". wstep.
      iApply (wp_l_at with "Ho"); [apply lookup_lt_Some in Hl'; lia|]. iIntros "Ho". iApply wp_ddone.
      iApply (wp_dl_splice_one with "H Ho"); [done|done|]. iIntros "H Ho".
      wstep. iSplit; [done|]. cbn [fst snd]. iSplitL "H"; [iApply (dlR_dlist with "H")|iApply (dlR_dlist with "Ho")]; try done.
      + by rewrite fmap_dins Hz.
      + by rewrite fmap_dcut Hy.
    - (* splice range *) destruct (decide _) as [[Hi Hjk]|]; [|done]. simplify_eq. destruct Hok as [Hm Hlt].
      opn ltac:(by left). rewrite -(length_vals _ _ Hz) in Hi.
      iDestruct (dlR_open with "Ho") as (ys) "[%Hy Ho]"; [right; intros Hx; rewrite Hx /= in Hjk; lia|]. destruct Hy as [Hy Hmo].
      rewrite -(length_vals _ _ Hy) in Hjk.
      wstep. iApply (wp_l_at with "H"); [done|]. iIntros "H". wstep.
      iApply (wp_l_at with "Ho"); [lia|]. iIntros "Ho". wstep.
      iApply (wp_l_at with "Ho"); [lia|]. iIntros "Ho". iApply wp_ddone.
      iApply (wp_dl_splice_range with "H Ho"); [done|lia|]. iIntros "H Ho".
      wstep. iSplit; [done|]. cbn [fst snd]. iSplitL "H"; [iApply (dlR_dlist with "H")|iApply (dlR_dlist with "Ho")]; try done.
      + by rewrite fmap_dins fmap_dslice Hz Hy.
      + by rewrite fmap_dcut Hy.
    - (* move *) apply bind_Some in Hseq as (v&Hv&Hseq). destruct (decide _) as [Hi|]; [|done]. simplify_eq.
      opn ltac:(right; intros Hx; by rewrite Hx in Hv). rewrite -(length_vals _ _ Hz) in Hi.
      destruct (lookup_vals _ _ _ _ Hz Hv) as [l' Hl'].
      wstep. iApply (wp_l_at with "H"); [done|]. iIntros "H". wstep.
      iApply (wp_l_at with "H"); [apply lookup_lt_Some in Hl'; lia|]. iIntros "H". iApply wp_ddone.
      iApply (wp_dl_move with "H"); [done|done|done|]. iIntros "H". fin.
      iApply (dlR_dlist with "H"); [|done]. by rewrite fmap_dmove Hz.
    - (* move range *) destruct (decide _) as [(Hi&Hjk&Hn)|]; [|done]. simplify_eq. destruct Hok as [Hok1 Hok2].
      opn ltac:(destruct (decide (j = k)) as [Ee|]; [left; by apply Hok1|right; intros Hx; rewrite Hx /= in Hjk; lia]).
      rewrite -(length_vals _ _ Hz) in Hi. rewrite -(length_vals _ _ Hz) in Hjk.
      wstep. iApply (wp_l_at with "H"); [done|]. iIntros "H". wstep.
      iApply (wp_l_at with "H"); [lia|]. iIntros "H". wstep.
      iApply (wp_l_at with "H"); [lia|]. iIntros "H". iApply wp_ddone.
      iApply (wp_dl_move_range with "H"); [done| |].
      { destruct (decide (j = k)) as [Ee|]; [right; split; [done|by apply Hok1]|left; split; [lia|]].
        assert (i ≠ k) by (apply Hok2; lia). lia. }
      iIntros "H". fin. iApply (dlR_dlist with "H"); [|done]. by rewrite fmap_dmove_range Hz.
    - (* merge *) simplify_eq. destruct Hok as (Hm&_&Hso). opn ltac:(by left).
      iDestruct "Ho" as (ys po) "[%Hy Ho]". destruct Hy as [Hy Hmo]. iApply wp_ddone.
      iApply (wp_dl_merge _ _ _ _ _ po ys with "H Ho").
      + assert (length (merge_into cmp s.1 o.1) = length s.1 + length o.1) as Hl; [|rewrite Hl in Hf; rewrite (length_vals _ _ Hz) (length_vals _ _ Hy); lia].
        clear. generalize (o.1). induction (s.1) as [|x xs IHx]; intros ys; [done|].
        induction ys as [|y ys IHy]; [simpl; lia|]. simpl in *. destruct (cmp y x); simpl.
        * rewrite IHy. lia.
        * rewrite IHx. simpl. lia.
      + apply dsorted_fmap. by rewrite Hy.
      + intros Hne. destruct (o.2) eqn:E; [destruct Hmo as [-> _]; done|]. done.
      + iIntros "H Ho". wstep. iSplit; [done|]. cbn [fst snd]. iSplitL "H".
        * iApply (dlR_dlist with "H"); [|done]. by rewrite fmap_merge Hz Hy.
        * iApply (dlR_close with "Ho"); [done|]. destruct (decide (ys = [])) as [->|Hne]; [done|].
          destruct (o.2) eqn:E; [destruct Hmo as [-> _]; done|]. done.
    - (* set *) destruct (decide _) as [Hi|]; [|done]. simplify_eq.
      iDestruct "H" as (zs pv) "[%Hz H]". destruct Hz as [Hz Hm]. rewrite -(length_vals _ _ Hz) in Hi.
      wstep. iApply (wp_f_at with "H"); [lia|]. iIntros "H". iApply wp_ddone.
      destruct (lookup_lt_is_Some_2 zs i Hi) as [[l w] Hl].
      iApply (wp_d_assign with "H"); [done|]. iIntros "H". fin. iApply (dlR_close with "H").
      + by rewrite list_fmap_insert Hz.
      + unfold marked in *. cbn [snd]. destruct (s.2); [destruct Hm as [-> _]; simpl in Hi; lia|].
        rewrite Hm. clear -Hl. apply elem_of_list_split_length in Hl as (ks&rs&->&->).
        rewrite insert_app_r_alt // Nat.sub_diag /= !dlast_app !dlast_cons. done.
    - (* front *) apply bind_Some in Hseq as (v&Hv&?). simplify_eq.
      iDestruct "H" as (zs pv) "[%Hz H]". destruct Hz as [Hz Hm]. iApply wp_dobs.
      destruct zs as [|[l w] zs]; [by rewrite -Hz in Hv|]. rewrite -Hz in Hv. simplify_eq/=.
      iApply (wp_dl_front with "H"). iIntros "H". fin. by iApply (dlR_close with "H").
    - (* back *) apply bind_Some in Hseq as (v&Hv&?). simplify_eq.
      opn ltac:(right; intros Hx; by rewrite Hx in Hv). iApply wp_dobs.
      destruct zs as [|[l w] zs _] using rev_ind; [by rewrite -Hz in Hv|].
      rewrite -Hz fmap_app last_snoc in Hv. simplify_eq/=.
      iApply (wp_dl_back with "H"). iIntros "H". fin. by iApply (dlR_dlist with "H").
    - (* size *) simplify_eq. iDestruct "H" as (zs pv) "[%Hz H]". destruct Hz as [Hz Hm]. iApply wp_dobs.
      iApply (wp_dl_size with "H"); [rewrite (length_vals _ _ Hz); lia|]. iIntros "H". rewrite (length_vals _ _ Hz). fin.
      by iApply (dlR_close with "H").
    - (* empty *) simplify_eq. iDestruct "H" as (zs pv) "[%Hz H]". destruct Hz as [Hz Hm]. iApply wp_dobs.
      iApply (wp_dl_empty with "H"). iIntros "H".
      rewrite (bool_decide_ext (zs = []) (s.1 = [])); [|rewrite -Hz; split; [by intros ->|apply fmap_nil_inv]]. fin.
      by iApply (dlR_close with "H").
    - (* contents *) simplify_eq. iDestruct "H" as (zs pv) "[%Hz H]". destruct Hz as [Hz Hm]. iApply wp_dobs.
      iApply (wp_dl_contents with "H"); [rewrite (length_vals _ _ Hz); lia|]. iIntros "H". rewrite Hz. fin.
      by iApply (dlR_close with "H").
    - (* backwards *) simplify_eq. opn ltac:(by left). iApply wp_dobs.
      iApply (wp_dl_backwards with "H"); [rewrite (length_vals _ _ Hz); lia|]. iIntros "H". rewrite Hz. fin.
      by iApply (dlR_dlist with "H").
    - (* equal *) simplify_eq. iDestruct "H" as (zs pv) "[%Hz H]". destruct Hz as [Hz Hm]. iApply wp_dobs.
      iDestruct "Ho" as (ys po) "[%Hy Ho]". destruct Hy as [Hy Hmo].
      iApply (wp_dl_eq with "H Ho"); [rewrite (length_vals _ _ Hz) (length_vals _ _ Hy); lia|]. iIntros "H Ho". rewrite Hz Hy.
      wstep. iSplit; [done|]. cbn [fst snd]. iSplitL "H"; [by iApply (dlR_close with "H")|by iApply (dlR_close with "Ho")].
  Qed.

  Lemma wp_dl_new_R : ⊢ wp (dl_new (V:=V)) (λ a, dlR a ([], false)).
  Proof. iApply wp_dl_new. iIntros (l) "H". by iApply (dlR_dlist with "H"). Qed.
  Lemma wp_dl_destroy_R fuel a s : dneed s < fuel → dlR a s ⊢ wp (dl_destroy fuel a) (λ _, emp).
  Proof.
    iIntros (Hf) "H". iDestruct "H" as (zs pv) "[%Hz H]". destruct Hz as [Hz Hm].
    iApply (wp_dl_destroy with "H"); [rewrite (length_vals _ _ Hz); done|done].
  Qed.
  Lemma dl_history ops : h_correct dl_new dl_destroy (dl_step eqb rfirst) ([], false) (dl_spec eqb) ops.
  Proof.
    eapply (h_program_correct _ _ _ _ _ dlR dneed).
    - apply wp_dl_new_R.
    - apply wp_dl_destroy_R.
    - apply wp_dl_step.
  Qed.
  Lemma dl_history_reaches ops :
    h_reaches dl_new (dl_step eqb rfirst) ([], false) (dl_spec eqb) dl_holds ops.
  Proof.
    eapply (h_prefix_reaches _ _ _ _ dlR dneed).
    - apply wp_dl_new_R.
    - apply wp_dl_step.
    - apply dlR_holds.
  Qed.

  (** *** The basic calls *)
  Lemma basic_spec (vs ws vs' ws' : list V) op out :
    dl_basic_spec eqb vs ws op = Some (vs', ws', out) →
    dl_spec eqb (vs, false) (ws, false) op = Some ((vs', false), (ws', false), out).
  Proof.
    unfold dl_basic_spec, dl_spec. destruct (decide (dl_basic vs op)) as [Hb|]; [|done]. intros Hs.
    destruct (decide (dl_ok (vs, false) (ws, false) op)) as [_|Hn].
    - cbn [fst]. rewrite Hs. simpl. destruct op; done.
    - exfalso. apply Hn. destruct op; simpl in *; try done; destruct (decide (n = 0)); auto.
  Qed.
  Lemma dl_basic_history ops : h_correct dl_new dl_destroy (dl_step eqb rfirst) [] (dl_basic_spec eqb) ops.
  Proof.
    eapply (h_program_correct _ _ _ _ _ (λ a vs, dlR a (vs, false)) length).
    - apply wp_dl_new_R.
    - intros fuel a s. apply (wp_dl_destroy_R fuel a (s, false)).
    - intros fuel this other s o op s' o' out Hs Hf. by apply (wp_dl_step _ _ _ _ _ _ _ _ _ (basic_spec _ _ _ _ _ _ Hs)).
  Qed.
  Lemma dl_basic_reaches ops :
    h_reaches dl_new (dl_step eqb rfirst) [] (dl_basic_spec eqb)
      (λ this vs h, ∃ xs, xs.*2 = vs ∧ is_dlist this xs h) ops.
  Proof.
    eapply (h_prefix_reaches _ _ _ _ (λ a vs, dlR a (vs, false)) length).
    - apply wp_dl_new_R.
    - intros fuel this other s o op s' o' out Hs Hf. by apply (wp_dl_step _ _ _ _ _ _ _ _ _ (basic_spec _ _ _ _ _ _ Hs)).
    - intros a s. apply (dlR_holds a (s, false)).
  Qed.

  (** *** Undefined behaviour *)
  Lemma ifails_wp {A B} (P : iProp) (m : M (gmap loc C) A) (kk : A → M (gmap loc C) B) (F : iProp) a u :
    (∀ Q, P -∗ (F -∗ Q a) -∗ wp m Q) → ifails F (kk a) u → ifails P (bind m kk) u.
  Proof.
    intros Hm Hk. eapply (ifails_bind _ _ _ (λ b, ⌜b = a⌝ ∧ F)%I).
    - iIntros "H". iApply (Hm with "H"). iIntros "H". by iSplit.
    - intros b. apply ifails_pure. intros ->. done.
  Qed.
  Lemma ifails_delete_hdr this p q (F : iProp) :
    ifails (this ↦ DCell p q DHdr ∗ F) (delete_node (V:=V) (Some this)) BadCast.
  Proof.
    unfold delete_node. eapply (ifails_wp _ _ _ (this ↦ DCell p q DHdr ∗ F) (DCell p q DHdr)).
    - iIntros (Q) "[H HF] HQ". wstep. iApply "HQ". iFrame.
    - simpl. apply ifails_fail.
  Qed.
  Lemma ifails_value_hdr this p q (F : iProp) :
    ifails (this ↦ DCell p q DHdr ∗ F) (d_value (V:=V) (Some this)) BadCast.
  Proof.
    unfold d_value. eapply (ifails_wp _ _ _ (this ↦ DCell p q DHdr ∗ F) (DCell p q DHdr)).
    - iIntros (Q) "[H HF] HQ". wstep. iApply "HQ". iFrame.
    - simpl. apply ifails_fail.
  Qed.
  Lemma wp_unlink_hd this xs Q : dlist this xs -∗
    ((∃ p q F, this ↦ DCell p q DHdr ∗ F) -∗ Q tt) -∗ wp (unlink (Some this)) Q.
  Proof.
    iIntros "H HQ". destruct (decide (xs = [])) as [->|Hx].
    - rewrite dlist_flst. unfold flst. simpl. iDestruct "H" as "[H _]". unfold unlink. wstep.
      iApply (wp_get_next with "H"). iIntros "H". wstep. iApply (wp_get_prev with "H"). iIntros "H". wstep. simpl.
      iApply (wp_set_prev with "H"). iIntros "H". wstep.
      iApply (wp_get_prev with "H"). iIntros "H". wstep. iApply (wp_get_next with "H"). iIntros "H". simpl.
      iApply (wp_set_next with "H"). iIntros "H". iApply "HQ". simpl. iExists _, _, emp%I. by iFrame "H".
    - unfold dlist, DlistLogic.hd. iApply (wp_unlink with "H"); [by destruct xs|]. iIntros "H Hl". iApply "HQ".
      iExists _, _, (ring (dlive xs)). iFrame "Hl H".
  Qed.
  Lemma ifails_erase_header (f : nat) this xs (last : ptr) : 0 < f → dfirst xs (Some this) ≠ last →
    ifails (dlist this xs) (loop f (λ p, let! np := get_next p in
        if decide (np ≠ last) then unlink p ;! delete_node p ;! ret (inl np) else ret (inr np))
        (Some this)) BadCast.
  Proof.
    intros Hf Hne. destruct f as [|f]; [lia|]. cbn [loop]. apply ifails_bind_l.
    eapply (ifails_wp _ _ _ (dlist this xs) (dfirst xs (Some this))).
    { iIntros (Q) "H HQ". rewrite dlist_flst. iApply (flst_next with "H"). iIntros "H". by iApply "HQ". }
    destruct (decide _) as [_|]; [|done].
    eapply (ifails_wp _ _ _ (∃ p q F, this ↦ DCell p q DHdr ∗ F)%I tt).
    { iIntros (Q) "H HQ". by iApply (wp_unlink_hd with "H"). }
    apply ifails_exist. intros p. apply ifails_exist. intros q. apply ifails_exist. intros F.
    apply ifails_bind_l. apply ifails_delete_hdr.
  Qed.
  Lemma ifails_erase_run this (q : loc) rs ks (f : nat) : length rs < f → q ∉ this :: (ks ++ rs).*1 →
    ifails (dlist this (ks ++ rs)) (loop f (λ p, let! np := get_next p in
        if decide (np ≠ Some q) then unlink p ;! delete_node p ;! ret (inl np) else ret (inr np))
        (dfirst rs (Some this))) BadCast.
  Proof.
    revert f. induction rs as [|[l v] rs IH]; intros f Hf Hq.
    - simpl. apply ifails_erase_header; [lia|]. rewrite app_nil_r in Hq |- *.
      apply not_elem_of_cons in Hq as [Hq1 Hq2]. destruct ks as [|[k w] ks]; simpl in *; [congruence|].
      apply not_elem_of_cons in Hq2 as [Hq2 _]. simpl in Hq2. congruence.
    - destruct f as [|f]; [lia|]. cbn [loop dfirst].
      apply not_elem_of_cons in Hq as [Hq1 Hq2]. rewrite fmap_app fmap_cons in Hq2.
      apply not_elem_of_app in Hq2 as [Hq2 Hq3]. apply not_elem_of_cons in Hq3 as [Hq3 Hq4]. simpl in Hq3.
      eapply (ifails_wp _ _ _ (dlist this (ks ++ rs)) (inl (dfirst rs (Some this)))).
      + iIntros (Q) "H HQ". wstep. rewrite dlist_flst. iApply (flst_mid_next with "H"). iIntros "H".
        destruct (decide _) as [_|Hn].
        2:{ exfalso. apply Hn. intros He. destruct rs as [|[k w] rs]; simpl in *; [congruence|].
            apply not_elem_of_cons in Hq4 as [Hq4 _]. simpl in Hq4. congruence. }
        rewrite -dlist_flst. wstep. iApply (wp_mid_unlink with "H"). iIntros "H Hl". wstep.
        iApply (wp_delete_node with "Hl"). wstep. by iApply "HQ".
      + apply IH; [simpl in Hf; lia|]. apply not_elem_of_cons. split; [done|]. rewrite fmap_app.
        by apply not_elem_of_app.
  Qed.
  Lemma ifails_erase_same fuel this xs i : i ≤ length xs → xs ≠ [] → length xs < fuel →
    ifails (dlist this xs) (dl_erase_range fuel (dpos this xs i) (dpos this xs i)) BadCast.
  Proof.
    intros Hi Hne Hf. unfold dl_erase_range. rewrite dpos_drop //.
    eapply (ifails_conseq _ (⌜NoDup (this :: xs.*1)⌝ ∧ dlist this xs)).
    { iIntros "H". rewrite dlist_flst. iDestruct (flst_nodup with "H") as %?. by iSplit. }
    apply ifails_pure. intros Hnd.
    rewrite -(take_drop i xs) in Hnd |- *. rewrite -(take_drop i xs) app_length in Hf.
    assert (take i xs ++ drop i xs ≠ []) as Hne' by (by rewrite take_drop). clear Hne.
    rewrite drop_app_alt; [|rewrite take_length; lia].
    revert Hnd Hf Hne'. generalize (take i xs). generalize (drop i xs). clear Hi i xs. intros rs ks Hnd Hf Hne.
    destruct rs as [|[l v] rs]; simpl.
    - apply ifails_erase_header; [lia|]. rewrite app_nil_r in Hne Hnd |- *. destruct ks as [|[k w] ks]; [done|].
      simpl. intros [= ->]. apply NoDup_cons in Hnd as [Hn _]. apply Hn. left.
    - simpl in Hf. apply NoDup_cons in Hnd as [Hn Hnd]. rewrite fmap_app fmap_cons /= in Hnd, Hn.
      apply not_elem_of_app in Hn as [Hn1 Hn]. apply not_elem_of_cons in Hn as [Hn2 Hn3].
      rewrite -Permutation_middle in Hnd. apply NoDup_cons in Hnd as [Hl _].
      destruct fuel as [|fuel]; [lia|]. cbn [loop].
      eapply (ifails_wp _ _ _ (dlist this (ks ++ rs)) (inl (dfirst rs (Some this)))).
      + iIntros (Q) "H HQ". wstep. rewrite dlist_flst. iApply (flst_mid_next with "H"). iIntros "H".
        destruct (decide _) as [_|Hn].
        2:{ exfalso. apply Hn. intros He. destruct rs as [|[k w] rs]; simpl in *; [congruence|].
            apply Hl. apply elem_of_app. right. simplify_eq. left. }
        rewrite -dlist_flst. wstep. iApply (wp_mid_unlink with "H"). iIntros "H Hl". wstep.
        iApply (wp_delete_node with "Hl"). wstep. by iApply "HQ".
      + apply ifails_erase_run; [lia|]. apply not_elem_of_cons. split; [done|]. by rewrite fmap_app.
  Qed.

End hist.
