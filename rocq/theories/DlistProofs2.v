(** list.hpp: specifications of resize, remove, unique, reverse, swap, splice, merge and
    copying in the separation logic. Proof file. *)
From Verif Require Export DlistProofs.
From iris.proofmode Require Import tactics.

Section proofs.
  Context {V : Type} `{Allocator (dcell V)}.
  Notation C := (dcell V).
  Notation iProp := (bi_car (hpropI C)).
  Notation elems := (list (loc * V)).
  Implicit Types (xs ys zs ks rs : elems) (this other l : loc) (v : V) (r : dref V) (p q : ptr) (i j k n : nat).

  (** *** Assignment through an iterator *)
  Lemma wp_d_assign this pv xs i l w v Q : xs !! i = Some (l, w) →
    flst this pv xs -∗ (flst this pv (<[i:=(l,v)]> xs) -∗ Q tt) -∗
    wp (d_assign_value (dpos this xs i) v) Q.
  Proof.
    iIntros (Hl) "H HQ". rewrite (dpos_elem _ _ _ _ _ Hl).
    apply elem_of_list_split_length in Hl as (ks&rs&->&->).
    iDestruct (flst_focus with "H") as "[Hl H]". unfold d_assign_value. wsteps. simpl. wsteps.
    iApply "HQ". rewrite insert_app_r_alt // Nat.sub_diag /=. iApply flst_focus. simpl.
    iDestruct "H" as "(H&Hk&Hr)". rewrite !dfirst_app. simpl. iFrame.
  Qed.

  (** *** resize *)
  Lemma wp_dl_cut fuel this ks l v rs Q : length rs < fuel →
    dlist this (ks ++ (l,v) :: rs) -∗ (dlist this (ks ++ [(l,v)]) -∗ Q tt) -∗
    wp (dl_cut fuel this (Some l)) Q.
  Proof.
    unfold dl_cut. revert fuel. induction rs as [|[k w] rs IH] using rev_ind; intros fuel Hf;
      (destruct fuel as [|fuel]; [lia|]); iIntros "H HQ"; cbn [loop]; wstep; wstep;
      rewrite dlist_flst; iApply (flst_mid_next with "H"); iIntros "H".
    - destruct (decide _); [done|]. rewrite -dlist_flst. wstep. wstep. by iApply "HQ".
    - rewrite app_length /= in Hf.
      iAssert ⌜dfirst (rs ++ [(k, w)]) (Some this) ≠ Some this⌝%I as %Hne.
      { iDestruct (flst_nodup with "H") as %Hnd. iPureIntro.
        apply NoDup_cons in Hnd as [Hn _]. intros He. apply Hn. rewrite fmap_app fmap_cons.
        apply elem_of_app. right. right. destruct rs as [|[k' w'] rs]; simpl in *; simplify_eq; left. }
      destruct (decide _) as [_|Hn]; [|done]. rewrite -dlist_flst. wstep.
      replace (ks ++ (l, v) :: rs ++ [(k, w)]) with ((ks ++ (l, v) :: rs) ++ [(k, w)]) by (by rewrite -app_assoc).
      iApply (wp_hd_prev with "H"). iIntros "H". rewrite dlast_snoc. wstep.
      iApply (wp_mid_unlink this _ k w [] with "H"). iIntros "H Hl". rewrite app_nil_r. wstep.
      iApply (wp_delete_node with "Hl"). wstep. iApply (IH with "H"); [lia|]. done.
  Qed.
  Lemma wp_dl_grow fuel this xs n r v Q : n - length xs < fuel → drefers xs r v →
    dlist this xs -∗
    (∀ zs, ⌜zs.*2 = replicate (n - length xs) v⌝ → dlist this (xs ++ zs) -∗ Q tt) -∗
    wp (loop fuel (λ siz,
          if decide (siz < n) then
            let! x := new_node r in
            insert_before (Some this) x ;!
            ret (inl (S siz))
          else ret (inr tt)) (length xs)) Q.
  Proof.
    revert xs. induction fuel as [|fuel IH]; intros xs Hf Hr; [lia|]. iIntros "H HQ". cbn [loop]. wstep.
    destruct (decide _) as [Hlt|Hn].
    - wstep. rewrite dlist_flst. iApply (wp_new_node with "H"); [done|]. iIntros (l) "H Hl".
      rewrite -dlist_flst. wstep. rewrite -(dpos_end this xs).
      iApply (wp_link with "H Hl"); [done|done|]. iIntros "H". wstep.
      unfold dins. rewrite firstn_all drop_all app_nil_r.
      replace (S (length xs)) with (length (xs ++ [(l,v)])) by (rewrite app_length /=; lia).
      rewrite (dpos_end this xs).
      iApply (IH with "H"); [rewrite app_length /=; lia| |].
      + destruct r; simpl in *; [done|]. apply elem_of_app; by left.
      + iIntros (zs Hzs) "H". rewrite -app_assoc. iApply ("HQ" $! ((l,v) :: zs)); [|done].
        iPureIntro. rewrite fmap_cons Hzs app_length /=. replace (n - length xs) with (S (n - (length xs + 1))) by lia. done.
    - wstep. wstep. iApply ("HQ" $! []); [|by rewrite app_nil_r]. iPureIntro.
      replace (n - length xs) with 0 by lia. done.
  Qed.
  Lemma wp_dl_resize fuel this xs n r v Q : n ≠ 0 → length xs < fuel → n < fuel → drefers xs r v →
    dlist this xs -∗
    (∀ zs, ⌜zs.*2 = replicate (n - length xs) v⌝ → dlist this (take n xs ++ zs) -∗ Q tt) -∗
    wp (dl_resize fuel this n r) Q.
  Proof.
    iIntros (Hn0 Hf Hfn Hr) "H HQ". unfold dl_resize. wstep. rewrite dlist_flst.
    iApply (flst_next with "H"). iIntros "H". wstep. rewrite -dlist_flst.
    match goal with |- context [wp (loop fuel ?body _) ?Post] => set (bd := body); set (Q' := Post) end.
    assert (∀ rs ks f, length rs < f → xs = ks ++ rs → length ks < n →
      dlist this xs -∗ (⌜n ≤ length xs⌝ → dlist this (take n xs) -∗ Q' None) ∧
        (⌜length xs < n⌝ → dlist this xs -∗ Q' (Some (length xs))) -∗
      wp (loop f bd (dfirst rs (Some this), length ks)) Q') as Hg.
    { intros rs. induction rs as [|[l w] rs IH]; intros ks f Hf' Hxs Hk;
        (destruct f as [|f]; [lia|]); iIntros "H HQ"; cbn [loop dfirst]; unfold bd at 1; wstep.
      - destruct (decide _); [done|]. wstep. wstep. rewrite app_nil_r in Hxs. subst ks.
        iDestruct "HQ" as "[_ HQ]". by iApply "HQ".
      - simpl in Hf'. subst xs. rewrite dlist_flst. iDestruct (flst_mid_ne with "H") as %?. rewrite -dlist_flst.
        destruct (decide _) as [_|Hn]; [|destruct Hn; congruence].
        destruct (decide (S (length ks) = n)) as [Hn|Hn].
        + wstep. iApply (wp_dl_cut with "H"); [rewrite app_length /= in Hf; lia|]. iIntros "H". wstep. wstep.
          iDestruct "HQ" as "[HQ _]". iApply "HQ"; [iPureIntro; rewrite app_length /=; lia|].
          rewrite -Hn (cons_middle _ ks rs) (app_assoc ks _ rs) take_app_alt; [done|]. rewrite app_length /=; lia.
        + wstep. rewrite dlist_flst. iApply (flst_mid_next with "H"). iIntros "H". rewrite -dlist_flst. wstep.
          replace (S (length ks)) with (length (ks ++ [(l,w)])) by (rewrite app_length /=; lia).
          iApply (IH with "H"); [lia|by rewrite -app_assoc|rewrite app_length /=; lia|done]. }
    iApply (Hg xs [] with "H"); [done|done|simpl; lia|]. iSplit.
    - iIntros (Hle) "H". unfold Q'. wstep. iApply ("HQ" $! []); [|by rewrite app_nil_r].
      iPureIntro. replace (n - length xs) with 0 by lia. done.
    - iIntros (Hlt) "H". unfold Q'. iApply (wp_dl_grow with "H"); [lia|done|].
      iIntros (zs Hzs) "H". rewrite take_ge; [|lia]. by iApply "HQ".
  Qed.
  (** resize(0) does nothing *)
  Lemma wp_dl_resize_0 fuel this pv xs r Q : length xs < fuel →
    flst this pv xs -∗ (flst this pv xs -∗ Q tt) -∗ wp (dl_resize fuel this 0 r) Q.
  Proof.
    iIntros (Hf) "H HQ". unfold dl_resize. wstep. iApply (flst_next with "H"). iIntros "H". wstep.
    match goal with |- context [wp (loop fuel ?body _) ?Post] => set (bd := body); set (Q' := Post) end.
    assert (∀ rs ks f m, length rs < f →
      flst this pv (ks ++ rs) -∗ (∀ m, flst this pv (ks ++ rs) -∗ Q' (Some m)) -∗
      wp (loop f bd (dfirst rs (Some this), m)) Q') as Hg.
    { intros rs. induction rs as [|[l w] rs IH]; intros ks f m Hf';
        (destruct f as [|f]; [lia|]); iIntros "H HQ"; cbn [loop dfirst]; unfold bd at 1; wstep.
      - destruct (decide _); [done|]. wstep. wstep. by iApply "HQ".
      - simpl in Hf'. iDestruct (flst_mid_ne with "H") as %?.
        destruct (decide _) as [_|Hn]; [|destruct Hn; congruence].
        destruct (decide (S m = 0)); [lia|].
        wstep. iApply (flst_mid_next with "H"). iIntros "H". wstep.
        rewrite (cons_middle _ ks) app_assoc. iApply (IH with "H"); [lia|done]. }
    iApply (Hg xs [] with "H"); [done|]. iIntros (m) "H". unfold Q'. destruct fuel as [|fuel]; [lia|].
    cbn [loop]. wstep. destruct (decide (m < 0)); [lia|]. wstep. wstep. by iApply "HQ".
  Qed.

  (** *** remove, remove_if *)
  Lemma wp_dl_remove_by_nil fuel this pv test Q : 0 < fuel →
    flst this pv ([] : elems) -∗ (flst this pv ([] : elems) -∗ Q tt) -∗ wp (dl_remove_by fuel this test) Q.
  Proof.
    iIntros (Hf) "H HQ". unfold dl_remove_by. wstep. iApply (flst_next with "H"). iIntros "H". simpl.
    wstep. iApply (flst_next with "H"). iIntros "H". destruct fuel as [|fuel]; [lia|]. cbn [loop]. wstep.
    destruct (decide _); [done|]. wstep. wstep. by iApply "HQ".
  Qed.
  Lemma wp_dl_remove_by fuel this xs test (f : V → bool) Q : length xs < fuel →
    (∀ ks rs pv x (Q : bool → iProp), rs ≠ [] → (∃ js, xs = js ++ rs) →
      flst this pv (ks ++ rs) -∗ (flst this pv (ks ++ rs) -∗ Q (f x)) -∗ wp (test x) Q) →
    dlist this xs -∗ (dlist this (filter (λ z, f z.2 = false) xs) -∗ Q tt) -∗
    wp (dl_remove_by fuel this test) Q.
  Proof.
    iIntros (Hf Htest) "H HQ". unfold dl_remove_by. wstep. rewrite dlist_flst.
    iApply (flst_next with "H"). iIntros "H". wstep.
    match goal with |- context [loop fuel ?body _] => set (bd := body) end.
    assert (∀ rs ks f0 (n : ptr), length rs < f0 → (∃ js, xs = js ++ rs) →
      (∀ l v rs', rs = (l,v) :: rs' → n = dfirst rs' (Some this)) →
      dlist this (ks ++ rs) -∗ (dlist this (ks ++ filter (λ z, f z.2 = false) rs) -∗ Q tt) -∗
      wp (loop f0 bd (dfirst rs (Some this), n)) Q) as Hg.
    { intros rs. induction rs as [|[l w] rs IH]; intros ks f0 n Hf' [js Hxs] Hn;
        (destruct f0 as [|f0]; [lia|]); iIntros "H HQ"; cbn [loop dfirst]; unfold bd at 1; wstep.
      - destruct (decide _); [done|]. wstep. wstep. by iApply "HQ".
      - simpl in Hf'. rewrite dlist_flst. iDestruct (flst_mid_ne with "H") as %?.
        destruct (decide _) as [_|Hne]; [|destruct Hne; congruence].
        rewrite (Hn l w rs) //. wstep. iApply (flst_mid_value with "H"). iIntros "H". wstep.
        iApply (Htest with "H"); [done|by exists js|]. iIntros "H". wstep. rewrite -dlist_flst.
        assert (∀ f1 ks', length rs < f1 →
          dlist this (ks' ++ rs) -∗ (dlist this (ks' ++ filter (λ z, f z.2 = false) rs) -∗ Q tt) -∗
          wp (get_next (dfirst rs (Some this))) (λ a, wp (ret (inl (dfirst rs (Some this), a)))
            (λ s, wp (match s with inl a' => loop f1 bd a' | inr b => ret b end) Q))) as Hnext.
        { iIntros (f1 ks' Hf1) "H HQ". rewrite dlist_flst. destruct rs as [|[l' w'] rs]; simpl.
          - iApply (flst_next with "H"). iIntros "H". wstep. rewrite -dlist_flst.
            iApply (IH ks' f1 with "H"); [done|exists (js ++ [(l,w)]); by rewrite -app_assoc|done|done].
          - iApply (flst_mid_next with "H"). iIntros "H". wstep. rewrite -dlist_flst.
            iApply (IH ks' f1 with "H"); [done|exists (js ++ [(l,w)]); by rewrite -app_assoc| |done].
            intros ??? [= <- <- <-]. done. }
        destruct (f w) eqn:Ef.
        + wstep. iApply (wp_mid_unlink with "H"). iIntros "H Hl". iApply (wp_delete_node with "Hl"). wstep.
          iApply (Hnext with "H"); [lia|]. rewrite filter_cons_False /=; [done|congruence].
        + wstep. wstep. rewrite (cons_middle _ ks rs) app_assoc.
          iApply (Hnext with "H"); [lia|]. rewrite filter_cons_True //= -app_assoc. done. }
    destruct xs as [|[l v] xs]; simpl.
    - iApply (flst_next with "H"). iIntros "H". rewrite -dlist_flst.
      iApply (Hg [] [] with "H"); [done|by exists []|done|done].
    - iApply (flst_mid_next this _ [] with "H"). iIntros "H". rewrite -dlist_flst.
      iApply (Hg ((l,v) :: xs) [] with "H"); [done|by exists []| |done].
      intros ??? [= <- <- <-]. done.
  Qed.

  (** *** unique *)
  Lemma wp_dl_unique_nil fuel this pv f Q : 0 < fuel →
    flst this pv ([] : elems) -∗ (flst this pv ([] : elems) -∗ Q tt) -∗ wp (dl_unique fuel this f) Q.
  Proof.
    iIntros (Hf) "H HQ". unfold dl_unique. wstep. iApply (flst_next with "H"). iIntros "H". simpl.
    wstep. iApply (flst_next with "H"). iIntros "H". simpl. wstep. iApply (flst_next with "H"). iIntros "H".
    destruct fuel as [|fuel]; [lia|]. cbn [loop]. wstep.
    destruct (decide _); [done|]. wstep. wstep. by iApply "HQ".
  Qed.
  Lemma wp_dl_unique fuel this a y xs f Q : length xs < fuel →
    dlist this ((a,y) :: xs) -∗
    (dlist this ((a,y) :: uniq_from (λ z1 z2, f z1.2 z2.2) (a,y) xs) -∗ Q tt) -∗
    wp (dl_unique fuel this f) Q.
  Proof.
    iIntros (Hf) "H HQ". unfold dl_unique. wstep. rewrite dlist_flst.
    iApply (flst_next with "H"). iIntros "H". simpl. wstep.
    iApply (flst_mid_next this _ [] with "H"). iIntros "H". wstep.
    match goal with |- context [loop fuel ?body _] => set (bd := body) end.
    assert (∀ rs ks a y f0 (n : ptr), length rs < f0 →
      (∀ l v rs', rs = (l,v) :: rs' → n = dfirst rs' (Some this)) →
      dlist this (ks ++ (a,y) :: rs) -∗
      (dlist this (ks ++ (a,y) :: uniq_from (λ z1 z2, f z1.2 z2.2) (a,y) rs) -∗ Q tt) -∗
      wp (loop f0 bd (Some a, dfirst rs (Some this), n)) Q) as Hg.
    { clear. intros rs. induction rs as [|[l w] rs IH]; intros ks a y f0 n Hf' Hn;
        (destruct f0 as [|f0]; [lia|]); iIntros "H HQ"; cbn [loop dfirst]; unfold bd at 1; wstep.
      - destruct (decide _); [done|]. wstep. wstep. by iApply "HQ".
      - simpl in Hf'. rewrite dlist_flst (cons_middle _ ks) app_assoc.
        iDestruct (flst_mid_ne with "H") as %?.
        destruct (decide _) as [_|Hne]; [|destruct Hne; congruence].
        rewrite (Hn l w rs) //. wstep. iApply (flst_mid_value with "H"). iIntros "H". wstep.
        rewrite -app_assoc. simpl. iApply (flst_mid_value with "H"). iIntros "H".
        rewrite -dlist_flst.
        assert (∀ ks' b z f1, length rs < f1 →
          dlist this (ks' ++ (b,z) :: rs) -∗
          (dlist this (ks' ++ (b,z) :: uniq_from (λ z1 z2, f z1.2 z2.2) (b,z) rs) -∗ Q tt) -∗
          wp (get_next (dfirst rs (Some this))) (λ c, wp (ret (inl (Some b, dfirst rs (Some this), c)))
            (λ s, wp (match s with inl a' => loop f1 bd a' | inr b => ret b end) Q))) as Hnext.
        { iIntros (ks' b z f1 Hf1) "H HQ". rewrite dlist_flst. destruct rs as [|[l' w'] rs]; simpl.
          - iApply (flst_next with "H"). iIntros "H". wstep. rewrite -dlist_flst.
            iApply (IH ks' b z f1 with "H"); [done|done|done].
          - rewrite (cons_middle _ ks') app_assoc.
            iApply (flst_mid_next with "H"). iIntros "H". wstep. rewrite -dlist_flst -app_assoc.
            iApply (IH ks' b z f1 with "H"); [done| |done].
            intros ??? [= <- <- <-]. done. }
        wstep. destruct (f w y) eqn:Ef.
        + wstep. rewrite (cons_middle _ ks ((l,w) :: rs)) (app_assoc ks _ ((l,w) :: rs)).
          iApply (wp_mid_unlink _ (ks ++ [(a,y)]) with "H"). iIntros "H Hl". wstep.
          iApply (wp_delete_node with "Hl"). wstep. wstep. rewrite -app_assoc /=.
          iApply (Hnext with "H"); [lia|]. done.
        + wstep. wstep. rewrite (cons_middle _ ks ((l,w) :: rs)) (app_assoc ks _ ((l,w) :: rs)).
          iApply (Hnext (ks ++ [(a,y)]) with "H"); [lia|]. rewrite -!app_assoc /=. done. }
    destruct xs as [|[l v] xs]; simpl.
    - iApply (flst_next with "H"). iIntros "H". rewrite -dlist_flst.
      iApply (Hg [] [] with "H"); [done|done|done].
    - iApply (flst_mid_next this _ [(a,y)] with "H"). iIntros "H". rewrite -dlist_flst.
      iApply (Hg ((l,v) :: xs) [] with "H"); [done| |done].
      intros ??? [= <- <- <-]. done.
  Qed.
End proofs.
