(** list.hpp: reverse, swap, splice, merge and copying in the separation logic.
    Proof file. *)
From Verif Require Export DlistProofs2.
From iris.proofmode Require Import tactics.

Section proofs.
  Context {V : Type} `{Allocator (dcell V)}.
  Notation C := (dcell V).
  Notation iProp := (bi_car (hpropI C)).
  Notation elems := (list (loc * V)).
  Implicit Types (xs ys zs ks rs : elems) (this other l : loc) (v : V) (r : dref V) (p q : ptr) (i j k n : nat).

  (** *** reverse *)
  Fixpoint sseg (p : ptr) (ns : list (loc * dslot V)) (q : ptr) : iProp :=
    match ns with
    | [] => emp
    | (l, s) :: r => l ↦ DCell (dfirst r q) p s ∗ sseg (Some l) r q
    end%I.
  Lemma dfirst_rev {A} (ns : list (loc * A)) q : dfirst (reverse ns) q = dlast ns q.
  Proof.
    destruct ns as [|[l s] ns _] using rev_ind; [done|]. by rewrite reverse_snoc dlast_snoc.
  Qed.
  Lemma dlast_rev {A} (ns : list (loc * A)) q : dlast (reverse ns) q = dfirst ns q.
  Proof. by rewrite -dfirst_rev reverse_involutive. Qed.
  Lemma sseg_rev p ns q : sseg p ns q ⊣⊢ seg q (reverse ns) p.
  Proof.
    revert p. induction ns as [|[l s] ns IH]; intros p; [done|].
    rewrite reverse_cons seg_snoc dlast_rev -IH. cbn [sseg]. by rewrite comm.
  Qed.
  Lemma sseg_app p a b q : sseg p (a ++ b) q ⊣⊢ sseg p a (dfirst b q) ∗ sseg (dlast a p) b q.
  Proof.
    revert p. induction a as [|[l s] a IH]; intros p; cbn [app sseg].
    - by rewrite left_id.
    - rewrite IH dfirst_app dlast_cons. by rewrite assoc.
  Qed.
  Lemma wp_reverse_loop fuel ds l s ns p this Q : length ns < fuel → this ∉ ns.*1 →
    sseg p ds (Some l) -∗ seg (dlast ds p) ((l,s) :: ns) (Some this) -∗
    (sseg p (ds ++ (l,s) :: ns) (Some this) -∗ Q tt) -∗
    wp (loop fuel (λ p,
      let! t := get_next p in
      let! pp := get_prev p in
      set_next p pp ;!
      set_prev p t ;!
      if decide (t ≠ Some this) then ret (inl t) else ret (inr tt)) (Some l)) Q.
  Proof.
    revert ds l s fuel. induction ns as [|[l' s'] ns IH]; intros ds l s fuel Hf Hn;
      (destruct fuel as [|fuel]; [lia|]); iIntros "Hd [Hl H] HQ"; cbn [loop]; wstep; wstep.
    - iApply (wp_get_next with "Hl"). iIntros "Hl". wstep. iApply (wp_get_prev with "Hl"). iIntros "Hl".
      wstep. iApply (wp_set_next with "Hl"). iIntros "Hl". wstep. iApply (wp_set_prev with "Hl"). iIntros "Hl".
      simpl. destruct (decide _); [done|]. wstep. wstep. iApply "HQ". rewrite sseg_app. simpl. iFrame.
    - iApply (wp_get_next with "Hl"). iIntros "Hl". wstep. iApply (wp_get_prev with "Hl"). iIntros "Hl".
      wstep. iApply (wp_set_next with "Hl"). iIntros "Hl". wstep. iApply (wp_set_prev with "Hl"). iIntros "Hl".
      cbn [d_next d_prev d_val dfirst]. apply not_elem_of_cons in Hn as [Hne Hn]. simpl in Hne.
      destruct (decide _) as [_|Hx]; [|destruct Hx; congruence]. wstep.
      iApply (IH (ds ++ [(l,s)]) with "[Hd Hl] [H]"); [simpl in Hf; lia|done| | |].
      + rewrite sseg_app. simpl. iFrame.
      + rewrite dlast_snoc. done.
      + rewrite -app_assoc. done.
  Qed.
  Lemma wp_dl_reverse fuel this xs Q : length xs < fuel →
    dlist this xs -∗ (dlist this (reverse xs) -∗ Q tt) -∗ wp (dl_reverse fuel this) Q.
  Proof.
    iIntros (Hf) "H HQ". iDestruct (ring_nodup with "H") as %Hnd.
    apply NoDup_cons in Hnd as [Hn _]. unfold dl_reverse, node_reverse.
    iApply (wp_reverse_loop _ [] with "[] [H]"); [|exact Hn| |iExact "H"|].
    { unfold dlive. by rewrite fmap_length. }
    { done. }
    iIntros "H". iApply "HQ". rewrite app_nil_l sseg_rev. unfold dlist.
    rewrite reverse_cons.
    assert (dlive (reverse xs) = reverse (dlive xs)) as -> by (unfold dlive; by rewrite fmap_reverse).
    change (DlistLogic.hd this :: reverse (dlive xs)) with ([DlistLogic.hd this] ++ reverse (dlive xs)).
    rewrite (ring_rotate [DlistLogic.hd this]). unfold ring. rewrite dlast_snoc dfirst_app dfirst_rev dlast_cons. done.
  Qed.

  (** *** swap *)
  Lemma wp_chain rfirst this p q ns p' q' Q : ns ≠ [] → p = dlast ns None → q = dfirst ns None →
    this ↦ (DCell p q DHdr : C) -∗ seg p' ns q' -∗
    (this ↦ (DCell p q DHdr : C) -∗ seg (Some this) ns (Some this) -∗ Q tt) -∗
    wp (chain_assign rfirst (Some this) (Some this) (Some this)) Q.
  Proof.
    iIntros (Hns -> ->) "Ht H HQ". unfold chain_assign. destruct rfirst.
    - wstep. iApply (wp_get_next with "Ht"). iIntros "Ht". wstep.
      iApply (wp_first_set_prev _ _ (Some this) with "H"); [done|]. iIntros "H". wstep.
      iApply (wp_get_prev with "Ht"). iIntros "Ht".
      iApply (wp_last_set_next _ _ _ (Some this) with "H"); [done|]. iIntros "H". iApply ("HQ" with "Ht H").
    - wstep. iApply (wp_get_prev with "Ht"). iIntros "Ht". wstep.
      iApply (wp_get_next with "Ht"). iIntros "Ht". wstep.
      iApply (wp_first_set_prev _ _ (Some this) with "H"); [done|]. iIntros "H".
      iApply (wp_last_set_next _ _ _ (Some this) with "H"); [done|]. iIntros "H". iApply ("HQ" with "Ht H").
  Qed.
  Lemma dlist_ring this xs : xs ≠ [] →
    dlist this xs ⊣⊢ this ↦ DCell (dlast (dlive xs) None) (dfirst (dlive xs) None) DHdr ∗
      seg (Some this) (dlive xs) (Some this).
  Proof.
    intros Hx. unfold dlist, DlistLogic.hd. rewrite ring_cons (dlast_ne _ _ None) ?(dfirst_ne _ _ None) //; by destruct xs.
  Qed.
  Lemma dlive_ne xs : xs ≠ [] → dlive xs ≠ [].
  Proof. by destruct xs. Qed.
  Lemma wp_halfswap rfirst a b p ys Q : ys ≠ [] →
    a ↦ (DCell p (Some a) DHdr : C) -∗ dlist b ys -∗ (dlist a ys -∗ dlist b ([] : elems) -∗ Q tt) -∗
    wp (halfswap rfirst (Some a) (Some b)) Q.
  Proof.
    iIntros (Hy) "Ha Hb HQ". rewrite (dlist_ring b) //. iDestruct "Hb" as "[Hb H]". unfold halfswap.
    pose proof (dlive_ne _ Hy) as Hy'.
    wstep. iApply (wp_get_prev with "Hb"). iIntros "Hb". wstep. iApply (wp_set_prev with "Ha"). iIntros "Ha". wstep.
    iApply (wp_get_next with "Hb"). iIntros "Hb". wstep. iApply (wp_set_next with "Ha"). iIntros "Ha". wstep.
    cbn [d_prev d_next d_val].
    iAssert (wp (chain_assign rfirst (Some b) (Some b) (Some a)) (λ _,
      b ↦ DCell (dlast (dlive ys) None) (dfirst (dlive ys) None) DHdr ∗
      seg (Some a) (dlive ys) (Some a)))%I with "[Hb H]" as "Hw".
    { unfold chain_assign. destruct rfirst.
      - wstep. iApply (wp_get_next with "Hb"). iIntros "Hb". wstep.
        iApply (wp_first_set_prev _ _ (Some a) with "H"); [done|]. iIntros "H". wstep.
        iApply (wp_get_prev with "Hb"). iIntros "Hb".
        iApply (wp_last_set_next _ _ _ (Some a) with "H"); [done|]. iIntros "H". iFrame "Hb H".
      - wstep. iApply (wp_get_prev with "Hb"). iIntros "Hb". wstep.
        iApply (wp_get_next with "Hb"). iIntros "Hb". wstep.
        iApply (wp_first_set_prev _ _ (Some a) with "H"); [done|]. iIntros "H".
        iApply (wp_last_set_next _ _ _ (Some a) with "H"); [done|]. iIntros "H". iFrame "Hb H". }
    iApply (wp_wand with "Hw"). iIntros (_) "[Hb H]". wstep.
    iApply (wp_set_next with "Hb"). iIntros "Hb". iApply (wp_set_prev with "Hb"). iIntros "Hb".
    iApply ("HQ" with "[Ha H] [Hb]").
    - iApply dlist_ring; [done|]. iFrame "Ha H".
    - unfold dlist, DlistLogic.hd. rewrite dlive_nil ring_one. done.
  Qed.
  Lemma dfirst_this_ne this xs : xs ≠ [] → dlist this xs ⊢ ⌜Some this ≠ dfirst (dlive xs) None⌝.
  Proof.
    iIntros (Hx) "H". iDestruct (dlist_pos_ne this xs 0 with "H") as %Hne.
    { destruct xs; [done|simpl; lia]. }
    iPureIntro. rewrite dpos_drop in Hne; [|lia]. rewrite drop_0 in Hne.
    destruct xs as [|[??] ?]; [done|]. simpl in *. congruence.
  Qed.
  Lemma wp_dl_swap_both rfirst a b xs ys Q : xs ≠ [] → ys ≠ [] →
    dlist a xs -∗ dlist b ys -∗ (dlist a ys -∗ dlist b xs -∗ Q tt) -∗ wp (dl_swap rfirst a b) Q.
  Proof.
    iIntros (Hx Hy) "Ha Hb HQ". unfold dl_swap, node_swap.
    iDestruct (dfirst_this_ne with "Ha") as %Hna; [done|]. iDestruct (dfirst_this_ne with "Hb") as %Hnb; [done|].
    rewrite (dlist_ring a xs) // (dlist_ring b ys) //. iDestruct "Ha" as "[Ha Hx]". iDestruct "Hb" as "[Hb Hy]".
    pose proof (dlive_ne _ Hx) as Hx'. pose proof (dlive_ne _ Hy) as Hy'.
    wstep. iApply (wp_get_next with "Ha"). iIntros "Ha". simpl. destruct (decide _) as [_|?]; [|done].
    wstep. iApply (wp_get_next with "Hb"). iIntros "Hb". simpl. destruct (decide _) as [_|?]; [|done].
    wstep. iApply (wp_get_prev with "Ha"). iIntros "Ha". wstep. iApply (wp_get_prev with "Hb"). iIntros "Hb".
    wstep. iApply (wp_set_prev with "Ha"). iIntros "Ha". wstep. iApply (wp_set_prev with "Hb"). iIntros "Hb".
    wstep. iApply (wp_get_next with "Ha"). iIntros "Ha". wstep. iApply (wp_get_next with "Hb"). iIntros "Hb".
    wstep. iApply (wp_set_next with "Ha"). iIntros "Ha". wstep. iApply (wp_set_next with "Hb"). iIntros "Hb".
    cbn [d_prev d_next d_val]. wstep.
    iApply (wp_chain with "Ha Hy"); [done..|]. iIntros "Ha Hy".
    iApply (wp_chain with "Hb Hx"); [done..|]. iIntros "Hb Hx".
    iApply ("HQ" with "[Ha Hy] [Hb Hx]").
    - iApply dlist_ring; [done|]. iFrame "Ha Hy".
    - iApply dlist_ring; [done|]. iFrame "Hb Hx".
  Qed.
  Lemma wp_dl_swap_l rfirst a b p ys Q : ys ≠ [] →
    a ↦ (DCell p (Some a) DHdr : C) -∗ dlist b ys -∗ (dlist a ys -∗ dlist b ([] : elems) -∗ Q tt) -∗
    wp (dl_swap rfirst a b) Q.
  Proof.
    iIntros (Hy) "Ha Hb HQ". unfold dl_swap, node_swap. wstep.
    iApply (wp_get_next with "Ha"). iIntros "Ha". simpl. destruct (decide _); [done|].
    by iApply (wp_halfswap with "Ha Hb").
  Qed.
  Lemma wp_dl_swap_r rfirst a b p xs Q : xs ≠ [] →
    dlist a xs -∗ b ↦ (DCell p (Some b) DHdr : C) -∗ (dlist a ([] : elems) -∗ dlist b xs -∗ Q tt) -∗
    wp (dl_swap rfirst a b) Q.
  Proof.
    iIntros (Hx) "Ha Hb HQ". iDestruct (dfirst_this_ne with "Ha") as %Hna; [done|].
    unfold dl_swap, node_swap. wstep.
    iApply (wp_hd_next with "Ha"). iIntros "Ha".
    rewrite dpos_drop; [|lia]. rewrite drop_0 -dfirst_live (dfirst_ne _ _ None); [|by destruct xs].
    destruct (decide _) as [_|?]; [|done]. wstep.
    iApply (wp_get_next with "Hb"). iIntros "Hb". simpl. destruct (decide _); [done|].
    iApply (wp_halfswap with "Hb Ha"); [done|]. iIntros "Hb Ha". iApply ("HQ" with "Ha Hb").
  Qed.

  (** *** splice *)
  Lemma wp_dl_splice_all this xs i other ys Q : i ≤ length xs → ys ≠ [] →
    dlist this xs -∗ dlist other ys -∗
    (dlist this (dins i ys xs) -∗ dlist other ([] : elems) -∗ Q tt) -∗
    wp (dl_splice_all (dpos this xs i) other) Q.
  Proof.
    iIntros (Hi Hy) "H Ho HQ". unfold dl_splice_all. wstep. iApply (wp_hd_next with "Ho"). iIntros "Ho".
    rewrite (dpos_drop other); [|lia]. rewrite drop_0 -dfirst_live (dfirst_ne _ _ None); [|by destruct ys].
    iDestruct (dlist_rot _ _ i with "H") as "H". rewrite -(rot_first this xs i) //.
    iDestruct (ring_rotate [DlistLogic.hd other] with "Ho") as "Ho".
    iApply (wp_node_splice _ _ [DlistLogic.hd other] with "H Ho"); [apply rot_ne|by destruct ys|done|].
    iIntros "H Ho". iApply ("HQ" with "[H] Ho"). by iApply rot_ins.
  Qed.
  Lemma wp_dl_splice_range this xs i other ys j k Q : i ≤ length xs → j < k ≤ length ys →
    dlist this xs -∗ dlist other ys -∗
    (dlist this (dins i (dslice j k ys) xs) -∗ dlist other (dcut j k ys) -∗ Q tt) -∗
    wp (dl_splice_range (dpos this xs i) (dpos other ys j) (dpos other ys k)) Q.
  Proof.
    iIntros (Hi Hjk) "H Ho HQ". unfold dl_splice_range.
    assert (drop j ys = dslice j k ys ++ drop k ys) as Hd.
    { unfold dslice. replace (drop k ys) with (drop (k - j) (drop j ys)); [by rewrite take_drop|].
      rewrite drop_drop. f_equal. lia. }
    assert (dlive (dslice j k ys) ≠ []) as Hne.
    { intros He%(f_equal length). unfold dlive, dslice in He. rewrite fmap_length take_length drop_length /= in He. lia. }
    iDestruct (dlist_rot _ _ i with "H") as "H". rewrite -(rot_first this xs i) //.
    iDestruct (dlist_rot _ _ j with "Ho") as "Ho".
    rewrite -(rot_first other ys j); [|lia]. unfold rot at 2 4. rewrite Hd dlive_app -app_assoc.
    rewrite (dfirst_app (dlive (dslice j k ys))) (dfirst_ne _ _ None) //.
    assert (dpos other ys k = dfirst (dlive (drop k ys) ++ DlistLogic.hd other :: dlive (take j ys)) None) as ->.
    { rewrite dpos_drop; [|lia]. rewrite dfirst_app dfirst_live. done. }
    iApply (wp_node_splice with "H Ho"); [apply rot_ne|done|by destruct (dlive (drop k ys))|].
    iIntros "H Ho". iApply ("HQ" with "[H] [Ho]"); [by iApply rot_ins|].
    iDestruct (ring_rotate with "Ho") as "Ho". unfold dcut, dlist. by rewrite dlive_app.
  Qed.
  Lemma dslice_one {A} j (x : A) (ys : list A) : ys !! j = Some x → dslice j (S j) ys = [x].
  Proof.
    intros Hx. unfold dslice. rewrite (drop_S _ _ _ Hx). replace (S j - j) with 1 by lia. done.
  Qed.
  Lemma wp_dl_splice_one this xs i other ys j x Q : i ≤ length xs → ys !! j = Some x →
    dlist this xs -∗ dlist other ys -∗
    (dlist this (dins i [x] xs) -∗ dlist other (dcut j (S j) ys) -∗ Q tt) -∗
    wp (dl_splice_one (dpos this xs i) (dpos other ys j)) Q.
  Proof.
    iIntros (Hi Hx) "H Ho HQ". pose proof (lookup_lt_Some _ _ _ Hx) as Hj. unfold dl_splice_one.
    iAssert ⌜dpos other ys j ≠ dpos this xs i⌝%I as %Hne.
    { destruct x as [l v]. iDestruct (dlist_rot _ _ j with "Ho") as "Ho". rewrite (rot_elem _ _ _ _ _ Hx).
      rewrite ring_cons. iDestruct "Ho" as "[Hl _]". iDestruct (dlist_rot _ _ i with "H") as "H".
      rewrite (dpos_elem _ _ _ _ _ Hx). rewrite -(rot_first this xs i) //.
      destruct (rot this xs i) as [|[l' s'] ns] eqn:E; [by destruct (rot_ne this xs i)|].
      rewrite ring_cons. iDestruct "H" as "[Hl' _]". iDestruct (pto_ne with "[$Hl $Hl']") as %?.
      iPureIntro. simpl. congruence. }
    destruct (decide _) as [_|]; [|done]. wstep.
    iApply (wp_pos_next with "Ho"); [done|]. iIntros "Ho".
    iApply (wp_dl_splice_range with "H Ho"); [done|lia|]. rewrite (dslice_one _ _ _ Hx). done.
  Qed.
  (** an element of the list itself, not just before [pos] *)
  Lemma wp_dl_move this xs i j x Q : i ≤ length xs → xs !! j = Some x → i ≠ S j →
    dlist this xs -∗ (dlist this (dmove i j x xs) -∗ Q tt) -∗
    wp (dl_splice_one (dpos this xs i) (dpos this xs j)) Q.
  Proof.
    iIntros (Hi Hx Hij) "H HQ". pose proof (lookup_lt_Some _ _ _ Hx) as Hj. unfold dl_splice_one, dmove.
    iDestruct (dlist_pos_inj this xs i j with "H") as %Hinj; [lia..|].
    destruct (decide (dpos this xs j ≠ dpos this xs i)) as [Hne|He].
    2:{ assert (i = j) as -> by (apply Hinj; destruct (decide (dpos this xs i = dpos this xs j)); [done|];
          exfalso; apply He; congruence).
        wstep. destruct (decide _); [|lia]. unfold dins, dcut.
        rewrite take_app_alt; [|rewrite take_length; lia]. rewrite drop_app_alt; [|rewrite take_length; lia].
        replace ([x] ++ drop (S j) xs) with (drop j xs) by (by rewrite (drop_S _ _ _ Hx)).
        rewrite take_drop. by iApply "HQ". }
    wstep. iApply (wp_pos_next with "H"); [done|]. iIntros "H". destruct x as [l v].
    assert (i ≠ j) as Hij' by (intros ->; done).
    destruct (decide (i ≤ j)) as [Hle|Hgt].
    - assert (drop i xs = dslice i j xs ++ [(l,v)] ++ drop (S j) xs) as Hd.
      { unfold dslice. simpl. rewrite -(drop_S _ _ _ Hx).
        replace (drop j xs) with (drop (j - i) (drop i xs)); [by rewrite take_drop|].
        rewrite drop_drop. f_equal. lia. }
      assert (dlive (dslice i j xs) ≠ []) as Hne'.
      { intros He%(f_equal length). unfold dlive, dslice in He. rewrite fmap_length take_length drop_length /= in He. lia. }
      iDestruct (dlist_rot _ _ i with "H") as "H". rewrite -(rot_first this xs i) //. unfold rot.
      rewrite Hd !dlive_app -!app_assoc.
      rewrite (dfirst_app (dlive (dslice i j xs))) (dfirst_ne _ _ None) //.
      assert (dpos this xs j = dfirst (dlive [(l,v)]) None) as -> by (by apply dpos_elem with v).
      assert (dpos this xs (S j) = dfirst (dlive (drop (S j) xs) ++ DlistLogic.hd this :: dlive (take i xs)) None) as ->.
      { rewrite dpos_drop; [|lia]. rewrite dfirst_app dfirst_live. done. }
      iApply (wp_node_splice_same with "H"); [done|done|by destruct (dlive (drop (S j) xs))|].
      iIntros "H". iApply "HQ". unfold dlist.
      iDestruct (ring_rotate with "H") as "H". rewrite -!app_assoc. iDestruct (ring_rotate with "H") as "H".
      unfold dins, dcut. rewrite -!app_assoc /= !dlive_app /=.
      replace (take i (take j xs ++ drop (S j) xs)) with (take i xs).
      2:{ rewrite take_app_le; [|rewrite take_length; lia]. rewrite take_take. f_equal. lia. }
      replace (drop i (take j xs ++ drop (S j) xs)) with (dslice i j xs ++ drop (S j) xs).
      2:{ rewrite drop_app_le; [|rewrite take_length; lia]. f_equal. unfold dslice. by rewrite skipn_firstn_comm. }
      rewrite dlive_app. done.
    - assert (S j < i) as Hlt by lia.
      assert (drop (S j) xs = dslice (S j) i xs ++ drop i xs) as Hd.
      { unfold dslice. replace (drop i xs) with (drop (i - S j) (drop (S j) xs)); [by rewrite take_drop|].
        rewrite drop_drop. f_equal. lia. }
      assert (dlive (dslice (S j) i xs) ≠ []) as Hne'.
      { intros He%(f_equal length). unfold dlive, dslice in He. rewrite fmap_length take_length drop_length /= in He. lia. }
      iDestruct (dlist_rot _ _ j with "H") as "H". rewrite (rot_elem _ _ _ _ _ Hx) Hd dlive_app.
      assert (dpos this xs j = dfirst (dlive [(l,v)]) None) as -> by (by apply dpos_elem with v).
      assert (dpos this xs (S j) = dfirst (dlive (dslice (S j) i xs)) None) as ->.
      { rewrite dpos_drop; [|lia]. rewrite Hd dfirst_app -dfirst_live. by apply dfirst_ne. }
      assert (dpos this xs i = dfirst (dlive (drop i xs) ++ DlistLogic.hd this :: dlive (take j xs)) None) as ->.
      { rewrite dpos_drop; [|lia]. rewrite dfirst_app dfirst_live. done. }
      change ((l, DLive v) :: ?t) with (dlive [(l,v)] ++ t). rewrite -app_assoc.
      rewrite app_assoc. iDestruct (ring_rotate with "H") as "H".
      iApply (wp_node_splice_same with "H"); [by destruct (dlive (drop i xs))|done|done|].
      iIntros "H". iApply "HQ". unfold dlist.
      rewrite -app_assoc. iDestruct (ring_rotate with "H") as "H". rewrite -!app_assoc -app_comm_cons.
      unfold dins, dcut.
      replace (take (i - 1) (take j xs ++ drop (S j) xs)) with (take j xs ++ dslice (S j) i xs).
      2:{ rewrite take_app_ge; [|rewrite take_length; lia]. f_equal. unfold dslice. rewrite take_length. f_equal. lia. }
      replace (drop (i - 1) (take j xs ++ drop (S j) xs)) with (drop i xs).
      2:{ rewrite drop_app_ge; [|rewrite take_length; lia]. rewrite take_length drop_drop. f_equal. lia. }
      rewrite -app_assoc !dlive_app. done.
  Qed.

  (** *** merge *)
  Lemma merge_nil_r (cmp : loc * V → loc * V → bool) xs : merge_into cmp xs [] = xs.
  Proof. by destruct xs. Qed.
  Lemma merge_move (cmp : loc * V → loc * V → bool) x xs ys : Forall (λ y, cmp y x = false) ys →
    merge_into cmp (x :: xs) ys = x :: merge_into cmp xs ys.
  Proof.
    intros Hf. destruct ys as [|y ys]; simpl; [by rewrite merge_nil_r|].
    inversion Hf as [|?? Hy _]; subst. by rewrite Hy.
  Qed.
  Lemma merge_cons (cmp : loc * V → loc * V → bool) x xs y ys :
    merge_into cmp (x :: xs) (y :: ys) =
      if cmp y x then y :: merge_into cmp (x :: xs) ys else x :: merge_into cmp xs (y :: ys).
  Proof. done. Qed.
  Lemma wp_dl_merge cmp fuel this xs other po ys Q :
    length xs + 2 * length ys < fuel → dsorted (λ z1 z2, cmp z1.2 z2.2) ys →
    (ys ≠ [] → po = dlast ys (Some other)) →
    dlist this xs -∗ flst other po ys -∗
    (dlist this (merge_into (λ z1 z2, cmp z1.2 z2.2) xs ys) -∗
     flst other (if decide (ys = []) then po else Some other) ([] : elems) -∗ Q tt) -∗
    wp (dl_merge cmp fuel this other) Q.
  Proof.
    iIntros (Hf Hs Hpo) "H Ho HQ". unfold dl_merge. wstep.
    iApply (flst_next with "Ho"). iIntros "Ho". wstep. rewrite dlist_flst.
    iApply (flst_next with "H"). iIntros "H". wstep. rewrite -dlist_flst.
    destruct (decide (ys = [])) as [->|Hy].
    { destruct fuel as [|fuel]; [lia|]. cbn [loop dfirst]. wstep. destruct (decide _) as [[? _]|_]; [done|].
      wstep. wstep. destruct (decide _); [done|]. wstep. rewrite merge_nil_r. iApply ("HQ" with "H Ho"). }
    rewrite Hpo // -dlist_flst.
    match goal with |- context [wp (loop fuel ?body _) ?Post] => set (bd := body); set (Q' := Post) end.
    assert (∀ f ks rs os, length rs + 2 * length os < f → dsorted (λ z1 z2, cmp z1.2 z2.2) os →
      dlist this (ks ++ rs) -∗ dlist other os -∗
      (dlist this (ks ++ merge_into (λ z1 z2, cmp z1.2 z2.2) rs os) -∗ dlist other ([] : elems) -∗ Q tt) -∗
      wp (loop f bd (dfirst os (Some other), dfirst rs (Some this))) Q') as Hg.
    { clear fuel Hf Hs Hpo Hy. intros f. induction f as [|f IH]; intros ks rs os Hf Hs; [lia|]. iIntros "H Ho HQ".
      cbn [loop]. unfold bd at 1. wstep. destruct os as [|[o x] os]; simpl.
      { destruct (decide _) as [[? _]|_]; [done|]. wstep. wstep. unfold Q'. destruct (decide _); [done|]. wstep.
        rewrite merge_nil_r. iApply ("HQ" with "H Ho"). }
      rewrite (dlist_flst other). iDestruct (flst_mid_ne _ _ [] with "Ho") as %?.
      destruct rs as [|[i y] rs]; simpl.
      { destruct (decide _) as [[_ ?]|_]; [done|]. wstep. wstep. unfold Q'.
        destruct (decide _) as [_|Hn]; [|destruct Hn; congruence]. wstep. iApply (flst_next with "Ho"). iIntros "Ho".
        rewrite -dlist_flst app_nil_r. iDestruct (ring_rotate [DlistLogic.hd other] with "Ho") as "Ho".
        iApply (wp_node_splice (DlistLogic.hd this :: dlive ks) (dlive ((o,x) :: os)) [DlistLogic.hd other] with "H Ho"); [done..|]. iIntros "H Ho". iApply ("HQ" with "[H] Ho").
        unfold dlist. rewrite dlive_app. done. }
      rewrite (dlist_flst this). iDestruct (flst_mid_ne with "H") as %?.
      destruct (decide _) as [_|Hn]; [|destruct Hn; split; congruence].
      wstep. iApply (flst_mid_value _ _ [] with "Ho"). iIntros "Ho". wstep.
      iApply (flst_mid_value with "H"). iIntros "H".
      apply StronglySorted_inv in Hs as [Hs Hx].
      destruct (cmp x y) eqn:Ec.
      - wstep. iApply (flst_mid_next _ _ [] with "Ho"). iIntros "Ho". wstep.
        rewrite -!dlist_flst. iApply (wp_mid_unlink _ [] with "Ho"). iIntros "Ho Hl". wstep.
        iAssert (wp (insert_before (Some i) (Some o)) (λ _, dlist this (ks ++ (o,x) :: (i,y) :: rs)))%I with "[H Hl]" as "Hw".
        { pose proof (wp_link this (ks ++ (i,y) :: rs) (length ks) o
            (DCell (Some other) (dfirst os (Some other)) (DLive x)) x) as Hlink.
          rewrite dpos_drop in Hlink; [|rewrite app_length /=; lia]. rewrite drop_app in Hlink.
          iApply (Hlink with "H Hl"); [rewrite app_length /=; lia|done|]. iIntros "H".
          unfold dins. rewrite take_app drop_app. done. }
        iApply (wp_wand with "Hw"). iIntros (_) "H". wstep.
        iApply (IH ks ((o,x) :: (i,y) :: rs) os with "H Ho"); [simpl in *; lia|done|].
        rewrite merge_move //. 
      - wstep. iApply (flst_mid_next with "H"). iIntros "H". wstep. rewrite -!dlist_flst.
        rewrite (cons_middle _ ks rs) app_assoc.
        iApply (IH (ks ++ [(i,y)]) rs ((o,x) :: os) with "H Ho"); [simpl in *; lia|by constructor|].
        rewrite -app_assoc /=. done. }
    iApply (Hg fuel [] xs ys with "H Ho"); [done|done|]. rewrite (dlist_flst other []). done.
  Qed.

  (** *** Copying *)
  Lemma wp_dl_copy fuel other po ys Q : length ys < fuel →
    flst other po ys -∗ (∀ l zs, ⌜zs.*2 = ys.*2⌝ → dlist l zs -∗ flst other po ys -∗ Q l) -∗
    wp (dl_copy fuel other) Q.
  Proof.
    iIntros (Hf) "Ho HQ". unfold dl_copy. wstep. iApply wp_dl_new. iIntros (l) "H". wstep.
    unfold dl_begin, dl_end. rewrite dlist_flst. iApply (flst_next with "H"). iIntros "H". wstep.
    iApply (flst_next with "Ho"). iIntros "Ho". wstep. rewrite -dlist_flst.
    change (dfirst [] (Some l)) with (dpos l ([] : elems) 0).
    iPoseProof (wp_dl_insert_its fuel l [] 0 other po [] ys [] with "H") as "Hw"; [simpl; lia|done|].
    rewrite app_nil_l !app_nil_r. iApply ("Hw" with "Ho"). iIntros (zs Hzs) "H Ho". wstep.
    iApply ("HQ" with "[//] [H] Ho"). unfold dins. simpl. by rewrite app_nil_r.
  Qed.
  Lemma wp_dl_new_n n v Q :
    (∀ l zs, ⌜zs.*2 = replicate n v⌝ → dlist l zs -∗ Q l) -∗ wp (dl_new_n n (DExt v)) Q.
  Proof.
    iIntros "HQ". unfold dl_new_n, dl_end. wstep. iApply wp_dl_new. iIntros (l) "H". wstep.
    change (Some l) with (dpos l ([] : elems) 0).
    iApply (wp_dl_insert_n _ _ _ _ _ v with "H"); [simpl; lia|done|]. iIntros (zs Hzs) "H". wstep.
    iApply ("HQ" with "[//]"). unfold dins. simpl. by rewrite app_nil_r.
  Qed.
  Lemma wp_dl_new_range vs Q :
    (∀ l zs, ⌜zs.*2 = vs⌝ → dlist l zs -∗ Q l) -∗ wp (dl_new_range vs) Q.
  Proof.
    iIntros "HQ". unfold dl_new_range, dl_end. wstep. iApply wp_dl_new. iIntros (l) "H". wstep.
    change (Some l) with (dpos l ([] : elems) 0).
    iApply (wp_dl_insert_ext with "H"); [simpl; lia|]. iIntros (zs Hzs) "H". wstep.
    iApply ("HQ" with "[//]"). unfold dins. simpl. by rewrite app_nil_r.
  Qed.
End proofs.
