(** lazy_queue: call-level proofs. Proof file. *)
From Verif Require Export LazySpec BackwardProofs.
From iris.proofmode Require Import tactics.

Section lazy.
  Context {V : Type} `{Allocator (cell V)}.
  Notation C := (cell V).
  Notation iProp := (bi_car (hpropI C)).
  Implicit Types (xs ys : list (loc * V)) (v : V) (r : vref V) (this : loc) (q : lqueue)
    (ds : list loc).

  Definition pool q ds : iProp := cells ((lq_dead q, Hdr) :: dead ds) None.
  Definition lqueueP q xs ds : iProp :=
    ⌜lq_tail q = Some (last_loc (lq_head q) xs)⌝ ∧ flist (lq_head q) xs ∗ pool q ds.
  Lemma lqueue_holds q xs ds : Sep.plain (is_lqueue q xs ds) ⊣⊢ lqueueP q xs ds.
  Proof.
    unfold lqueueP, pool, flist.
    apply bi.equiv_entails; split; apply hentails_intro; intros σ.
    - intros (Ht&Hnd&->)%plain_holds. apply hand_unfold. split; [done|].
      apply hsep_unfold. rewrite app_comm_cons in Hnd. apply NoDup_app in Hnd as (Hnd1&Hdis&Hnd2).
      eexists _, _. split; [reflexivity|]. split_and!.
      + apply map_disjoint_spec. intros l c1 c2 H1 H2.
        destruct (decide (l ∈ ((lq_head q, Hdr) :: live xs).*1)) as [Hin|Hin];
          [|by rewrite (list_heap_dom _ _ _ Hin) in H1].
        destruct (decide (l ∈ ((lq_dead q, Hdr) :: dead (V:=V) ds).*1)) as [Hin2|Hin2];
          [|by rewrite (list_heap_dom _ _ _ Hin2) in H2].
        rewrite fmap_cons live_locs in Hin. rewrite fmap_cons dead_locs in Hin2.
        by eapply Hdis.
      + apply cells_holds. rewrite fmap_cons live_locs. done.
      + apply cells_holds. rewrite fmap_cons dead_locs. done.
    - intros [Ht (σ1&σ2&->&Hd&H1&H2)%hsep_unfold]%hand_unfold.
      apply cells_holds in H1 as [Hnd1 ->]. apply cells_holds in H2 as [Hnd2 ->].
      apply plain_holds. split; [done|]. split; [|done].
      rewrite fmap_cons live_locs in Hnd1. rewrite fmap_cons dead_locs in Hnd2.
      rewrite app_comm_cons. apply NoDup_app. split_and!; [done| |done].
      intros l Hl1 Hl2.
      destruct (list_heap_dom_Some ((lq_head q, Hdr) :: live xs) None l) as [c1 Hc1].
      { rewrite fmap_cons live_locs. done. }
      destruct (list_heap_dom_Some ((lq_dead q, Hdr) :: dead (V:=V) ds) None l) as [c2 Hc2].
      { rewrite fmap_cons dead_locs. done. }
      eapply map_disjoint_spec; [exact Hd|exact Hc1|exact Hc2].
  Qed.

  Lemma wp_get_node q ns nq r v ds Q :
    nrefers ns r v →
    cells ns nq -∗ pool q ds -∗
    (∀ l nx, ⌜∀ d, head ds = Some d → l = d⌝ → cells ns nq -∗ pool q (tail ds) -∗
       l ↦ Cell nx (Live v) -∗ Q (Some l)) -∗
    wp (get_node q r) Q.
  Proof.
    iIntros (Hr) "Hns Hp HQ". unfold get_node, pool. destruct ds as [|d ds].
    - iDestruct "Hp" as "[Hd _]". wstep. iApply (wp_get_next with "Hd"). iIntros "Hd". simpl.
      wstep. wstep. wstep. wstep. wstep. iRename select (l ↦ _)%I into "Hl".
      wstep. wstep. iApply (wp_deref with "Hns"); [done|]. iIntros "Hns".
      wstep. iApply (wp_load with "Hl"). iIntros "Hl". simpl. wstep.
      iApply (wp_modify with "Hl"). iIntros "Hl". wstep. simpl.
      iApply ("HQ" with "[%] Hns [Hd] Hl"); [done|]. by iFrame.
    - iDestruct "Hp" as "(Hd&Hl&Hp)". wstep. iApply (wp_get_next with "Hd"). iIntros "Hd". simpl.
      wstep. iApply (wp_unlink_next with "Hd Hl"). iIntros "Hd Hl".
      wstep. wstep. wstep. iApply (wp_deref with "Hns"); [done|]. iIntros "Hns".
      wstep. iApply (wp_load with "Hl"). iIntros "Hl". simpl. wstep.
      iApply (wp_modify with "Hl"). iIntros "Hl". wstep. simpl.
      iApply ("HQ" with "[%] Hns [Hd Hp] Hl"); [by intros ? [= ->]|]. iFrame.
  Qed.
  Lemma wp_put_node q n nx v ds Q :
    n ↦ Cell nx (Live v) -∗ pool q ds -∗ (pool q (n :: ds) -∗ Q tt) -∗
    wp (put_node q (Some n)) Q.
  Proof.
    iIntros "Hn Hp HQ". unfold put_node, pool. wstep. wstep. wstep.
    iApply (wp_load with "Hn"). iIntros "Hn". simpl. wstep.
    iApply (wp_modify with "Hn"). iIntros "Hn". wstep. iDestruct "Hp" as "[Hd Hp]".
    iApply (wp_insert_after with "Hd Hn"). iIntros "Hd Hn". wstep. iApply "HQ".
    simpl. iFrame.
  Qed.

  Lemma wp_get_insert_k {A} q ds ns1 l s ns2 nq r v (k : ptr → M (gmap loc C) A) Q :
    nrefers (ns1 ++ (l,s) :: ns2) r v →
    cells (ns1 ++ (l,s) :: ns2) nq -∗ pool q ds -∗
    (∀ n, ⌜∀ d, head ds = Some d → n = d⌝ → cells (ns1 ++ (l,s) :: (n, Live v) :: ns2) nq -∗
       pool q (tail ds) -∗ wp (k (Some n)) Q) -∗
    wp (bind (get_node q r) (λ x, bind (insert_after (Some l) x) k)) Q.
  Proof.
    iIntros (Hr) "Hns Hp HQ". wstep. iApply (wp_get_node with "Hns Hp"); [done|].
    iIntros (n nx Hd) "Hns Hp Hn". iDestruct (cells_focus with "Hns") as "(H1&Hl&H2)".
    wstep. iApply (wp_insert_after with "Hl Hn"). iIntros "Hl Hn".
    iApply ("HQ" with "[//] [-Hp] Hp").
    iApply cells_focus. simpl. iFrame.
  Qed.

  Lemma reused_nil ds : reused [] ds.
  Proof. unfold reused. by rewrite take_nil. Qed.
  Lemma reused_cons n ns ds :
    (∀ d, head ds = Some d → n = d) → reused ns (tail ds) → reused (n :: ns) ds.
  Proof.
    unfold reused. destruct ds as [|d ds]; simpl; intros Hd Hr.
    - done.
    - by rewrite (Hd d) // Hr.
  Qed.
  Lemma drop_tail {A} (l : list A) n : drop n (tail l) = drop (S n) l.
  Proof. destruct l; [|done]. by rewrite /= drop_nil. Qed.

  Lemma wp_lq_ins_n q ds ns1 l s ns2 nq n r v :
    nrefers (ns1 ++ (l,s) :: ns2) r v →
    cells (ns1 ++ (l,s) :: ns2) nq ∗ pool q ds ⊢
    wp (lq_ins_n q (Some l) n r) (λ p, ∃ ys,
      ⌜ys.*2 = replicate n v⌝ ∧ ⌜p = Some (last_loc l ys)⌝ ∧ ⌜reused ys.*1 ds⌝ ∧
      cells (ns1 ++ (l,s) :: live ys ++ ns2) nq ∗ pool q (drop n ds)).
  Proof.
    revert ns1 l s ds. induction n as [|n IH]; iIntros (ns1 l s ds Hr) "[Hns Hp]"; cbn [lq_ins_n].
    - wstep. iExists []. iFrame. iPureIntro. split_and!; try done. apply reused_nil.
    - iApply (wp_get_insert_k with "Hns Hp"); [done|]. iIntros (x Hd) "Hns Hp".
      iApply (wp_wand with "[Hns Hp]").
      { iApply (IH (ns1 ++ [(l,s)]) x (Live v)).
        - apply (nrefers_insert (ns1 ++ [(l,s)]) [(x,Live v)]).
          by rewrite -app_assoc.
        - rewrite -app_assoc. iFrame. }
      iIntros (p) "H". iDestruct "H" as (ys Hys -> Hre) "[H Hp]". iExists ((x,v)::ys).
      iSplit; [iPureIntro; simpl; by f_equal|]. iSplit; [by rewrite last_loc_cons|].
      iSplit; [iPureIntro; by apply reused_cons|].
      rewrite -app_assoc drop_tail. iFrame.
  Qed.
  Lemma wp_lq_ins_ext q ds ns1 l s ns2 nq vs :
    cells (ns1 ++ (l,s) :: ns2) nq ∗ pool q ds ⊢
    wp (lq_ins_ext q (Some l) vs) (λ p, ∃ ys,
      ⌜ys.*2 = vs⌝ ∧ ⌜p = Some (last_loc l ys)⌝ ∧ ⌜reused ys.*1 ds⌝ ∧
      cells (ns1 ++ (l,s) :: live ys ++ ns2) nq ∗ pool q (drop (length vs) ds)).
  Proof.
    revert ns1 l s ds. induction vs as [|v vs IH]; iIntros (ns1 l s ds) "[Hns Hp]"; cbn [lq_ins_ext].
    - wstep. iExists []. iFrame. iPureIntro. split_and!; try done. apply reused_nil.
    - iApply (wp_get_insert_k with "Hns Hp"); [done|]. iIntros (x Hd) "Hns Hp".
      iApply (wp_wand with "[Hns Hp]").
      { iApply (IH (ns1 ++ [(l,s)]) x (Live v)). rewrite -app_assoc. iFrame. }
      iIntros (p) "H". iDestruct "H" as (ys Hys -> Hre) "[H Hp]". iExists ((x,v)::ys).
      iSplit; [iPureIntro; simpl; by f_equal|]. iSplit; [by rewrite last_loc_cons|].
      iSplit; [iPureIntro; by apply reused_cons|].
      rewrite -app_assoc drop_tail. iFrame.
  Qed.
  (** Copying a range [xs] of other nodes. *)
  Lemma wp_lq_ins_its lst q ds fuel ns1 l s ns2 nq xs :
    lst = None → length xs < fuel → 
    cells (ns1 ++ (l,s) :: ns2) nq ∗ cells (live xs) None ∗ pool q ds ⊢
    wp (loop fuel (λ '(p, first),
      if decide (first ≠ lst) then
        let! l := addr first in
        let! x := get_node q (InNode l) in
        let! p' := insert_after p x in
        let! first' := it_incr first in
        ret (inl (p', first'))
      else ret (inr p)) (Some l, first xs None)) (λ p, ∃ ys,
      ⌜ys.*2 = xs.*2⌝ ∧ ⌜p = Some (last_loc l ys)⌝ ∧ ⌜reused ys.*1 ds⌝ ∧
      cells (ns1 ++ (l,s) :: live ys ++ ns2) nq ∗ cells (live xs) None ∗ 
      pool q (drop (length xs) ds)).
  Proof.
    intros ->. revert fuel ns1 l s ds.
    induction xs as [|[n v] xs IH]; iIntros (fuel ns1 l s ds Hf) "(Hns&Hxs&Hp)";
      (destruct fuel as [|fuel]; [simpl in Hf; lia|]); cbn [loop].
    - wstep. dec_false. wsteps. iExists []. iFrame. iPureIntro. split_and!; try done. apply reused_nil.
    - cbn [first]. wstep. dec_true. wstep. wstep.
      wstep. iApply (wp_get_node q (live ((n,v)::xs)) None (InNode n) v with "Hxs Hp").
      { simpl. constructor. }
      iIntros (x nx Hd) "Hxs Hp Hx". wstep.
      iDestruct (cells_focus with "Hns") as "(H1&Hl&H2)".
      iApply (wp_insert_after with "Hl Hx"). iIntros "Hl Hx".
      rewrite live_cons. iDestruct (cells_cons with "Hxs") as "[Hn Hxs]".
      wstep. iApply (wp_get_next with "Hn"). iIntros "Hn". wstep. simpl.
      iApply (wp_wand with "[H1 H2 Hl Hx Hxs Hp]").
      { rewrite first_live. iApply (IH fuel (ns1 ++ [(l,s)]) x (Live v)); [simpl in *; lia|].
        iFrame. iApply cells_focus. rewrite cells_snoc. iFrame. }
      iIntros (p) "H". iDestruct "H" as (ys Hys -> Hre) "(H&Hxs&Hp)". iExists ((x,v)::ys).
      iSplit; [iPureIntro; simpl; by f_equal|]. iSplit; [by rewrite last_loc_cons|].
      iSplit; [iPureIntro; by apply reused_cons|].
      rewrite drop_tail. iFrame. by rewrite -app_assoc.
  Qed.

  (** *** queue operations *)
  Lemma lqueue_inserted q xs i zs ds :
    i ≤ length xs → lq_tail q = Some (last_loc (lq_head q) xs) →
    NoDup (lq_head q :: xs.*1) →
    flist (lq_head q) (take i xs ++ zs ++ drop i xs) ∗ pool q ds ⊢
    lqueueP (if decide (pos_at (lq_head q) xs i = lq_tail q)
            then lq_set_tail q (Some (last_loc (last_loc (lq_head q) (take i xs)) zs)) else q)
      (take i xs ++ zs ++ drop i xs) ds.
  Proof.
    iIntros (Hi Ht Hnd) "[H Hp]".
    iDestruct (blist_inserted (BL (lq_head q) (lq_tail q)) xs i zs Hi Ht Hnd with "H") as "[%Ht' H]".
    unfold lqueueP. simpl in *. destruct (decide _); simpl in *; iFrame; done.
  Qed.

  Lemma wp_lq_new : ⊢ wp lq_new (λ q, lqueueP q [] []).
  Proof.
    iStartProof. unfold lq_new. wsteps. iSplit; [done|]. unfold flist, pool. simpl. iFrame.
  Qed.
  Lemma wp_lq_push_front q xs ds r v :
    refers xs r v →
    lqueueP q xs ds ⊢ wp (lq_push_front q r) (λ q', ∃ l, ⌜lq_head q' = lq_head q⌝ ∧
      ⌜reused [l] ds⌝ ∧ lqueueP q' ((l,v) :: xs) (drop 1 ds)).
  Proof.
    iIntros (Hr) "[%Ht [H Hp]]". iDestruct (flist_nodup with "H") as %Hnd.
    unfold lq_push_front.
    iApply (wp_get_insert_k q ds [] with "H Hp"); [by apply nrefers_live|].
    iIntros (n Hd) "H Hp". rewrite Ht.
    assert (reused [n] ds) by (apply reused_cons; [done|apply reused_nil]).
    destruct (decide _) as [He|He]; wstep; iExists n; (iSplit; [done|]); (iSplit; [done|]);
      rewrite -drop_tail drop_0.
    - iSplit; [|iFrame]. iPureIntro. injection He as He.
      apply last_loc_head in He; [|done]. subst xs. done.
    - iSplit; [|iFrame]. iPureIntro. rewrite Ht last_loc_cons.
      f_equal. apply last_loc_ne. intros ->. by destruct He.
  Qed.
  Lemma wp_lq_push_back q xs ds r v :
    refers xs r v →
    lqueueP q xs ds ⊢ wp (lq_push_back q r) (λ q', ∃ l, ⌜lq_head q' = lq_head q⌝ ∧
      ⌜reused [l] ds⌝ ∧ lqueueP q' (xs ++ [(l,v)]) (drop 1 ds)).
  Proof.
    iIntros (Hr) "[%Ht [H Hp]]".
    destruct (flist_at (lq_head q) xs (length xs) ltac:(lia)) as (ns1&l&s&Hp&Hys&Heq&Hr'&_).
    unfold lq_push_back. rewrite Heq Ht. rewrite pos_at_last in Hp. rewrite Hp.
    iApply (wp_get_insert_k with "H Hp"); [by apply Hr'|].
    iIntros (n Hd) "H Hp". wsteps. iExists n. iSplit; [done|].
    iSplit; [iPureIntro; apply reused_cons; [done|apply reused_nil]|].
    unfold lqueueP. simpl. rewrite last_loc_snoc. iSplit; [done|].
    rewrite -(Hys ((n,v) :: drop (length xs) xs)) take_ge // drop_ge //.
    rewrite -drop_tail drop_0. iFrame.
  Qed.
  Lemma wp_lq_insert_after q xs ds i r v :
    i ≤ length xs → refers xs r v →
    lqueueP q xs ds ⊢ wp (lq_insert_after q (pos_at (lq_head q) xs i) r) (λ qp,
      ∃ l, ⌜lq_head qp.1 = lq_head q⌝ ∧ ⌜qp.2 = Some l⌝ ∧ ⌜reused [l] ds⌝ ∧
        lqueueP qp.1 (take i xs ++ (l,v) :: drop i xs) (drop 1 ds)).
  Proof.
    iIntros (Hi Hr) "[%Ht [H Hp]]". iDestruct (flist_nodup with "H") as %Hnd.
    destruct (flist_at (lq_head q) xs i Hi) as (ns1&l&s&Hp&Hys&Heq&Hr'&_).
    unfold lq_insert_after. rewrite Heq Hp.
    iApply (wp_get_insert_k with "H Hp"); [by apply Hr'|].
    iIntros (n Hd) "H Hp". rewrite -(Hys ((n,v) :: drop i xs)).
    iDestruct (lqueue_inserted q xs i [(n,v)] _ Hi Ht Hnd with "[$H $Hp]") as "H". rewrite Hp.
    assert (reused [n] ds) by (apply reused_cons; [done|apply reused_nil]).
    rewrite -(drop_0 (tail ds)) drop_tail.
    destruct (decide (Some l = lq_tail q)) as [He|He]; wstep; iExists n;
      (iSplit; [done|]); (iSplit; [done|]); (iSplit; [done|]); by iFrame.
  Qed.
  Lemma wp_lq_insert_after_n q xs ds i n r v :
    i ≤ length xs → refers xs r v →
    lqueueP q xs ds ⊢ wp (lq_insert_after_n q (pos_at (lq_head q) xs i) n r) (λ q',
      ∃ ys, ⌜ys.*2 = replicate n v⌝ ∧ ⌜lq_head q' = lq_head q⌝ ∧ ⌜reused ys.*1 ds⌝ ∧
        lqueueP q' (take i xs ++ ys ++ drop i xs) (drop n ds)).
  Proof.
    iIntros (Hi Hr) "[%Ht [H Hp]]". iDestruct (flist_nodup with "H") as %Hnd.
    destruct (flist_at (lq_head q) xs i Hi) as (ns1&l&s&Hp&Hys&Heq&Hr'&_).
    unfold lq_insert_after_n. wstep. rewrite Heq Hp. iApply (wp_wand with "[H Hp]").
    { iApply (wp_lq_ins_n q ds ns1 l s _ None n r v with "[$H $Hp]"). by apply Hr'. }
    iIntros (p) "H". iDestruct "H" as (ys Hv -> Hre) "[H Hp]".
    rewrite -live_app -Hys.
    iDestruct (lqueue_inserted q xs i ys _ Hi Ht Hnd with "[$H $Hp]") as "H". rewrite Hp.
    assert (l = last_loc (lq_head q) (take i xs)) as <-.
    { rewrite pos_at_take // in Hp. by injection Hp. }
    destruct (decide (Some l = lq_tail q)) as [He|He]; wstep; iExists ys;
      repeat (iSplit; [done|]); by iFrame.
  Qed.
  Lemma wp_lq_insert_after_ext q xs ds i vs :
    i ≤ length xs →
    lqueueP q xs ds ⊢ wp (lq_insert_after_ext q (pos_at (lq_head q) xs i) vs) (λ q',
      ∃ ys, ⌜ys.*2 = vs⌝ ∧ ⌜lq_head q' = lq_head q⌝ ∧ ⌜reused ys.*1 ds⌝ ∧
        lqueueP q' (take i xs ++ ys ++ drop i xs) (drop (length vs) ds)).
  Proof.
    iIntros (Hi) "[%Ht [H Hp]]". iDestruct (flist_nodup with "H") as %Hnd.
    destruct (flist_at (lq_head q) xs i Hi) as (ns1&l&s&Hp&Hys&Heq&_&_).
    unfold lq_insert_after_ext. wstep. rewrite Heq Hp. iApply (wp_wand with "[H Hp]").
    { iApply (wp_lq_ins_ext q ds ns1 l s _ None vs with "[$H $Hp]"). }
    iIntros (p) "H". iDestruct "H" as (ys Hv -> Hre) "[H Hp]".
    rewrite -live_app -Hys.
    iDestruct (lqueue_inserted q xs i ys _ Hi Ht Hnd with "[$H $Hp]") as "H". rewrite Hp.
    assert (l = last_loc (lq_head q) (take i xs)) as <-.
    { rewrite pos_at_take // in Hp. by injection Hp. }
    destruct (decide (Some l = lq_tail q)) as [He|He]; wstep; iExists ys;
      repeat (iSplit; [done|]); by iFrame.
  Qed.
  Lemma wp_lq_insert_after_its fuel q xs ds i other ys :
    i ≤ length xs → length ys < fuel →
    lqueueP q xs ds ∗ flist other ys ⊢
    wp (lq_insert_after_its fuel q (pos_at (lq_head q) xs i) (first ys None) None) (λ q',
      ∃ zs, ⌜zs.*2 = ys.*2⌝ ∧ ⌜lq_head q' = lq_head q⌝ ∧ ⌜reused zs.*1 ds⌝ ∧
        lqueueP q' (take i xs ++ zs ++ drop i xs) (drop (length ys) ds) ∗ flist other ys).
  Proof.
    iIntros (Hi Hf) "[[%Ht [H Hp]] [Ho Hy]]". iDestruct (flist_nodup with "H") as %Hnd.
    destruct (flist_at (lq_head q) xs i Hi) as (ns1&l&s&Hp&Hys&Heq&_&_).
    unfold lq_insert_after_its. wstep. rewrite Heq Hp. iApply (wp_wand with "[H Hp Hy]").
    { iApply (wp_lq_ins_its None q ds fuel ns1 l s _ None ys with "[$H $Hp $Hy]"); done. }
    iIntros (p) "H". iDestruct "H" as (zs Hv -> Hre) "(H&Hy&Hp)".
    rewrite -live_app -Hys.
    iDestruct (lqueue_inserted q xs i zs _ Hi Ht Hnd with "[$H $Hp]") as "H". rewrite Hp.
    assert (l = last_loc (lq_head q) (take i xs)) as <-.
    { rewrite pos_at_take // in Hp. by injection Hp. }
    destruct (decide (Some l = lq_tail q)) as [He|He]; wstep; iExists zs;
      repeat (iSplit; [done|]); unfold flist; simpl; by iFrame.
  Qed.
  Lemma wp_lq_empty q xs :
    flist (lq_head q) xs ⊢ wp (lq_empty q) (λ b, ⌜b = bool_decide (xs = [])⌝ ∧ flist (lq_head q) xs).
  Proof. apply wp_fl_empty. Qed.
  Lemma wp_lq_pop_front q l v xs ds :
    lqueueP q ((l,v) :: xs) ds ⊢ wp (lq_pop_front q) (λ q',
      ⌜lq_head q' = lq_head q⌝ ∧ lqueueP q' xs (l :: ds)).
  Proof.
    iIntros "[%Ht [H Hp]]". unfold lq_pop_front.
    iDestruct "H" as "(Hh&Hl&H)". wstep.
    iApply (wp_unlink_next with "Hh Hl"). iIntros "Hh Hl". wstep.
    iApply (wp_put_node with "Hl Hp"). iIntros "Hp". wstep.
    iAssert (flist (lq_head q) xs) with "[Hh H]" as "H".
    { unfold flist. simpl. iFrame. }
    iApply (wp_wand with "[H]"); [by iApply (wp_lq_empty with "H")|].
    iIntros (e) "[-> H]". rewrite last_loc_cons in Ht. destruct (bool_decide _) eqn:E; wstep.
    - apply bool_decide_eq_true in E. subst xs. iSplit; [done|]. iSplit; [done|]. iFrame.
    - apply bool_decide_eq_false in E. iSplit; [done|]. iSplit; [|iFrame].
      iPureIntro. rewrite Ht. f_equal. by apply last_loc_ne.
  Qed.
  Lemma wp_lq_erase_after q xs ds i l v :
    xs !! i = Some (l, v) →
    lqueueP q xs ds ⊢ wp (lq_erase_after q (pos_at (lq_head q) xs i)) (λ qp,
      ⌜lq_head qp.1 = lq_head q⌝ ∧ ⌜qp.2 = pos_at (lq_head q) xs (S (S i))⌝ ∧
      lqueueP qp.1 (take i xs ++ drop (S i) xs) (l :: ds)).
  Proof.
    iIntros (Hl) "[%Ht [H Hp]]". iDestruct (flist_nodup with "H") as %Hnd.
    assert (i < length xs) as Hi by (by eapply lookup_lt_Some).
    assert (pos_at (lq_head q) xs (S i) = Some l) as Hpn by (by eapply pos_at_elem).
    pose proof (pos_at_take (lq_head q) xs i ltac:(lia)) as Hpi.
    destruct (flist_at (lq_head q) xs i) as (ns1&p&s&Hp&Hys&Heq&_); [lia|].
    unfold lq_erase_after. rewrite Heq Hp (drop_S _ _ _ Hl) live_cons.
    iDestruct (cells_focus with "H") as "(H1&Hpp&Hn&H2)". wstep.
    iApply (wp_unlink_next with "Hpp Hn"). iIntros "Hpp Hn". wstep.
    iApply (wp_put_node with "Hn Hp"). iIntros "Hp". wstep.
    iApply (wp_get_next with "Hpp"). iIntros "Hpp". wstep.
    iAssert (flist (lq_head q) (take i xs ++ drop (S i) xs)) with "[H1 Hpp H2]" as "H".
    { rewrite Hys. iApply cells_focus. simpl. iFrame. }
    cbn [fst snd].
    iSplit; [by destruct (decide _)|]. iSplit.
    { simpl. rewrite first_live -(pos_at_S (lq_head q)). done. }
    unfold lqueueP. rewrite Hp in Hpi. rewrite Hpi.
    destruct (decide (Some l = lq_tail q)) as [He|He]; simpl; (iSplit; [iPureIntro|iFrame]).
    - rewrite Ht -Hpn in He. symmetry in He.
      assert (S i = length xs) as Hlen.
      { apply (pos_at_is_last (lq_head q)); [done|lia|done]. }
      rewrite Hlen drop_ge // app_nil_r. done.
    - rewrite Ht. f_equal. trans (last_loc (lq_head q) (take (S i) xs ++ drop (S i) xs)); [by rewrite take_drop|].
      rewrite !last_loc_app. apply last_loc_ne. intros Hn. apply (f_equal length) in Hn.
      rewrite drop_length /= in Hn. destruct He. rewrite Ht -Hpn -pos_at_last. f_equal. lia.
  Qed.
  Lemma wp_lq_put_range fuel q ns1 l s xs ns2 nq ds :
    length xs < fuel → first ns2 nq ∉ Some <$> xs.*1 →
    cells (ns1 ++ (l,s) :: live xs ++ ns2) nq ∗ pool q ds ⊢
    wp (loop fuel (λ _ : unit,
      let! pn := get_next (Some l) in
      if decide (pn ≠ first ns2 nq) then
        let! n := unlink_next (Some l) in
        put_node q n ;!
        ret (inl tt)
      else ret (inr tt)) tt) (λ _,
      cells (ns1 ++ (l,s) :: ns2) nq ∗ pool q (reverse xs.*1 ++ ds)).
  Proof.
    revert fuel ds.
    induction xs as [|[n v] xs IH]; iIntros (fuel ds Hf Hlst) "[Hns Hp]";
      (destruct fuel as [|fuel]; [simpl in Hf; lia|]); cbn [loop].
    + iDestruct (cells_focus with "Hns") as "(H1&Hl&H2)".
      wstep. wstep. iApply (wp_get_next with "Hl"). iIntros "Hl". simpl.
      dec_false. wsteps. iFrame. iApply cells_focus. iFrame.
    + simpl in Hlst. apply not_elem_of_cons in Hlst as [Hne Hlst].
      iDestruct (cells_focus with "Hns") as "(H1&Hl&Hn&H2)".
      wstep. wstep. iApply (wp_get_next with "Hl"). iIntros "Hl". simpl.
      dec_true. wstep. iApply (wp_unlink_next with "Hl Hn"). iIntros "Hl Hn". wstep.
      iApply (wp_put_node with "Hn Hp"). iIntros "Hp". wstep.
      iApply (wp_wand with "[H1 Hl H2 Hp]").
      { iApply (IH fuel (n :: ds)); [simpl in *; lia|done|]. iFrame.
        iApply cells_focus. simpl. iFrame. }
      iIntros (_) "[H Hp]". iFrame. rewrite reverse_cons -app_assoc. done.
  Qed.
  Lemma wp_lq_erase_after_range fuel q xs ds i j :
    i < j ≤ S (length xs) → length xs < fuel →
    lqueueP q xs ds ⊢
    wp (lq_erase_after_range fuel q (pos_at (lq_head q) xs i) (pos_at (lq_head q) xs j)) (λ qp,
      ⌜lq_head qp.1 = lq_head q⌝ ∧ ⌜qp.2 = pos_at (lq_head q) xs j⌝ ∧
      lqueueP qp.1 (take i xs ++ drop (j - 1) xs)
        (reverse (take (j - 1 - i) (drop i xs)).*1 ++ ds)).
  Proof.
    iIntros (Hij Hf) "[%Ht [H Hp]]". iDestruct (flist_nodup with "H") as %Hnd.
    pose proof (pos_at_take (lq_head q) xs i ltac:(lia)) as Hpi.
    destruct (flist_at (lq_head q) xs i) as (ns1&p&s&Hpp&Hys&Heq&_); [lia|].
    assert (drop i xs = take (j - 1 - i) (drop i xs) ++ drop (j - 1) xs) as Hdrop.
    { rewrite -{1}(take_drop (j - 1 - i) (drop i xs)) drop_drop.
      by replace (i + (j - 1 - i)) with (j - 1) by lia. }
    assert (pos_at (lq_head q) xs j = first (drop (j-1) xs) None) as Hpj
      by (rewrite -(pos_at_S (lq_head q)); f_equal; lia).
    unfold lq_erase_after_range. wstep. rewrite Hpp Hpj Heq {1}Hdrop live_app -(first_live (drop (j-1) xs)).
    iApply (wp_wand with "[H Hp]").
    { iApply (wp_lq_put_range with "[$H $Hp]").
      - rewrite take_length drop_length. lia.
      - rewrite first_live. apply not_elem_of_opt. intros l Hl.
        assert (l ∈ (drop (j - 1) xs).*1).
        { destruct (drop (j-1) xs) as [|[]]; [done|]. injection Hl as <-. constructor. }
        rewrite NoDup_cons in Hnd. destruct Hnd as [_ Hnd].
        rewrite -(take_drop i xs) fmap_app Hdrop fmap_app in Hnd.
        apply NoDup_app in Hnd as (_&_&Hnd).
        apply NoDup_app in Hnd as (_&Hnd&_). intros Hin. by eapply Hnd. }
    iIntros (_) "[H Hp]". wstep.
    iApply (wp_get_next_cells with "H"). iIntros "H". rewrite -Hys. wstep. cbn [fst snd].
    iSplit; [by destruct (decide _)|]. iSplit; [done|].
    unfold lqueueP. rewrite first_live -Hpj.
    destruct (decide (pos_at (lq_head q) xs j = None)) as [He|He]; simpl;
      (iSplit; [iPureIntro|iFrame]).
    - apply lookup_ge_None in He. simpl in He. rewrite fmap_length in He.
      rewrite (drop_ge xs (j-1)); [|lia]. rewrite app_nil_r. rewrite -Hpi -Hpp //.
    - rewrite Ht. f_equal. trans (last_loc (lq_head q) (take (j-1) xs ++ drop (j-1) xs)); [by rewrite take_drop|].
      rewrite !last_loc_app. apply last_loc_ne. intros Hn. apply (f_equal length) in Hn.
      rewrite drop_length /= in Hn. destruct He. apply lookup_ge_None. simpl.
      rewrite fmap_length. lia.
  Qed.
  Lemma wp_lq_clear fuel q xs ds :
    length xs < fuel →
    flist (lq_head q) xs ∗ pool q ds ⊢ wp (lq_clear fuel q) (λ q', ⌜lq_head q' = lq_head q⌝ ∧
      ⌜lq_dead q' = lq_dead q⌝ ∧ lqueueP q' [] (reverse xs.*1 ++ ds)).
  Proof.
    iIntros (Hf) "[H Hp]". unfold lq_clear. wstep.
    iApply (wp_wand _ (λ _, flist (lq_head q) [] ∗ pool q (reverse xs.*1 ++ ds))%I with "[H Hp]").
    - iStopProof. revert fuel ds Hf.
      induction xs as [|[n v] xs IH]; iIntros (fuel ds Hf) "[H Hp]";
        (destruct fuel as [|fuel]; [simpl in Hf; lia|]); cbn [loop].
      + iDestruct "H" as "[Hh _]". wstep. wstep.
        iApply (wp_get_next with "Hh"). iIntros "Hh". simpl. wsteps. iFrame.
      + iDestruct "H" as "(Hh&Hn&H)". wstep. wstep.
        iApply (wp_get_next with "Hh"). iIntros "Hh". simpl. wstep.
        iApply (wp_unlink_next with "Hh Hn"). iIntros "Hh Hn". wstep.
        iApply (wp_put_node with "Hn Hp"). iIntros "Hp". wstep.
        rewrite reverse_cons -app_assoc.
        iApply IH; [simpl in *; lia|]. simpl. iFrame.
    - iIntros (_) "[H Hp]". wstep. repeat (iSplit; [done|]). iFrame.
  Qed.
  Lemma wp_lq_assign_from fuel q other xs ys ds :
    length xs < fuel → length ys < fuel →
    flist (lq_head q) xs ∗ pool q ds ∗ flist other ys ⊢
    wp (let! q := lq_clear fuel q in
        let! f := get_next (Some other) in
        lq_insert_after_its fuel q (lq_before_begin q) f None) (λ q',
      ∃ zs, ⌜zs.*2 = ys.*2⌝ ∧ ⌜lq_head q' = lq_head q⌝ ∧
       ⌜reused zs.*1 (reverse xs.*1 ++ ds)⌝ ∧
       lqueueP q' zs (drop (length ys) (reverse xs.*1 ++ ds)) ∗ flist other ys).
  Proof.
    iIntros (Hf1 Hf2) "(H&Hp&Ho)". wstep.
    iApply (wp_wand with "[H Hp]"); [iApply (wp_lq_clear with "[$H $Hp]"); done|].
    iIntros (q') "(%Hh&_&H)".
    wstep. iApply (wp_fl_begin with "Ho"). iIntros "Ho".
    iApply (wp_wand with "[H Ho]"); [iApply (wp_lq_insert_after_its fuel q' [] _ 0); [done|done|iFrame]|].
    iIntros (q2) "H". iDestruct "H" as (zs Hv Hh' Hre) "[H Ho]". iExists zs.
    simpl. rewrite Hh' Hh app_nil_r. by iFrame.
  Qed.
  Lemma wp_lq_assign_self fuel q xs ds :
    length xs < fuel →
    lqueueP q xs ds ⊢ wp (lq_assign_from fuel q q) (λ q', ⌜lq_head q' = lq_head q⌝ ∧
      lqueueP q' [] (reverse xs.*1 ++ ds)).
  Proof.
    iIntros (Hf) "[_ [H Hp]]". unfold lq_assign_from. wstep.
    iApply (wp_wand with "[H Hp]"); [iApply (wp_lq_clear with "[$H $Hp]"); done|].
    iIntros (q') "(%Hh&_&[%Ht [H Hp]])".
    wstep. unfold lq_begin. rewrite -Hh. iApply (wp_fl_begin with "H"). iIntros "H". simpl.
    unfold lq_insert_after_its. destruct fuel as [|fuel]; [lia|].
    cbn [loop]. wsteps. dec_false. wsteps. unfold lq_before_begin. rewrite Ht last_loc_nil.
    destruct (decide _) as [_|]; [|done]. wstep. iSplit; [done|]. iSplit; [done|]. iFrame.
  Qed.
  Lemma wp_lq_copy fuel other xs :
    length xs < fuel →
    flist (lq_head other) xs ⊢ wp (lq_copy fuel other) (λ q,
      ∃ zs, ⌜zs.*2 = xs.*2⌝ ∧ lqueueP q zs [] ∗ flist (lq_head other) xs).
  Proof.
    iIntros (Hf) "Ho". unfold lq_copy. wstep.
    iApply (wp_wand with "[]"); [by iApply wp_lq_new|]. iIntros (q) "H".
    wstep. iApply (wp_fl_begin with "Ho"). iIntros "Ho".
    iApply (wp_wand with "[H Ho]"); [iApply (wp_lq_insert_after_its fuel q [] _ 0); [done|done|iFrame]|].
    iIntros (q2) "H". iDestruct "H" as (zs Hv Hh' Hre) "[H Ho]". iExists zs.
    simpl. rewrite drop_nil app_nil_r. by iFrame.
  Qed.
  Lemma wp_lq_new_n n r v :
    refers [] r v →
    ⊢ wp (lq_new_n n r) (λ q, ∃ zs, ⌜zs.*2 = replicate n v⌝ ∧ lqueueP q zs []).
  Proof.
    intros Hr. iStartProof. unfold lq_new_n. wstep.
    iApply (wp_wand with "[]"); [by iApply wp_lq_new|]. iIntros (q) "H".
    iApply (wp_wand with "[H]"); [by iApply (wp_lq_insert_after_n q [] [] 0 n r v with "H")|].
    iIntros (q2) "H". iDestruct "H" as (zs Hv Hh' Hre) "H". iExists zs.
    simpl. rewrite drop_nil app_nil_r. by iFrame.
  Qed.
  Lemma wp_lq_cleanup triv fuel q ds :
    (triv = true ∨ ds = []) → length ds < fuel →
    pool q ds ⊢ wp (lq_cleanup triv fuel q) (λ _, pool q []).
  Proof.
    unfold lq_cleanup. revert fuel.
    induction ds as [|d ds IH]; iIntros (fuel Hok Hf) "Hp";
      (destruct fuel as [|fuel]; [simpl in Hf; lia|]); cbn [loop].
    - iDestruct "Hp" as "[Hd _]". wstep. wstep.
      iApply (wp_get_next with "Hd"). iIntros "Hd". simpl. wsteps. unfold pool. simpl. iFrame.
    - destruct Hok as [->|]; [|done]. iDestruct "Hp" as "(Hd&Hn&Hp)". wstep. wstep.
      iApply (wp_get_next with "Hd"). iIntros "Hd". simpl. wstep.
      iApply (wp_unlink_next with "Hd Hn"). iIntros "Hd Hn". wstep.
      unfold delete_pooled. wstep. wstep. wstep. iApply (wp_load with "Hn"). iIntros "Hn". simpl.
      wstep. wstep. iApply IH; [by left|simpl in *; lia|]. unfold pool. simpl. iFrame.
  Qed.
  Lemma wp_lq_destroy triv fuel q xs ds :
    (triv = true ∨ ds = []) → length xs < fuel → length ds < fuel →
    flist (lq_head q) xs ∗ pool q ds ⊢ wp (lq_destroy triv fuel q) (λ _, emp).
  Proof.
    iIntros (Hok Hf1 Hf2) "[H Hp]". unfold lq_destroy. wstep.
    iApply (wp_wand with "[H]"); [by iApply (wp_clear with "H")|].
    iIntros (_) "H". wstep.
    iApply (wp_wand with "[Hp]"); [by iApply (wp_lq_cleanup with "Hp")|].
    iIntros (_) "[Hd _]". wstep. iApply (wp_deallocate with "H"). iApply (wp_deallocate with "Hd"). done.
  Qed.
  Lemma wp_lq_swap a b xs ys ds es :
    xs ≠ [] → ys ≠ [] →
    lqueueP a xs ds ∗ lqueueP b ys es ⊢ wp (lq_swap a b) (λ ab, ⌜lq_head ab.1 = lq_head a⌝ ∧
      ⌜lq_head ab.2 = lq_head b⌝ ∧ lqueueP ab.1 ys ds ∗ lqueueP ab.2 xs es).
  Proof.
    iIntros (Hx Hy) "[[%Hta [Ha Hp]] [%Htb [Hb Hq]]]". unfold lq_swap. wstep.
    iApply (wp_wand with "[Ha Hb]"); [iApply wp_fl_swap; iFrame|]. iIntros (_) "[Ha Hb]".
    wstep. unfold lqueueP. simpl. rewrite Hta Htb. iFrame.
    iPureIntro. split_and!; try done; f_equal; by apply last_loc_ne.
  Qed.
  Lemma wp_lq_roll q xs ds :
    lqueueP q xs ds ⊢ wp (lq_roll_head q) (λ q', ⌜lq_head q' = lq_head q⌝ ∧
      lqueueP q' (drop 1 xs ++ take 1 xs) ds).
  Proof.
    iIntros "[%Ht [H Hp]]". iDestruct (flist_nodup with "H") as %Hnd. unfold lq_roll_head. wstep.
    iApply (wp_fl_begin with "H"). iIntros "H".
    destruct xs as [|[l v] [|[l2 v2] xs]].
    - destruct (decide _) as [[? _]|_]; [done|]. wstep. iSplit; [done|]. iSplit; [done|]. iFrame.
    - destruct (decide _) as [[_ Hn]|_].
      { exfalso. by rewrite Ht last_loc_cons in Hn. }
      wstep. iSplit; [done|]. iSplit; [done|]. iFrame.
    - rewrite decide_True.
      2:{ split; [done|]. rewrite Ht -pos_at_last. intros Hn.
          apply (pos_at_inj (lq_head q) ((l,v)::(l2,v2)::xs) 1) in Hn; [simpl in Hn; lia|done|simpl; lia]. }
      iDestruct "H" as "(Hh&Hl&H)". wstep.
      iApply (wp_unlink_next with "Hh Hl"). iIntros "Hh Hl".
      iAssert (flist (lq_head q) ((l2,v2) :: xs)) with "[Hh H]" as "H".
      { unfold flist. simpl. iFrame. }
      destruct (flist_at (lq_head q) ((l2,v2)::xs) (length ((l2,v2)::xs)) ltac:(lia))
        as (ns1&p&s&Hpp&Hys&Heq&_).
      rewrite pos_at_last in Hpp. wstep. rewrite Ht last_loc_cons.
      rewrite (last_loc_ne l _ (lq_head q)) // Hpp Heq.
      iDestruct (cells_focus with "H") as "(H1&Hpc&H2)".
      iApply (wp_insert_after with "Hpc Hl"). iIntros "Hpc Hl". wstep. iSplit; [done|].
      unfold lqueueP. simpl. iSplit; [iPureIntro|].
      { rewrite last_loc_cons last_loc_snoc //. }
      iFrame "Hp". change ((l2,v2)::xs ++ [(l,v)]) with (((l2,v2)::xs) ++ [(l,v)]).
      specialize (Hys [(l,v)]). rewrite take_ge // in Hys. rewrite Hys.
      iApply cells_focus. rewrite drop_ge //. simpl. iFrame.
  Qed.
  Lemma wp_lq_front q l v xs ds :
    lqueueP q ((l,v) :: xs) ds ⊢ wp (lq_front q) (λ w, ⌜w = v⌝ ∧ lqueueP q ((l,v) :: xs) ds).
  Proof.
    iIntros "[%Ht [H Hp]]". iApply (wp_wand with "[H]"); [by iApply (wp_fl_front with "H")|].
    iIntros (w) "[-> H]". by iFrame.
  Qed.
  Lemma wp_lq_back q l v xs ds :
    lqueueP q (xs ++ [(l,v)]) ds ⊢ wp (lq_back q) (λ w, ⌜w = v⌝ ∧ lqueueP q (xs ++ [(l,v)]) ds).
  Proof.
    iIntros "[%Ht [H Hp]]". unfold lq_back. rewrite Ht -pos_at_last app_length /= Nat.add_1_r.
    iApply (wp_fl_value with "H").
    { rewrite lookup_app_r // Nat.sub_diag //. }
    iIntros "H". iSplit; [done|]. by iFrame.
  Qed.
End lazy.
