(** Running out of memory in lazy_queue: memory is only requested when no spare node is left. Proof
    file. *)
From Verif Require Export FaultSpec FaultLogic FaultThrow.
From Verif Require Import ThreadSl FaultSl FaultCtor FaultBl ForwardProofs BackwardProofs LazySpec LazyProofs.
From iris.proofmode Require Import tactics.

Section lazy.
  Context {V : Type}.
  Notation C := (cell V).
  Notation A := (Allocator C).
  Notation iProp := (bi_car (hpropI C)).
  Notation ix := (list (loc * slot V) * loc * slot V * list (loc * slot V) * ptr)%type.
  Notation iy := (ix * V * list loc)%type.
  Implicit Types (xs ys : list (loc * V)) (ds : list loc).

  Lemma xp_get_node q r :
    Xp (λ al : A, get_node q r) (λ y : iy, seg_ref r y.1.2 y.1.1) (λ y, seg_pre y.1.1 ∗ pool q y.2)%I
      (λ y p, ∃ l nx, ⌜p = Some l ∧ (∀ d, head y.2 = Some d → l = d)⌝ ∧
         seg_pre y.1.1 ∗ pool q (tail y.2) ∗ l ↦ Cell nx (Live y.1.2))%I
      (λ y, ⌜y.2 = []⌝ ∧ seg_pre y.1.1 ∗ pool q y.2)%I.
  Proof.
    unfold get_node.
    apply (xp_bind _ _ _ _ (λ y d, ⌜d = head y.2⌝ ∧ seg_pre y.1.1 ∗ pool q y.2)%I).
    { apply xp_of_wp; [cw|]. intros al [[x v] ds] _. simpl. iIntros "[H Hp]". unfold pool.
      destruct ds as [|d ds]; simpl; iDestruct "Hp" as "[Hd Hp]"; iApply (wp_get_next with "Hd"); iIntros "Hd"; (iSplit; [done|]); iFrame. }
    intros [d|].
    - apply xp_of_wp; [cw|]. intros al [[[[[[ns1 l] s] ns2] nq] v] ds] Hr. simpl in *. unfold pool. iIntros "[%Hd [Hns Hp]]".
      destruct ds as [|d' ds]; [done|]. simpl in Hd. injection Hd as ->. iDestruct "Hp" as "(Hd&Hl&Hp)".
      wstep. iApply (wp_unlink_next with "Hd Hl"). iIntros "Hd Hl".
      wstep. wstep. wstep. iApply (wp_deref with "Hns"); [done|]. iIntros "Hns".
      wstep. iApply (wp_load with "Hl"). iIntros "Hl". simpl. wstep.
      iApply (wp_modify with "Hl"). iIntros "Hl". wstep. simpl.
      iExists d', _. iSplit; [iPureIntro; split; [done|by intros ? [= ->]]|]. iFrame.
    - eapply xp_throw; [apply (xp_clean 1); [cw|]|].
      + intros al [[[[[[ns1 l] s] ns2] nq] v] ds] Hr. simpl in *. iIntros "[%Hd [Hns Hp]]".
        destruct ds as [|d' ds]; [|done]. wsteps. iApply (wp_deref with "Hns"); [done|]. iIntros "Hns".
        wstep. iApply (wp_load with "[$]"). iIntros "Hl". simpl. wstep.
        iApply (wp_modify with "Hl"). iIntros "Hl". wstep. simpl. iExists l0, _. iSplit; [done|]. iFrame.
      + intros [[x v] ds] _. simpl. iIntros "[%Hd H]". destruct ds; [|done]. by iFrame.
  Qed.
  (** [k] of the values [vs] have been inserted: at least as many as there were spare nodes *)
  Definition lseg_throw q (vs : list V) (y : ix * list loc) : iProp :=
    let '(ns1, l, s, ns2, nq) := y.1 in
    (∃ ys k, ⌜length y.2 ≤ k < length vs ∧ ys.*2 = take k vs ∧ reused ys.*1 y.2⌝ ∧
       cells (ns1 ++ (l,s) :: live ys ++ ns2) nq ∗ pool q [])%I.
  Definition lseg_post q (vs : list V) (y : ix * list loc) (p : ptr) : iProp :=
    let '(ns1, l, s, ns2, nq) := y.1 in
    (∃ ys, ⌜ys.*2 = vs ∧ p = Some (last_loc l ys) ∧ reused ys.*1 y.2⌝ ∧
       cells (ns1 ++ (l,s) :: live ys ++ ns2) nq ∗ pool q (drop (length vs) y.2))%I.
  Lemma lseg_none q vs v (y : ix * list loc) : y.2 = [] → seg_pre y.1 ∗ pool q y.2 ⊢ lseg_throw q (v :: vs) y.
  Proof.
    destruct y as [[[[[ns1 l] s] ns2] nq] ds]. simpl. intros ->. iIntros "[H Hp]". iExists [], 0. iSplit; [|by iFrame].
    iPureIntro. split; [simpl; lia|]. split; [done|apply reused_nil].
  Qed.
  Lemma lseg_more q v vs ns1 l s n ns2 nq ds : (∀ d, head ds = Some d → n = d) →
    lseg_throw q vs ((ns1 ++ [(l,s)], n, Live v, ns2, nq), tail ds) ⊢ lseg_throw q (v :: vs) ((ns1, l, s, ns2, nq), ds).
  Proof.
    intros Hd. iIntros "H". iDestruct "H" as (ys k (Hk&Hys&Hr)) "[H Hp]". iExists ((n,v)::ys), (S k). simpl in *. iSplit.
    - iPureIntro. split_and!; [destruct ds; simpl in *; lia|lia|by f_equal|by apply reused_cons].
    - rewrite -app_assoc. iFrame.
  Qed.
  Lemma lseg_done q v vs ns1 l s n ns2 nq ds p : (∀ d, head ds = Some d → n = d) →
    lseg_post q vs ((ns1 ++ [(l,s)], n, Live v, ns2, nq), tail ds) p ⊢ lseg_post q (v :: vs) ((ns1, l, s, ns2, nq), ds) p.
  Proof.
    intros Hd. iIntros "H". iDestruct "H" as (ys (Hys&->&Hr)) "[H Hp]". iExists ((n,v)::ys). simpl in *. iSplit.
    - iPureIntro. split_and!; [by f_equal|by rewrite last_loc_cons|by apply reused_cons].
    - rewrite -app_assoc drop_tail. iFrame.
  Qed.
  Lemma xp_lq_ins_n q n p r :
    Xp (λ al : A, lq_ins_n q p n r) (λ y : iy, seg_at p y.1.1 ∧ seg_ref r y.1.2 y.1.1) (λ y, seg_pre y.1.1 ∗ pool q y.2)%I
      (λ y, lseg_post q (replicate n y.1.2) (y.1.1, y.2)) (λ y, lseg_throw q (replicate n y.1.2) (y.1.1, y.2)).
  Proof.
    revert p. induction n as [|n IH]; intros p; cbn [lq_ins_n].
    { apply xp_ret. intros [[[[[[ns1 l] s] ns2] nq] v] ds] [Hp _]. unfold seg_at in Hp. simpl in *. iIntros "[H Hp]". iExists [].
      iSplit; [iPureIntro; split_and!; [done..|apply reused_nil]|]. iFrame. }
    apply (xp_bind (λ al : A, get_node q r) (λ al x, let! p' := insert_after p x in lq_ins_n q p' n r) _ _
      (λ y p, ∃ l nx, ⌜p = Some l ∧ (∀ d, head y.2 = Some d → l = d)⌝ ∧
         seg_pre y.1.1 ∗ pool q (tail y.2) ∗ l ↦ Cell nx (Live y.1.2))%I).
    { eapply xp_conseq; [apply (xp_get_node q r)|]. intros y [Hp Hr]. iIntros "H". iExists y. iSplit; [done|].
      iExists emp%I. iSplitR; [done|]. iFrame "H". iSplit; [iIntros (a) "_ H"; iExact "H"|]. iIntros "_ [%Hd H]".
      cbn [replicate]. iApply lseg_none; [done|]. by iFrame. }
    intros x.
    apply (xp_bind (λ al : A, insert_after p x) (λ al p', lq_ins_n q p' n r) _ _
      (λ y p', ∃ n, ⌜p' = Some n ∧ (∀ d, head y.2 = Some d → n = d)⌝ ∧
         seg_pre (y.1.1.1.1.1.1 ++ [(y.1.1.1.1.1.2, y.1.1.1.1.2)], n, Live y.1.2, y.1.1.1.2, y.1.1.2) ∗ pool q (tail y.2))%I).
    { apply xp_of_wp; [cw|]. intros al [[[[[[ns1 l] s] ns2] nq] v] ds] [Hp Hr]. unfold seg_at in Hp. simpl in *. subst p. iIntros "H".
      iDestruct "H" as (n' nx [-> Hd]) "(Hns&Hp&Hn)". iDestruct (cells_focus with "Hns") as "(H1&Hl&H2)".
      iApply (wp_insert_after with "Hl Hn"). iIntros "Hl Hn". iExists n'. iSplit; [done|]. iFrame.
      rewrite -app_assoc. iApply cells_focus. simpl. iFrame. }
    intros p'. eapply xp_conseq; [apply IH|]. intros [[[[[[ns1 l] s] ns2] nq] v] ds] [Hp Hr]. simpl in *. iIntros "H".
    iDestruct "H" as (n' [-> Hd]) "[H Hp]". iExists ((ns1 ++ [(l,s)], n', Live v, ns2, nq), v, tail ds). iSplit.
    { iPureIntro. split; [done|]. simpl. apply (nrefers_insert (ns1 ++ [(l,s)]) [(n',Live v)]). by rewrite -app_assoc. }
    iExists emp%I. iSplitR; [done|]. iFrame "H Hp". iSplit.
    - iIntros (a) "_ H". by iApply lseg_done.
    - iIntros "_ H". by iApply lseg_more.
  Qed.
  Lemma xp_lq_ins_ext q vs p :
    Xp (λ al : A, lq_ins_ext q p vs) (λ y : ix * list loc, seg_at p y.1) (λ y, seg_pre y.1 ∗ pool q y.2)%I
      (lseg_post q vs) (lseg_throw q vs).
  Proof.
    revert p. induction vs as [|v vs IH]; intros p; cbn [lq_ins_ext].
    { apply xp_ret. intros [[[[[ns1 l] s] ns2] nq] ds] Hp. unfold seg_at in Hp. simpl in *. iIntros "[H Hp]". iExists [].
      iSplit; [iPureIntro; split_and!; [done..|apply reused_nil]|]. iFrame. }
    apply (xp_bind (λ al : A, get_node q (ExtVal v)) (λ al x, let! p' := insert_after p x in lq_ins_ext q p' vs) _ _
      (λ y p, ∃ l nx, ⌜p = Some l ∧ (∀ d, head y.2 = Some d → l = d)⌝ ∧
         seg_pre y.1 ∗ pool q (tail y.2) ∗ l ↦ Cell nx (Live v))%I).
    { eapply xp_conseq; [apply (xp_get_node q (ExtVal v))|]. intros y Hp. iIntros "H". iExists (y.1, v, y.2). iSplit.
      { iPureIntro. destruct y as [[[[[ns1 l] s] ns2] nq] ds]. simpl. done. }
      iExists emp%I. iSplitR; [done|]. iFrame "H". iSplit; [iIntros (a) "_ H"; iExact "H"|]. iIntros "_ [%Hd H]".
      iApply lseg_none; [done|]. by iFrame. }
    intros x.
    apply (xp_bind (λ al : A, insert_after p x) (λ al p', lq_ins_ext q p' vs) _ _
      (λ y p', ∃ n, ⌜p' = Some n ∧ (∀ d, head y.2 = Some d → n = d)⌝ ∧
         seg_pre (y.1.1.1.1.1 ++ [(y.1.1.1.1.2, y.1.1.1.2)], n, Live v, y.1.1.2, y.1.2) ∗ pool q (tail y.2))%I).
    { apply xp_of_wp; [cw|]. intros al [[[[[ns1 l] s] ns2] nq] ds] Hp. unfold seg_at in Hp. simpl in *. subst p. iIntros "H".
      iDestruct "H" as (n' nx [-> Hd]) "(Hns&Hp&Hn)". iDestruct (cells_focus with "Hns") as "(H1&Hl&H2)".
      iApply (wp_insert_after with "Hl Hn"). iIntros "Hl Hn". iExists n'. iSplit; [done|]. iFrame.
      rewrite -app_assoc. iApply cells_focus. simpl. iFrame. }
    intros p'. eapply xp_conseq; [apply IH|]. intros [[[[[ns1 l] s] ns2] nq] ds] Hp. simpl in *. iIntros "H".
    iDestruct "H" as (n' [-> Hd]) "[H Hp]". iExists ((ns1 ++ [(l,s)], n', Live v, ns2, nq), tail ds). iSplit; [done|].
    iExists emp%I. iSplitR; [done|]. iFrame "H Hp". iSplit.
    - iIntros (a) "_ H". by iApply lseg_done.
    - iIntros "_ H". by iApply lseg_more.
  Qed.

  Lemma flist_at_t (this : loc) xs i : i ≤ length xs →
    {x : list (loc * slot V) * loc * slot V | let '(ns1, l, s) := x in
      pos_at this xs i = Some l ∧
      (∀ ys, flist this (take i xs ++ ys) = cells (ns1 ++ (l,s) :: live ys) None) ∧
      flist this xs = cells (ns1 ++ (l,s) :: live (drop i xs)) None ∧
      (∀ r v, refers xs r v → nrefers (ns1 ++ (l,s) :: live (drop i xs)) r v)}.
  Proof.
    intros Hi. destruct (hnodes this xs !! i) as [[l s]|] eqn:E.
    2: { exfalso. apply lookup_ge_None in E. unfold hnodes in E. rewrite /= fmap_length in E. lia. }
    exists (take i (hnodes this xs), l, s). destruct (hnodes_split this xs i Hi) as (l'&s'&Hp&Hs).
    assert (hnodes this xs = take i (hnodes this xs) ++ (l', s') :: live (drop i xs)) as Heq by (by rewrite -Hs take_drop).
    assert ((l, s) = (l', s')) as [= -> ->].
    { assert (length (take i (hnodes this xs)) = i) as Hlen by (apply take_length_le; unfold hnodes; rewrite /= fmap_length; lia).
      rewrite Heq lookup_app_r in E; [|lia]. rewrite Hlen Nat.sub_diag in E. simpl in E. by injection E as <- <-. }
    split_and!; [done|..].
    - intros ys. unfold flist. by rewrite -Hs.
    - unfold flist. by rewrite -Heq.
    - intros r v Hr. rewrite -Heq. by apply nrefers_live.
  Qed.
  (** one element at a position of the queue *)
  Lemma xp_get_ins {B} q xs ds i r v (k : A → ptr → M (gmap loc C) B) (Q : B → iProp) :
    i ≤ length xs → refers xs r v → (∀ p, Cl 1 1 (λ al, k al p)) →
    (∀ al n, reused [n] ds →
       lqueueP (if decide (pos_at (lq_head q) xs i = lq_tail q) then lq_set_tail q (Some n) else q)
         (take i xs ++ (n, v) :: drop i xs) (drop 1 ds) ⊢ wp (k al (Some n)) Q) →
    Xp (λ al : A, let! x := get_node q r in let! n := insert_after (pos_at (lq_head q) xs i) x in k al n)
      (λ _ : unit, True) (λ _, lqueueP q xs ds) (λ _, Q) (λ _, ⌜ds = []⌝ ∧ lqueueP q xs ds)%I.
  Proof.
    intros Hi Hr Hk Hw. destruct (flist_at_t (lq_head q) xs i Hi) as [[[ns1 l] s] (Hp&Hys&Heq&Hr')].
    assert (l = last_loc (lq_head q) (take i xs)) as Hl by (rewrite pos_at_take // in Hp; by injection Hp).
    apply (xp_bind (λ al : A, get_node q r) (λ al x, let! n := insert_after (pos_at (lq_head q) xs i) x in k al n) _ _
      (λ _ p, ∃ n nx, ⌜lq_tail q = Some (last_loc (lq_head q) xs) ∧ NoDup (lq_head q :: xs.*1) ∧ p = Some n ∧ (∀ d, head ds = Some d → n = d)⌝ ∧
         cells (ns1 ++ (l,s) :: live (drop i xs)) None ∗ pool q (tail ds) ∗ n ↦ Cell nx (Live v))%I).
    { eapply xp_conseq; [apply (xp_get_node q r)|]. intros _ _. iIntros "[%Ht [H Hp]]". iDestruct (flist_nodup with "H") as %Hnd.
      iExists ((ns1, l, s, live (drop i xs), None), v, ds). iSplit; [iPureIntro; by apply Hr'|].
      iExists emp%I. iSplitR; [done|]. simpl. rewrite Heq. iFrame "H Hp". iSplit.
      - iIntros (p) "_ H". iDestruct "H" as (n nx [-> Hd]) "(H&Hp&Hn)". iExists n, nx. iSplit; [done|]. iFrame.
      - iIntros "_ [%Hd [H Hp]]". iSplit; [done|]. iSplit; [done|]. rewrite Heq. iFrame. }
    intros x. apply xp_of_wp.
    { apply (cw_bind 1 1 1 (λ al : A, insert_after (pos_at (lq_head q) xs i) x)); [cw|]. intros a. apply Hk. }
    intros al _ _. iIntros "H". iDestruct "H" as (n nx (Ht&Hnd&->&Hd)) "(H&Hp&Hn)". wstep. rewrite Hp.
    iDestruct (cells_focus with "H") as "(H1&Hl&H2)". iApply (wp_insert_after with "Hl Hn"). iIntros "Hl Hn".
    iApply Hw; [apply reused_cons; [done|apply reused_nil]|].
    iDestruct (lqueue_inserted q xs i [(n, v)] (tail ds) Hi Ht Hnd with "[-]") as "H".
    - iFrame "Hp". simpl. rewrite (Hys ((n, v) :: drop i xs)). iApply cells_focus. simpl. iFrame.
    - rewrite Hp -Hl. by destruct ds.
  Qed.

  (** the first k values are there, at least as many as there were spare nodes; tail_ has not moved *)
  Definition lq_part q xs ds i (vs : list V) : iProp :=
    (∃ ys k, ⌜length ds ≤ k < length vs ∧ ys.*2 = take k vs ∧ reused ys.*1 ds ∧ 
        (i < length xs ∨ k = 0 → lq_tail q = Some (last_loc (lq_head q) (take i xs ++ ys ++ drop i xs)))⌝ ∧
       flist (lq_head q) (take i xs ++ ys ++ drop i xs) ∗ pool q [])%I.
  Lemma lq_part_of q xs ds i (vs : list V) k ys : i ≤ length xs →
    lq_tail q = Some (last_loc (lq_head q) xs) → length ds ≤ k < length vs → ys.*2 = take k vs → reused ys.*1 ds →
    flist (lq_head q) (take i xs ++ ys ++ drop i xs) ∗ pool q [] ⊢ lq_part q xs ds i vs.
  Proof.
    intros Hi Ht Hk Hys Hr. iIntros "H". iExists ys, k. iSplit; [|done]. iPureIntro. split_and!; [lia|lia|done..|].
    intros [Hl| ->]; [by rewrite last_kept|]. rewrite take_0 in Hys. apply fmap_nil_inv in Hys as ->. by rewrite /= take_drop.
  Qed.
  Lemma xp_lq_tail q xs ds i vs (m : A → M (gmap loc C) ptr) : i ≤ length xs →
    (∀ ns1 l s, pos_at (lq_head q) xs i = Some l → (∀ r v, refers xs r v → nrefers (ns1 ++ (l,s) :: live (drop i xs)) r v) →
       Xp m (λ _ : unit, True) (λ _, cells (ns1 ++ (l,s) :: live (drop i xs)) None ∗ pool q ds)%I
         (λ _, lseg_post q vs ((ns1, l, s, live (drop i xs), None), ds)) (λ _, lseg_throw q vs ((ns1, l, s, live (drop i xs), None), ds))) →
    Xp (λ al : A, let! p := m al in if decide (pos_at (lq_head q) xs i = lq_tail q) then ret (lq_set_tail q p) else ret q)
      (λ _ : unit, True) (λ _, lqueueP q xs ds)
      (λ _ q', ∃ ys, ⌜ys.*2 = vs ∧ lq_head q' = lq_head q ∧ reused ys.*1 ds⌝ ∧ lqueueP q' (take i xs ++ ys ++ drop i xs) (drop (length vs) ds))%I
      (λ _, lq_part q xs ds i vs).
  Proof.
    intros Hi Hm. destruct (flist_at_t (lq_head q) xs i Hi) as [[[ns1 l] s] (Hp&Hys&Heq&Hr')].
    assert (l = last_loc (lq_head q) (take i xs)) as Hl by (rewrite pos_at_take // in Hp; by injection Hp).
    apply (xp_bind _ _ _ _ (λ _ p, ∃ ys, ⌜ys.*2 = vs ∧ reused ys.*1 ds⌝ ∧
      lqueueP (if decide (pos_at (lq_head q) xs i = lq_tail q) then lq_set_tail q p else q) (take i xs ++ ys ++ drop i xs) (drop (length vs) ds))%I).
    - eapply xp_conseq; [apply (Hm ns1 l s Hp)|].
      { intros r v Hr. by apply Hr'. }
      intros _ _. iIntros "[%Ht [H Hp]]". iDestruct (flist_nodup with "H") as %Hnd.
      iExists tt. iSplit; [done|]. iExists emp%I. iSplitR; [done|]. simpl. rewrite Heq. iFrame "H Hp". iSplit.
      + iIntros (p) "_ H". iDestruct "H" as (ys (Hv&->&Hr)) "[H Hp]". rewrite -live_app -Hys.
        iDestruct (lqueue_inserted q xs i ys _ Hi Ht Hnd with "[$H $Hp]") as "H". iExists ys. rewrite -Hl. iSplit; [done|]. done.
      + iIntros "_ H". iDestruct "H" as (ys k (Hk&Hv&Hr)) "H". rewrite -live_app -Hys. by iApply (lq_part_of with "H").
    - intros p. apply xp_of_wp; [destruct (decide (pos_at (lq_head q) xs i = lq_tail q)); cw|]. intros al _ _. iIntros "H". iDestruct "H" as (ys [Hv Hr]) "H".
      destruct (decide (pos_at (lq_head q) xs i = lq_tail q)); wstep; iExists ys; (iSplit; [done|]); done.
  Qed.
  Lemma xp_lq_insert_n q xs ds i n r v : i ≤ length xs → refers xs r v →
    Xp (λ al : A, lq_insert_after_n q (pos_at (lq_head q) xs i) n r) (λ _ : unit, True) (λ _, lqueueP q xs ds)
      (λ _ q', ∃ ys, ⌜ys.*2 = replicate n v ∧ lq_head q' = lq_head q ∧ reused ys.*1 ds⌝ ∧ lqueueP q' (take i xs ++ ys ++ drop i xs) (drop (length (replicate n v)) ds))%I
      (λ _, lq_part q xs ds i (replicate n v)).
  Proof.
    intros Hi Hr. unfold lq_insert_after_n. apply (xp_lq_tail q xs ds i _ (λ al : A, lq_ins_n q (pos_at (lq_head q) xs i) n r)); [done|].
    intros ns1 l s Hp Hr'. eapply xp_conseq; [apply (xp_lq_ins_n q n _ r)|]. intros _ _. iIntros "H".
    iExists ((ns1, l, s, live (drop i xs), None), v, ds). iSplit; [iPureIntro; split; [done|by apply Hr']|].
    iExists emp%I. iSplitR; [done|]. iFrame "H". iSplit; [iIntros (a) "_ $"|iIntros "_ $"].
  Qed.
  Lemma xp_lq_insert_ext q xs ds i vs : i ≤ length xs →
    Xp (λ al : A, lq_insert_after_ext q (pos_at (lq_head q) xs i) vs) (λ _ : unit, True) (λ _, lqueueP q xs ds)
      (λ _ q', ∃ ys, ⌜ys.*2 = vs ∧ lq_head q' = lq_head q ∧ reused ys.*1 ds⌝ ∧ lqueueP q' (take i xs ++ ys ++ drop i xs) (drop (length vs) ds))%I
      (λ _, lq_part q xs ds i vs).
  Proof.
    intros Hi. unfold lq_insert_after_ext. apply (xp_lq_tail q xs ds i _ (λ al : A, lq_ins_ext q (pos_at (lq_head q) xs i) vs)); [done|].
    intros ns1 l s Hp Hr'. eapply xp_conseq; [apply (xp_lq_ins_ext q vs _)|]. intros _ _. iIntros "H".
    iExists ((ns1, l, s, live (drop i xs), None), ds). iSplit; [done|].
    iExists emp%I. iSplitR; [done|]. iFrame "H". iSplit; [iIntros (a) "_ $"|iIntros "_ $"].
  Qed.

  (** clear() and fill again *)
  Lemma xp_refill fuel q xs ds vs : length xs < fuel →
    Xp (λ al : A, let! q' := lq_clear fuel q in lq_insert_after_ext q' (lq_before_begin q') vs) (λ _ : unit, True) (λ _, lqueueP q xs ds)
      (λ _ q', ∃ ys, ⌜ys.*2 = vs ∧ lq_head q' = lq_head q⌝ ∧ lqueueP q' ys (drop (length vs) (reverse xs.*1 ++ ds)))%I
      (λ _, ⌜length xs + length ds < length vs⌝ ∧ True)%I.
  Proof.
    intros Hf. apply (xp_bind _ _ _ _ (λ _ q', ⌜lq_head q' = lq_head q⌝ ∧ lqueueP q' [] (reverse xs.*1 ++ ds))%I).
    { apply xp_of_wp; [cw|]. intros al _ _. iIntros "[%Ht H]". iApply (wp_wand with "[H]"); [by iApply (wp_lq_clear with "H")|].
      iIntros (q') "[%H1 [%H2 H]]". by iFrame. }
    intros q'. eapply xp_conseq; [apply (xp_lq_insert_ext q' [] (reverse xs.*1 ++ ds) 0 vs); simpl; lia|].
    intros _ _. iIntros "[%Hh H]". iExists tt. iSplit; [done|]. iExists emp%I. iSplitR; [done|]. iFrame "H". iSplit.
    - iIntros (q2) "_ H". iDestruct "H" as (ys (Hys&Hh2&Hr)) "H". simpl. rewrite app_nil_r. iExists ys. iSplit; [|done]. iPureIntro. split; [done|congruence].
    - iIntros "_ H". iDestruct "H" as (ys k (Hk&_)) "H". rewrite app_length reverse_length fmap_length in Hk. iSplit; [iPureIntro; lia|done].
  Qed.

End lazy.
Ltac tr_hint h ::=
  lazymatch h with
  | @lq_ins_n => tr_by @tr_lq_ins_n
  end.
Section stale.
  Context {V : Type}.
  Notation C := (cell V).
  Notation A := (Allocator C).
  Notation iProp := (bi_car (hpropI C)).
  Implicit Types (xs ys : list (loc * V)) (ds : list loc).

  Lemma th_get_node q v P : Th (λ al : A, get_node q (ExtVal v)) (P ∗ pool q [])%I (P ∗ pool q [])%I.
  Proof.
    unfold get_node. apply (th_after (λ al : A, get_next (Some (lq_dead q))) _ _ (λ d, ⌜d = None⌝ ∧ P ∗ pool q [])%I False%I).
    { apply xp_of_wp; [cw|]. intros al _ _. iIntros "[H Hp]". unfold pool. iDestruct "Hp" as "[Hd Hp]". iApply (wp_get_next with "Hd"). iIntros "Hd". simpl. iSplit; [done|]. iFrame. }
    intros [d|]; [apply (th_absurd 1 1); [tr|]; by iIntros "[%H _]"|].
    apply (th_now 1 1); [|intros x; tr]. apply (th_now 1 1); [|intros x; tr].
    eapply th_conseq; [apply th_alloc| |reflexivity]. by iIntros "[_ H]".
  Qed.
  Lemma th_lq_ins_n q v k : ∀ n p ds this xs, length ds ≤ k < n → p = Some (last_loc this xs) →
    Th (λ al : A, lq_ins_n q p n (ExtVal v)) (flist this xs ∗ pool q ds)%I
      (∃ ys, ⌜ys.*2 = replicate k v⌝ ∧ flist this (xs ++ ys) ∗ pool q [])%I.
  Proof.
    induction k as [|k IH]; intros n p ds this xs Hk Hp; (destruct n as [|n]; [lia|]); cbn [lq_ins_n].
    - apply (th_now 1 1); [|intros x; tr]. destruct ds as [|d ds]; [|cbn [length] in Hk; lia].
      eapply th_conseq; [apply th_get_node|reflexivity|]. iIntros "H". iExists []. iSplit; [done|]. by rewrite app_nil_r.
    - destruct (flist_at_t this xs (length xs) ltac:(lia)) as [[[ns1 l] s] (Hpos&Hys&Heq&_)]. rewrite drop_all in Heq. rewrite pos_at_last -Hp in Hpos. clear Hp. subst p.
      apply (th_after (λ al : A, get_node q (ExtVal v)) _ _ (λ x, ∃ m nx, ⌜x = Some m⌝ ∧ flist this xs ∗ pool q (tail ds) ∗ m ↦ Cell nx (Live v))%I True%I).
      { eapply xp_conseq; [apply xp_get_node|]. intros _ _. iIntros "[H Hp]". iExists ((ns1, l, s, [], None), v, ds). iSplit; [done|].
        iExists emp%I. iSplitR; [done|]. simpl. rewrite Heq. iFrame "H Hp". iSplit; [|by iIntros "_ _"].
        iIntros (x) "_ H". iDestruct "H" as (m nx [-> _]) "(H&Hp&Hm)". iExists m, nx. iSplit; [done|]. iFrame. }
      intros [m|]; [|apply (th_absurd 1 1); [tr|]; iIntros "H"; by iDestruct "H" as (m nx Hm) "H"].
      apply (th_after (λ al : A, insert_after (Some l) (Some m)) _ _ (λ p', ⌜p' = Some m⌝ ∧ flist this (xs ++ [(m, v)]) ∗ pool q (tail ds))%I False%I).
      { apply xp_of_wp; [cw|]. intros al x _. iIntros "H". iDestruct "H" as (m' nx Hm) "(H&Hp&Hm)". simplify_eq.
        specialize (Hys [(m', v)]). rewrite firstn_all in Hys. rewrite Hys Heq.
        iDestruct (cells_focus with "H") as "(H1&H2&H3)". iApply (wp_insert_after with "H2 Hm"). iIntros "H2 Hm". iSplit; [done|].
        iFrame "Hp". iApply cells_focus. simpl. iFrame. }
      intros [m'|]; [|apply (th_absurd 1 1); [tr|]; iIntros "[%Hl H]"; done].
      assert ({m' = m} + {m' ≠ m}) as [->|Hne] by apply decide, _.
      2: { apply (th_absurd 1 1); [tr|]. iIntros "[%Hl H]". congruence. }
      eapply th_conseq; [apply (IH n (Some m) (tail ds) this (xs ++ [(m, v)]))| |].
      + destruct ds; simpl in *; lia.
      + by rewrite last_loc_snoc.
      + by iIntros "[_ H]".
      + iIntros "H". iDestruct "H" as (ys Hy) "H". iExists ((m, v) :: ys). iSplit; [iPureIntro; simpl; by f_equal|]. by rewrite -app_assoc.
  Qed.
  Lemma th_lq_insert_n q xs ds n k v : length ds ≤ k < n →
    Th (λ al : A, lq_insert_after_n q (Some (last_loc (lq_head q) xs)) n (ExtVal v)) (lqueueP q xs ds)
      (∃ ys, ⌜lq_tail q = Some (last_loc (lq_head q) xs) ∧ ys.*2 = replicate k v⌝ ∧ flist (lq_head q) (xs ++ ys) ∗ pool q [])%I.
  Proof.
    intros Hk. unfold lq_insert_after_n. apply (th_now 1 1); [|intros p; tr].
    eapply th_conseq; [apply (th_pure (lq_tail q = Some (last_loc (lq_head q) xs))), (th_lq_ins_n q v k n _ ds (lq_head q) xs Hk eq_refl)|done|].
    iIntros "[%Ht H]". iDestruct "H" as (ys Hys) "H". iExists ys. by iSplit.
  Qed.
  Lemma tr_lq_insert_n q p n (v : V) : Tr 1 1 (λ al : A, lq_insert_after_n q p n (ExtVal v)).
  Proof. tr. Qed.
  (** push_back on a queue whose tail_ designates the last node of [xs] *)
  Lemma wp_lq_stale_push `{al : A} q xs ys ds w : lq_tail q = Some (last_loc (lq_head q) xs) →
    flist (lq_head q) (xs ++ ys) ∗ pool q ds ⊢
    wp (let! q' := lq_push_back q (ExtVal w) in let! x := lq_back q' in ret (q', x))
      (λ '(q', x), ⌜x = w ∧ lq_head q' = lq_head q ∧ lq_dead q' = lq_dead q⌝ ∧
         ∃ n, flist (lq_head q) (xs ++ (n, w) :: ys) ∗ pool q (tail ds)).
  Proof.
    iIntros (Ht) "[H Hp]". destruct (flist_at (lq_head q) (xs ++ ys) (length xs)) as (ns1&l&s&Hp&Hys&Heq&Hr'&_); [rewrite app_length; lia|].
    rewrite pos_at_take in Hp; [|rewrite app_length; lia]. rewrite take_app in Hp, Hys. rewrite drop_app in Heq.
    wstep. unfold lq_push_back. rewrite Heq Ht Hp.
    iApply (wp_get_insert_k with "H Hp"); [done|]. iIntros (n _) "H Hp". wsteps. unfold lq_back. cbn [lq_tail lq_set_tail].
    rewrite (assoc_L (++) ns1 [(l, s)]). iDestruct (cells_focus with "H") as "(H1&Hn&H2)".
    iApply (wp_value_at with "Hn"). iIntros "Hn". wsteps. iSplit; [done|]. iExists n. iFrame "Hp".
    rewrite (Hys ((n, w) :: ys)). iAssert (cells ((ns1 ++ [(l, s)]) ++ (n, Live w) :: live ys) None) with "[H1 Hn H2]" as "H".
    { iApply cells_focus. iFrame. }
    by rewrite -app_assoc.
  Qed.
End stale.
