(** Insertion, removal and climbing in the red-black tree. Proof file. *)
From Verif Require Export RbLogic.

Section ops.
  Context {V : Type}.
  Notation C := (rbcell V).
  Notation heap := (gmap loc C).
  Notation iProp := (bi_car (hpropI C)).
  Notation tree := (tree V).
  Notation tframe := (@tframe V).
  Context `{Allocator C}.
  Implicit Types (t : tree) (x n par hdr : loc) (c : bool) (k : list tframe) (p q : ptr) (f : tframe).

  (** Focus on the filled frame. *)
  Lemma ctx_fnode_ne hdr f k t : rzip hdr (f :: k) t ⊢ ⌜fnode f ≠ hdr⌝.
  Proof.
    iIntros "[Hc _]". destruct f; simpl; iDestruct "Hc" as "(Hn&_&Hk)";
      iApply (ctx_hdr_ne with "[$Hk $Hn]").
  Qed.

  (** One step of all the climbing loops. *)
  Lemma wp_fix_step {B} hdr f k t (K : edge → ptr → M heap B) Q :
    rzip hdr (f :: k) t -∗
    (rzip hdr k (tfix (fill f t)) -∗ wp (K (edge_at hdr k) (Some (parent_of hdr k))) Q) -∗
    wp (let! root := edge_of hdr (Some (fnode f)) in
        let! p' := getf parent (Some (fnode f)) in
        let! r := get_edge root in
        let! r' := fixup r in
        set_edge root r' ;!
        K root p') Q.
  Proof.
    iIntros "H HQ". rewrite -rzip_fill. iDestruct "H" as "[Hc Ht]". rewrite rootp_fill.
    iAssert (∃ q q' c v, fnode f ↦ Rb (Some (parent_of hdr k)) q q' c (Some v) ∗
      (fnode f ↦ Rb (Some (parent_of hdr k)) q q' c (Some v) -∗ tree_at (parent_of hdr k) (fill f t)))%I
      with "[Ht]" as (q q' c v) "[Hn Ht]".
    { destruct f as [c n v r|c l n v]; simpl; iDestruct "Ht" as "(Hn&H1&H2)"; iExists _, _, _, _;
        iSplitL "Hn"; [iExact "Hn"| |iExact "Hn"|]; iIntros "Hn"; iFrame. }
    wstep. iApply (wp_edge_of with "Hc Hn"). iIntros "Hc Hn".
    wstep. iApply (wp_getf with "Hn"). iIntros "Hn". cbn [parent].
    iDestruct ("Ht" with "Hn") as "Ht".
    wstep. iApply (wp_get_edge with "Hc"). iIntros "Hc".
    wstep. rewrite -(rootp_fill f t). iApply (wp_fixup with "Ht"); [by destruct f|]. iIntros "Ht".
    wstep. iApply (wp_set_edge with "Hc"). iIntros "Hc". iApply "HQ". iFrame.
  Qed.

  Lemma wp_climb_fixup hdr k t fuel Q :
    length k < fuel →
    rzip hdr k t -∗ (rzip hdr [] (climb k t) -∗ Q tt) -∗
    wp (climb_fixup fuel hdr (Some (parent_of hdr k))) Q.
  Proof.
    intros Hf. iIntros "H HQ". iApply (wp_wand _ (λ _, rzip hdr [] (climb k t)) with "[H]");
      [|iIntros ([]); by iApply "HQ"].
    unfold climb_fixup. set (E := climb k t).
    iApply (wp_loop (λ i p, ∃ k t, ⌜i = length k ∧ p = Some (parent_of hdr k) ∧ climb k t = E⌝ ∧ rzip hdr k t)%I
      with "[H]"); [|exact Hf|iExists k, t; by iFrame].
    clearbody E. clear k t Hf. intros i p. iIntros "H".
    iDestruct "H" as (k t) "[%Hi H]". destruct Hi as (->&->&<-).
    destruct k as [|f k].
    - simpl. destruct (decide _) as [Hx|_]; [done|]. wstep. iFrame.
    - iDestruct (ctx_fnode_ne with "H") as %Hne. simpl.
      destruct (decide _) as [_|Hx]; [|naive_solver].
      iApply (wp_fix_step with "H"). iIntros "H". wstep.
      iExists (length k). iSplit; [done|]. iExists k, _. by iFrame.
  Qed.

  (** ** insert_rebalance *)
  Lemma ctx_cell_parent hdr k n c v :
    rzip hdr k (Node c Leaf n v Leaf) ⊣⊢
    ctx hdr k (Some n) ∗ n ↦ Rb (Some (parent_of hdr k)) None None c (Some v).
  Proof.
    unfold rzip. simpl. iSplit.
    - iIntros "($&$&_&_)".
    - iIntros "[Hc Hn]". iFrame. by rewrite ?left_id.
  Qed.
  Lemma reads_lr par t : t ≠ Leaf →
    reads (tree_at par t)
      (orM (let! l := getf left (rootp t) in is_red l) (let! r := getf right (rootp t) in is_red r))
      (isred (lsub t) || isred (rsub t)).
  Proof.
    intros Ht. apply reads_or; [by apply reads_red_left|]. intros _. by apply reads_red_right.
  Qed.

  Lemma wp_insert_rebalance hdr k n q q' c0 v c m fuel Q :
    length k < fuel → bctx k c m → m = 0 →
    ctx hdr k (Some n) -∗ n ↦ Rb (Some (parent_of hdr k)) q q' c0 (Some v) -∗
    (∀ t, ⌜elems t = lefts k ++ (n, v) :: rights k ∧ isred t = false ∧ ∃ m, balanced t m⌝ →
       rzip hdr [] t -∗ Q tt) -∗
    wp (insert_rebalance fuel hdr (edge_at hdr k) (Some (parent_of hdr k))) Q.
  Proof.
    intros Hf Hk ->. iIntros "Hc Hn HQ". unfold insert_rebalance.
    wstep. iApply (wp_get_edge with "Hc"). iIntros "Hc".
    wstep. iApply (wp_setf with "Hn"). iIntros "Hn".
    wstep. iApply (wp_setf with "Hn"). iIntros "Hn".
    wstep. iApply (wp_setf with "Hn"). iIntros "Hn".
    unfold set_left, set_right, set_red. cbn [parent left right red data].
    iDestruct (ctx_cell_parent hdr k n true v with "[$Hc $Hn]") as "H".
    set (E := lefts k ++ (n, v) :: rights k).
    wstep.
    iApply (wp_wand _ (λ _, ∃ t, ⌜t ≠ Leaf ∧ elems t = E ∧ ∃ m, balanced (recolor false t) m⌝ ∧ rzip hdr [] t)%I with "[H]").
    { iApply (wp_loop (λ i p, ∃ k t c m, ⌜i = length k ∧ p = Some (parent_of hdr k) ∧
        t ≠ Leaf ∧ lefts k ++ elems t ++ rights k = E ∧ bctx k c m ∧ ins_ok t c m⌝ ∧ rzip hdr k t)%I
        with "[H]"); [|exact Hf|].
      2:{ iExists k, (Node true Leaf n v Leaf), c, 0. iSplit; [iPureIntro|by iFrame]. repeat split; try done. by left. }
      clearbody E. clear Hk Hf k c. intros i p. iIntros "H".
      iDestruct "H" as (k t c m) "[%Hx H]". destruct Hx as (->&->&Ht&HE&Hk&Hi).
      destruct k as [|f k].
      - simpl. destruct (decide _) as [Hx|_]; [done|]. wsteps. iExists t. iSplit; [iPureIntro|by iFrame]. rewrite /= app_nil_r in HE. split_and!; [done..|].
        simpl in Hk. destruct Hi as [Hi|[_ Hi]]; [by eapply balanced_blacken|by eapply redred_blacken].
      - iDestruct (ctx_fnode_ne with "H") as %Hne. simpl.
        destruct (decide _) as [_|Hx]; [|naive_solver].
        wstep. rewrite -rzip_fill. iDestruct "H" as "[Hc Ht]".
        rewrite -(rootp_fill f t).
        iApply (wp_reads with "Ht"); [apply reads_lr; by destruct f|]. iIntros "Ht".
        iAssert (rzip hdr (f :: k) t) with "[Hc Ht]" as "H".
        { rewrite -rzip_fill. iFrame. }
        destruct (isred (lsub (fill f t)) || _) eqn:Er.
        + rewrite rootp_fill.
          iApply (wp_fix_step with "H"). iIntros "H". wstep.
          iExists (length k). iSplit; [done|].
          destruct Hk as (c'&m'&Hbf&Hk).
          iExists k, _, c', m'. iSplit; [iPureIntro|by iFrame]. split_and!; [done|done| | |done|by eapply ins_step].
          { intros E0. apply (f_equal elems) in E0. rewrite elems_tfix elems_fill in E0.
            apply (f_equal length) in E0. rewrite !app_length in E0. destruct t; [done|].
            simpl in E0. rewrite app_length in E0. simpl in E0. lia. }
          { rewrite elems_tfix elems_fill -HE. simpl. by rewrite -!app_assoc. }
        + wstep. iExists (plug k (fill f t)). rewrite rzip_plug rzip_fill. iSplit; [iPureIntro|by iFrame].
          destruct Hk as (c'&m'&Hbf&Hk).
          destruct (ins_exit _ _ _ _ _ _ Hbf Hi Er) as [Hb Hc].
          split_and!.
          { intros E0. apply (f_equal elems) in E0. rewrite elems_plug elems_fill in E0.
            apply (f_equal length) in E0. rewrite !app_length in E0. destruct t; [done|].
            simpl in E0. rewrite app_length in E0. simpl in E0. lia. }
          { rewrite elems_plug elems_fill -HE. simpl. by rewrite -!app_assoc. }
          { destruct (bctx_plug _ _ _ _ Hk Hb Hc) as [? ?]. by eapply balanced_blacken. } }
    iIntros (_) "H". iDestruct "H" as (t) "[%Hx H]". destruct Hx as (Ht&HE&Hb).
    iDestruct "H" as "[Hc Ht]". simpl.
    wstep. iApply (wp_getf with "Hc"). iIntros "Hc". cbn [parent].
    iApply (wp_set_red with "Ht"); [done|]. iIntros "Ht".
    iApply ("HQ" $! (recolor false t)).
    - iPureIntro. rewrite elems_recolor. split_and!; [done|by destruct t|done].
    - unfold rzip. rewrite rootp_recolor. simpl. iFrame.
  Qed.

  (** rb_attach at a hole. *)
  Lemma wp_rb_attach hdr k (v : V) c fuel Q :
    length k < fuel → bctx k c 0 →
    rzip hdr k Leaf -∗
    (∀ n t, ⌜elems t = lefts k ++ (n, v) :: rights k ∧ isred t = false ∧ ∃ m, balanced t m⌝ →
       rzip hdr [] t -∗ Q (Some n)) -∗
    wp (rb_attach fuel hdr (edge_at hdr k) (Some (parent_of hdr k)) v) Q.
  Proof.
    intros Hf Hk. iIntros "[Hc _] HQ". unfold rb_attach, new_rbnode.
    wstep. iApply wp_allocate. iIntros (n) "Hn".
    wstep. iApply (wp_setf with "Hn"). iIntros "Hn". cbn [set_parent left right red data].
    wstep. iApply (wp_set_edge with "Hc"). iIntros "Hc".
    wstep. iApply (wp_insert_rebalance with "Hc Hn"); [done|done|done|].
    iIntros (t) "%Ht H". wstep. by iApply "HQ".
  Qed.
End ops.
