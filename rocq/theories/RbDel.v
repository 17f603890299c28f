(** Removal from the red-black tree. Proof file. *)
From Verif Require Export RbFind.

Section del.
  Context {K V : Type}.
  Notation C := (rbcell V).
  Notation heap := (gmap loc C).
  Notation iProp := (bi_car (hpropI C)).
  Notation tree := (tree V).
  Notation tframe := (@tframe V).
  Context `{Allocator C}.
  Implicit Types (t : tree) (x n par hdr : loc) (c : bool) (k : list tframe) (p q : ptr) (f : tframe).

  (** ** delete_min *)
  (** Frames of a left spine, from a hole (c, m) up to a hole (cf, mf). *)
  Fixpoint spine (k : list tframe) c (m : nat) cf (mf : nat) : Prop :=
    match k with
    | [] => c = cf ∧ m = mf
    | f :: k => (∃ c x v r, f = FL c x v r) ∧
        ∃ c' m', frame_ok f c m c' m' ∧ spine k c' m' cf mf
    end.
  Lemma spine_lefts k c m cf mf : spine k c m cf mf → lefts k = [].
  Proof.
    revert c m. induction k as [|f k IH]; intros c m; simpl; [done|].
    intros ((?&?&?&?&->)&c'&m'&_&Hs). simpl. by rewrite (IH _ _ Hs).
  Qed.
  Lemma spine_climb k c m cf mf t :
    spine k c m cf mf → balanced t m → (isred t = true → c = true) →
    balanced (climb k t) mf ∧ (isred (climb k t) = true → cf = true).
  Proof.
    revert c m t. induction k as [|f k IH]; intros c m t; simpl.
    - intros [-> ->]. done.
    - intros (_&c'&m'&Hf&Hs) Hb Hc. destruct (Hf t Hb Hc) as [Hb' Hc']. by eapply IH.
  Qed.
  Lemma spine_edge hdr k f0 k0 c m cf mf c1 l1 x1 v1 :
    f0 = FR c1 l1 x1 v1 → spine k c m cf mf → k ≠ [] →
    edge_at hdr (f0 :: k0) ≠ edge_at hdr (k ++ f0 :: k0).
  Proof.
    intros ->. destruct k as [|f k]; [done|]. simpl. intros ((?&?&?&?&->)&_) _. done.
  Qed.

  Lemma rem_focus_red t m : rem_focus t m → t ≠ Leaf → 1 ≤ meas t m.
  Proof.
    intros [Hb Ht] Hn. unfold meas. destruct t as [|[] l x v r]; simpl in *; [done|lia|].
    destruct m; [by destruct_and?|lia].
  Qed.

  Lemma frame_ok_eq f c m c' m' : frame_ok (frecolor (fcolor f) f) c m c' m' → frame_ok f c m c' m'.
  Proof. by destruct f. Qed.

  (** Descent step of delete_min, as a pure fact. *)
  Lemma delmin_step c l x (v : V) r m :
    rem_focus (Node c l x v r) m → l ≠ Leaf →
    let t' := if both_blackb l then tmovel (Node c l x v r) else Node c l x v r in
    ∃ c1 l2 x2 v2 r2 m2, t' = Node c1 l2 x2 v2 r2 ∧ l2 ≠ Leaf ∧ rem_focus l2 m2 ∧
      frame_ok (FL c1 x2 v2 r2) (isred l2) m2 c m ∧ meas l2 m2 < meas (Node c l x v r) m.
  Proof.
    intros Hr Hl. simpl. destruct (both_blackb l) eqn:E.
    - destruct (rem_left_move c c l x v r m Hr) as (c1&c2&l2&x2&v2&r2&m2&Ht&Hc&Hf&Hn&Hm&_&Hok).
      { by destruct l. }
      rewrite (Hc eq_refl) in Hok.
      exists c1, l2, x2, v2, r2, m2. split_and!; done.
    - destruct (rem_left_stay c c l x v r m Hr) as (m2&Hf&Hm&Hok).
      { rewrite E. by destruct l. }
      exists c, l, x, v, r, m2. split_and!; done.
  Qed.
  Lemma move_right_exists c l x (v : V) r m :
    rem_focus (Node c l x v r) m → l ≠ Leaf → both_blackb l = true → r ≠ Leaf.
  Proof.
    intros [Hb Ht] Hl E ->. unfold both_blackb in E. apply andb_true_iff in E as [E1 E2].
    destruct l as [|[] ll lx lv lr]; simpl in *; try done.
    destruct c; simpl in *.
    - destruct_and?. by subst m.
    - destruct m as [|m]; [by destruct_and?|]. destruct_and?. subst.
      destruct Ht as [?|[?|?]]; try done.
  Qed.
  Lemma move_left_exists c l x (v : V) r m :
    rem_focus (Node c l x v r) m → isred l = false → r ≠ Leaf → both_blackb r = true → l ≠ Leaf.
  Proof.
    intros [Hb Ht] Hl Hr E ->. unfold both_blackb in E. apply andb_true_iff in E as [E1 E2].
    destruct r as [|[] rl rx rv rr]; simpl in *; try done.
    destruct c; simpl in *.
    - destruct_and?. by subst m.
    - destruct m as [|m]; [by destruct_and?|]. destruct_and?. by subst.
  Qed.

  (** [if (...) *root = move_left( *root)] *)
  Lemma wp_maybe_move_left hdr k c l x (v : V) r (b : bool) Q :
    (b = true → l ≠ Leaf ∧ r ≠ Leaf) →
    rzip hdr k (Node c l x v r) -∗
    (rzip hdr k (if b then tmovel (Node c l x v r) else Node c l x v r) -∗ Q tt) -∗
    wp (if b then let! p' := move_left (Some x) in set_edge (edge_at hdr k) p' else ret tt) Q.
  Proof.
    iIntros (Hb) "H HQ". destruct b; [|wstep; by iApply "HQ"]. destruct (Hb eq_refl).
    iDestruct "H" as "[Hc Ht]". wstep. iApply (wp_move_left with "Ht"); [done..|]. iIntros "Ht".
    iApply (wp_set_edge with "Hc"). iIntros "Hc". iApply "HQ". iFrame.
  Qed.
  Lemma wp_maybe_move_right hdr k c l x (v : V) r (b : bool) Q :
    (b = true → l ≠ Leaf ∧ r ≠ Leaf) →
    rzip hdr k (Node c l x v r) -∗
    (rzip hdr k (if b then tmover (Node c l x v r) else Node c l x v r) -∗ Q tt) -∗
    wp (if b then let! p' := move_right (Some x) in set_edge (edge_at hdr k) p' else ret tt) Q.
  Proof.
    iIntros (Hb) "H HQ". destruct b; [|wstep; by iApply "HQ"]. destruct (Hb eq_refl).
    iDestruct "H" as "[Hc Ht]". wstep. iApply (wp_move_right with "Ht"); [done..|]. iIntros "Ht".
    iApply (wp_set_edge with "Hc"). iIntros "Hc". iApply "HQ". iFrame.
  Qed.
  (** Reading the focus through its edge. *)
  Lemma wp_focus hdr k t Q :
    rzip hdr k t -∗ (rzip hdr k t -∗ Q (rootp t)) -∗ wp (get_edge (edge_at hdr k)) Q.
  Proof.
    iIntros "[Hc Ht] HQ". iApply (wp_get_edge with "Hc"). iIntros "Hc". iApply "HQ". iFrame.
  Qed.
  Lemma wp_focus_left hdr k c l x (v : V) r Q :
    rzip hdr k (Node c l x v r) -∗ (rzip hdr k (Node c l x v r) -∗ Q (rootp l)) -∗
    wp (getf left (Some x)) Q.
  Proof.
    iIntros "H HQ". iDestruct (rzip_node with "H") as "[Hx H]".
    iApply (wp_getf with "Hx"). iIntros "Hx". iApply "HQ". by iApply "H".
  Qed.
  Lemma wp_focus_right hdr k c l x (v : V) r Q :
    rzip hdr k (Node c l x v r) -∗ (rzip hdr k (Node c l x v r) -∗ Q (rootp r)) -∗
    wp (getf right (Some x)) Q.
  Proof.
    iIntros "H HQ". iDestruct (rzip_node with "H") as "[Hx H]".
    iApply (wp_getf with "Hx"). iIntros "Hx". iApply "HQ". by iApply "H".
  Qed.
  Lemma wp_focus_parent hdr k c l x (v : V) r Q :
    rzip hdr k (Node c l x v r) -∗ (rzip hdr k (Node c l x v r) -∗ Q (Some (parent_of hdr k))) -∗
    wp (getf parent (Some x)) Q.
  Proof.
    iIntros "H HQ". iDestruct (rzip_node with "H") as "[Hx H]".
    iApply (wp_getf with "Hx"). iIntros "Hx". iApply "HQ". by iApply "H".
  Qed.
  Lemma wp_focus_data hdr k c l x (v : V) r Q :
    rzip hdr k (Node c l x v r) -∗ (rzip hdr k (Node c l x v r) -∗ Q v) -∗
    wp (node_data (Some x)) Q.
  Proof.
    iIntros "H HQ". iDestruct (rzip_node with "H") as "[Hx H]".
    iApply (wp_node_data with "Hx"). iIntros "Hx". iApply "HQ". by iApply "H".
  Qed.
  Lemma wp_focus_reads_left {A} hdr k c l x (v : V) r (m : M heap A) (a : A) Q :
    reads (tree_at x l) m a →
    rzip hdr k (Node c l x v r) -∗ (rzip hdr k (Node c l x v r) -∗ Q a) -∗ wp m Q.
  Proof.
    iIntros (Hm) "[Hc Ht] HQ". simpl. iDestruct "Ht" as "(Hx&Hl&Hr)".
    iApply (wp_reads with "Hl"); [done|]. iIntros "Hl". iApply "HQ". unfold rzip. simpl. iFrame.
  Qed.
  Lemma wp_focus_reads_right {A} hdr k c l x (v : V) r (m : M heap A) (a : A) Q :
    reads (tree_at x r) m a →
    rzip hdr k (Node c l x v r) -∗ (rzip hdr k (Node c l x v r) -∗ Q a) -∗ wp m Q.
  Proof.
    iIntros (Hm) "[Hc Ht] HQ". simpl. iDestruct "Ht" as "(Hx&Hl&Hr)".
    iApply (wp_reads with "Hr"); [done|]. iIntros "Hr". iApply "HQ". unfold rzip. simpl. iFrame.
  Qed.
  Lemma rem_focus_leaf c x (v : V) r m :
    rem_focus (Node c Leaf x v r) m → c = true ∧ m = 0 ∧ r = Leaf.
  Proof.
    intros [Hb Ht]. simpl in *. destruct c; [|destruct_or?; done]. destruct_and?. subst.
    split_and!; [done..|]. destruct r as [|[] ? ? ? ?]; simpl in *; try done. by destruct_and?.
  Qed.

  Lemma wp_delete_min hdr c1 l1 x1 (v1 : V) k0 t m fuel Q :
    rem_focus t m → t ≠ Leaf → meas t m < fuel →
    let f0 := FR c1 l1 x1 v1 in
    rzip hdr (f0 :: k0) t -∗
    (∀ mn mv t' cell, ⌜elems t = (mn, mv) :: elems t' ∧ balanced t' m ∧ (isred t' = true → isred t = true) ∧
        data cell = Some mv⌝ →
       rzip hdr (f0 :: k0) t' -∗ mn ↦ cell -∗ Q (Some mn)) -∗
    wp (delete_min fuel hdr (edge_at hdr (f0 :: k0))) Q.
  Proof.
    intros Hr Ht Hf f0. iIntros "H HQ". unfold delete_min. wstep.
    iApply (wp_wand _ (λ z, ∃ k x v, ⌜z = edge_at hdr (k ++ f0 :: k0) ∧ spine k true 0 (isred t) m ∧
       elems t = (x, v) :: rights k ∧ length k < meas t m⌝ ∧
       rzip hdr (k ++ f0 :: k0) (Node true Leaf x v Leaf))%I with "[H]").
    { iApply (wp_loop (λ i z, ∃ k t' m', ⌜meas t' m' ≤ i ∧ z = edge_at hdr (k ++ f0 :: k0) ∧
        rem_focus t' m' ∧ t' ≠ Leaf ∧ spine k (isred t') m' (isred t) m ∧ elems t = elems t' ++ rights k ∧
        length k + meas t' m' ≤ meas t m⌝ ∧ rzip hdr (k ++ f0 :: k0) t')%I with "[H]"); [|exact Hf|].
      2:{ iExists [], t, m. iSplit; [iPureIntro|done]. split_and!; try done. simpl. by rewrite app_nil_r. }
      intros i z. iIntros "H". iDestruct "H" as (k t' m') "[%Hx H]".
      destruct Hx as (Hi&->&Hr'&Ht'&Hsp&HE&Hlen).
      destruct t' as [|c l x v r]; [done|]. clear Ht'.
      wstep. iApply (wp_focus with "H"). iIntros "H". simpl rootp.
      wstep. iApply (wp_focus_left with "H"). iIntros "H".
      destruct l as [|cl ll lx lv lr]; simpl rootp.
      - wstep. destruct (rem_focus_leaf _ _ _ _ _ Hr') as (->&->&->).
        iExists k, x, v. iSplit; [iPureIntro|done]. split_and!; [done|done|done|].
        unfold meas in Hlen at 1. simpl in Hlen. lia.
      - set (l := Node cl ll lx lv lr) in *. wstep.
        iApply (wp_focus_reads_left with "H"); [by apply (reads_both_black x l)|]. iIntros "H".
        wstep. iApply (wp_maybe_move_left with "H").
        { intros Hb. split; [done|]. by eapply move_right_exists. }
        iIntros "H".
        destruct (delmin_step c l x v r m' Hr' ltac:(done)) as (c1'&l2&x2&v2&r2&m2&Heq&Hl2&Hf2&Hok&Hm).
        assert (elems (Node c1' l2 x2 v2 r2) = elems (Node c l x v r)) as HE2.
        { rewrite -Heq. case_match; [apply elems_tmovel|done]. }
        rewrite Heq.
        wstep. iApply (wp_focus with "H"). iIntros "H". simpl rootp. wsteps.
        iExists (pred i). iSplit; [iPureIntro; lia|].
        iExists (FL c1' x2 v2 r2 :: k), l2, m2. rewrite rzip_left. iSplit; [iPureIntro|done].
        split_and!; [lia|done|done|done| | |simpl; lia].
        + simpl. split; [by eauto|]. exists c, m'. done.
        + rewrite HE -HE2. simpl. by rewrite -app_assoc. }
    iIntros (z) "H". iDestruct "H" as (k x v) "[%Hx H]". destruct Hx as (->&Hsp&HE&Hlen).
    wstep. iApply (wp_focus with "H"). iIntros "H". simpl rootp.
    wstep. iApply (wp_focus_parent with "H"). iIntros "H".
    iDestruct "H" as "[Hc Hx]". simpl. iDestruct "Hx" as "(Hx&_&_)".
    wstep. iApply (wp_set_edge with "Hc"). iIntros "Hc".
    iAssert (rzip hdr (k ++ f0 :: k0) Leaf) with "[Hc]" as "H"; [by iFrame|].
    wstep. iApply (wp_wand _ (λ _, rzip hdr (f0 :: k0) (climb k Leaf)) with "[H]").
    { set (E := climb k Leaf).
      iApply (wp_loop (λ i a, ∃ k t c m' cf mf, ⌜length k ≤ i ∧ a = (edge_at hdr (k ++ f0 :: k0), Some (parent_of hdr (k ++ f0 :: k0))) ∧
        climb k t = E ∧ spine k c m' cf mf⌝ ∧ rzip hdr (k ++ f0 :: k0) t)%I with "[H]").
      3:{ iExists k, Leaf, _, _, _, _. iSplit; [iPureIntro|done]. split_and!; [reflexivity|done|done|exact Hsp]. }
      2: lia.
      clearbody E. clear Hsp HE Hlen k Hr Ht Hf m. intros i a. iIntros "H".
      iDestruct "H" as (k t' c m' cf mf) "[%Hx H]". destruct Hx as (Hi&->&<-&Hsp).
      destruct k as [|f k].
      - simpl. destruct (decide _) as [Hx|_]; [done|]. wstep. iFrame.
      - destruct (decide _) as [_|Hx].
        2:{ exfalso. apply Hx. by eapply (spine_edge hdr (f :: k) f0 k0). }
        simpl app. cbn [parent_of]. iApply (wp_fix_step with "H"). iIntros "H". wstep.
        iExists (pred i). simpl in Hi. iSplit; [iPureIntro; lia|].
        destruct Hsp as (_&c'&m2&_&Hsp).
        iExists k, _, _, _, _, _. iSplit; [iPureIntro|iExact "H"]. split_and!; [lia|done|done|exact Hsp]. }
    iIntros (_) "H". wstep.
    destruct (spine_climb _ _ _ _ _ Leaf Hsp) as [Hb Hc]; [done|done|].
    iApply ("HQ" $! x v (climb k Leaf) with "[] H Hx"). iPureIntro.
    split_and!; [|done|done|done]. rewrite elems_climb HE. simpl.
    by rewrite (spine_lefts _ _ _ _ _ Hsp).
  Qed.

  (** ** Replacing a node by its successor *)
  Lemma wp_replace_by_min hdr k c l x (v : V) r m fuel Q :
    rem_focus r m → r ≠ Leaf → meas r m < fuel →
    rzip hdr k (Node c l x v r) -∗
    (∀ mn mv r' cell, ⌜elems r = (mn, mv) :: elems r' ∧ balanced r' m ∧ (isred r' = true → isred r = true) ∧
        data cell = Some v⌝ →
       rzip hdr k (Node c l mn mv r') -∗ x ↦ cell -∗ Q (Some x)) -∗
    wp (rb_replace_by_min fuel hdr (edge_at hdr k)) Q.
  Proof.
    intros Hr Hn Hf. iIntros "H HQ". unfold rb_replace_by_min.
    wstep. iApply (wp_focus with "H"). iIntros "H". simpl rootp. wsteps.
    rewrite rzip_right. iApply (wp_delete_min with "H"); [done..|].
    iIntros (mn mv r' cell) "%Hx H Hmn". destruct Hx as (HE&Hb&Hc&Hd). rewrite -rzip_right.
    wstep. iApply (wp_focus with "H"). iIntros "H". simpl rootp.
    iDestruct "H" as "[Hk Ht]". simpl. iDestruct "Ht" as "(Hx&Hl&Hr)".
    wstep. iApply (wp_getf with "Hx"). iIntros "Hx". cbn [red].
    wstep. iApply (wp_setf with "Hmn"). iIntros "Hmn".
    wstep. iApply (wp_getf with "Hx"). iIntros "Hx". cbn [parent].
    wstep. iApply (wp_setf with "Hmn"). iIntros "Hmn".
    wstep. iApply (wp_getf with "Hx"). iIntros "Hx". cbn [right].
    wstep. iApply (wp_setf with "Hmn"). iIntros "Hmn".
    wstep. iApply (wp_getf with "Hmn"). iIntros "Hmn". cbn [right set_right].
    wstep. iApply (wp_reparent_if with "Hr"). iIntros "Hr".
    wstep. iApply (wp_getf with "Hx"). iIntros "Hx". cbn [left].
    wstep. iApply (wp_setf with "Hmn"). iIntros "Hmn".
    wstep. iApply (wp_getf with "Hmn"). iIntros "Hmn". cbn [left set_left].
    wstep. iApply (wp_reparent_if with "Hl"). iIntros "Hl".
    wstep. iApply (wp_get_edge with "Hk"). iIntros "Hk".
    wstep. iApply (wp_set_edge with "Hk"). iIntros "Hk".
    wstep. iApply ("HQ" $! mn mv r' _ with "[] [Hk Hmn Hl Hr] Hx").
    - done.
    - unfold rzip. simpl. iFrame. unfold set_left, set_right, set_parent, set_red.
      cbn [parent left right red data]. by rewrite Hd.
  Qed.

  Context (keyof : V → K) (lt eqb : K → K → bool) (Hord : key_order lt eqb).
  Notation all_lt := (all_lt keyof lt).
  Notation all_gt := (all_gt keyof lt).

  Definition asc (es : list (loc * V)) : Prop :=
    StronglySorted (λ a b, lt (keyof a.2) (keyof b.2) = true) es.
  Lemma asc_nondesc es : asc es → nondesc keyof lt es.
  Proof.
    unfold asc, nondesc. induction 1 as [|a es _ IH Hf]; constructor; [done|].
    eapply Forall_impl; [exact Hf|]. simpl. intros b. by apply (lt_asym _ _ Hord).
  Qed.
  (** Sorted, and at most one element is equal to [key]. *)
  Definition lone (key : K) (es : list (loc * V)) : Prop :=
    nondesc keyof lt es ∧
    StronglySorted (λ a b, eqb key (keyof a.2) = true → eqb key (keyof b.2) = false) es.
  Lemma asc_lone key es : asc es → lone key es.
  Proof.
    intros Hs. split; [by apply asc_nondesc|].
    induction Hs as [|a es _ IH Hf]; constructor; [done|].
    eapply Forall_impl; [exact Hf|]. simpl. intros b Hab He. destruct (eqb key (keyof b.2)) eqn:Eb; [|done].
    apply (ko_eqb _ _ Hord) in He as [He1 He2]. apply (ko_eqb _ _ Hord) in Eb as [Eb1 Eb2].
    pose proof (ko_ntrans _ _ Hord _ _ _ He2 Eb1). congruence.
  Qed.
  Lemma recolor_isred t : recolor (isred t) t = t.
  Proof. by destruct t. Qed.
  Lemma frame_ok_rename c l x (v : V) x' (v' : V) b m c' m' :
    frame_ok (FR c l x v) b m c' m' → frame_ok (FR c l x' v') b m c' m'.
  Proof.
    intros Hf t Hb Hc. specialize (Hf t Hb Hc). clear Hb Hc.
    by destruct l as [|[] [|[] ? ? ? ?] ? ? ?], t as [|[] [|[] ? ? ? ?] ? ? [|[] ? ? ? ?]].
  Qed.

  Lemma kok_done k t m :
    kok k (isred t) m → balanced t m → ∃ m, balanced (recolor false (climb k t)) m.
  Proof. intros Hk Hb. by eapply kok_climb. Qed.

  (** Leaving the loop without having found the key: the last node visited is
      not fixed up. *)
  Definition fall_ok hdr k (pa : ptr) : Prop :=
    match k with
    | [] => pa = Some hdr
    | f :: k' => pa = Some (parent_of hdr k') ∧
        ∃ c' m', (k' ≠ [] → c' = fcolor f) ∧ balanced (recolor c' (fill f Leaf)) m' ∧ kok k' c' m'
    end.
  Definition focus_ok key k t (mu : nat) : Prop :=
    (∃ c0 m, (k ≠ [] → c0 = isred t) ∧ rem_focus (recolor c0 t) m ∧ kok k (isred (recolor c0 t)) m ∧
       mu = meas (recolor c0 t) m) ∨
    (∃ c l x v r m, t = Node c l x v r ∧ rem_special t m ∧ kok k false m ∧
       lt key (keyof v) = false ∧ mu = meas t m).

  Lemma focus_child key k t m :
    rem_focus t m → kok k (isred t) m → k ≠ [] → focus_ok key k t (meas t m).
  Proof.
    intros Hf Hk _. left. exists (isred t), m. rewrite recolor_isred. done.
  Qed.

  Definition rem_post hdr (key : K) (E : list (loc * V)) (bound : nat) (z : ptr * ptr) : iProp :=
    (∃ k t, ⌜length k ≤ bound ∧ z.1 = Some (parent_of hdr k) ∧ ∃ m, balanced (recolor false (climb k t)) m⌝ ∧
      ((⌜z.2 = None ∧ lefts k ++ elems t ++ rights k = E ∧ ∃ E1 E2, E = E1 ++ E2 ∧ all_lt key E1 ∧ all_gt key E2⌝ ∧
         rzip hdr k t) ∨
       (∃ E1 x v E2 cell, ⌜z.2 = Some x ∧ E = E1 ++ (x, v) :: E2 ∧ eqb key (keyof v) = true ∧
          lefts k ++ elems t ++ rights k = E1 ++ E2 ∧ data cell = Some v⌝ ∧ rzip hdr k t ∗ x ↦ cell)))%I.

  Lemma wp_remove_loop hdr key t0 (mu : nat) fuel Q :
    lone key (elems t0) → focus_ok key [] t0 mu → mu < fuel →
    rzip hdr [] t0 -∗
    (∀ z, rem_post hdr key (elems t0) mu z -∗ Q z) -∗
    wp (loop fuel (λ '(root, pa),
      let! r := get_edge root in
      match r with
      | None => ret (inr (pa, None))
      | Some _ =>
          let! pa := getf parent r in
          let! d := node_data r in
          let isless := lt key (keyof d) in
          if isless then
            let! l := getf left r in
            let! b := some_both_black l in
            (if b : bool then let! r' := move_left r in set_edge root r' else ret tt) ;!
            let! r := get_edge root in
            let! a := addr r in
            ret (inl (ELeft a, pa))
          else
            let! l := getf left r in
            let! lr := is_red l in
            let! isless :=
              (if lr : bool then
                 let! r' := rotate_right r in
                 set_edge root r' ;!
                 let! r := get_edge root in
                 let! d := node_data r in
                 ret (lt key (keyof d))
               else ret isless) in
            let! r := get_edge root in
            let! c :=
              andM (ret (negb isless))
                (andM (let! d := node_data r in ret (eqb key (keyof d)))
                      (let! rr := getf right r in ret (negb (nonnull rr)))) in
            if c : bool then
              let! deleted := get_edge root in
              set_edge root None ;!
              ret (inr (pa, deleted))
            else
              let! rr := getf right r in
              let! b := some_both_black rr in
              (if b : bool then let! r' := move_right r in set_edge root r' else ret tt) ;!
              let! r := get_edge root in
              let! d := node_data r in
              if eqb key (keyof d) then
                let! deleted := rb_replace_by_min fuel hdr root in
                let! pa := get_edge root in
                ret (inr (pa, deleted))
              else
                let! a := addr r in
                ret (inl (ERight a, pa))
      end) (EParent hdr, Some hdr)) Q.
  Proof.
    intros Hs Hfo Hf. iIntros "H HQ". set (E := elems t0) in *.
    iApply (wp_wand with "[H]"); [|iExact "HQ"].
    iApply (wp_loop (λ i z, ∃ k t mu', ⌜mu' ≤ i ∧ length k + mu' ≤ mu ∧ z.1 = edge_at hdr k ∧
       (t = Leaf → fall_ok hdr k z.2) ∧ lefts k ++ elems t ++ rights k = E ∧
       all_lt key (lefts k) ∧ all_gt key (rights k) ∧ focus_ok key k t mu'⌝ ∧ rzip hdr k t)%I with "[H]").
    2:exact Hf.
    2:{ iExists [], t0, mu. iSplit; [iPureIntro|done]. split_and!; try done; try constructor.
        simpl. by rewrite app_nil_r. }
    clearbody E. clear Hfo t0.
    intros i [root par]. iIntros "H". iDestruct "H" as (k t mu') "[%Hx H]".
    destruct Hx as (Hi&Hlen&Hroot&Hfall&HE&HL&HR&Hfo). simpl in Hroot, Hfall. subst root.
    wstep. iApply (wp_focus with "H"). iIntros "H".
    destruct t as [|ca l x v r]; simpl rootp.
    { (* fell off *)
      wstep. specialize (Hfall eq_refl). unfold rem_post. simpl. destruct k as [|f k].
      - simpl in Hfall. subst par. iExists [], Leaf. iSplit; [iPureIntro|].
        { split_and!; [simpl; lia|done|by exists 0]. }
        iLeft. iSplit; [iPureIntro|done]. split_and!; [done|done|]. exists [], []. simpl in HE. subst E. done.
      - destruct Hfall as (->&c'&m'&Hc'&Hb&Hk). rewrite -rzip_fill. iExists k, (fill f Leaf).
        iSplit; [iPureIntro|].
        { split_and!; [simpl in Hlen; lia|done|]. destruct k as [|f' k].
          - simpl. replace (recolor false (fill f Leaf)) with (recolor false (recolor c' (fill f Leaf))) by (by destruct f).
            by eapply balanced_blacken.
          - eapply kok_climb; [exact Hk| |].
            + rewrite (Hc' ltac:(done)) in Hb. by destruct f.
            + rewrite (Hc' ltac:(done)). by destruct f. }
        iLeft. iSplit; [iPureIntro|done]. split_and!; [done| |].
        + rewrite elems_fill -HE. simpl. by rewrite -!app_assoc.
        + exists (lefts (f :: k)), (rights (f :: k)). done. }
    clear Hfall.
    wstep. iApply (wp_focus_parent with "H"). iIntros "H".
    wstep. iApply (wp_focus_data with "H"). iIntros "H".
    pose proof Hs as Hs'. rewrite -HE in Hs'. simpl in Hs'.
    destruct (nondesc_node _ _ _ Hord key _ _ _ _ _ _ (proj1 Hs')) as [Hs1 Hs2].
    destruct (lt key (keyof v)) eqn:Elt.
    { (* go left *)
      destruct Hfo as [(c0&m&Hc0&Hfo&Hk&->)|(?&?&?&?&?&?&?&_&_&Hx&_)]; [|naive_solver congruence].
      wstep. iApply (wp_focus_left with "H"). iIntros "H".
      wstep. iApply (wp_focus_reads_left with "H"); [apply reads_some_both_black|]. iIntros "H".
      wstep. iApply (wp_maybe_move_left with "H").
      { intros Hb. destruct l; [done|]. split; [done|]. eapply move_right_exists; [exact Hfo|done|done]. }
      iIntros "H".
      assert (Forall (λ a, lt key (keyof a.2) = true) ((x, v) :: elems r ++ rights k)) as HR'.
      { apply (Forall_app _ ((x, v) :: elems r)). split; [by apply Hs2|done]. }
      destruct (nonleaf l && both_blackb l) eqn:Eb.
      - destruct (rem_left_move c0 ca l x v r m Hfo Eb) as (c1&c2&l2&x2&v2&r2&m2&Ht&Hc12&Hf2&Hl2&Hm2&[es Hes]&Hok).
        pose proof (elems_tmovel (Node ca l x v r)) as HE2. rewrite Ht in HE2. rewrite Ht.
        wstep. iApply (wp_focus with "H"). iIntros "H". simpl rootp. wsteps.
        iExists (pred i). iSplit; [iPureIntro; simpl in *; lia|].
        iExists (FL c1 x2 v2 r2 :: k), l2, (meas l2 m2). rewrite rzip_left. iSplit; [iPureIntro|done].
        split_and!; [simpl in *; lia|simpl in *; lia|done|done| |simpl; by rewrite app_nil_r| |].
        + rewrite -HE. simpl. simpl in HE2. rewrite app_nil_r. rewrite -HE2. by rewrite -!app_assoc.
        + (* rights: x2 and r2 are greater *)
          simpl. rewrite (app_comm_cons (elems r)) Hes -app_assoc in HR'. by apply Forall_app in HR' as [_ HR'].
        + apply focus_child; [done| |done]. exists c2, c0, m. split_and!; [|done|done].
          intros Hk0. simpl. apply Hc12. by rewrite (Hc0 Hk0).
      - destruct (rem_left_stay c0 ca l x v r m Hfo Eb) as (m2&Hf2&Hm2&Hok).
        wstep. iApply (wp_focus with "H"). iIntros "H". simpl rootp. wsteps.
        iExists (pred i). iSplit; [iPureIntro; simpl in *; lia|].
        iExists (FL ca x v r :: k), l, (meas l m2). rewrite rzip_left. iSplit; [iPureIntro|done].
        split_and!; [simpl in *; lia|simpl in *; lia|done| | |simpl; by rewrite app_nil_r|done|].
        + intros ->. simpl. split; [done|]. exists c0, m. split_and!; [done| |done].
          simpl. by destruct Hfo.
        + rewrite -HE. simpl. rewrite app_nil_r. by rewrite -!app_assoc.
        + apply focus_child; [done| |done]. exists c0, c0, m. split_and!; [|done|done].
          intros Hk0. by rewrite (Hc0 Hk0). }
    (* go right *)
    clear Hs2.
    assert (all_lt key (elems l)) as Hlk.
    { destruct Hs' as [Hs1' Hs2'].
      apply sorted_app in Hs1' as (_&Hs1'&_). apply sorted_app in Hs1' as (Hs1'&_&_).
      apply sorted_mid in Hs1' as [Hs1' _].
      apply sorted_app in Hs2' as (_&Hs2'&_). apply sorted_app in Hs2' as (Hs2'&_&_).
      apply sorted_mid in Hs2' as [Hs2' _].
      unfold all_lt. rewrite Forall_forall. intros a Ha.
      rewrite Forall_forall in Hs1'. rewrite Forall_forall in Hs2'.
      specialize (Hs1' a Ha). specialize (Hs2' a Ha). simpl in *.
      destruct (lt (keyof a.2) key) eqn:Ea; [done|]. exfalso.
      assert (lt key (keyof a.2) = false) as Ea' by exact (ko_ntrans _ _ Hord _ _ _ Elt Hs1').
      assert (eqb key (keyof a.2) = true) as Ee by (by apply (ko_eqb _ _ Hord)).
      specialize (Hs2' Ee). apply (three_way _ _ Hord _ _ Elt) in Hs2'.
      pose proof (le_lt_trans _ _ Hord _ _ _ Hs1' Hs2'). congruence. }
    wstep. iApply (wp_focus_left with "H"). iIntros "H".
    wstep. iApply (wp_focus_reads_left with "H"); [apply reads_is_red|]. iIntros "H".
    destruct (isred l) eqn:El.
    { (* the left child is red: rotate *)
      destruct Hfo as [(c0&m&Hc0&Hfo&Hk&->)|(?&?&?&?&?&?&?&Hx&_)].
      2:{ exfalso. simplify_eq. simpl in Hx. case_match; [done|]. naive_solver congruence. }
      destruct (rem_right_rot c0 ca l x v r m Hfo El) as (a&y&w&b&m2&Ht&->&Hf2&Hm2&Hok).
      iDestruct "H" as "[Hc Ht]". wsteps. iApply (wp_rotate_right with "Ht"). iIntros "Ht".
      wstep. iApply (wp_set_edge with "Hc"). iIntros "Hc".
      iAssert (rzip hdr k (Node ca a y w (Node true b x v r))) with "[Hc Ht]" as "H"; [iFrame|].
      wstep. iApply (wp_focus with "H"). iIntros "H". simpl rootp.
      wstep. iApply (wp_focus_data with "H"). iIntros "H". wstep.
      assert (lt (keyof w) key = true) as Hw.
      { apply Forall_app in Hlk as [_ Hlk]. by inversion Hlk. }
      assert (lt key (keyof w) = false) as Hw' by (by apply (lt_asym _ _ Hord)).
      assert (eqb key (keyof w) = false) as Hwe by (by apply (eqb_false_gt _ _ Hord)).
      rewrite Hw'.
      wstep. iApply (wp_focus with "H"). iIntros "H". simpl rootp.
      unfold andM at 1. wsteps. simpl. unfold andM. wsteps.
      iApply (wp_focus_data with "H"). iIntros "H". wsteps. rewrite Hwe. wstep.
      wstep. iApply (wp_focus_right with "H"). iIntros "H".
      wstep. iApply (wp_focus_reads_right with "H"); [apply reads_some_both_black|]. iIntros "H".
      simpl. wsteps.
      iApply (wp_focus with "H"). iIntros "H". simpl rootp.
      wstep. iApply (wp_focus_data with "H"). iIntros "H". rewrite Hwe. wsteps.
      iExists (pred i). iSplit; [iPureIntro; simpl in *; lia|].
      iExists (FR ca a y w :: k), (Node true b x v r), (meas (Node true b x v r) m2).
      rewrite rzip_right. iSplit; [iPureIntro|done].
      split_and!; [simpl in *; lia|simpl in *; lia|done|done| | |done|].
      + rewrite -HE. simpl. by rewrite -!app_assoc.
      + simpl. apply Forall_app. split; [done|]. simpl in Hlk.
        rewrite (app_assoc (elems a) [(y, w)] (elems b)) in Hlk. by apply Forall_app in Hlk as [Hlk _].
      + apply focus_child; [done| |done]. exists c0, c0, m. split_and!; [|done|done].
        intros Hk0. by rewrite (Hc0 Hk0). }
    wsteps. iApply (wp_focus with "H"). iIntros "H". simpl rootp. simpl negb.
    unfold andM at 1. wsteps. simpl. unfold andM. wsteps.
    iApply (wp_focus_data with "H"). iIntros "H". wsteps.
    iApply (wp_wand _ (λ z, ⌜z = eqb key (keyof v) && negb (nonleaf r)⌝ ∧ rzip hdr k (Node ca l x v r))%I with "[H]").
    { destruct (eqb key (keyof v)); simpl; [|wsteps; by iFrame].
      wsteps. iApply (wp_focus_right with "H"). iIntros "H". wstep. iFrame. iSplit; [|done]. iPureIntro.
      by destruct r. }
    iIntros (z) "[-> H]".
    assert (eqb key (keyof v) = true → E = (lefts k ++ elems l) ++ (x, v) :: elems r ++ rights k) as HEx.
    { intros _. rewrite -HE. simpl. by rewrite -!app_assoc. }
    assert (eqb key (keyof v) = false → all_lt key (lefts k ++ elems l ++ [(x, v)])) as Hpush.
    { intros He. apply Forall_app. split; [done|]. apply Hs1. by apply (three_way _ _ Hord). }
    destruct (eqb key (keyof v) && negb (nonleaf r)) eqn:Edel.
    { (* delete here *)
      apply andb_true_iff in Edel as [Ee Er]. destruct r; [|done]. clear Er.
      destruct Hfo as [(c0&m&Hc0&Hfo&Hk&->)|(?&?&?&?&?&?&?&Hx&_)].
      2:{ exfalso. simplify_eq. simpl in Hx. case_match; [done|]. naive_solver congruence. }
      destruct (rem_right_leaf _ _ _ _ _ Hfo El) as (->&->&->). simpl in Hk.
      wstep. iApply (wp_focus with "H"). iIntros "H". simpl rootp.
      iDestruct "H" as "[Hc Ht]". simpl. iDestruct "Ht" as "(Hx&_&_)".
      wstep. iApply (wp_set_edge with "Hc"). iIntros "Hc". wstep.
      iExists k, Leaf. iSplit; [iPureIntro|].
      { split_and!; [lia|done|]. by eapply kok_climb. }
      iRight. iExists (lefts k), x, v, (rights k), (Rb (Some (parent_of hdr k)) None None ca (Some v)). iSplit; [iPureIntro|].
      { split_and!; [done| |done|done|done]. by rewrite (HEx Ee) app_nil_r. }
      unfold rzip. simpl. iFrame. }
    wstep. iApply (wp_focus_right with "H"). iIntros "H".
    wstep. iApply (wp_focus_reads_right with "H"); [apply reads_some_both_black|]. iIntros "H".
    wstep.
    destruct (nonleaf r && both_blackb r) eqn:Eb.
    { (* borrow *)
      destruct Hfo as [(c0&m&Hc0&Hfo&Hk&->)|(?&?&?&?&?&?&?&Hx&_)].
      2:{ exfalso. simplify_eq. simpl in Hx. case_match; [done|]. apply andb_true_iff in Eb as [_ Eb].
          unfold both_blackb in Eb. destruct Hx as (_&Hx&_). by rewrite Hx in Eb. }
      iApply (wp_maybe_move_right _ _ _ _ _ _ _ true with "H").
      { intros _. destruct r; [done|]. split; [|done]. eapply move_left_exists; [exact Hfo|done|done|done]. }
      iIntros "H".
      destruct (rem_right_move c0 ca l x v r m Hfo El Eb) as (c1&c2&l2&x2&v2&r2&m2&Ht&Hc12&_&Hm2&Hok&Hcase).
      pose proof (elems_tmover (Node ca l x v r)) as HE2. rewrite Ht in HE2. rewrite Ht.
      simpl in HE2.
      assert (k ≠ [] → c2 = c1) as Hc2.
      { intros Hk0. apply Hc12. by rewrite (Hc0 Hk0). }
      wstep. iApply (wp_focus with "H"). iIntros "H". simpl rootp.
      wstep. iApply (wp_focus_data with "H"). iIntros "H".
      destruct Hcase as [(->&->&Hel&Hr2&Hf2)|(lr&r2'&Hsp&->&Hel)].
      - assert (elems r2 = elems r) as Her.
        { rewrite Hel in HE2. apply (inj (app (elems l))) in HE2. congruence. }
        assert (r2 ≠ Leaf) by (by apply isred_nonleaf).
        destruct (eqb key (keyof v)) eqn:Ee.
        + (* found: replace by the successor *)
          wstep. iApply (wp_replace_by_min with "H"); [done|done|simpl in *; lia|].
          iIntros (mn mv r' cell) "%Hx H Hx". destruct Hx as (HEr&Hbr&Hcr&Hd).
          wstep. iApply (wp_focus with "H"). iIntros "H". simpl rootp. wstep.
          rewrite rzip_right. iExists (FR c1 l2 mn mv :: k), r'. iSplit; [iPureIntro|].
          { split_and!; [pose proof (rem_focus_red _ _ Hf2 ltac:(done)); simpl in *; lia|done|].
            eapply kok_climb; [|exact Hbr|exact Hcr]. exists c2, c0, m. split_and!; [done| |done].
            simpl in Hok. simpl. by eapply frame_ok_rename. }
          iRight. iExists (lefts k ++ elems l), x, v, (elems r ++ rights k), cell.
          iSplit; [iPureIntro|by iFrame].
          split_and!; [done|by apply HEx|done| |done]. simpl. rewrite Hel -Her HEr. by rewrite -!app_assoc.
        + wsteps. iExists (pred i). iSplit; [iPureIntro; simpl in *; lia|].
          iExists (FR c1 l2 x v :: k), r2, (meas r2 m2). rewrite rzip_right. iSplit; [iPureIntro|done].
          split_and!; [simpl in *; lia|simpl in *; lia|done|done| | |done|].
          * rewrite -HE. simpl. rewrite Hel Her. by rewrite -!app_assoc.
          * simpl. rewrite Hel. by apply Hpush.
          * apply focus_child; [done| |done]. exists c2, c0, m. split_and!; done.
      - assert (lt (keyof v2) key = true) as Hw.
        { rewrite Hel in Hlk. apply Forall_app in Hlk as [_ Hlk]. by inversion Hlk. }
        rewrite (eqb_false_gt _ _ Hord _ _ Hw). wsteps.
        iExists (pred i). iSplit; [iPureIntro; simpl in *; lia|].
        iExists (FR c1 l2 x2 v2 :: k), _, (meas (Node false lr x v r2') m2). rewrite rzip_right.
        iSplit; [iPureIntro|iExact "H"].
        split_and!; [simpl in *; lia|simpl in *; lia|done|done| | |done|].
        + rewrite -HE. simpl. simpl in HE2. rewrite -HE2. by repeat (rewrite -app_assoc; simpl).
        + simpl. apply Forall_app. split; [done|]. rewrite Hel (app_assoc (elems l2) [(x2, v2)]) in Hlk.
          by apply Forall_app in Hlk as [Hlk _].
        + right. exists false, lr, x, v, r2', m2. split_and!; [done|done| |done|done].
          exists c2, c0, m. split_and!; [done| |done]. done. }
    (* stay *)
    wstep. wstep.
    assert (∃ c1 c2 m0 m2, (k ≠ [] → c2 = ca) ∧ kok k c1 m0 ∧ rem_focus r m2 ∧ meas r m2 < mu' ∧
      frame_ok (frecolor c2 (FR ca l x v)) (isred r) m2 c1 m0 ∧
      (r = Leaf → balanced (recolor c2 (Node ca l x v r)) m0 ∧ c1 = c2)) as (c1&c2&m0&m2&Hc2&Hk&Hf2&Hm2&Hok&Hlf).
    { destruct Hfo as [(c0&m&Hc0&Hfo&Hk&->)|(?&?&?&?&?&m&?&Hsp&Hk&_&->)].
      - destruct (rem_right_stay c0 ca l x v r m Hfo El Eb) as (m2&Hf2&Hc&Hm2&Hok).
        exists c0, c0, m, m2. split_and!; [done|done|done|done|done|]. intros _. by destruct Hfo.
      - destruct ca; [by simplify_eq|].
        destruct (rem_special_right false l x v r m Hsp) as (m2&Hf2&_&Hr2&Hm2&Hok).
        exists false, false, m, m2. rewrite Hr2. split_and!; [done|done|done|done|done|].
        intros ->. done. }
    iApply (wp_focus with "H"). iIntros "H". simpl rootp.
    wstep. iApply (wp_focus_data with "H"). iIntros "H".
    destruct (eqb key (keyof v)) eqn:Ee.
    - assert (r ≠ Leaf) as Hrn by (by destruct r).
      wstep. iApply (wp_replace_by_min with "H"); [done|done|simpl in *; lia|].
      iIntros (mn mv r' cell) "%Hx H Hx". destruct Hx as (HEr&Hbr&Hcr&Hd).
      wstep. iApply (wp_focus with "H"). iIntros "H". simpl rootp. wstep.
      rewrite rzip_right. iExists (FR ca l mn mv :: k), r'. iSplit; [iPureIntro|].
      { split_and!; [pose proof (rem_focus_red _ _ Hf2 ltac:(done)); simpl in *; lia|done|].
        eapply kok_climb; [|exact Hbr|exact Hcr]. exists c2, c1, m0. split_and!; [done| |done].
        simpl in Hok. simpl. by eapply frame_ok_rename. }
      iRight. iExists (lefts k ++ elems l), x, v, (elems r ++ rights k), cell.
      iSplit; [iPureIntro|by iFrame].
      split_and!; [done|by apply HEx|done| |done]. simpl. rewrite HEr. by rewrite -!app_assoc.
    - wsteps. iExists (pred i). iSplit; [iPureIntro; simpl in *; lia|].
      iExists (FR ca l x v :: k), r, (meas r m2). rewrite rzip_right. iSplit; [iPureIntro|done].
      split_and!; [simpl in *; lia|simpl in *; lia|done| | | |done|].
      + intros ->. destruct (Hlf eq_refl) as [Hlf1 ->]. simpl. split; [done|]. exists c2, m0. done.
      + rewrite -HE. simpl. by rewrite -!app_assoc.
      + simpl. by apply Hpush.
      + apply focus_child; [done| |done]. exists c2, c1, m0. split_and!; done.
  Qed.

  Lemma wp_remove_finish hdr k t (del : ptr) fuel Q :
    length k < fuel → (∃ m, balanced (recolor false (climb k t)) m) →
    rzip hdr k t -∗
    (∀ t', ⌜elems t' = lefts k ++ elems t ++ rights k ∧ isred t' = false ∧ ∃ m, balanced t' m⌝ →
       rzip hdr [] t' -∗ Q del) -∗
    wp (climb_fixup fuel hdr (Some (parent_of hdr k)) ;!
        let! root := getf parent (Some hdr) in
        (if nonnull root then setf (set_red false) root else ret tt) ;!
        ret del) Q.
  Proof.
    intros Hf Hb. iIntros "H HQ". wstep. iApply (wp_climb_fixup with "H"); [done|]. iIntros "H".
    iDestruct "H" as "[Hc Ht]". simpl.
    wstep. iApply (wp_getf with "Hc"). iIntros "Hc". cbn [parent]. wstep.
    iApply (wp_wand _ (λ _, tree_at hdr (recolor false (climb k t))) with "[Ht]").
    { destruct (climb k t) as [|c l x v r] eqn:E; simpl nonnull; cbn iota; [by wstep|].
      iApply (wp_set_red hdr false (Node c l x v r) with "Ht"); [done|]. iIntros "Ht". done. }
    iIntros (_) "Ht". wstep. iApply ("HQ" $! (recolor false (climb k t))).
    - iPureIntro. rewrite elems_recolor elems_climb. split_and!; [done| |done]. by destruct (climb k t).
    - unfold rzip. rewrite rootp_recolor. simpl. iFrame.
  Qed.

  Lemma wp_remove hdr key t0 m fuel Q :
    lone key (elems t0) → balanced t0 m → isred t0 = false → 2 * m < fuel →
    rzip hdr [] t0 -∗
    ((∀ t E1 E2, ⌜elems t0 = E1 ++ E2 ∧ all_lt key E1 ∧ all_gt key E2 ∧ elems t = elems t0 ∧
        isred t = false ∧ ∃ m, balanced t m⌝ → rzip hdr [] t -∗ Q None) ∧
     (∀ t E1 x v E2 cell, ⌜elems t0 = E1 ++ (x, v) :: E2 ∧ eqb key (keyof v) = true ∧ elems t = E1 ++ E2 ∧
        isred t = false ∧ (∃ m, balanced t m) ∧ data cell = Some v⌝ →
        rzip hdr [] t -∗ x ↦ cell -∗ Q (Some x))) -∗
    wp (rb_remove keyof lt eqb fuel hdr key) Q.
  Proof.
    intros Hs Hb Hr Hf. iIntros "H HQ". unfold rb_remove. wstep.
    destruct (rem_root _ _ Hb Hr) as (c0&m0&Hr0&Hm0).
    iApply (wp_remove_loop _ _ _ (meas (recolor c0 t0) m0) with "H"); [done| |lia|].
    { left. exists c0, m0. done. }
    iIntros ([pa del]) "H". iDestruct "H" as (k t) "[%Hx H]". simpl in Hx.
    destruct Hx as (Hlen&->&Hbal). simpl.
    iDestruct "H" as "[[%Hx H]|H]".
    - destruct Hx as (->&HE&E1&E2&HE12&?&?). iApply (wp_remove_finish with "H"); [lia|done|].
      iIntros (t') "%Hx H". destruct Hx as (HE'&?&?). iDestruct "HQ" as "[HQ _]".
      iApply ("HQ" $! t' E1 E2 with "[] H"). iPureIntro. split_and!; try done. by rewrite HE'.
    - iDestruct "H" as (E1 x v E2 cell) "[%Hx [H Hx]]".
      destruct Hx as (->&HE&?&HE12&?). iApply (wp_remove_finish with "H"); [lia|done|].
      iIntros (t') "%Hx H". destruct Hx as (HE'&?&?). iDestruct "HQ" as "[_ HQ]".
      iApply ("HQ" $! t' E1 x v E2 cell with "[] H Hx"). iPureIntro. split_and!; try done. by rewrite HE'.
  Qed.
End del.
