(** Iteration, copying, destruction and the bridge to the exact heaps of
    RbSpec.v. Proof file. *)
From Verif Require Export RbDel.

Section iter.
  Context {V : Type}.
  Notation C := (rbcell V).
  Notation heap := (gmap loc C).
  Notation iProp := (bi_car (hpropI C)).
  Notation tree := (tree V).
  Notation tframe := (@tframe V).
  Implicit Types (t : tree) (x n par hdr : loc) (c : bool) (k : list tframe) (p q : ptr) (f : tframe).

  (** ** The bridge *)
  Lemma tree_heap_dom par t x : x ∉ (elems t).*1 → tree_heap par t !! x = None.
  Proof.
    revert par. induction t as [|c l IHl n v r IHr]; intros par; simpl.
    - intros _. by rewrite lookup_empty.
    - rewrite fmap_app fmap_cons. intros Hx. apply not_elem_of_app in Hx as [Hl Hr].
      apply not_elem_of_cons in Hr as [Hn Hr]. simpl in Hn.
      rewrite lookup_insert_ne; [|done]. apply lookup_union_None. auto.
  Qed.
  Lemma tree_heap_dom_Some par t x : x ∈ (elems t).*1 → is_Some (tree_heap par t !! x).
  Proof.
    revert par. induction t as [|c l IHl n v r IHr]; intros par; simpl.
    - intros Hx. by apply elem_of_nil in Hx.
    - rewrite fmap_app fmap_cons elem_of_app elem_of_cons. simpl. intros Hx.
      destruct (decide (n = x)) as [->|Hne]; [rewrite lookup_insert; eauto|].
      rewrite lookup_insert_ne; [|done]. apply lookup_union_is_Some. naive_solver.
  Qed.
  Lemma tree_heap_disj a b t1 t2 :
    tree_heap a t1 ##ₘ tree_heap b t2 ↔ (∀ x, x ∈ (elems t1).*1 → x ∈ (elems t2).*1 → False).
  Proof.
    split.
    - intros Hd x H1 H2. apply (tree_heap_dom_Some a) in H1 as [? H1].
      apply (tree_heap_dom_Some b) in H2 as [? H2]. by eapply map_disjoint_spec.
    - intros Hd. apply map_disjoint_spec. intros x y1 y2 H1 H2.
      apply (Hd x).
      + destruct (decide (x ∈ (elems t1).*1)) as [|Hn]; [done|].
        apply (tree_heap_dom a) in Hn. congruence.
      + destruct (decide (x ∈ (elems t2).*1)) as [|Hn]; [done|].
        apply (tree_heap_dom b) in Hn. congruence.
  Qed.
  Lemma tree_at_holds par t σ :
    hholds (tree_at par t) σ ↔ NoDup (elems t).*1 ∧ σ = tree_heap par t.
  Proof.
    revert par σ. induction t as [|c l IHl n v r IHr]; intros par σ; simpl.
    - rewrite hemp_unfold. split; [|naive_solver]. intros ->. split; [constructor|done].
    - rewrite hsep_unfold. split.
      + intros (σ1&σ2&->&Hd&Hn&Hlr). apply hsep_unfold in Hlr as (σl&σr&->&Hd2&Hl&Hr).
        apply IHl in Hl as [Hndl ->]. apply IHr in Hr as [Hndr ->].
        apply hpto_unfold in Hn as ->. apply map_disjoint_singleton_l in Hd.
        apply lookup_union_None in Hd as [Hnl Hnr].
        pose proof (proj1 (tree_heap_disj _ _ _ _) Hd2) as Hlr.
        split; [|by rewrite -insert_union_singleton_l].
        rewrite fmap_app fmap_cons. apply NoDup_app. split_and!; [done| |].
        * intros y Hy1 Hy2. apply elem_of_cons in Hy2 as [->|Hy2]; [|by eapply Hlr].
          simpl in *. apply (tree_heap_dom_Some n) in Hy1 as [? ?]. congruence.
        * constructor; [|done]. intros Hy.
          apply (tree_heap_dom_Some n) in Hy as [? ?]. simpl in *. congruence.
      + intros [Hnd ->]. rewrite fmap_app fmap_cons in Hnd.
        apply NoDup_app in Hnd as (Hl&Hlr&Hr). inversion_clear Hr as [|?? Hn Hr'].
        assert (tree_heap n l ##ₘ tree_heap n r) as Hd.
        { apply tree_heap_disj. intros y H1 H2. apply (Hlr y); [done|]. by right. }
        exists {[n := Rb (Some par) (rootp l) (rootp r) c (Some v)]}, (tree_heap n l ∪ tree_heap n r).
        split_and!; [by rewrite -insert_union_singleton_l| | |].
        * apply map_disjoint_singleton_l. apply lookup_union_None. split; apply tree_heap_dom; [|done].
          intros Hy. apply (Hlr n Hy). by left.
        * by apply hpto_unfold.
        * apply hsep_unfold. exists (tree_heap n l), (tree_heap n r). split_and!; [done|done| |].
          -- by apply IHl.
          -- by apply IHr.
  Qed.
  Lemma rzip_holds hdr t σ :
    hholds (rzip hdr [] t) σ ↔ NoDup (hdr :: (elems t).*1) ∧
      σ = <[hdr := Rb (rootp t) None None true None]> (tree_heap hdr t).
  Proof.
    unfold rzip. simpl. rewrite hsep_unfold. split.
    - intros (σ1&σ2&->&Hd&Hh&Ht). apply tree_at_holds in Ht as [Hnd ->].
      apply hpto_unfold in Hh as ->. apply map_disjoint_singleton_l in Hd.
      split; [|by rewrite -insert_union_singleton_l]. constructor; [|done].
      intros Hx. apply (tree_heap_dom_Some hdr) in Hx as [? ?]. congruence.
    - intros [Hnd ->]. inversion_clear Hnd as [|?? Hx Hnd'].
      eexists {[hdr := _]}, _. split_and!; [by rewrite -insert_union_singleton_l| | |by apply tree_at_holds].
      + apply map_disjoint_singleton_l. by apply tree_heap_dom.
      + by apply hpto_unfold.
  Qed.
  Lemma plain_holds_tree hdr t :
    plain (holds_tree hdr t) ⊣⊢ ⌜isred t = false ∧ ∃ m, balanced t m⌝ ∧ rzip hdr [] t.
  Proof.
    apply bi.equiv_entails; split; apply hentails_intro; intros σ.
    - intros (?&?&?&->)%plain_holds. apply hand_unfold. split; [by apply hpure_unfold|].
      apply rzip_holds. done.
    - intros [[??]%hpure_unfold [??]%rzip_holds]%hand_unfold. apply plain_holds. done.
  Qed.
  (** [rbt hdr xs] is the assertion of [is_rbtree]. *)
  Definition rbt hdr (xs : list (loc * V)) : iProp :=
    (∃ t m, ⌜elems t = xs ∧ isred t = false ∧ balanced t m⌝ ∧ rzip hdr [] t)%I.
  Lemma plain_rbt hdr xs : plain (is_rbtree hdr xs) ⊣⊢ rbt hdr xs.
  Proof.
    unfold is_rbtree, rbt. rewrite plain_exist. iSplit; iIntros "H".
    - iDestruct "H" as (t) "[%Ht H]". rewrite plain_holds_tree. iDestruct "H" as "[%Hx H]".
      destruct Hx as [? [m ?]]. iExists t, m. by iSplit.
    - iDestruct "H" as (t m) "[%Ht H]". destruct Ht as (?&?&?). iExists t. iSplit; [done|].
      change (plain (λ h, holds_tree hdr t h)) with (plain (holds_tree hdr t)).
      rewrite plain_holds_tree. iFrame. iSplit; [|done]. iPureIntro. eauto.
  Qed.

  Context `{Allocator C}.

  (** ** The position of an element *)
  Lemma zip_at t E1 x (v : V) E2 :
    elems t = E1 ++ (x, v) :: E2 → NoDup (elems t).*1 →
    ∃ k c l r, plug k (Node c l x v r) = t ∧ E1 = lefts k ++ elems l ∧ E2 = elems r ++ rights k.
  Proof.
    intros HE Hnd.
    enough (∀ k t0, plug k t = t0 → ∃ k' c l r, plug k' (Node c l x v r) = t0 ∧
      lefts k ++ E1 = lefts k' ++ elems l ∧ E2 ++ rights k = elems r ++ rights k') as Hx.
    { destruct (Hx [] t eq_refl) as (k'&c&l&r&?&H1&H2). simpl in *. rewrite app_nil_r in H2.
      exists k', c, l, r. done. }
    revert E1 E2 HE Hnd. induction t as [|c l IHl y w r IHr]; intros E1 E2 HE Hnd k t0 Hk.
    { by destruct E1. }
    simpl in HE, Hnd. rewrite fmap_app fmap_cons in Hnd. apply NoDup_app in Hnd as (Hndl&_&Hndr).
    inversion_clear Hndr as [|?? _ Hndr'].
    destruct (decide (length E1 < length (elems l))) as [Hlt|Hge].
    - assert (∃ E2', elems l = E1 ++ (x, v) :: E2' ∧ E2 = E2' ++ (y, w) :: elems r) as (E2'&Hl&HE2).
      { exists (drop (S (length E1)) (elems l)).
        pose proof (take_drop (length E1) (elems l)) as Htd.
        pose proof HE as HE'. rewrite -Htd -app_assoc in HE'.
        apply app_inj_1 in HE' as [HE1 HE2]; [|rewrite take_length; lia].
        destruct (drop (length E1) (elems l)) as [|[z zv] rest] eqn:Ed.
        { apply (f_equal length) in Ed. rewrite drop_length /= in Ed. lia. }
        simpl in HE2. injection HE2 as -> -> <-.
        assert (drop (S (length E1)) (elems l) = rest) as ->.
        { rewrite -Nat.add_1_r -drop_drop Ed. done. }
        rewrite -{1}Htd HE1. done. }
      destruct (IHl E1 E2' Hl Hndl (FL c y w r :: k) t0 Hk) as (k'&c'&l'&r'&?&H1&H2).
      exists k', c', l', r'. split_and!; [done| |].
      + simpl in H1. by rewrite app_nil_r in H1.
      + rewrite HE2 -H2. simpl. by rewrite -app_assoc.
    - destruct (decide (length E1 = length (elems l))) as [Heq|Hne].
      + apply app_inj_1 in HE as [HE1 HE2]; [|done]. injection HE2 as <- <- <-. subst E1.
        exists k, c, l, r. done.
      + assert (∃ E1', elems r = E1' ++ (x, v) :: E2 ∧ E1 = elems l ++ (y, w) :: E1') as (E1'&Hr&HE1).
        { exists (drop (S (length (elems l))) E1).
          pose proof (take_drop (length (elems l)) E1) as Htd.
          pose proof HE as HE'. rewrite -{1}Htd -app_assoc in HE'.
          apply app_inj_1 in HE' as [HE1 HE2]; [|rewrite take_length; lia].
          destruct (drop (length (elems l)) E1) as [|[z zv] rest] eqn:Ed.
          { apply (f_equal length) in Ed. rewrite drop_length /= in Ed. lia. }
          simpl in HE2. injection HE2 as <- <- ->.
          assert (drop (S (length (elems l))) E1 = rest) as ->.
          { rewrite -Nat.add_1_r -drop_drop Ed. done. }
          split; [done|]. rewrite -{1}Htd. by rewrite -HE1. }
        destruct (IHr E1' E2 Hr Hndr' (FR c l y w :: k) t0 Hk) as (k'&c'&l'&r'&?&H1&H2).
        exists k', c', l', r'. split_and!; [done| |done].
        rewrite HE1 -H1. simpl. by rewrite -!app_assoc.
  Qed.
  Lemma rzip_nodup hdr t : rzip hdr [] t ⊢ ⌜NoDup (hdr :: (elems t).*1)⌝.
  Proof. apply hentails_intro. intros σ [??]%rzip_holds. by apply hpure_unfold. Qed.
  Lemma plug_height k t : length k + height t ≤ height (plug k t).
  Proof.
    revert t. induction k as [|f k IH]; intros t; simpl; [lia|].
    specialize (IH (fill f t)). destruct f; simpl in *; lia.
  Qed.

  Lemma rzip_same hdr k t k' t' : plug k' t' = plug k t → rzip hdr k t ⊢ rzip hdr k' t'.
  Proof. intros Hp. rewrite -(rzip_plug hdr k) -(rzip_plug hdr k') Hp. done. Qed.

  (** ** min / max *)
  Lemma wp_min_node hdr k t fuel Q :
    t ≠ Leaf → height t ≤ fuel →
    rzip hdr k t -∗ (rzip hdr k t -∗ Q (first_of hdr (elems t))) -∗ wp (min_node fuel (rootp t)) Q.
  Proof.
    intros Ht Hf. iIntros "H HQ".
    iApply (wp_wand _ (λ z, ⌜z = first_of hdr (elems t)⌝ ∧ rzip hdr k t)%I with "[H]");
      [|iIntros (z) "[-> H]"; by iApply "HQ"].
    assert (pred (height t) < fuel) as Hf'.
    { destruct t; [done|]. simpl in *. lia. }
    unfold min_node.
    iApply (wp_loop (λ i p, ∃ k' t', ⌜height t' ≤ S i ∧ t' ≠ Leaf ∧ p = rootp t' ∧
      (∀ es, first_of hdr (elems t' ++ es) = first_of hdr (elems t)) ∧ plug k' t' = plug k t⌝ ∧ rzip hdr k t)%I with "[H]").
    2: exact Hf'.
    2:{ iExists k, t. iSplit; [iPureIntro|done]. split_and!; [lia|done|done| |done]. intros es.
        destruct t; [done|]. unfold first_of. simpl. destruct (elems t1) as [|[]]; done. }
    intros i p. iIntros "H". iDestruct "H" as (k' t') "[%Hx H]".
    destruct Hx as (Hi&Ht'&->&Hfst&Hpl). destruct t' as [|c l x v r]; [done|]. simpl rootp.
    iDestruct (rzip_same _ _ _ _ _ Hpl with "H") as "H".
    wstep. iApply (wp_focus_left with "H"). iIntros "H".
    destruct l as [|cl ll lx lv lr]; simpl rootp; wstep.
    - iSplit; [iPureIntro|]. { rewrite -(Hfst []). done. } by iApply rzip_same.
    - iExists (pred i). iSplit; [iPureIntro; simpl in Hi; lia|].
      iExists (FL c x v r :: k'), (Node cl ll lx lv lr). iSplit; [iPureIntro|by iApply rzip_same]. split_and!; [simpl in *; lia|done|done| |done].
      intros es. rewrite -(Hfst []). unfold first_of. simpl. destruct (elems ll) as [|[]]; done.
  Qed.
  Definition last_of hdr (es : list (loc * V)) : ptr := Some (default hdr (last es.*1)).
  Lemma last_of_app hdr es x (v : V) es' : last_of hdr (es ++ (x, v) :: es') = last_of hdr ((x, v) :: es').
  Proof.
    unfold last_of. rewrite fmap_app last_app. rewrite fmap_cons.
    destruct (last_is_Some ((x, v).1 :: es'.*1)) as [_ Hl]. destruct Hl as [y ->]; done.
  Qed.
  Lemma wp_max_node hdr k t fuel Q :
    t ≠ Leaf → height t ≤ fuel →
    rzip hdr k t -∗ (rzip hdr k t -∗ Q (last_of hdr (elems t))) -∗ wp (max_node fuel (rootp t)) Q.
  Proof.
    intros Ht Hf. iIntros "H HQ".
    iApply (wp_wand _ (λ z, ⌜z = last_of hdr (elems t)⌝ ∧ rzip hdr k t)%I with "[H]");
      [|iIntros (z) "[-> H]"; by iApply "HQ"].
    assert (pred (height t) < fuel) as Hf'.
    { destruct t; [done|]. simpl in *. lia. }
    unfold max_node.
    iApply (wp_loop (λ i p, ∃ k' t', ⌜height t' ≤ S i ∧ t' ≠ Leaf ∧ p = rootp t' ∧
      last_of hdr (elems t') = last_of hdr (elems t) ∧ plug k' t' = plug k t⌝ ∧ rzip hdr k t)%I with "[H]").
    2: exact Hf'.
    2:{ iExists k, t. iSplit; [iPureIntro|done]. split_and!; [lia|done..]. }
    intros i p. iIntros "H". iDestruct "H" as (k' t') "[%Hx H]".
    destruct Hx as (Hi&Ht'&->&Hlst&Hpl). destruct t' as [|c l x v r]; [done|]. simpl rootp.
    iDestruct (rzip_same _ _ _ _ _ Hpl with "H") as "H".
    wstep. iApply (wp_focus_right with "H"). iIntros "H".
    destruct r as [|cr rl rx rv rr]; simpl rootp; wstep.
    - iSplit; [iPureIntro|]. { rewrite -Hlst. simpl. by rewrite last_of_app. }
      by iApply rzip_same.
    - iExists (pred i). iSplit; [iPureIntro; simpl in Hi; lia|].
      iExists (FR c l x v :: k'), (Node cr rl rx rv rr). iSplit; [iPureIntro|by iApply rzip_same]. split_and!; [simpl in *; lia|done|done| |done].
      rewrite -Hlst. simpl. rewrite (last_of_app _ (elems l)) (app_comm_cons (elems rl)) !last_of_app. done.
  Qed.

  (** ** next / prev *)
  (** The climb to the first ancestor reached from the left. *)
  Lemma ctx_sibling hdr f k p x q q' c (v : V) :
    ctx hdr (f :: k) p ∗ x ↦ Rb (Some (parent_of hdr (f :: k))) q q' c (Some v) ⊢
    ⌜match f with FL _ _ _ r => rootp r ≠ Some x | FR _ l _ _ => rootp l ≠ Some x end⌝.
  Proof.
    iIntros "[Hc Hx]". destruct f; simpl; iDestruct "Hc" as "(_&Ht&_)";
      iApply (tree_at_ne with "[$Ht $Hx]").
  Qed.
  Lemma wp_ctx_left hdr k p Q :
    ctx hdr k p -∗
    (ctx hdr k p -∗ Q (match k with [] => None | FL _ _ _ _ :: _ => p | FR _ l _ _ :: _ => rootp l end)) -∗
    wp (getf left (Some (parent_of hdr k))) Q.
  Proof.
    iIntros "H HQ". destruct k as [|[c n v r|c l n v] k]; simpl.
    - iApply (wp_getf with "H"). iIntros "H". by iApply "HQ".
    - iDestruct "H" as "(Hn&H)". iApply (wp_getf with "Hn"). iIntros "Hn". iApply "HQ". iFrame.
    - iDestruct "H" as "(Hn&H)". iApply (wp_getf with "Hn"). iIntros "Hn". iApply "HQ". iFrame.
  Qed.
  Lemma wp_ctx_right hdr k p Q :
    ctx hdr k p -∗
    (ctx hdr k p -∗ Q (match k with [] => None | FL _ _ _ r :: _ => rootp r | FR _ _ _ _ :: _ => p end)) -∗
    wp (getf right (Some (parent_of hdr k))) Q.
  Proof.
    iIntros "H HQ". destruct k as [|[c n v r|c l n v] k]; simpl.
    - iApply (wp_getf with "H"). iIntros "H". by iApply "HQ".
    - iDestruct "H" as "(Hn&H)". iApply (wp_getf with "Hn"). iIntros "Hn". iApply "HQ". iFrame.
    - iDestruct "H" as "(Hn&H)". iApply (wp_getf with "Hn"). iIntros "Hn". iApply "HQ". iFrame.
  Qed.

  Lemma rzip_sibling hdr f k c l x (v : V) r :
    rzip hdr (f :: k) (Node c l x v r) ⊢
    ⌜match f with FL _ _ _ r => rootp r ≠ Some x | FR _ l _ _ => rootp l ≠ Some x end⌝.
  Proof.
    iIntros "[Hc Ht]". cbn [tree_at]. iDestruct "Ht" as "(Hx&_&_)".
    iApply (ctx_sibling with "[$Hc $Hx]").
  Qed.

  Lemma wp_climb_next hdr k c l x (v : V) r fuel Q :
    length k < fuel →
    rzip hdr k (Node c l x v r) -∗
    (rzip hdr k (Node c l x v r) -∗ Q (first_of hdr (rights k))) -∗
    wp (loop fuel (λ n : ptr,
          let! p := getf parent n in
          let! pr := getf right p in
          if decide (n = pr) then ret (inl p) else ret (inr p)) (Some x)) Q.
  Proof.
    intros Hf. iIntros "H HQ". set (t := Node c l x v r).
    iApply (wp_wand _ (λ z, ⌜z = first_of hdr (rights k)⌝ ∧ rzip hdr k t)%I with "[H]");
      [|iIntros (z) "[-> H]"; by iApply "HQ"].
    iApply (wp_loop (λ i p, ∃ k' c l x v r, ⌜length k' ≤ i ∧ p = Some x ∧ rights k' = rights k ∧
       plug k' (Node c l x v r) = plug k t⌝ ∧ rzip hdr k t)%I with "[H]").
    2: exact Hf.
    2:{ iExists k, c, l, x, v, r. iSplit; [iPureIntro|done]. done. }
    clearbody t. clear. intros i p. iIntros "H". iDestruct "H" as (k' c l x v r) "[%Hx H]".
    destruct Hx as (Hi&->&Hri&Hpl). iDestruct (rzip_same _ _ _ _ _ Hpl with "H") as "H".
    wstep. iApply (wp_focus_parent with "H"). iIntros "H".
    destruct k' as [|f k'].
    - wstep. iDestruct "H" as "[Hc Ht]". iApply (wp_ctx_right with "Hc"). iIntros "Hc".
      destruct (decide _) as [|_]; [done|]. wstep. iSplit; [iPureIntro; by rewrite -Hri|].
      iApply (rzip_same _ [] _ _ _ (eq_sym Hpl)). unfold rzip. simpl. iFrame.
    - iDestruct (rzip_sibling with "H") as %Hs.
      wstep. iDestruct "H" as "[Hc Ht]". iApply (wp_ctx_right with "Hc"). iIntros "Hc".
      iAssert (rzip hdr k t) with "[Hc Ht]" as "H".
      { iApply (rzip_same _ _ _ _ _ (eq_sym Hpl)). iFrame. }
      destruct f as [c' y w r'|c' l' y w].
      + destruct (decide _) as [|_]; [done|]. wstep. iSplit; [iPureIntro|done]. by rewrite -Hri.
      + destruct (decide _) as [_|?]; [|done]. wstep. iExists (pred i).
        simpl in Hi. iSplit; [iPureIntro; lia|].
        iExists k', c', l', y, w, _. iSplit; [iPureIntro|iExact "H"].
        split_and!; [lia|done|done|exact Hpl].
  Qed.
  Lemma wp_climb_prev hdr k c l x (v : V) r fuel Q :
    length k < fuel →
    rzip hdr k (Node c l x v r) -∗
    (rzip hdr k (Node c l x v r) -∗ Q (last_of hdr (lefts k))) -∗
    wp (loop fuel (λ n : ptr,
          let! p := getf parent n in
          let! pl := getf left p in
          if decide (n = pl) then ret (inl p) else ret (inr p)) (Some x)) Q.
  Proof.
    intros Hf. iIntros "H HQ". set (t := Node c l x v r).
    iApply (wp_wand _ (λ z, ⌜z = last_of hdr (lefts k)⌝ ∧ rzip hdr k t)%I with "[H]");
      [|iIntros (z) "[-> H]"; by iApply "HQ"].
    iApply (wp_loop (λ i p, ∃ k' c l x v r, ⌜length k' ≤ i ∧ p = Some x ∧ lefts k' = lefts k ∧
       plug k' (Node c l x v r) = plug k t⌝ ∧ rzip hdr k t)%I with "[H]").
    2: exact Hf.
    2:{ iExists k, c, l, x, v, r. iSplit; [iPureIntro|done]. done. }
    clearbody t. clear. intros i p. iIntros "H". iDestruct "H" as (k' c l x v r) "[%Hx H]".
    destruct Hx as (Hi&->&Hri&Hpl). iDestruct (rzip_same _ _ _ _ _ Hpl with "H") as "H".
    wstep. iApply (wp_focus_parent with "H"). iIntros "H".
    destruct k' as [|f k'].
    - wstep. iDestruct "H" as "[Hc Ht]". iApply (wp_ctx_left with "Hc"). iIntros "Hc".
      destruct (decide _) as [|_]; [done|]. wstep. iSplit; [iPureIntro; by rewrite -Hri|].
      iApply (rzip_same _ [] _ _ _ (eq_sym Hpl)). unfold rzip. simpl. iFrame.
    - iDestruct (rzip_sibling with "H") as %Hs.
      wstep. iDestruct "H" as "[Hc Ht]". iApply (wp_ctx_left with "Hc"). iIntros "Hc".
      iAssert (rzip hdr k t) with "[Hc Ht]" as "H".
      { iApply (rzip_same _ _ _ _ _ (eq_sym Hpl)). iFrame. }
      destruct f as [c' y w r'|c' l' y w].
      + destruct (decide _) as [_|?]; [|done]. wstep. iExists (pred i).
        simpl in Hi. iSplit; [iPureIntro; lia|].
        iExists k', c', _, y, w, r'. iSplit; [iPureIntro|iExact "H"].
        split_and!; [lia|done|simpl in Hri; by rewrite app_nil_r in Hri|exact Hpl].
      + destruct (decide _) as [|_]; [done|]. wstep. iSplit; [iPureIntro|done].
        rewrite -Hri. simpl. rewrite (app_assoc (lefts k')) last_of_app. done.
  Qed.

  Lemma wp_next_node hdr t0 E1 x (v : V) E2 fuel Q :
    elems t0 = E1 ++ (x, v) :: E2 → height t0 ≤ fuel →
    rzip hdr [] t0 -∗ (rzip hdr [] t0 -∗ Q (first_of hdr E2)) -∗ wp (next_node fuel (Some x)) Q.
  Proof.
    intros HE Hf. iIntros "H HQ". iDestruct (rzip_nodup with "H") as %Hnd.
    inversion_clear Hnd as [|?? _ Hnd'].
    destruct (zip_at _ _ _ _ _ HE Hnd') as (k&c&l&r&<-&->&->). clear HE Hnd'.
    pose proof (plug_height k (Node c l x v r)) as Hh. simpl in Hh.
    rewrite rzip_plug. unfold next_node.
    wstep. iApply (wp_focus_right with "H"). iIntros "H".
    destruct r as [|cr rl rx rv rr]; simpl rootp.
    - wstep. iApply (wp_focus_parent with "H"). iIntros "H".
      destruct k as [|f k].
      + wstep. iDestruct "H" as "[Hc Ht]". iApply (wp_ctx_left with "Hc"). iIntros "Hc".
        iAssert (rzip hdr [] (Node c l x v Leaf)) with "[Hc Ht]" as "H"; [iFrame|].
        destruct (decide _) as [|_]; [done|].
        iApply (wp_climb_next with "H"); [simpl in *; lia|]. iIntros "H". by iApply "HQ".
      + iDestruct (rzip_sibling with "H") as %Hs.
        wstep. iDestruct "H" as "[Hc Ht]". iApply (wp_ctx_left with "Hc"). iIntros "Hc".
        iAssert (rzip hdr (f :: k) (Node c l x v Leaf)) with "[Hc Ht]" as "H"; [iFrame|].
        destruct f as [c' y w r'|c' l' y w].
        * destruct (decide _) as [_|?]; [|done]. iApply (wp_focus_parent with "H"). iIntros "H".
          by iApply "HQ".
        * destruct (decide _) as [|_]; [done|].
          iApply (wp_climb_next with "H"); [simpl in *; lia|]. iIntros "H". by iApply "HQ".
    - rewrite rzip_right. iApply (wp_min_node with "H"); [done|simpl in *; lia|]. iIntros "H".
      rewrite -rzip_right.
      replace (first_of hdr (elems (Node cr rl rx rv rr) ++ rights k)) with (first_of hdr (elems (Node cr rl rx rv rr))).
      + by iApply "HQ".
      + unfold first_of. simpl. by destruct (elems rl) as [|[]].
  Qed.
  Lemma wp_prev_node hdr t0 E1 x (v : V) E2 fuel Q :
    elems t0 = E1 ++ (x, v) :: E2 → height t0 ≤ fuel →
    rzip hdr [] t0 -∗ (rzip hdr [] t0 -∗ Q (last_of hdr E1)) -∗ wp (prev_node fuel (Some x)) Q.
  Proof.
    intros HE Hf. iIntros "H HQ". iDestruct (rzip_nodup with "H") as %Hnd.
    inversion_clear Hnd as [|?? _ Hnd'].
    destruct (zip_at _ _ _ _ _ HE Hnd') as (k&c&l&r&<-&->&->). clear HE Hnd'.
    pose proof (plug_height k (Node c l x v r)) as Hh. simpl in Hh.
    rewrite rzip_plug. unfold prev_node.
    wstep. iApply (wp_focus_left with "H"). iIntros "H".
    destruct l as [|cr rl rx rv rr]; simpl rootp.
    - simpl elems. rewrite app_nil_r. wstep. iApply (wp_focus_parent with "H"). iIntros "H".
      destruct k as [|f k].
      + wstep. iDestruct "H" as "[Hc Ht]". iApply (wp_ctx_right with "Hc"). iIntros "Hc".
        iAssert (rzip hdr [] (Node c Leaf x v r)) with "[Hc Ht]" as "H"; [iFrame|].
        destruct (decide _) as [|_]; [done|].
        iApply (wp_climb_prev with "H"); [simpl in *; lia|]. iIntros "H". by iApply "HQ".
      + iDestruct (rzip_sibling with "H") as %Hs.
        wstep. iDestruct "H" as "[Hc Ht]". iApply (wp_ctx_right with "Hc"). iIntros "Hc".
        iAssert (rzip hdr (f :: k) (Node c Leaf x v r)) with "[Hc Ht]" as "H"; [iFrame|].
        destruct f as [c' y w r'|c' l' y w].
        * destruct (decide _) as [|_]; [done|].
          iApply (wp_climb_prev with "H"); [simpl in *; lia|]. iIntros "H". by iApply "HQ".
        * destruct (decide _) as [_|?]; [|done]. iApply (wp_focus_parent with "H"). iIntros "H".
          replace (last_of hdr (lefts (FR c' l' y w :: k))) with (Some y); [by iApply "HQ"|].
          simpl. by rewrite (app_assoc (lefts k)) last_of_app.
    - rewrite rzip_left. iApply (wp_max_node with "H"); [done|simpl in *; lia|]. iIntros "H".
      rewrite -rzip_left.
      replace (last_of hdr (lefts k ++ elems (Node cr rl rx rv rr))) with (last_of hdr (elems (Node cr rl rx rv rr))).
      + by iApply "HQ".
      + simpl. by rewrite (app_assoc (lefts k)) !last_of_app.
  Qed.

  (** operator-- of the iterators, from an element and from end(). *)
  Lemma wp_decr_elem hdr t0 E1 x (v : V) E2 fuel Q :
    isred t0 = false → elems t0 = E1 ++ (x, v) :: E2 → height t0 ≤ fuel →
    rzip hdr [] t0 -∗ (rzip hdr [] t0 -∗ Q (last_of hdr E1)) -∗ wp (m_decr fuel (Some x)) Q.
  Proof.
    intros Hr HE Hf. iIntros "H HQ". iDestruct (rzip_nodup with "H") as %Hnd.
    inversion_clear Hnd as [|?? _ Hnd'].
    destruct (zip_at _ _ _ _ _ HE Hnd') as (k&c&l&r&Hpl&_&_). clear Hnd'.
    unfold m_decr. rewrite -Hpl rzip_plug.
    wstep. iApply (wp_focus_parent with "H"). iIntros "H". simpl nonnull. cbn [negb].
    unfold andM. wsteps. iDestruct (rzip_node with "H") as "[Hx H]".
    iApply (wp_getf with "Hx"). iIntros "Hx". cbn [RbModel.red]. iDestruct ("H" with "Hx") as "H".
    iApply (wp_wand _ (λ z, ⌜z = false⌝ ∧ rzip hdr k (Node c l x v r))%I with "[H]").
    - destruct c; [|wstep; by iFrame].
      destruct k as [|f k].
      { simpl in Hpl. subst t0. done. }
      iDestruct (rzip_fill with "H") as "H".
      iAssert (∃ q q' c0 v0, fnode f ↦ Rb (Some (parent_of hdr k)) q q' c0 (Some v0) ∗
        (fnode f ↦ Rb (Some (parent_of hdr k)) q q' c0 (Some v0) -∗ rzip hdr k (fill f (Node true l x v r))))%I
        with "[H]" as (q q' c0 v0) "[Hn H]".
      { destruct f as [c0 n0 v0 r0|c0 l0 n0 v0]; simpl; iDestruct (rzip_node with "H") as "[Hn H]";
          iExists _, _, _, _; (iSplitL "Hn"; [iExact "Hn"|iExact "H"]). }
      wstep. simpl parent_of. iApply (wp_getf with "Hn"). iIntros "Hn". iDestruct ("H" with "Hn") as "H".
      cbn [parent]. iDestruct (rzip_fill with "H") as "H".
      iAssert (⌜parent_of hdr k ≠ x⌝)%I as %Hne.
      { iDestruct "H" as "[Hc Ht]". cbn [tree_at]. iDestruct "Ht" as "(Hx&_)".
        destruct k as [|f' k]; simpl.
        - destruct f; simpl; iDestruct "Hc" as "(_&_&Hc)";
            iDestruct (pto_ne with "[$Hc $Hx]") as %?; done.
        - destruct f; simpl; iDestruct "Hc" as "(_&_&Hc)"; destruct f'; simpl; iDestruct "Hc" as "(Hc&_)";
            iDestruct (pto_ne with "[$Hc $Hx]") as %?; done. }
      wstep. iSplit; [|done]. iPureIntro. apply bool_decide_eq_false. congruence.
    - iIntros (z) "[-> H]". rewrite -rzip_plug Hpl. by iApply (wp_prev_node with "H HQ").
  Qed.
  Lemma wp_decr_end hdr t0 fuel Q :
    height t0 ≤ fuel →
    rzip hdr [] t0 -∗ (rzip hdr [] t0 -∗ Q (last_of hdr (elems t0))) -∗ wp (m_decr fuel (Some hdr)) Q.
  Proof.
    intros Hf. iIntros "H HQ". unfold m_decr. iDestruct "H" as "[Hc Ht]". simpl.
    wstep. iApply (wp_getf with "Hc"). iIntros "Hc". cbn [parent].
    destruct t0 as [|c l x v r].
    - simpl. wstep. iApply "HQ". unfold rzip. simpl. iFrame.
    - cbn [rootp nonnull negb]. unfold andM. wsteps. iApply (wp_getf with "Hc"). iIntros "Hc". cbn [RbModel.red].
      iAssert (rzip hdr [] (Node c l x v r)) with "[Hc Ht]" as "H"; [iFrame|].
      wsteps. iApply (wp_focus_parent with "H"). iIntros "H". wsteps. rewrite bool_decide_eq_true_2; [|done].
      iApply (wp_max_node hdr [] (Node c l x v r) with "H"); [done|done|done].
  Qed.

  (** ** Destruction *)
  Lemma wp_postorder_destroy par t fuel Q :
    height t < fuel → tree_at par t -∗ Q tt -∗ wp (postorder_destroy fuel (rootp t)) Q.
  Proof.
    revert par fuel Q. induction t as [|c l IHl x v r IHr]; intros par fuel Q Hf; iIntros "H HQ".
    - destruct fuel; [simpl in *; lia|]. simpl. wstep. iFrame.
    - destruct fuel as [|fuel]; [simpl in *; lia|]. cbn [rootp postorder_destroy].
      iDestruct "H" as "(Hx&Hl&Hr)". simpl in Hf.
      wstep. iApply (wp_getf with "Hx"). iIntros "Hx". cbn [left]. wstep.
      iApply (wp_wand _ (λ _, emp)%I with "[Hl]").
      { destruct l as [|cl ll lx lv lr]; [simpl; by wstep|].
        simpl nonnull. cbn iota. iApply (IHl with "Hl"); [lia|]. done. }
      iIntros (_) "_". wstep. iApply (wp_getf with "Hx"). iIntros "Hx". cbn [right]. wstep.
      iApply (wp_wand _ (λ _, emp)%I with "[Hr]").
      { destruct r as [|cl ll lx lv lr]; [simpl; by wstep|].
        simpl nonnull. cbn iota. iApply (IHr with "Hr"); [lia|]. done. }
      iIntros (_) "_". unfold delete_rbnode. wsteps. simpl. wstep. done.
  Qed.
  Lemma wp_clear hdr t fuel Q :
    height t < fuel → rzip hdr [] t -∗ (rzip hdr [] Leaf -∗ Q tt) -∗ wp (rb_clear fuel hdr) Q.
  Proof.
    intros Hf. iIntros "[Hc Ht] HQ". simpl. unfold rb_clear.
    wstep. iApply (wp_getf with "Hc"). iIntros "Hc". cbn [parent].
    wstep. iApply (wp_setf with "Hc"). iIntros "Hc". cbn [set_parent left right red data].
    iApply (wp_postorder_destroy with "Ht"); [done|]. iApply "HQ". unfold rzip. simpl. iFrame.
  Qed.
  Lemma wp_destroy hdr t fuel Q :
    height t < fuel → rzip hdr [] t -∗ Q tt -∗ wp (rb_destroy fuel hdr) Q.
  Proof.
    intros Hf. iIntros "H HQ". unfold rb_destroy. wstep. iApply (wp_clear with "H"); [done|].
    iIntros "[Hc _]". simpl. wstep. iFrame.
  Qed.

  (** ** Copying *)
  Fixpoint copy_of t t' : Prop :=
    match t, t' with
    | Leaf, Leaf => True
    | Node c l _ v r, Node c' l' _ v' r' => c' = c ∧ v' = v ∧ copy_of l l' ∧ copy_of r r'
    | _, _ => False
    end.
  Lemma copy_of_vals t t' : copy_of t t' → (elems t').*2 = (elems t).*2.
  Proof.
    revert t'. induction t as [|c l IHl x v r IHr]; intros [|c' l' x' v' r']; simpl; try done.
    intros (->&->&Hl&Hr). rewrite !fmap_app !fmap_cons. by rewrite (IHl _ Hl) (IHr _ Hr).
  Qed.
  Lemma copy_of_isred t t' : copy_of t t' → isred t' = isred t.
  Proof. destruct t, t'; simpl; try done. naive_solver. Qed.
  Lemma copy_of_balanced t t' m : copy_of t t' → balanced t m → balanced t' m.
  Proof.
    revert t' m. induction t as [|c l IHl x v r IHr]; intros [|c' l' x' v' r'] m; simpl; try done.
    intros (->&->&Hl&Hr). rewrite (copy_of_isred _ _ Hl) (copy_of_isred _ _ Hr).
    destruct c; [naive_solver|]. destruct m; naive_solver.
  Qed.
  (** A tree whose root has no parent yet. *)
  Definition orphan_at t : iProp :=
    match t with
    | Leaf => emp
    | Node c l n v r => n ↦ Rb None (rootp l) (rootp r) c (Some v) ∗ tree_at n l ∗ tree_at n r
    end%I.
  Lemma wp_preorder_copy par t fuel Q :
    height t < fuel → tree_at par t -∗
    (∀ t', ⌜copy_of t t'⌝ → tree_at par t -∗ orphan_at t' -∗ Q (rootp t')) -∗
    wp (preorder_copy fuel (rootp t)) Q.
  Proof.
    revert par fuel Q. induction t as [|c l IHl x v r IHr]; intros par fuel Q Hf; iIntros "H HQ".
    - destruct fuel; [simpl in *; lia|]. simpl. wstep. by iApply ("HQ" $! Leaf with "[] H").
    - destruct fuel as [|fuel]; [simpl in *; lia|]. cbn [rootp preorder_copy].
      iDestruct "H" as "(Hx&Hl&Hr)". simpl in Hf.
      wstep. iApply (wp_node_data with "Hx"). iIntros "Hx".
      wstep. unfold new_rbnode. iApply wp_allocate. iIntros (y) "Hy".
      wstep. iApply (wp_getf with "Hx"). iIntros "Hx". cbn [RbModel.red].
      wstep. iApply (wp_setf with "Hy"). iIntros "Hy". unfold set_red. cbn [parent left right data].
      wstep. iApply (wp_getf with "Hx"). iIntros "Hx". cbn [left].
      wstep. iApply (wp_wand _ (λ _, ∃ l', ⌜copy_of l l'⌝ ∧ tree_at x l ∗ tree_at y l' ∗
         y ↦ Rb None (rootp l') None c (Some v))%I with "[Hl Hy]").
      { destruct l as [|cl ll lx lv lr].
        - simpl. iApply (wp_setf with "Hy"). iIntros "Hy". iExists Leaf. by iFrame.
        - simpl nonnull. cbn iota. set (t1 := Node cl ll lx lv lr) in *.
          wstep. iApply (IHl with "Hl"); [lia|]. iIntros (l') "%Hcl Hl Hl'".
          wstep. iApply (wp_setf with "Hy"). iIntros "Hy". unfold set_left. cbn [parent right RbModel.red data].
          wstep. iApply (wp_getf with "Hy"). iIntros "Hy". cbn [left].
          destruct l' as [|c' ll' lx' lv' lr']; [done|]. iDestruct "Hl'" as "(Hlx&H1&H2)". simpl rootp.
          iApply (wp_setf with "Hlx"). iIntros "Hlx".
          iExists (Node c' ll' lx' lv' lr'). iSplit; [done|]. by iFrame. }
      iIntros (_) "H". iDestruct "H" as (l') "[%Hcl (Hl&Hl'&Hy)]".
      wstep. iApply (wp_getf with "Hx"). iIntros "Hx". cbn [right].
      wstep. iApply (wp_wand _ (λ _, ∃ r', ⌜copy_of r r'⌝ ∧ tree_at x r ∗ tree_at y r' ∗
         y ↦ Rb None (rootp l') (rootp r') c (Some v))%I with "[Hr Hy]").
      { destruct r as [|cl ll lx lv lr].
        - simpl. iApply (wp_setf with "Hy"). iIntros "Hy". iExists Leaf. by iFrame.
        - simpl nonnull. cbn iota. set (t1 := Node cl ll lx lv lr) in *.
          wstep. iApply (IHr with "Hr"); [lia|]. iIntros (r') "%Hcr Hr Hr'".
          wstep. iApply (wp_setf with "Hy"). iIntros "Hy". unfold set_right. cbn [parent left RbModel.red data].
          wstep. iApply (wp_getf with "Hy"). iIntros "Hy". cbn [right].
          destruct r' as [|c' ll' lx' lv' lr']; [done|]. iDestruct "Hr'" as "(Hlx&H1&H2)". simpl rootp.
          iApply (wp_setf with "Hlx"). iIntros "Hlx".
          iExists (Node c' ll' lx' lv' lr'). iSplit; [done|]. by iFrame. }
      iIntros (_) "H". iDestruct "H" as (r') "[%Hcr (Hr&Hr'&Hy)]".
      wstep. iApply ("HQ" $! (Node c l' y v r') with "[] [Hx Hl Hr]").
      + done.
      + simpl. iFrame.
      + simpl. iFrame.
  Qed.

  Lemma wp_rb_assign hdr o t t0 fuel Q :
    height t < fuel → height t0 < fuel →
    rzip hdr [] t -∗ rzip o [] t0 -∗
    (∀ t', ⌜copy_of t0 t'⌝ → rzip hdr [] t' -∗ rzip o [] t0 -∗ Q tt) -∗
    wp (rb_assign fuel hdr o) Q.
  Proof.
    intros Hf1 Hf2. iIntros "H Ho HQ". unfold rb_assign.
    iDestruct "H" as "[Hc Ht]". simpl.
    wstep. iApply (wp_getf with "Hc"). iIntros "Hc". cbn [parent].
    wstep. iApply (wp_wand _ (λ _, rzip hdr [] Leaf) with "[Hc Ht]").
    { destruct t as [|c l x v r]; simpl.
      - wstep. unfold rzip. simpl. iFrame.
      - iApply (wp_clear hdr (Node c l x v r) with "[Hc Ht]"); [done|unfold rzip; simpl; iFrame|].
        iIntros "H". done. }
    iIntros (_) "[Hc _]". simpl.
    iDestruct "Ho" as "[Ho Ht0]". simpl.
    wstep. iApply (wp_getf with "Ho"). iIntros "Ho". cbn [parent].
    destruct (nonnull (rootp t0)) eqn:En.
    - wstep. iApply (wp_preorder_copy with "Ht0"); [done|]. iIntros (t') "%Hcp Ht0 Ht'".
      wstep. iApply (wp_setf with "Hc"). iIntros "Hc". unfold set_parent at 1. cbn [left right red data].
      destruct t0 as [|c l x v r]; [done|]. destruct t' as [|c' l' x' v' r']; [done|].
      iDestruct "Ht'" as "(Hx'&H1&H2)". simpl rootp.
      iApply (wp_setf with "Hx'"). iIntros "Hx'".
      iApply ("HQ" $! (Node c' l' x' v' r') with "[] [Hc Hx' H1 H2] [Ho Ht0]"); [done| |].
      + unfold rzip. simpl. iFrame.
      + unfold rzip. simpl. iFrame.
    - wstep. destruct t0; [|done]. iApply ("HQ" $! Leaf with "[] [Hc] [Ho]"); [done| |].
      + unfold rzip. simpl. iFrame.
      + unfold rzip. simpl. iFrame.
  Qed.
  Lemma wp_rb_new Q : (∀ hdr, rzip hdr [] Leaf -∗ Q hdr) -∗ wp (rb_new (V:=V)) Q.
  Proof.
    iIntros "HQ". unfold rb_new. iApply wp_allocate. iIntros (x) "Hx". iApply "HQ".
    unfold rzip. simpl. iFrame.
  Qed.
End iter.
