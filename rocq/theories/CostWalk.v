(** Walking over a whole tree: the paths between neighbours, added up, are at most twice the number of
    elements. Proof file. *)
From Verif Require Import SvmRuns MapHistory MapRuns MapSpec RbIter RbMap RbLogic RbPure Cost CostSpec CostLogic CostNet.
From iris.proofmode Require Import tactics.
Local Open Scope general_if_scope.

Section pure.
  Context {V : Type}.
  Implicit Types (t l r : tree V).
  (** nodes on the left (right) border *)
  Fixpoint lsp t : nat := match t with Leaf => 0 | Node _ l _ _ _ => S (lsp l) end.
  Fixpoint rsp t : nat := match t with Leaf => 0 | Node _ _ _ _ r => S (rsp r) end.
  (** frames entered to the right (left) *)
  Fixpoint ups (k : list (tframe (V:=V))) : nat := match k with FR _ _ _ _ :: k => S (ups k) | _ => 0 end.
  Fixpoint ups' (k : list (tframe (V:=V))) : nat := match k with FL _ _ _ _ :: k => S (ups' k) | _ => 0 end.
  Definition hop r u : nat := match r with Leaf => S u | _ => lsp r end.
  Definition hop' l u : nat := match l with Leaf => S u | _ => rsp l end.
  (** cost of ++ (--) from each element *)
  Fixpoint hops t (u : nat) : list nat :=
    match t with Leaf => [] | Node _ l _ _ r => hops l 0 ++ hop r u :: hops r (S u) end.
  Fixpoint hops' t (u : nat) : list nat :=
    match t with Leaf => [] | Node _ l _ _ r => hops' l (S u) ++ hop' l u :: hops' r 0 end.
  Lemma hops_sum t u : sum_list (hops t u) + lsp t ≤ 2 * length (elems t) + u.
  Proof.
    revert u. induction t as [|c l IHl x v r IHr]; intros u; [simpl; lia|].
    cbn [hops lsp elems]. rewrite sum_list_with_app app_length. cbn [length sum_list sum_list_with].
    specialize (IHl 0). destruct r as [|cr rl rx rv rr]; [cbn in *; unfold id in *; lia|].
    specialize (IHr (S u)). cbn [hop]. unfold id in *. lia.
  Qed.
  Lemma hops_sum' t u : sum_list (hops' t u) + rsp t ≤ 2 * length (elems t) + u.
  Proof.
    revert u. induction t as [|c l IHl x v r IHr]; intros u; [simpl; lia|].
    cbn [hops' rsp elems]. rewrite sum_list_with_app app_length. cbn [length sum_list sum_list_with].
    specialize (IHr 0). destruct l as [|cr rl rx rv rr]; [cbn in *; unfold id in *; lia|].
    specialize (IHl (S u)). cbn [hop']. unfold id in *. lia.
  Qed.
  Lemma hops_length t u : length (hops t u) = length (elems t).
  Proof. revert u. induction t as [|c l IHl x v r IHr]; intros u; [done|]. cbn [hops elems]. rewrite !app_length. cbn [length]. by rewrite IHl IHr. Qed.
  Lemma hops_length' t u : length (hops' t u) = length (elems t).
  Proof. revert u. induction t as [|c l IHl x v r IHr]; intros u; [done|]. cbn [hops' elems]. rewrite !app_length. cbn [length]. by rewrite IHl IHr. Qed.
  Lemma hops_plug k t : ∃ a b, hops (plug k t) 0 = a ++ hops t (ups k) ++ b ∧ length a = length (lefts k).
  Proof.
    revert t. induction k as [|f k IH]; intros t.
    - exists [], []. simpl. by rewrite app_nil_r.
    - cbn [plug]. destruct (IH (fill f t)) as (a&b&->&Ha). destruct f as [c n v r|c l n v]; cbn [fill hops ups lefts flefts].
      + exists a. eexists. rewrite -!app_assoc. split; [done|]. rewrite app_nil_r. done.
      + exists (a ++ hops l 0 ++ [hop t (ups k)]), b. rewrite -!app_assoc. split; [done|].
        rewrite !app_length hops_length Ha. simpl. lia.
  Qed.
  Lemma hops_plug' k t : ∃ a b, hops' (plug k t) 0 = a ++ hops' t (ups' k) ++ b ∧ length a = length (lefts k).
  Proof.
    revert t. induction k as [|f k IH]; intros t.
    - exists [], []. simpl. by rewrite app_nil_r.
    - cbn [plug]. destruct (IH (fill f t)) as (a&b&->&Ha). destruct f as [c n v r|c l n v]; cbn [fill hops' ups' lefts flefts].
      + exists a. eexists. rewrite -!app_assoc. split; [done|]. rewrite app_nil_r. done.
      + exists (a ++ hops' l (S (ups' k)) ++ [hop' l (ups' k)]), b. rewrite -!app_assoc. split; [done|].
        rewrite !app_length hops_length' Ha. simpl. lia.
  Qed.
  Lemma hops_at k c l x v r : hops (plug k (Node c l x v r)) 0 !! length (lefts k ++ elems l) = Some (hop r (ups k)).
  Proof.
    destruct (hops_plug k (Node c l x v r)) as (a&b&->&Ha). cbn [hops].
    rewrite -!app_assoc (app_assoc a) lookup_app_r; rewrite !app_length hops_length Ha; [|lia].
    by rewrite Nat.sub_diag.
  Qed.
  Lemma hops_at' k c l x v r : hops' (plug k (Node c l x v r)) 0 !! length (lefts k ++ elems l) = Some (hop' l (ups' k)).
  Proof.
    destruct (hops_plug' k (Node c l x v r)) as (a&b&->&Ha). cbn [hops'].
    rewrite -!app_assoc (app_assoc a) lookup_app_r; rewrite !app_length hops_length' Ha; [|lia].
    by rewrite Nat.sub_diag.
  Qed.
  Lemma lsp_height t : lsp t ≤ height t.
  Proof. induction t; simpl; lia. Qed.
  Lemma rsp_height t : rsp t ≤ height t.
  Proof. induction t; simpl; lia. Qed.
  Lemma ups_le k : ups k ≤ length k.
  Proof. induction k as [|[] k IH]; simpl; lia. Qed.
  Lemma ups_le' k : ups' k ≤ length k.
  Proof. induction k as [|[] k IH]; simpl; lia. Qed.
End pure.

Section iter.
  Context {V : Type}.
  Notation C := (rbcell V).
  Notation heap := (gmap loc C).
  Notation iProp := (bi_car (hpropI C)).
  Notation tree := (tree V).
  Notation tframe := (@tframe V).
  Implicit Types (t : tree) (x n par hdr : loc) (c : bool) (k : list tframe) (p q : ptr) (f : tframe).

  
  Lemma wp_min_tight hdr k t fuel Q :
    t ≠ Leaf → lsp t ≤ fuel →
    rzip hdr k t -∗ (rzip hdr k t -∗ Q (first_of hdr (elems t))) -∗ wp (min_node fuel (rootp t)) Q.
  Proof.
    intros Ht Hf. iIntros "H HQ".
    iApply (wp_wand _ (λ z, ⌜z = first_of hdr (elems t)⌝ ∧ rzip hdr k t)%I with "[H]");
      [|iIntros (z) "[-> H]"; by iApply "HQ"].
    assert (pred (lsp t) < fuel) as Hf'.
    { destruct t; [done|]. simpl in *. lia. }
    unfold min_node.
    iApply (wp_loop (λ i p, ∃ k' t', ⌜lsp t' ≤ S i ∧ t' ≠ Leaf ∧ p = rootp t' ∧
      (∀ es, first_of hdr (elems t' ++ es) = first_of hdr (elems t)) ∧ plug k' t' = plug k t⌝ ∧ rzip hdr k t)%I with "[H]").
    2: exact Hf'.
    2:{ iExists k, t. iSplit; [iPureIntro|done]. split_and!; [lia|done|done| |done]. intros es.
        destruct t; [done|]. unfold first_of. simpl. destruct (elems t1) as [|[]]; done. }
    intros i p. iIntros "H". iDestruct "H" as (k' t') "[%Hx H]".
    destruct Hx as (Hi&Ht'&->&Hfst&Hpl). destruct t' as [|c l x v r]; [done|]. simpl rootp.
    iDestruct (rzip_same _ _ _ _ _ Hpl with "H") as "H".
    wstep. iApply (wp_focus_left with "H"). iIntros "H".
    destruct l as [|cl ll lx lv lr]; simpl rootp; wstep.
    - iSplit; [iPureIntro|]. { rewrite -(Hfst []). done. } by iApply rzip_same.
    - iExists (pred i). iSplit; [iPureIntro; simpl in Hi; lia|].
      iExists (FL c x v r :: k'), (Node cl ll lx lv lr). iSplit; [iPureIntro|by iApply rzip_same]. split_and!; [simpl in *; lia|done|done| |done].
      intros es. rewrite -(Hfst []). unfold first_of. simpl. destruct (elems ll) as [|[]]; done.
  Qed.

  Lemma wp_max_tight hdr k t fuel Q :
    t ≠ Leaf → rsp t ≤ fuel →
    rzip hdr k t -∗ (rzip hdr k t -∗ Q (last_of hdr (elems t))) -∗ wp (max_node fuel (rootp t)) Q.
  Proof.
    intros Ht Hf. iIntros "H HQ".
    iApply (wp_wand _ (λ z, ⌜z = last_of hdr (elems t)⌝ ∧ rzip hdr k t)%I with "[H]");
      [|iIntros (z) "[-> H]"; by iApply "HQ"].
    assert (pred (rsp t) < fuel) as Hf'.
    { destruct t; [done|]. simpl in *. lia. }
    unfold max_node.
    iApply (wp_loop (λ i p, ∃ k' t', ⌜rsp t' ≤ S i ∧ t' ≠ Leaf ∧ p = rootp t' ∧
      last_of hdr (elems t') = last_of hdr (elems t) ∧ plug k' t' = plug k t⌝ ∧ rzip hdr k t)%I with "[H]").
    2: exact Hf'.
    2:{ iExists k, t. iSplit; [iPureIntro|done]. split_and!; [lia|done..]. }
    intros i p. iIntros "H". iDestruct "H" as (k' t') "[%Hx H]".
    destruct Hx as (Hi&Ht'&->&Hlst&Hpl). destruct t' as [|c l x v r]; [done|]. simpl rootp.
    iDestruct (rzip_same _ _ _ _ _ Hpl with "H") as "H".
    wstep. iApply (wp_focus_right with "H"). iIntros "H".
    destruct r as [|cr rl rx rv rr]; simpl rootp; wstep.
    - iSplit; [iPureIntro|]. { rewrite -Hlst. simpl. by rewrite last_of_app. }
      by iApply rzip_same.
    - iExists (pred i). iSplit; [iPureIntro; simpl in Hi; lia|].
      iExists (FR c l x v :: k'), (Node cr rl rx rv rr). iSplit; [iPureIntro|by iApply rzip_same]. split_and!; [simpl in *; lia|done|done| |done].
      rewrite -Hlst. simpl. rewrite (last_of_app _ (elems l)) (app_comm_cons (elems rl)) !last_of_app. done.
  Qed.

  Lemma wp_climb_tight hdr k c l x (v : V) r fuel Q :
    ups k < fuel →
    rzip hdr k (Node c l x v r) -∗
    (rzip hdr k (Node c l x v r) -∗ Q (first_of hdr (rights k))) -∗
    wp (loop fuel (λ n : ptr,
          let! p := getf parent n in
          let! pr := getf right p in
          if decide (n = pr) then ret (inl p) else ret (inr p)) (Some x)) Q.
  Proof.
    intros Hf. iIntros "H HQ". set (t := Node c l x v r).
    iApply (wp_wand _ (λ z, ⌜z = first_of hdr (rights k)⌝ ∧ rzip hdr k t)%I with "[H]");
      [|iIntros (z) "[-> H]"; by iApply "HQ"].
    iApply (wp_loop (λ i p, ∃ k' c l x v r, ⌜ups k' ≤ i ∧ p = Some x ∧ rights k' = rights k ∧
       plug k' (Node c l x v r) = plug k t⌝ ∧ rzip hdr k t)%I with "[H]").
    2: exact Hf.
    2:{ iExists k, c, l, x, v, r. iSplit; [iPureIntro|done]. done. }
    clearbody t. clear. intros i p. iIntros "H". iDestruct "H" as (k' c l x v r) "[%Hx H]".
    destruct Hx as (Hi&->&Hri&Hpl). iDestruct (rzip_same _ _ _ _ _ Hpl with "H") as "H".
    wstep. iApply (wp_focus_parent with "H"). iIntros "H".
    destruct k' as [|f k'].
    - wstep. iDestruct "H" as "[Hc Ht]". iApply (wp_ctx_right with "Hc"). iIntros "Hc".
      destruct (decide _) as [|_]; [done|]. wstep. iSplit; [iPureIntro; by rewrite -Hri|].
      iApply (rzip_same _ [] _ _ _ (eq_sym Hpl)). unfold rzip. simpl. iFrame.
    - iDestruct (rzip_sibling with "H") as %Hs.
      wstep. iDestruct "H" as "[Hc Ht]". iApply (wp_ctx_right with "Hc"). iIntros "Hc".
      iAssert (rzip hdr k t) with "[Hc Ht]" as "H".
      { iApply (rzip_same _ _ _ _ _ (eq_sym Hpl)). iFrame. }
      destruct f as [c' y w r'|c' l' y w].
      + destruct (decide _) as [|_]; [done|]. wstep. iSplit; [iPureIntro|done]. by rewrite -Hri.
      + destruct (decide _) as [_|?]; [|done]. wstep. iExists (pred i).
        simpl in Hi. iSplit; [iPureIntro; lia|].
        iExists k', c', l', y, w, _. iSplit; [iPureIntro|iExact "H"].
        split_and!; [lia|done|done|exact Hpl].
  Qed.

  Lemma wp_climb_tight' hdr k c l x (v : V) r fuel Q :
    ups' k < fuel →
    rzip hdr k (Node c l x v r) -∗
    (rzip hdr k (Node c l x v r) -∗ Q (last_of hdr (lefts k))) -∗
    wp (loop fuel (λ n : ptr,
          let! p := getf parent n in
          let! pl := getf left p in
          if decide (n = pl) then ret (inl p) else ret (inr p)) (Some x)) Q.
  Proof.
    intros Hf. iIntros "H HQ". set (t := Node c l x v r).
    iApply (wp_wand _ (λ z, ⌜z = last_of hdr (lefts k)⌝ ∧ rzip hdr k t)%I with "[H]");
      [|iIntros (z) "[-> H]"; by iApply "HQ"].
    iApply (wp_loop (λ i p, ∃ k' c l x v r, ⌜ups' k' ≤ i ∧ p = Some x ∧ lefts k' = lefts k ∧
       plug k' (Node c l x v r) = plug k t⌝ ∧ rzip hdr k t)%I with "[H]").
    2: exact Hf.
    2:{ iExists k, c, l, x, v, r. iSplit; [iPureIntro|done]. done. }
    clearbody t. clear. intros i p. iIntros "H". iDestruct "H" as (k' c l x v r) "[%Hx H]".
    destruct Hx as (Hi&->&Hri&Hpl). iDestruct (rzip_same _ _ _ _ _ Hpl with "H") as "H".
    wstep. iApply (wp_focus_parent with "H"). iIntros "H".
    destruct k' as [|f k'].
    - wstep. iDestruct "H" as "[Hc Ht]". iApply (wp_ctx_left with "Hc"). iIntros "Hc".
      destruct (decide _) as [|_]; [done|]. wstep. iSplit; [iPureIntro; by rewrite -Hri|].
      iApply (rzip_same _ [] _ _ _ (eq_sym Hpl)). unfold rzip. simpl. iFrame.
    - iDestruct (rzip_sibling with "H") as %Hs.
      wstep. iDestruct "H" as "[Hc Ht]". iApply (wp_ctx_left with "Hc"). iIntros "Hc".
      iAssert (rzip hdr k t) with "[Hc Ht]" as "H".
      { iApply (rzip_same _ _ _ _ _ (eq_sym Hpl)). iFrame. }
      destruct f as [c' y w r'|c' l' y w].
      + destruct (decide _) as [_|?]; [|done]. wstep. iExists (pred i).
        simpl in Hi. iSplit; [iPureIntro; lia|].
        iExists k', c', _, y, w, r'. iSplit; [iPureIntro|iExact "H"].
        split_and!; [lia|done|simpl in Hri; by rewrite app_nil_r in Hri|exact Hpl].
      + destruct (decide _) as [|_]; [done|]. wstep. iSplit; [iPureIntro|done].
        rewrite -Hri. simpl. rewrite (app_assoc (lefts k')) last_of_app. done.
  Qed.

  Lemma wp_next_tight hdr t0 E1 x (v : V) E2 fuel Q :
    elems t0 = E1 ++ (x, v) :: E2 → (∀ w, hops t0 0 !! length E1 = Some w → w ≤ fuel) →
    rzip hdr [] t0 -∗ (rzip hdr [] t0 -∗ Q (first_of hdr E2)) -∗ wp (next_node fuel (Some x)) Q.
  Proof.
    intros HE Hf. iIntros "H HQ". iDestruct (rzip_nodup with "H") as %Hnd.
    inversion_clear Hnd as [|?? _ Hnd'].
    destruct (zip_at _ _ _ _ _ HE Hnd') as (k&c&l&r&<-&->&->). clear HE Hnd'.
    specialize (Hf _ (hops_at _ _ _ _ _ _)).
    rewrite rzip_plug. unfold next_node.
    wstep. iApply (wp_focus_right with "H"). iIntros "H".
    destruct r as [|cr rl rx rv rr]; simpl rootp.
    - wstep. iApply (wp_focus_parent with "H"). iIntros "H".
      destruct k as [|f k].
      + wstep. iDestruct "H" as "[Hc Ht]". iApply (wp_ctx_left with "Hc"). iIntros "Hc".
        iAssert (rzip hdr [] (Node c l x v Leaf)) with "[Hc Ht]" as "H"; [iFrame|].
        destruct (decide _) as [|_]; [done|].
        iApply (wp_climb_tight with "H"); [simpl in *; lia|]. iIntros "H". by iApply "HQ".
      + iDestruct (rzip_sibling with "H") as %Hs.
        wstep. iDestruct "H" as "[Hc Ht]". iApply (wp_ctx_left with "Hc"). iIntros "Hc".
        iAssert (rzip hdr (f :: k) (Node c l x v Leaf)) with "[Hc Ht]" as "H"; [iFrame|].
        destruct f as [c' y w r'|c' l' y w].
        * destruct (decide _) as [_|?]; [|done]. iApply (wp_focus_parent with "H"). iIntros "H".
          by iApply "HQ".
        * destruct (decide _) as [|_]; [done|].
          iApply (wp_climb_tight with "H"); [simpl in *; lia|]. iIntros "H". by iApply "HQ".
    - rewrite rzip_right. iApply (wp_min_tight with "H"); [done|simpl in *; lia|]. iIntros "H".
      rewrite -rzip_right.
      replace (first_of hdr (elems (Node cr rl rx rv rr) ++ rights k)) with (first_of hdr (elems (Node cr rl rx rv rr))).
      + by iApply "HQ".
      + unfold first_of. simpl. by destruct (elems rl) as [|[]].
  Qed.

  Lemma wp_prev_tight hdr t0 E1 x (v : V) E2 fuel Q :
    elems t0 = E1 ++ (x, v) :: E2 → (∀ w, hops' t0 0 !! length E1 = Some w → w ≤ fuel) →
    rzip hdr [] t0 -∗ (rzip hdr [] t0 -∗ Q (last_of hdr E1)) -∗ wp (prev_node fuel (Some x)) Q.
  Proof.
    intros HE Hf. iIntros "H HQ". iDestruct (rzip_nodup with "H") as %Hnd.
    inversion_clear Hnd as [|?? _ Hnd'].
    destruct (zip_at _ _ _ _ _ HE Hnd') as (k&c&l&r&<-&->&->). clear HE Hnd'.
    specialize (Hf _ (hops_at' _ _ _ _ _ _)).
    rewrite rzip_plug. unfold prev_node.
    wstep. iApply (wp_focus_left with "H"). iIntros "H".
    destruct l as [|cr rl rx rv rr]; simpl rootp.
    - simpl elems. rewrite app_nil_r. wstep. iApply (wp_focus_parent with "H"). iIntros "H".
      destruct k as [|f k].
      + wstep. iDestruct "H" as "[Hc Ht]". iApply (wp_ctx_right with "Hc"). iIntros "Hc".
        iAssert (rzip hdr [] (Node c Leaf x v r)) with "[Hc Ht]" as "H"; [iFrame|].
        destruct (decide _) as [|_]; [done|].
        iApply (wp_climb_tight' with "H"); [simpl in *; lia|]. iIntros "H". by iApply "HQ".
      + iDestruct (rzip_sibling with "H") as %Hs.
        wstep. iDestruct "H" as "[Hc Ht]". iApply (wp_ctx_right with "Hc"). iIntros "Hc".
        iAssert (rzip hdr (f :: k) (Node c Leaf x v r)) with "[Hc Ht]" as "H"; [iFrame|].
        destruct f as [c' y w r'|c' l' y w].
        * destruct (decide _) as [|_]; [done|].
          iApply (wp_climb_tight' with "H"); [simpl in *; lia|]. iIntros "H". by iApply "HQ".
        * destruct (decide _) as [_|?]; [|done]. iApply (wp_focus_parent with "H"). iIntros "H".
          replace (last_of hdr (lefts (FR c' l' y w :: k))) with (Some y); [by iApply "HQ"|].
          simpl. by rewrite (app_assoc (lefts k)) last_of_app.
    - rewrite rzip_left. iApply (wp_max_tight with "H"); [done|simpl in *; lia|]. iIntros "H".
      rewrite -rzip_left.
      replace (last_of hdr (lefts k ++ elems (Node cr rl rx rv rr))) with (last_of hdr (elems (Node cr rl rx rv rr))).
      + by iApply "HQ".
      + simpl. by rewrite (app_assoc (lefts k)) !last_of_app.
  Qed.
  Lemma wp_decr_tight hdr t0 E1 x (v : V) E2 fuel Q :
    isred t0 = false → elems t0 = E1 ++ (x, v) :: E2 → (∀ w, hops' t0 0 !! length E1 = Some w → w ≤ fuel) →
    rzip hdr [] t0 -∗ (rzip hdr [] t0 -∗ Q (last_of hdr E1)) -∗ wp (m_decr fuel (Some x)) Q.
  Proof.
    intros Hr HE Hf. iIntros "H HQ". iDestruct (rzip_nodup with "H") as %Hnd.
    inversion_clear Hnd as [|?? _ Hnd'].
    destruct (zip_at _ _ _ _ _ HE Hnd') as (k&c&l&r&Hpl&_&_). clear Hnd'.
    unfold m_decr. rewrite -Hpl rzip_plug.
    wstep. iApply (wp_focus_parent with "H"). iIntros "H". simpl nonnull. cbn [negb].
    unfold andM. wsteps. iDestruct (rzip_node with "H") as "[Hx H]".
    iApply (wp_getf with "Hx"). iIntros "Hx". cbn [RbModel.red]. iDestruct ("H" with "Hx") as "H".
    iApply (wp_wand _ (λ z, ⌜z = false⌝ ∧ rzip hdr k (Node c l x v r))%I with "[H]").
    - destruct c; [|wstep; by iFrame].
      destruct k as [|f k].
      { simpl in Hpl. subst t0. done. }
      iDestruct (rzip_fill with "H") as "H".
      iAssert (∃ q q' c0 v0, fnode f ↦ Rb (Some (parent_of hdr k)) q q' c0 (Some v0) ∗
        (fnode f ↦ Rb (Some (parent_of hdr k)) q q' c0 (Some v0) -∗ rzip hdr k (fill f (Node true l x v r))))%I
        with "[H]" as (q q' c0 v0) "[Hn H]".
      { destruct f as [c0 n0 v0 r0|c0 l0 n0 v0]; simpl; iDestruct (rzip_node with "H") as "[Hn H]";
          iExists _, _, _, _; (iSplitL "Hn"; [iExact "Hn"|iExact "H"]). }
      wstep. simpl parent_of. iApply (wp_getf with "Hn"). iIntros "Hn". iDestruct ("H" with "Hn") as "H".
      cbn [parent]. iDestruct (rzip_fill with "H") as "H".
      iAssert (⌜parent_of hdr k ≠ x⌝)%I as %Hne.
      { iDestruct "H" as "[Hc Ht]". cbn [tree_at]. iDestruct "Ht" as "(Hx&_)".
        destruct k as [|f' k]; simpl.
        - destruct f; simpl; iDestruct "Hc" as "(_&_&Hc)";
            iDestruct (pto_ne with "[$Hc $Hx]") as %?; done.
        - destruct f; simpl; iDestruct "Hc" as "(_&_&Hc)"; destruct f'; simpl; iDestruct "Hc" as "(Hc&_)";
            iDestruct (pto_ne with "[$Hc $Hx]") as %?; done. }
      wstep. iSplit; [|done]. iPureIntro. apply bool_decide_eq_false. congruence.
    - iIntros (z) "[-> H]". rewrite -rzip_plug Hpl. by iApply (wp_prev_tight with "H HQ").
  Qed.
  Lemma wp_decr_end_tight hdr t0 fuel Q :
    rsp t0 ≤ fuel →
    rzip hdr [] t0 -∗ (rzip hdr [] t0 -∗ Q (last_of hdr (elems t0))) -∗ wp (m_decr fuel (Some hdr)) Q.
  Proof.
    intros Hf. iIntros "H HQ". unfold m_decr. iDestruct "H" as "[Hc Ht]". simpl.
    wstep. iApply (wp_getf with "Hc"). iIntros "Hc". cbn [parent].
    destruct t0 as [|c l x v r].
    - simpl. wstep. iApply "HQ". unfold rzip. simpl. iFrame.
    - cbn [rootp nonnull negb]. unfold andM. wsteps. iApply (wp_getf with "Hc"). iIntros "Hc". cbn [RbModel.red].
      iAssert (rzip hdr [] (Node c l x v r)) with "[Hc Ht]" as "H"; [iFrame|].
      wsteps. iApply (wp_focus_parent with "H"). iIntros "H". wsteps. rewrite bool_decide_eq_true_2; [|done].
      iApply (wp_max_tight hdr [] (Node c l x v r) with "H"); [done|done|done].
  Qed.
End iter.

(** One program for all fuels *)
Section gk.
  Context {C : Type}.
  Notation heap := (gmap loc C).
  Lemma ext_refl {A} (p : prog C A) : ext p p.
  Proof. induction p; simpl; eauto. Qed.
  Definition Gk {A} (f : nat) (n : nat → nat) (m : nat → Allocator C → M heap A) : Type :=
    {qp : prog C A * (nat → prog C A) | performs (m f) qp.1 ∧ ∀ F, F ≤ f →
       performs (m F) (qp.2 F) ∧ bounded 0 (λ _, Some (n F)) (qp.2 F) ∧ ext (qp.2 F) qp.1}.
  Lemma gk_flat {A} f n (m : Allocator C → M heap A) : Tk 0 0 n (λ _, m) → Gk f (λ _, n) (λ _, m).
  Proof. intros [[p q] (H1&_&H3&_)]. exists (p, λ _, p). split; [done|]. intros F _. split_and!; [done|done|apply ext_refl]. Qed.
  Lemma gk_le {A} f n n' (m : nat → Allocator C → M heap A) : (∀ F, n F ≤ n' F) → Gk f n m → Gk f n' m.
  Proof.
    intros Hn [[q p] (H1&H2)]. exists (q, p). split; [done|]. intros F HF. destruct (H2 F HF) as (?&?&?).
    split_and!; [done| |done]. eapply bounded_le; [|done]. simpl. intros k _. specialize (Hn F). lia.
  Qed.
  Lemma gk_bind {A B} f n n' (m : nat → Allocator C → M heap A) (k : nat → Allocator C → A → M heap B) :
    Gk f n m → (∀ a, Gk f n' (λ fu al, k fu al a)) → Gk f (λ F, n F + n' F) (λ fu al, bind (m fu al) (k fu al)).
  Proof.
    intros [[q p] (H1&H2)] Hk. simpl in *.
    exists (pbind q (λ a, (proj1_sig (Hk a)).1), λ F, pbind (p F) (λ a, (proj1_sig (Hk a)).2 F)). simpl. split.
    - apply perf_bind; [done|]. intros a. apply (proj2_sig (Hk a)).
    - intros F HF. destruct (H2 F HF) as (Hp&Hb&He). split_and!.
      + apply perf_bind; [done|]. intros a. by apply (proj2_sig (Hk a)).
      + eapply bounded_bind; [exact Hb|]. intros a. destruct (proj2_sig (Hk a)) as [_ Hc]. destruct (Hc F HF) as (_&Hb'&_).
        eapply bounded_le; [|exact Hb']. simpl. lia.
      + apply ext_bind; [done|]. intros a. by apply (proj2_sig (Hk a)).
  Qed.
  Lemma gk_loop {A B} f c d (b : Allocator C → A → M heap (A + B)) a :
    (∀ a, Tb 0 0 c d (λ _ al, b al a)) → Gk f (λ F, F * oval c + oval d) (λ fu al, loop fu (b al) a).
  Proof.
    intros Hb. set (pb := λ a, (proj1_sig (Hb a)).1).
    set (pl := fix pl f a := match f with 0 => PNoFuel | S f => pbind (pb a) (λ r, match r with inl a' => pl f a' | inr b' => PRet b' end) end).
    assert (∀ f a, performs (λ al, loop f (b al) a) (pl f a)) as Hperf.
    { intros f0. induction f0 as [|f0 IH]; intros a0; [apply perf_nofuel|].
      apply (perf_bind _ _ (λ al, b al a0) (λ al r, match r with inl a' => loop f0 (b al) a' | inr b' => ret b' end)).
      - apply (proj2_sig (Hb a0)).
      - intros [a'|b']; [apply IH|apply perf_ret]. }
    exists (pl f a, λ F, pl F a). split; [apply Hperf|]. intros F HF. split_and!; [apply Hperf|..].
    - clear HF. simpl. generalize a. induction F as [|F IH]; intros a0; [done|]. cbn [pl].
      eapply bounded_bind2; [apply (proj2_sig (Hb a0))|..].
      + intros a' j ->. eapply bounded_le; [|apply IH]. simpl. lia.
      + intros b' j ->. simpl. lia.
    - simpl. revert F HF a. clear - Hb. induction f as [|f IH]; intros F HF a; [by destruct F; [|lia]|].
      destruct F as [|F]; [done|]. cbn [pl]. apply ext_bind; [apply ext_refl|].
      intros [a'|b']; [apply IH; lia|done].
  Qed.
  (** the accesses of the program *)
  Lemma gk_accesses {A} f n (m : nat → Allocator C → M heap A) : Gk f n m →
    {q | performs (m f) q ∧ ∀ al F h r h', F ≤ f → m F al h = Ok (r, h') → accesses al q h ≤ n F}.
  Proof.
    intros [[q p] (H1&H2)]. exists q. split; [done|]. intros al F h r h' HF Hm. destruct (H2 F HF) as (Hp&Hb&He). simpl in *.
    rewrite (performs_interp _ _ Hp) in Hm. rewrite (ext_accesses _ _ _ _ _ _ He Hm).
    pose proof (bounded_accesses al 0 _ _ h _ _ Hb Hm) as Hle. simpl in Hle. lia.
  Qed.
End gk.

Section progs.
  Context {V : Type}.
  Notation C := (rbcell V).
  Lemma gk_max_l {A} f n n' (m : nat → Allocator C → M (gmap loc C) A) : Gk f n m → Gk f (λ F, n F `max` n' F) m.
  Proof. apply gk_le. intros F. lia. Qed.
  Lemma gk_max_r {A} f n n' (m : nat → Allocator C → M (gmap loc C) A) : Gk f n' m → Gk f (λ F, n F `max` n' F) m.
  Proof. apply gk_le. intros F. lia. Qed.
  Lemma gk_min f (p : ptr) : Gk (C:=C) f (λ F, F + 1) (λ fu al, min_node fu p).
  Proof. eapply gk_le; [|eapply (gk_loop f _ _ (λ al, _)); intros a; tb]. intros F. cost_le. Qed.
  Lemma gk_max f (p : ptr) : Gk (C:=C) f (λ F, F + 1) (λ fu al, max_node fu p).
  Proof. eapply gk_le; [|eapply (gk_loop f _ _ (λ al, _)); intros a; tb]. intros F. cost_le. Qed.
  Lemma gk_next f (p : ptr) : Gk (C:=C) f (λ F, 2 * F + 5) (λ fu al, m_incr fu p).
  Proof.
    unfold m_incr, next_node. eapply gk_le; [|eapply (gk_bind f _ _ (λ fu al, getf right p)); [eapply (gk_flat _ _ (λ al, _)); tk|]].
    2:{ intros r. refine (_ : Gk f (λ F, _ `max` _) _). destruct r as [l|].
        - apply gk_max_l, gk_min.
        - apply gk_max_r. eapply (gk_bind f _ _ (λ fu al, getf parent p)); [eapply (gk_flat _ _ (λ al, _)); tk|]. intros p'.
          eapply (gk_bind f _ _ (λ fu al, getf left p')); [eapply (gk_flat _ _ (λ al, _)); tk|]. intros pl.
          refine (_ : Gk f (λ F, _ `max` _) _). destruct (decide (p = pl)).
          + apply gk_max_l. eapply (gk_flat _ _ (λ al, _)); tk.
          + apply gk_max_r. eapply (gk_loop f _ _ (λ al, _)); intros a; tb. }
    intros F. cost_le.
  Qed.
  Lemma gk_prev f (p : ptr) : Gk (C:=C) f (λ F, 2 * F + 5) (λ fu al, prev_node fu p).
  Proof.
    unfold prev_node. eapply gk_le; [|eapply (gk_bind f _ _ (λ fu al, getf left p)); [eapply (gk_flat _ _ (λ al, _)); tk|]].
    2:{ intros r. refine (_ : Gk f (λ F, _ `max` _) _). destruct r as [l|].
        - apply gk_max_l, gk_max.
        - apply gk_max_r. eapply (gk_bind f _ _ (λ fu al, getf parent p)); [eapply (gk_flat _ _ (λ al, _)); tk|]. intros p'.
          eapply (gk_bind f _ _ (λ fu al, getf right p')); [eapply (gk_flat _ _ (λ al, _)); tk|]. intros pl.
          refine (_ : Gk f (λ F, _ `max` _) _). destruct (decide (p = pl)).
          + apply gk_max_l. eapply (gk_flat _ _ (λ al, _)); tk.
          + apply gk_max_r. eapply (gk_loop f _ _ (λ al, _)); intros a; tb. }
    intros F. cost_le.
  Qed.
  Lemma gk_decr f (p : ptr) : Gk (C:=C) f (λ F, 2 * F + 8) (λ fu al, m_decr fu p).
  Proof.
    unfold m_decr. eapply gk_le; [|eapply (gk_bind f _ _ (λ fu al, getf parent p)); [eapply (gk_flat _ _ (λ al, _)); tk|]].
    2:{ intros r. refine (_ : Gk f (λ F, _ `max` _) _). destruct (negb (nonnull r)).
        - apply gk_max_l. eapply (gk_flat _ _ (λ al, _)); tk.
        - apply gk_max_r. eapply (gk_bind f _ _ (λ fu al, andM _ _)); [eapply (gk_flat _ _ (λ al, _)); tk|]. intros hd.
          refine (_ : Gk f (λ F, _ `max` _) _). destruct hd; [apply gk_max_l, gk_max|apply gk_max_r, gk_prev]. }
    intros F. cost_le.
  Qed.
  Lemma gk_begin f this : Gk (C:=C) f (λ F, F + 2) (λ fu al, m_begin fu this).
  Proof.
    unfold m_begin. eapply gk_le; [|eapply (gk_bind f _ _ (λ fu al, getf parent (Some this))); [eapply (gk_flat _ _ (λ al, _)); tk|]].
    2:{ intros r. refine (_ : Gk f (λ F, _ `max` _) _). destruct (nonnull r); [apply gk_max_l, gk_min|].
        apply gk_max_r. eapply (gk_flat _ _ (λ al, _)); tk. }
    intros F. cost_le.
  Qed.
  Lemma gk_data f (p : ptr) : Gk (C:=C) f (λ F, 1) (λ fu al, node_data p).
  Proof. eapply gk_le; [|eapply (gk_flat _ _ (λ al, _)); tk]. intros F. cost_le. Qed.
End progs.

(** What the operations on iterators do, in a memory with the tree, with as little fuel as they need *)
Section facts.
  Context {V : Type}.
  Notation C := (rbcell V).
  Notation heap := (gmap loc C).
  Notation iProp := (bi_car (hpropI C)).
  Context (this : loc) (t : tree V) (M : heap).
  Definition in_mem : Prop := ∃ h hf, M = h ∪ hf ∧ h ##ₘ hf ∧ holds_tree this t h.
  Lemma fact {A} (m : Base.M heap A) a : in_mem → (rzip this [] t ⊢ wp m (λ r, ⌜r = a⌝ ∧ rzip this [] t)) → m M = Ok (a, M).
  Proof.
    intros (h&hf&->&Hd&Ht) [Hw]. destruct Ht as (Hr&Hb&Hn&Hh).
    assert (hholds (rzip this [] t) h) as Hz by by apply rzip_holds.
    destruct (Hw h Hz hf Hd) as (b&h'&Hm&_&Hq).
    apply hand_unfold in Hq as [Hq1 Hq2]. apply hpure_unfold in Hq1 as ->.
    apply rzip_holds in Hq2 as [_ ->]. rewrite -Hh in Hm. done.
  Qed.
  Notation xs := (elems t).
  Lemma incr_fact F i c : in_mem → hops t 0 !! i = Some c → c ≤ F →
    m_incr F (iter_at this xs i) M = Ok (iter_at this xs (S i), M).
  Proof.
    intros Hin Hc HF. assert (i < length xs) as Hi. { rewrite -(hops_length t 0). by eapply lookup_lt_Some. }
    apply fact; [done|]. destruct (iter_split xs i Hi) as (x&v&Hxs).
    assert (iter_at this xs i = Some x) as ->.
    { rewrite iter_first. rewrite {1}Hxs. rewrite drop_app_alt; [done|]. rewrite take_length; lia. }
    iIntros "H". iApply (wp_next_tight with "H"); [done| |].
    - rewrite take_length Nat.min_l; [|lia]. intros w. rewrite Hc. by intros [= <-].
    - iIntros "H". iSplit; [iPureIntro|done]. by rewrite iter_first.
  Qed.
  Lemma decr_fact F i c : in_mem → hops' t 0 !! S i = Some c → c ≤ F →
    m_decr F (iter_at this xs (S i)) M = Ok (iter_at this xs i, M).
  Proof.
    intros Hin Hc HF. assert (S i < length xs) as Hi. { rewrite -(hops_length' t 0). by eapply lookup_lt_Some. }
    assert (isred t = false) as Hred by (destruct Hin as (h&hf&_&_&Ht); apply Ht).
    apply fact; [done|]. destruct (iter_split xs (S i) Hi) as (x&v&Hxs).
    assert (iter_at this xs (S i) = Some x) as ->.
    { rewrite iter_first. rewrite {1}Hxs. rewrite drop_app_alt; [done|]. rewrite take_length; lia. }
    iIntros "H". iApply (wp_decr_tight with "H"); [done|done| |].
    - rewrite take_length Nat.min_l; [|lia]. intros w. rewrite Hc. by intros [= <-].
    - iIntros "H". iSplit; [iPureIntro|done]. rewrite iter_last; [done|lia].
  Qed.
  Lemma decr_end_fact F n : in_mem → length xs = S n → rsp t ≤ F →
    m_decr F (iter_at this xs (S n)) M = Ok (iter_at this xs n, M).
  Proof.
    intros Hin Hn HF. apply fact; [done|]. iIntros "H".
    rewrite (iter_first _ _ (S n)) drop_ge; [|lia].
    iApply (wp_decr_end_tight with "H"); [done|]. iIntros "H". iSplit; [iPureIntro|done].
    rewrite iter_last; [|lia]. rewrite take_ge; [done|lia].
  Qed.
  Lemma begin_fact F : in_mem → lsp t ≤ F → m_begin F this M = Ok (iter_at this xs 0, M).
  Proof.
    intros Hin HF. apply fact; [done|]. iIntros "H".
    unfold m_begin. iDestruct "H" as "[Hc Ht]". simpl.
    wstep. iApply (wp_getf with "Hc"). iIntros "Hc". cbn [parent].
    iAssert (rzip this [] t) with "[Hc Ht]" as "H"; [unfold rzip; simpl; iFrame|].
    rewrite iter_first drop_0. clear Hin.
    destruct t as [|c l x v r].
    - simpl. wstep. iSplit; [done|done].
    - change (nonnull (rootp (Node c l x v r))) with true. cbn iota.
      iApply (wp_min_tight with "H"); [done|lia|]. iIntros "H". by iSplit.
  Qed.
  Lemma data_fact i x v : in_mem → xs !! i = Some (x, v) → node_data (iter_at this xs i) M = Ok (v, M).
  Proof.
    intros Hin Hi. apply fact; [done|]. pose proof (take_drop_middle _ _ _ Hi) as Hxs.
    assert (iter_at this xs i = Some x) as ->. { unfold iter_at. by rewrite list_lookup_fmap Hi. }
    iIntros "H". iDestruct (rzip_nodup with "H") as %Hnd. inversion_clear Hnd as [|?? _ Hnd'].
    destruct (zip_at _ _ _ _ _ (eq_sym Hxs) Hnd') as (k&c&l&r&Hpl&_&_).
    iDestruct (rzip_same _ [] t k (Node c l x v r) with "H") as "H"; [done|].
    iApply (wp_focus_data with "H"). iIntros "H". iSplit; [done|]. by iApply rzip_same.
  Qed.
  Lemma end_fact i : in_mem → i ≤ length xs → iter_at this xs i = Some this ↔ i = length xs.
  Proof.
    intros (h&hf&->&Hd&Ht) Hi. destruct Ht as (_&_&Hn&_). split.
    - intros H. destruct (decide (i = length xs)); [done|]. exfalso. apply (iter_ne_end this xs i Hn); [lia|done].
    - intros ->. rewrite iter_first drop_ge; done.
  Qed.
  Lemma inj_fact i j : in_mem → i ≤ length xs → j ≤ length xs → iter_at this xs i = iter_at this xs j → i = j.
  Proof. intros (h&hf&->&Hd&Ht) Hi Hj. destruct Ht as (_&_&Hn&_). by eapply iter_inj. Qed.
End facts.

Section ok_in.
  Context {C : Type}.
  Notation heap := (gmap loc C).
  (** [p] returns [a], leaves memory as it is and makes at most [n] accesses *)
  Definition ok_in {A} (al : Allocator C) (p : prog C A) (M : heap) (a : A) (n : nat) : Prop :=
    interp al p M = Ok (a, M) ∧ accesses al p M ≤ n.
  Lemma ok_ret {A} al (M : heap) (a : A) n : ok_in al (PRet a) M a n.
  Proof. split; [done|]. simpl. lia. Qed.
  Lemma ok_bind {A B} al (p : prog C A) (q : A → prog C B) M a b n m k :
    ok_in al p M a n → ok_in al (q a) M b m → n + m ≤ k → ok_in al (pbind p q) M b k.
  Proof.
    intros [H1 H2] [H3 H4] Hk. split.
    - rewrite interp_bind. unfold bind. by rewrite H1.
    - rewrite (accesses_bind al _ _ _ _ _ H1). lia.
  Qed.
  Lemma ok_gk {A} f n (m : nat → Allocator C → M heap A) q al F M a :
    (performs (m f) q ∧ ∀ al F h r h', F ≤ f → m F al h = Ok (r, h') → accesses al q h ≤ n F) →
    F ≤ f → m F al M = Ok (a, M) → m f al M = Ok (a, M) → ok_in al q M a (n F).
  Proof. intros [H1 H2] HF HmF Hmf. split; [by rewrite -(performs_interp _ _ H1)|]. by eapply H2. Qed.
  Fixpoint ploop {A B} (f : nat) (pb : A → prog C (A + B)) (a : A) : prog C B :=
    match f with 0 => PNoFuel | S f => pbind (pb a) (λ r, match r with inl a' => ploop f pb a' | inr b' => PRet b' end) end.
  Lemma perf_ploop {A B} f (b : Allocator C → A → M heap (A + B)) pb a :
    (∀ a, performs (λ al, b al a) (pb a)) → performs (λ al, loop f (b al) a) (ploop f pb a).
  Proof.
    intros Hb. revert a. induction f as [|f IH]; intros a; [apply perf_nofuel|].
    apply (perf_bind _ _ (λ al, b al a) (λ al r, match r with inl a' => loop f (b al) a' | inr b' => ret b' end)); [done|].
    intros [a'|b']; [apply IH|apply perf_ret].
  Qed.
  (** a loop whose state is [st i] in pass number i *)
  Lemma ok_ploop {A B} al (M : heap) (pb : A → prog C (A + B)) (st : nat → A) (cost : nat → nat) d res n i f :
    (∀ j, i ≤ j < i + n → ok_in al (pb (st j)) M (inl (st (S j))) (cost j)) →
    ok_in al (pb (st (i + n))) M (inr res) d → n < f →
    ok_in al (ploop f pb (st i)) M res (sum_list (cost <$> seq i n) + d).
  Proof.
    revert i f. induction n as [|n IH]; intros i f Hs He Hf; (destruct f as [|f]; [lia|]); cbn [ploop].
    - rewrite Nat.add_0_r in He. eapply ok_bind; [done|apply (ok_ret _ _ _ 0)|]. simpl. lia.
    - eapply ok_bind; [apply Hs; lia| |reflexivity || shelve].
      + apply (IH (S i) f); [intros j Hj; apply Hs; lia| |lia]. by replace (S i + n) with (i + S n) by lia.
      Unshelve. cbn. unfold id. lia.
  Qed.
  Lemma takes_ok_in {A} n (P : heap → Prop) (m : Allocator C → M heap A) p :
    performs m p → (∀ al h hf, P h → h ##ₘ hf → ∃ a, ok_in al p (h ∪ hf) a n) → takes_at_most n P m.
  Proof.
    intros Hp H. exists p. split; [done|]. intros al h hf Hh Hd. destruct (H al h hf Hh Hd) as (a&H1&H2).
    exists a, (h ∪ hf). split; [by rewrite (performs_interp _ _ Hp)|done].
  Qed.
End ok_in.

Section walks.
  Context {V : Type}.
  Notation C := (rbcell V).
  Notation heap := (gmap loc C).
  Lemma hops_le (t : tree V) u c : c ∈ hops t u → c ≤ u + height t.
  Proof.
    revert u. induction t as [|cl l IHl x v r IHr]; intros u; cbn [hops height].
    - intros H%elem_of_nil. done.
    - intros [H|[->|H]%elem_of_cons]%elem_of_app.
      + apply IHl in H. lia.
      + destruct r as [|cr rl rx rv rr]; [simpl; lia|]. cbn [hop]. pose proof (lsp_height (Node cr rl rx rv rr)). lia.
      + apply IHr in H. lia.
  Qed.
  Lemma hops_le' (t : tree V) u c : c ∈ hops' t u → c ≤ u + height t.
  Proof.
    revert u. induction t as [|cl l IHl x v r IHr]; intros u; cbn [hops' height].
    - intros H%elem_of_nil. done.
    - intros [H|[->|H]%elem_of_cons]%elem_of_app.
      + apply IHl in H. lia.
      + destruct l as [|cr rl rx rv rr]; [simpl; lia|]. cbn [hop']. pose proof (rsp_height (Node cr rl rx rv rr)). lia.
      + apply IHr in H. lia.
  Qed.
  Lemma map_in_mem this (xs : list (loc * V)) h hf : is_rbtree this xs h → h ##ₘ hf →
    ∃ t, in_mem this t (h ∪ hf) ∧ elems t = xs ∧ height t ≤ log_steps (length xs).
  Proof.
    intros (t&Ht&Hh) Hd. exists t. split_and!; [by exists h, hf|done|].
    destruct Hh as (Hr&[n Hb]&_). rewrite -Ht. by eapply height_log.
  Qed.
  Definition pincr f p : prog C ptr := proj1_sig (gk_accesses f _ _ (gk_next f p)).
  Definition pdecr f p : prog C ptr := proj1_sig (gk_accesses f _ _ (gk_decr f p)).
  Definition pbegin f this : prog C ptr := proj1_sig (gk_accesses f _ _ (gk_begin f this)).
  Definition pdata p : prog C V := proj1_sig (gk_accesses 0 _ _ (gk_data 0 p)).
  Section one.
    Context (al : Allocator C) (this : loc) (t : tree V) (M : heap) (f : nat).
    Context (Hin : in_mem this t M) (Hf : height t ≤ f).
    Lemma ok_incr i c : hops t 0 !! i = Some c → ok_in al (pincr f (iter_at this (elems t) i)) M (iter_at this (elems t) (S i)) (2 * c + 5).
    Proof.
      intros Hc. pose proof (hops_le t 0 c (elem_of_list_lookup_2 _ _ _ Hc)).
      refine (ok_gk f _ _ _ al c M _ (proj2_sig (gk_accesses f _ _ (gk_next f _))) _ _ _); [lia|..];
        by apply (incr_fact _ _ _ _ _ c); [..|lia].
    Qed.
    Lemma ok_decr i c : hops' t 0 !! S i = Some c → ok_in al (pdecr f (iter_at this (elems t) (S i))) M (iter_at this (elems t) i) (2 * c + 8).
    Proof.
      intros Hc. pose proof (hops_le' t 0 c (elem_of_list_lookup_2 _ _ _ Hc)).
      refine (ok_gk f _ _ _ al c M _ (proj2_sig (gk_accesses f _ _ (gk_decr f _))) _ _ _); [lia|..];
        by apply (decr_fact _ _ _ _ _ c); [..|lia].
    Qed.
    Lemma ok_decr_end n : length (elems t) = S n → ok_in al (pdecr f (iter_at this (elems t) (S n))) M (iter_at this (elems t) n) (2 * rsp t + 8).
    Proof.
      intros Hc. pose proof (rsp_height t).
      refine (ok_gk f _ _ _ al (rsp t) M _ (proj2_sig (gk_accesses f _ _ (gk_decr f _))) _ _ _); [lia|..];
        by apply decr_end_fact; [..|lia].
    Qed.
    Lemma ok_begin : ok_in al (pbegin f this) M (iter_at this (elems t) 0) (lsp t + 2).
    Proof.
      pose proof (lsp_height t).
      refine (ok_gk f _ _ _ al (lsp t) M _ (proj2_sig (gk_accesses f _ _ (gk_begin f _))) _ _ _); [lia|..];
        by apply begin_fact; [..|lia].
    Qed.
    Lemma ok_data i x v : elems t !! i = Some (x, v) → ok_in al (pdata (iter_at this (elems t) i)) M v 1.
    Proof.
      intros Hi. refine (ok_gk 0 _ _ _ al 0 M _ (proj2_sig (gk_accesses 0 _ _ (gk_data 0 _))) _ _ _); [lia|..];
        by eapply data_fact.
    Qed.
  End one.

  Lemma sum_hops (l : list nat) (g : nat → nat) a b : (∀ i c, l !! i = Some c → g i ≤ a * c + b) →
    sum_list (g <$> seq 0 (length l)) ≤ a * sum_list l + b * length l.
  Proof.
    revert g. induction l as [|c l IH]; intros g Hg; [simpl; lia|]. cbn [length seq]. rewrite fmap_cons.
    cbn [sum_list_with]. rewrite -fmap_S_seq -list_fmap_compose. specialize (IH (g ∘ S)). unfold id in *.
    assert (g 0 ≤ a * c + b) by by apply Hg. feed specialize IH; [intros i c' Hc; apply Hg, Hc|]. lia.
  Qed.

  (** ** for (it = begin(); it != end(); ++it) *)
  Definition pf_body f this (s : ptr * list V) : prog C (ptr * list V + list V) :=
    let '(p, acc) := s in
    if decide (p ≠ m_end this) then pbind (pdata p) (λ v, pbind (pincr f p) (λ p', PRet (inl (p', acc ++ [v]))))
    else PRet (inr acc).
  Definition pforward f this : prog C (list V) := pbind (pbegin f this) (λ b, ploop f (pf_body f this) (b, [])).
  Lemma perf_forward f this : performs (λ al : Allocator C, m_forward f this) (pforward f this).
  Proof.
    apply (perf_bind _ _ (λ al, m_begin f this) (λ al b, loop f _ (b, []))).
    - apply (proj2_sig (gk_accesses f _ _ (gk_begin f this))).
    - intros b. apply (perf_ploop f (λ al, _)). intros [p acc]. unfold pf_body. destruct (decide (p ≠ m_end this)); [|apply perf_ret].
      apply (perf_bind _ _ (λ al, node_data p) (λ al v, let! p' := m_incr f p in ret (inl (p', acc ++ [v])))).
      + apply (proj2_sig (gk_accesses 0 _ _ (gk_data 0 p))).
      + intros v. apply (perf_bind _ _ (λ al, m_incr f p) (λ al p', ret (inl (p', acc ++ [v])))).
        * apply (proj2_sig (gk_accesses f _ _ (gk_next f p))).
        * intros. apply perf_ret.
  Qed.
  Lemma ok_forward al this (t : tree V) M f : in_mem this t M → height t ≤ f → length (elems t) < f →
    ok_in al (pforward f this) M (elems t).*2 (10 * length (elems t) + 2).
  Proof.
    intros Hin Hh Hf. set (xs := elems t).
    set (g := λ i, 2 * default 0 (hops t 0 !! i) + 6).
    set (st := λ i, (iter_at this xs i, take i xs.*2)).
    assert (ok_in al (ploop f (pf_body f this) (st 0)) M xs.*2 (sum_list (g <$> seq 0 (length xs)) + 0)) as Hl.
    { apply ok_ploop; [| |done].
      - intros j [_ Hj]. simpl in Hj. unfold st, pf_body.
        destruct (lookup_lt_is_Some_2 xs j Hj) as [[x v] Hx].
        destruct (lookup_lt_is_Some_2 (hops t 0) j) as [c Hc]; [by rewrite hops_length|].
        rewrite decide_True; last first. { intros H. apply end_fact with (M:=M) in H; [unfold xs in Hj; lia|done|unfold xs in Hj; lia]. }
        eapply ok_bind; [by eapply ok_data| |reflexivity || shelve].
        + eapply ok_bind; [by eapply ok_incr| |reflexivity || shelve].
          rewrite (take_S_r _ _ v); [apply (ok_ret _ _ _ 0)|]. by rewrite list_lookup_fmap Hx.
        Unshelve. unfold g. rewrite Hc. cbn [default]. unfold id. lia.
      - unfold st, pf_body. rewrite Nat.add_0_l. rewrite decide_False; last first.
        { intros H. apply H. by apply (end_fact this t M). }
        rewrite take_ge; [apply ok_ret|]. by rewrite fmap_length. }
    eapply ok_bind; [by apply ok_begin|exact Hl|].
    pose proof (hops_sum t 0). unfold xs. rewrite -{1}(hops_length t 0).
    pose proof (sum_hops (hops t 0) g 2 6) as Hs. feed specialize Hs; [intros i c Hc; unfold g; rewrite Hc; simpl; lia|].
    pose proof (hops_length t 0). lia.
  Qed.

  (** ** for (it = end(), b = begin(); it != b; ) visit( *--it) *)
  Definition pb_body f (b : ptr) (s : ptr * list V) : prog C (ptr * list V + list V) :=
    let '(p, acc) := s in
    if decide (p ≠ b) then pbind (pdecr f p) (λ p', pbind (pdata p') (λ v, PRet (inl (p', acc ++ [v]))))
    else PRet (inr acc).
  Definition pbackward f this : prog C (list V) := pbind (pbegin f this) (λ b, ploop f (pb_body f b) (m_end this, [])).
  Lemma perf_backward f this : performs (λ al : Allocator C, walk_back f this) (pbackward f this).
  Proof.
    apply (perf_bind _ _ (λ al, m_begin f this) (λ al b, loop f _ (m_end this, []))).
    - apply (proj2_sig (gk_accesses f _ _ (gk_begin f this))).
    - intros b. apply (perf_ploop f (λ al, _)). intros [p acc]. unfold pb_body. destruct (decide (p ≠ b)); [|apply perf_ret].
      apply (perf_bind _ _ (λ al, m_decr f p) (λ al p', let! v := node_data p' in ret (inl (p', acc ++ [v])))).
      + apply (proj2_sig (gk_accesses f _ _ (gk_decr f p))).
      + intros p'. apply (perf_bind _ _ (λ al, node_data p') (λ al v, ret (inl (p', acc ++ [v])))).
        * apply (proj2_sig (gk_accesses 0 _ _ (gk_data 0 p'))).
        * intros. apply perf_ret.
  Qed.
  Lemma ok_backward al this (t : tree V) M f : in_mem this t M → height t ≤ f → length (elems t) < f →
    ok_in al (pbackward f this) M (reverse (elems t).*2) (15 * length (elems t) + 2).
  Proof.
    intros Hin Hh Hf. set (xs := elems t).
    set (l := rsp t :: reverse (drop 1 (hops' t 0))).
    set (g := λ i, 2 * default 0 (l !! i) + 9).
    set (st := λ i, (iter_at this xs (length xs - i), take i (reverse xs.*2))).
    pose proof (hops_length' t 0) as Hlen. fold xs in Hlen.
    assert (ok_in al (ploop f (pb_body f (iter_at this xs 0)) (st 0)) M (reverse xs.*2) (sum_list (g <$> seq 0 (length xs)) + 0)) as Hl.
    { apply ok_ploop; [| |done].
      - intros j [_ Hj]. simpl in Hj. unfold st, pb_body.
        rewrite decide_True; last first.
        { intros H. apply inj_fact with (M:=M) in H; [lia|done|unfold xs; lia|lia]. }
        set (i := length xs - S j). assert (length xs - j = S i) as -> by lia.
        destruct (lookup_lt_is_Some_2 xs i) as [[x v] Hx]; [lia|].
        eapply (ok_bind _ _ _ _ (iter_at this xs i) _ (2 * default 0 (l !! j) + 8)).
        { destruct j as [|j].
          - assert (i = pred (length xs)) as -> by lia. simpl. apply ok_decr_end; [done|done|fold xs; lia].
          - unfold l. cbn [lookup list_lookup]. destruct (lookup_lt_is_Some_2 (hops' t 0) (S i)) as [c Hc]; [lia|].
            rewrite reverse_lookup; [|rewrite drop_length; lia]. rewrite drop_length lookup_drop.
            replace (1 + (length (hops' t 0) - 1 - S j)) with (S i) by lia. rewrite Hc. by apply ok_decr. }
        + eapply ok_bind; [by eapply ok_data| |reflexivity || shelve].
          rewrite (take_S_r _ _ v); [apply (ok_ret _ _ _ 0)|].
          rewrite reverse_lookup; [|rewrite fmap_length; lia]. rewrite fmap_length. fold i. by rewrite list_lookup_fmap Hx.
        + unfold g. lia.
      - unfold st, pb_body. rewrite Nat.add_0_l Nat.sub_diag. rewrite decide_False; last first.
        { intros H. by apply H. }
        rewrite take_ge; [apply ok_ret|]. by rewrite reverse_length fmap_length. }
    eapply ok_bind; [by apply ok_begin| |].
    { unfold st in Hl. rewrite Nat.sub_0_r in Hl. replace (iter_at this xs (length xs)) with (m_end this) in Hl; [exact Hl|].
      symmetry. by apply (end_fact this t M). }
    pose proof (hops_sum t 0) as H1. pose proof (hops_sum' t 0) as H2. fold xs in H1, H2.
    assert (sum_list l ≤ sum_list (hops' t 0) + rsp t) as H3.
    { unfold l. cbn [sum_list_with]. rewrite sum_list_with_reverse. destruct (hops' t 0) as [|a b]; cbn; rewrite ?drop_0; unfold id; lia. }
    pose proof (sum_hops l g 2 9) as Hs. feed specialize Hs; [intros i c Hc; unfold g; rewrite Hc; simpl; lia|].
    destruct (decide (length xs = 0)) as [E|E].
    { rewrite E. simpl. assert (lsp t ≤ 0) by lia. lia. }
    assert (length l = length xs) as Hll.
    { unfold l. cbn [length]. rewrite reverse_length drop_length. lia. }
    rewrite Hll in Hs. lia.
  Qed.

  (** ** a == b *)
  Lemma sum_pre (l : list nat) k : k ≤ length l → sum_list ((λ i, default 0 (l !! i)) <$> seq 0 k) ≤ sum_list l.
  Proof.
    revert k. induction l as [|c l IH]; intros k Hk; [destruct k; [done|simpl in Hk; lia]|].
    destruct k as [|k]; [simpl; lia|]. cbn [seq]. rewrite fmap_cons. cbn [sum_list_with].
    rewrite -fmap_S_seq -list_fmap_compose. specialize (IH k ltac:(simpl in Hk; lia)).
    exact (proj1 (Nat.add_le_mono_l _ _ c) IH).
  Qed.
  Lemma sum_lin (L : list nat) (u w : nat → nat) c :
    sum_list ((λ j, 2 * u j + 2 * w j + c) <$> L) = 2 * sum_list (u <$> L) + 2 * sum_list (w <$> L) + c * length L.
  Proof. induction L as [|x L IH]; [simpl; lia|]. rewrite !fmap_cons. cbn [sum_list_with length]. unfold id in *. lia. Qed.
  Context (veqb : V → V → bool).
  Fixpoint common (vs ws : list V) : nat :=
    match vs, ws with v :: vs, w :: ws => if veqb v w then S (common vs ws) else 0 | _, _ => 0 end.
  Lemma common_le vs ws : common vs ws ≤ length vs ∧ common vs ws ≤ length ws.
  Proof. revert ws. induction vs as [|v vs IH]; intros [|w ws]; simpl; [lia..|]. destruct (veqb v w); [|lia]. specialize (IH ws). lia. Qed.
  Lemma common_lt vs ws i v w : i < common vs ws → vs !! i = Some v → ws !! i = Some w → veqb v w = true.
  Proof.
    revert ws i. induction vs as [|v' vs IH]; intros [|w' ws] i; simpl; [lia..|].
    destruct (veqb v' w') eqn:E; [|lia]. destruct i as [|i]; simpl.
    - by intros _ [= <-] [= <-].
    - intros Hi. apply IH. lia.
  Qed.
  Lemma common_stop vs ws v w : vs !! common vs ws = Some v → ws !! common vs ws = Some w → veqb v w = false.
  Proof.
    revert ws. induction vs as [|v' vs IH]; intros [|w' ws]; [done..|]. simpl.
    destruct (veqb v' w') eqn:E; simpl; [apply IH|]. by intros [= <-] [= <-].
  Qed.
  Definition pe_body f a b (s : ptr * ptr) : prog C (ptr * ptr + bool) :=
    let '(f1, f2) := s in
    if decide (f1 ≠ m_end a ∧ f2 ≠ m_end b) then
      pbind (pdata f1) (λ v1, pbind (pdata f2) (λ v2,
        if veqb v1 v2 then pbind (pincr f f1) (λ f1', pbind (pincr f f2) (λ f2', PRet (inl (f1', f2'))))
        else PRet (inr false)))
    else PRet (inr (bool_decide (f1 = m_end a ∧ f2 = m_end b))).
  Definition peq f a b : prog C bool :=
    pbind (pbegin f a) (λ f1, pbind (pbegin f b) (λ f2, ploop f (pe_body f a b) (f1, f2))).
  Lemma perf_eq f a b : performs (λ al : Allocator C, m_eq veqb f a b) (peq f a b).
  Proof.
    apply (perf_bind _ _ (λ al, m_begin f a) (λ al f1, let! f2 := m_begin f b in loop f _ (f1, f2))).
    { apply (proj2_sig (gk_accesses f _ _ (gk_begin f a))). }
    intros f1. apply (perf_bind _ _ (λ al, m_begin f b) (λ al f2, loop f _ (f1, f2))).
    { apply (proj2_sig (gk_accesses f _ _ (gk_begin f b))). }
    intros f2. apply (perf_ploop f (λ al, _)). intros [q1 q2]. unfold pe_body. destruct (decide _); [|apply perf_ret].
    apply (perf_bind _ _ (λ al, node_data q1) (λ al v1, let! v2 := node_data q2 in if veqb v1 v2 then
       let! f1' := m_incr f q1 in let! f2' := m_incr f q2 in ret (inl (f1', f2')) else ret (inr false))).
    { apply (proj2_sig (gk_accesses 0 _ _ (gk_data 0 q1))). }
    intros v1. apply (perf_bind _ _ (λ al, node_data q2) (λ al v2, if veqb v1 v2 then
       let! f1' := m_incr f q1 in let! f2' := m_incr f q2 in ret (inl (f1', f2')) else ret (inr false))).
    { apply (proj2_sig (gk_accesses 0 _ _ (gk_data 0 q2))). }
    intros v2. destruct (veqb v1 v2); [|apply perf_ret].
    apply (perf_bind _ _ (λ al, m_incr f q1) (λ al f1', let! f2' := m_incr f q2 in ret (inl (f1', f2')))).
    { apply (proj2_sig (gk_accesses f _ _ (gk_next f q1))). }
    intros f1'. apply (perf_bind _ _ (λ al, m_incr f q2) (λ al f2', ret (inl (f1', f2')))).
    { apply (proj2_sig (gk_accesses f _ _ (gk_next f q2))). }
    intros f2'. apply perf_ret.
  Qed.
  Lemma ok_eq al a b (t1 t2 : tree V) M f : in_mem a t1 M → in_mem b t2 M → height t1 ≤ f → height t2 ≤ f →
    length (elems t1) < f →
    ∃ r, ok_in al (peq f a b) M r (10 * length (elems t1) + 10 * length (elems t2) + 6).
  Proof.
    intros Hin1 Hin2 Hh1 Hh2 Hf. set (xs := elems t1) in *. set (ys := elems t2).
    set (n := common xs.*2 ys.*2). pose proof (common_le xs.*2 ys.*2) as Hn. fold n in Hn. rewrite !fmap_length in Hn.
    set (u := λ i, default 0 (hops t1 0 !! i)). set (w := λ i, default 0 (hops t2 0 !! i)).
    set (g := λ i, 2 * u i + 2 * w i + 12).
    set (st := λ i, (iter_at a xs i, iter_at b ys i)).
    assert (∃ r, ok_in al (pe_body f a b (st n)) M (inr r) 2) as [r Hr].
    { unfold st, pe_body. destruct (decide _) as [[H1 H2]|]; [|eexists; apply ok_ret].
      destruct (lookup_lt_is_Some_2 xs n) as [[x v] Hx].
      { destruct (decide (n = length xs)) as [E|]; [|lia]. destruct H1. by apply (end_fact a t1 M); [|fold xs; lia|]. }
      destruct (lookup_lt_is_Some_2 ys n) as [[y z] Hy].
      { destruct (decide (n = length ys)) as [E|]; [|lia]. destruct H2. by apply (end_fact b t2 M); [|fold ys; lia|]. }
      exists false. eapply ok_bind; [by eapply ok_data| |]. 2: shelve.
      eapply ok_bind; [by eapply ok_data| |]. 2: shelve.
      rewrite (common_stop xs.*2 ys.*2 v z); [apply (ok_ret _ _ _ 0)|..].
      - fold n. by rewrite list_lookup_fmap Hx.
      - fold n. by rewrite list_lookup_fmap Hy.
      Unshelve. 2: reflexivity. lia. }
    exists r.
    assert (ok_in al (ploop f (pe_body f a b) (st 0)) M r (sum_list (g <$> seq 0 n) + 2)) as Hl.
    { apply ok_ploop; [|done|lia].
      intros j [_ Hj]. simpl in Hj. unfold st, pe_body.
      destruct (lookup_lt_is_Some_2 xs j) as [[x v] Hx]; [lia|].
      destruct (lookup_lt_is_Some_2 ys j) as [[y z] Hy]; [lia|].
      destruct (lookup_lt_is_Some_2 (hops t1 0) j) as [c Hc]; [rewrite hops_length; fold xs; lia|].
      destruct (lookup_lt_is_Some_2 (hops t2 0) j) as [d Hd]; [rewrite hops_length; fold ys; lia|].
      rewrite decide_True; last first.
      { split; intros H.
        - apply end_fact with (M:=M) in H; [fold xs in H; lia|done|fold xs; lia].
        - apply end_fact with (M:=M) in H; [fold ys in H; lia|done|fold ys; lia]. }
      eapply (ok_bind _ _ _ _ _ _ 1 (2 * c + 2 * d + 11)); [by eapply ok_data| |unfold g, u, w; rewrite Hc Hd; simpl; lia].
      eapply (ok_bind _ _ _ _ _ _ 1 (2 * c + 2 * d + 10)); [by eapply ok_data| |lia].
      rewrite (common_lt xs.*2 ys.*2 j v z); [|done|by rewrite list_lookup_fmap Hx|by rewrite list_lookup_fmap Hy].
      eapply (ok_bind _ _ _ _ _ _ (2 * c + 5) (2 * d + 5)); [by eapply ok_incr| |lia].
      eapply (ok_bind _ _ _ _ _ _ (2 * d + 5) 0); [by eapply ok_incr|apply (ok_ret _ _ _ 0)|lia]. }
    eapply ok_bind; [by apply ok_begin| |]. 2: shelve.
    eapply ok_bind; [by apply (ok_begin al b t2)|exact Hl|reflexivity].
    Unshelve. unfold g. rewrite sum_lin seq_length.
    pose proof (sum_pre (hops t1 0) n ltac:(rewrite hops_length; fold xs; lia)) as S1.
    pose proof (sum_pre (hops t2 0) n ltac:(rewrite hops_length; fold ys; lia)) as S2.
    pose proof (hops_sum t1 0) as T1. pose proof (hops_sum t2 0) as T2. fold xs in T1. fold ys in T2. fold u in S1. fold w in S2.
    lia.
  Qed.
End walks.
