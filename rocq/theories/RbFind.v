(** Descents: lookups and insertions. Proof file. *)
From Verif Require Export RbOps.

Section sorted.
  Context {A : Type} (R : A → A → Prop).
  Lemma sorted_app (l1 l2 : list A) :
    StronglySorted R (l1 ++ l2) ↔
    StronglySorted R l1 ∧ StronglySorted R l2 ∧ Forall (λ a, Forall (R a) l2) l1.
  Proof.
    induction l1 as [|a l1 IH]; simpl.
    - split; [intros ?; split_and!; [constructor|done|constructor]|naive_solver].
    - split.
      + inversion 1 as [|?? Hs Hf]; subst. apply IH in Hs as (?&?&?).
        apply Forall_app in Hf as [??]. split_and!; [by constructor|done|by constructor].
      + intros (Hs1&Hs2&Hf). inversion Hs1; subst. inversion Hf; subst.
        constructor; [apply IH; done|]. apply Forall_app. done.
  Qed.
  Lemma sorted_mid (l1 l2 : list A) y :
    StronglySorted R (l1 ++ y :: l2) → Forall (λ a, R a y) l1 ∧ Forall (R y) l2.
  Proof.
    intros (?&Hs&Hf)%sorted_app. inversion Hs; subst. split; [|done].
    eapply Forall_impl; [exact Hf|]. intros a Ha. by inversion Ha.
  Qed.
End sorted.

Section find.
  Context {K V : Type}.
  Notation C := (rbcell V).
  Notation heap := (gmap loc C).
  Notation iProp := (bi_car (hpropI C)).
  Notation tree := (tree V).
  Notation tframe := (@tframe V).
  Context `{Allocator C}.
  Implicit Types (t : tree) (x n par hdr : loc) (c : bool) (k : list tframe) (p q : ptr) (f : tframe).

  Lemma rzip_node hdr k c l x (v : V) r :
    rzip hdr k (Node c l x v r) ⊢
      x ↦ Rb (Some (parent_of hdr k)) (rootp l) (rootp r) c (Some v) ∗
      (x ↦ Rb (Some (parent_of hdr k)) (rootp l) (rootp r) c (Some v) -∗ rzip hdr k (Node c l x v r)).
  Proof.
    iIntros "[Hc Ht]". simpl. iDestruct "Ht" as "(Hx&Hl&Hr)". iSplitL "Hx"; [iExact "Hx"|].
    iIntros "Hx". unfold rzip. simpl. iFrame.
  Qed.
  Lemma rzip_left hdr k c l x (v : V) r :
    rzip hdr k (Node c l x v r) ⊣⊢ rzip hdr (FL c x v r :: k) l.
  Proof. apply (rzip_fill hdr (FL c x v r)). Qed.
  Lemma rzip_right hdr k c l x (v : V) r :
    rzip hdr k (Node c l x v r) ⊣⊢ rzip hdr (FR c l x v :: k) r.
  Proof. apply (rzip_fill hdr (FR c l x v)). Qed.

  (** An iterator to the first element of a list of nodes. *)
  Definition first_of hdr (es : list (loc * V)) : ptr := Some (default hdr (head es.*1)).

  (** ** Lookups in a fixed tree *)
  Definition parted (P : V → bool) (es : list (loc * V)) : Prop :=
    StronglySorted (λ a b, P b.2 = true → P a.2 = true) es.
  Lemma parted_node P A l x (v : V) r B :
    parted P (A ++ (elems l ++ (x, v) :: elems r) ++ B) →
    (P v = true → Forall (λ a, P a.2 = true) (elems l ++ [(x, v)])) ∧
    (P v = false → Forall (λ a, P a.2 = false) ((x, v) :: elems r)).
  Proof.
    unfold parted. intros (_&(Hs&_&_)%sorted_app&_)%sorted_app.
    apply sorted_mid in Hs as [Hl Hr]. split; intros Hv.
    - apply Forall_app. split; [|by repeat constructor].
      eapply Forall_impl; [exact Hl|]. simpl. naive_solver.
    - constructor; [done|]. eapply Forall_impl; [exact Hr|]. simpl.
      intros a Ha. destruct (P a.2) eqn:Ea; [|done]. naive_solver.
  Qed.

  Lemma wp_bound_loop hdr t0 (P : V → bool) (body : ptr * ptr → M heap ((ptr * ptr) + ptr)) fuel Q :
    (∀ prev, body (None, prev) = ret (inr prev)) →
    (∀ k c l x v r prev Q,
       rzip hdr k (Node c l x v r) -∗
       (rzip hdr k (Node c l x v r) -∗
         Q (inl (if P v then (rootp r, prev) else (rootp l, Some x)))) -∗
       wp (body (Some x, prev)) Q) →
    parted P (elems t0) → height t0 < fuel →
    rzip hdr [] t0 -∗
    (∀ E1 E2, ⌜elems t0 = E1 ++ E2 ∧ Forall (λ a, P a.2 = true) E1 ∧ Forall (λ a, P a.2 = false) E2⌝ →
       rzip hdr [] t0 -∗ Q (first_of hdr E2)) -∗
    wp (loop fuel body (rootp t0, Some hdr)) Q.
  Proof.
    intros Hnil Hbody Hp Hf. iIntros "H HQ".
    iApply (wp_wand _ (λ z, ∃ E1 E2, ⌜z = first_of hdr E2 ∧ elems t0 = E1 ++ E2 ∧
      Forall (λ a, P a.2 = true) E1 ∧ Forall (λ a, P a.2 = false) E2⌝ ∧ rzip hdr [] t0)%I with "[H]").
    - iApply (wp_loop (λ i a, ∃ k t, ⌜height t ≤ i ∧ a = (rootp t, first_of hdr (rights k)) ∧
        plug k t = t0 ∧ Forall (λ a, P a.2 = true) (lefts k) ∧ Forall (λ a, P a.2 = false) (rights k)⌝ ∧
        rzip hdr [] t0)%I with "[H]"); [|exact Hf|].
      2:{ iExists [], t0. iSplit; [iPureIntro|done]. repeat split; try done; constructor. }
      clear Hf. intros i a. iIntros "H". iDestruct "H" as (k t) "[%Hx H]".
      destruct Hx as (Hi&->&Ht0&HL&HR). pose proof (elems_plug k t) as HE. rewrite Ht0 in HE.
      destruct t as [|c l x v r]; simpl rootp.
      + rewrite Hnil. wstep. iExists (lefts k), (rights k). iSplit; [iPureIntro|done]. done.
      + simpl in HE. rewrite HE in Hp. apply parted_node in Hp as [Hp1 Hp2].
        rewrite -{1}Ht0 rzip_plug. iApply (Hbody with "H"). iIntros "H". rewrite -rzip_plug Ht0.
        iExists (pred i). simpl in Hi. iSplit; [iPureIntro; lia|].
        destruct (P v) eqn:Ev.
        * iExists (FR c l x v :: k), r. iSplit; [iPureIntro|done].
          split_and!; [lia|done|done| |done]. simpl. apply Forall_app. split; [done|]. by apply Hp1.
        * iExists (FL c x v r :: k), l. iSplit; [iPureIntro|done].
          split_and!; [lia|done|done|simpl; by rewrite app_nil_r|]. simpl.
          apply (Forall_app _ ((x, v) :: elems r)). split; [|done]. by apply Hp2.
    - iIntros (z) "H". iDestruct "H" as (E1 E2) "[%Hx H]". destruct Hx as (->&?).
      by iApply "HQ".
  Qed.

  Context (keyof : V → K) (lt eqb : K → K → bool).

  Lemma wp_lower_bound hdr t0 key fuel Q :
    parted (λ v, lt (keyof v) key) (elems t0) → height t0 < fuel →
    rzip hdr [] t0 -∗
    (∀ E1 E2, ⌜elems t0 = E1 ++ E2 ∧ Forall (λ a, lt (keyof a.2) key = true) E1 ∧
               Forall (λ a, lt (keyof a.2) key = false) E2⌝ →
       rzip hdr [] t0 -∗ Q (first_of hdr E2)) -∗
    wp (rb_lower_bound keyof lt fuel hdr key) Q.
  Proof.
    intros Hp Hf. iIntros "H HQ". unfold rb_lower_bound. wstep.
    iDestruct "H" as "[Hc Ht]". simpl. iApply (wp_getf with "Hc"). iIntros "Hc". cbn [parent].
    iAssert (rzip hdr [] t0) with "[Hc Ht]" as "H"; [iFrame|].
    iApply (wp_bound_loop _ _ (λ v, lt (keyof v) key) with "H HQ"); [done| |done|done].
    clear. intros k c l x v r prev Q. iIntros "H HQ".
    iDestruct (rzip_node with "H") as "[Hx H]".
    wstep. iApply (wp_node_data with "Hx"). iIntros "Hx".
    destruct (lt (keyof v) key); wstep; iApply (wp_getf with "Hx"); iIntros "Hx"; wstep;
      iApply "HQ"; by iApply "H".
  Qed.
  Lemma wp_upper_bound hdr t0 key fuel Q :
    parted (λ v, negb (lt key (keyof v))) (elems t0) → height t0 < fuel →
    rzip hdr [] t0 -∗
    (∀ E1 E2, ⌜elems t0 = E1 ++ E2 ∧ Forall (λ a, lt key (keyof a.2) = false) E1 ∧
               Forall (λ a, lt key (keyof a.2) = true) E2⌝ →
       rzip hdr [] t0 -∗ Q (first_of hdr E2)) -∗
    wp (rb_upper_bound keyof lt fuel hdr key) Q.
  Proof.
    intros Hp Hf. iIntros "H HQ". unfold rb_upper_bound. wstep.
    iDestruct "H" as "[Hc Ht]". simpl. iApply (wp_getf with "Hc"). iIntros "Hc". cbn [parent].
    iAssert (rzip hdr [] t0) with "[Hc Ht]" as "H"; [iFrame|].
    iApply (wp_bound_loop _ _ (λ v, negb (lt key (keyof v))) with "H [HQ]"); [done| |done|done|].
    - clear. intros k c l x v r prev Q. iIntros "H HQ".
      iDestruct (rzip_node with "H") as "[Hx H]".
      wstep. iApply (wp_node_data with "Hx"). iIntros "Hx".
      destruct (lt key (keyof v)); wstep; iApply (wp_getf with "Hx"); iIntros "Hx"; wstep;
        iApply "HQ"; by iApply "H".
    - iIntros (E1 E2 Hx). iApply ("HQ" $! E1 E2). iPureIntro. destruct Hx as (?&H1&H2).
      split_and!; [done|eapply Forall_impl; [exact H1|]|eapply Forall_impl; [exact H2|]];
        intros a; simpl; by destruct (lt _ _).
  Qed.

  Context (Hord : key_order lt eqb).

  (** order facts *)
  Lemma le_lt_trans (x y z : K) : lt y x = false → lt y z = true → lt x z = true.
  Proof.
    intros H1 H2. destruct (lt x z) eqn:E; [done|].
    pose proof (ko_ntrans _ _ Hord _ _ _ H1 E). congruence.
  Qed.
  Lemma lt_le_trans (x y z : K) : lt x y = true → lt z y = false → lt x z = true.
  Proof.
    intros H1 H2. destruct (lt x z) eqn:E; [done|].
    pose proof (ko_ntrans _ _ Hord _ _ _ E H2). congruence.
  Qed.
  Lemma lt_asym (x y : K) : lt x y = true → lt y x = false.
  Proof.
    intros H1. destruct (lt y x) eqn:E; [|done].
    pose proof (ko_trans _ _ Hord _ _ _ H1 E). pose proof (ko_irrefl _ _ Hord x). congruence.
  Qed.
  Lemma three_way (key x : K) : lt key x = false → eqb key x = false → lt x key = true.
  Proof.
    intros H1 H2. destruct (lt x key) eqn:E; [done|].
    assert (eqb key x = true) by (by apply (ko_eqb _ _ Hord)). congruence.
  Qed.
  Lemma eqb_false_lt (x y : K) : lt x y = true → eqb x y = false.
  Proof. intros Hl. destruct (eqb x y) eqn:E; [|done]. apply (ko_eqb _ _ Hord) in E. naive_solver congruence. Qed.
  Lemma eqb_false_gt (x y : K) : lt y x = true → eqb x y = false.
  Proof. intros Hl. destruct (eqb x y) eqn:E; [|done]. apply (ko_eqb _ _ Hord) in E. naive_solver congruence. Qed.

  Definition nondesc (es : list (loc * V)) : Prop :=
    StronglySorted (λ a b, lt (keyof b.2) (keyof a.2) = false) es.
  Lemma nondesc_parted_lower key es : nondesc es → parted (λ v, lt (keyof v) key) es.
  Proof.
    unfold nondesc, parted. induction 1 as [|a es _ IH Hf]; constructor; [done|].
    eapply Forall_impl; [exact Hf|]. simpl. intros b Hb Hk. by eapply le_lt_trans.
  Qed.
  Lemma nondesc_parted_upper key es : nondesc es → parted (λ v, negb (lt key (keyof v))) es.
  Proof.
    unfold nondesc, parted. induction 1 as [|a es _ IH Hf]; constructor; [done|].
    eapply Forall_impl; [exact Hf|]. simpl. intros b Hb Hk%negb_true_iff. apply negb_true_iff.
    by eapply (ko_ntrans _ _ Hord).
  Qed.
  Lemma nondesc_node key A l x v r B :
    nondesc (A ++ (elems l ++ (x, v) :: elems r) ++ B) →
    (lt (keyof v) key = true → Forall (λ a, lt (keyof a.2) key = true) (elems l ++ [(x, v)])) ∧
    (lt key (keyof v) = true → Forall (λ a, lt key (keyof a.2) = true) ((x, v) :: elems r)).
  Proof.
    intros Hs. split; intros Hv.
    - by apply (nondesc_parted_lower key) in Hs as [Hs _]%parted_node; apply Hs.
    - apply (nondesc_parted_upper key) in Hs as [_ Hs]%parted_node.
      rewrite Hv in Hs. specialize (Hs eq_refl). eapply Forall_impl; [exact Hs|].
      simpl. intros a. apply negb_false_iff.
  Qed.

  (** ** find *)
  Definition all_lt (key : K) (es : list (loc * V)) := Forall (λ a, lt (keyof a.2) key = true) es.
  Definition all_gt (key : K) (es : list (loc * V)) := Forall (λ a, lt key (keyof a.2) = true) es.

  Lemma wp_find hdr t0 key fuel Q :
    nondesc (elems t0) → height t0 < fuel →
    rzip hdr [] t0 -∗
    ((∀ E1 x v E2, ⌜elems t0 = E1 ++ (x, v) :: E2 ∧ eqb key (keyof v) = true⌝ →
       rzip hdr [] t0 -∗ Q (Some x)) ∧
     (∀ E1 E2, ⌜elems t0 = E1 ++ E2 ∧ all_lt key E1 ∧ all_gt key E2⌝ → rzip hdr [] t0 -∗ Q (Some hdr))) -∗
    wp (rb_find keyof lt eqb fuel hdr key) Q.
  Proof.
    intros Hs Hf. iIntros "H HQ". unfold rb_find. wstep.
    iDestruct "H" as "[Hc Ht]". simpl. iApply (wp_getf with "Hc"). iIntros "Hc". cbn [parent].
    iAssert (rzip hdr [] t0) with "[Hc Ht]" as "H"; [iFrame|]. wstep.
    iApply (wp_wand _ (λ z, ((∃ E1 x v E2, ⌜z = Some x ∧ elems t0 = E1 ++ (x, v) :: E2 ∧ eqb key (keyof v) = true⌝) ∨
       (∃ E1 E2, ⌜z = None ∧ elems t0 = E1 ++ E2 ∧ all_lt key E1 ∧ all_gt key E2⌝)) ∧ rzip hdr [] t0)%I with "[H]").
    - iApply (wp_loop (λ i a, ∃ k t, ⌜height t ≤ i ∧ a = rootp t ∧
        plug k t = t0 ∧ all_lt key (lefts k) ∧ all_gt key (rights k)⌝ ∧
        rzip hdr [] t0)%I with "[H]"); [|exact Hf|].
      2:{ iExists [], t0. iSplit; [iPureIntro|done]. repeat split; try done; constructor. }
      clear Hf. intros i a. iIntros "H". iDestruct "H" as (k t) "[%Hx H]".
      destruct Hx as (Hi&->&Ht0&HL&HR). pose proof (elems_plug k t) as HE. rewrite Ht0 in HE.
      destruct t as [|c l x v r]; simpl rootp.
      + wstep. iSplit; [|done]. iRight. iExists (lefts k), (rights k). by iPureIntro.
      + simpl in HE. rewrite HE in Hs. apply (nondesc_node key) in Hs as [Hs1 Hs2].
        rewrite -{1}Ht0 rzip_plug. iDestruct (rzip_node with "H") as "[Hx H]".
        wstep. iApply (wp_node_data with "Hx"). iIntros "Hx".
        destruct (lt key (keyof v)) eqn:E1; [|destruct (eqb key (keyof v)) eqn:E2].
        * wstep. iApply (wp_getf with "Hx"). iIntros "Hx". wstep. iDestruct ("H" with "Hx") as "H".
          rewrite -rzip_plug Ht0.
          iExists (pred i). simpl in Hi. iSplit; [iPureIntro; lia|].
          iExists (FL c x v r :: k), l. iSplit; [iPureIntro|done].
          split_and!; [lia|done|done|simpl; by rewrite app_nil_r|]. simpl.
          apply (Forall_app _ ((x, v) :: elems r)). split; [|done]. by apply Hs2.
        * wstep. iDestruct ("H" with "Hx") as "H". rewrite -rzip_plug Ht0.
          iSplit; [|done]. iLeft. iExists (lefts k ++ elems l), x, v, (elems r ++ rights k). iPureIntro.
          split_and!; [done| |done]. rewrite HE. by rewrite -!app_assoc.
        * wstep. iApply (wp_getf with "Hx"). iIntros "Hx". wstep. iDestruct ("H" with "Hx") as "H".
          rewrite -rzip_plug Ht0.
          iExists (pred i). simpl in Hi. iSplit; [iPureIntro; lia|].
          iExists (FR c l x v :: k), r. iSplit; [iPureIntro|done].
          split_and!; [lia|done|done| |done]. simpl. apply Forall_app. split; [done|]. apply Hs1.
          by apply three_way.
    - iIntros (z) "[[H1|H1] H]".
      + iDestruct "H1" as (E1 x v E2) "%Hx". destruct Hx as (->&?&?).
        wstep. simpl. iDestruct "HQ" as "[HQ _]". by iApply ("HQ" $! E1 x v E2).
      + iDestruct "H1" as (E1 E2) "%Hx". destruct Hx as (->&?&?&?).
        wstep. simpl. iDestruct "HQ" as "[_ HQ]". by iApply ("HQ" $! E1 E2).
  Qed.

  (** ** Insertion *)
  Lemma height_child c l x (v : V) r : height l < height (Node c l x v r) ∧ height r < height (Node c l x v r).
  Proof. simpl. lia. Qed.

  Lemma wp_insert_equal hdr t0 (v : V) m fuel Q :
    nondesc (elems t0) → balanced t0 m → isred t0 = false → height t0 < fuel →
    rzip hdr [] t0 -∗
    (∀ E1 n E2 t, ⌜elems t0 = E1 ++ E2 ∧ elems t = E1 ++ (n, v) :: E2 ∧
        Forall (λ a, lt (keyof v) (keyof a.2) = false) E1 ∧ all_gt (keyof v) E2 ∧
        isred t = false ∧ ∃ m, balanced t m⌝ → rzip hdr [] t -∗ Q (Some n)) -∗
    wp (rb_insert_equal keyof lt fuel hdr v) Q.
  Proof.
    intros Hs Hb Hr Hf. iIntros "H HQ". unfold rb_insert_equal. wstep.
    iApply (wp_wand _ (λ z, ∃ k c, ⌜z = (Some (parent_of hdr k), edge_at hdr k) ∧ bctx k c 0 ∧
       length k ≤ height t0 ∧ elems t0 = lefts k ++ rights k ∧
       Forall (λ a, lt (keyof v) (keyof a.2) = false) (lefts k) ∧ all_gt (keyof v) (rights k)⌝ ∧ rzip hdr k Leaf)%I with "[H]").
    - iApply (wp_loop (λ i a, ∃ k t c m, ⌜height t ≤ i ∧ length k + height t ≤ height t0 ∧
        a = (Some (parent_of hdr k), edge_at hdr k) ∧ elems t0 = lefts k ++ elems t ++ rights k ∧
        bctx k c m ∧ balanced t m ∧ (isred t = true → c = true) ∧
        Forall (λ a, lt (keyof v) (keyof a.2) = false) (lefts k) ∧ all_gt (keyof v) (rights k)⌝ ∧
        rzip hdr k t)%I with "[H]"); [|exact Hf|].
      2:{ iExists [], t0, true, m. iSplit; [iPureIntro|done]. repeat split; simpl; try done; try lia; try constructor.
          by rewrite app_nil_r. }
      clear Hb m Hr Hf. intros i a. iIntros "H". iDestruct "H" as (k t c m) "[%Hx H]".
      destruct Hx as (Hi&Hlen&->&HE&Hk&Hb&Hc&HL&HR). simpl.
      wstep. iDestruct "H" as "[Hc Ht]". iApply (wp_get_edge with "Hc"). iIntros "Hc".
      iAssert (rzip hdr k t) with "[Hc Ht]" as "H"; [iFrame|].
      destruct t as [|c' l x w r]; simpl rootp.
      + wstep. iExists k, c. iSplit; [iPureIntro|done]. simpl in Hb. subst m. split_and!; try done. lia.
      + rewrite HE in Hs. apply (nondesc_parted_upper (keyof v)) in Hs as [Hs1 Hs2]%parted_node.
        iDestruct (rzip_node with "H") as "[Hx H]".
        wstep. iApply (wp_node_data with "Hx"). iIntros "Hx". iDestruct ("H" with "Hx") as "H".
        destruct (lt (keyof v) (keyof w)) eqn:E1; wstep.
        * iExists (pred i). simpl in Hi. iSplit; [iPureIntro; lia|].
          destruct (bframe_left _ _ _ _ _ _ Hb) as (m'&Hb'&Hbf).
          iExists (FL c' x w r :: k), l, (negb c'), m'. rewrite rzip_left. iSplit; [iPureIntro|done].
          split_and!; [lia|simpl in *; lia|done| | |done| |simpl; by rewrite app_nil_r| ].
          -- rewrite HE /=. by rewrite app_nil_r -!app_assoc.
          -- exists c, m. split; [|done]. by apply bframe_weaken.
          -- destruct c'; simpl in Hb; [|done]. naive_solver congruence.
          -- simpl. apply (Forall_app _ ((x, w) :: elems r)). split; [|done].
             eapply Forall_impl; [by apply Hs2; apply negb_false_iff|]. simpl. intros a. apply negb_false_iff.
        * iExists (pred i). simpl in Hi. iSplit; [iPureIntro; lia|].
          destruct (bframe_right _ _ _ _ _ _ Hb) as (m'&Hb'&Hbf).
          iExists (FR c' l x w :: k), r, false, m'. rewrite rzip_right. iSplit; [iPureIntro|done].
          split_and!; [lia|simpl in *; lia|done| | |done| | |done].
          -- rewrite HE /=. by rewrite -!app_assoc.
          -- exists c, m. split; [|done]. by apply bframe_weaken.
          -- destruct c'; simpl in Hb; naive_solver congruence.
          -- simpl. apply Forall_app. split; [done|].
             eapply Forall_impl; [by apply Hs1; apply negb_true_iff|]. simpl. intros a. apply negb_true_iff.
    - iIntros (z) "H". iDestruct "H" as (k c) "[%Hx H]". destruct Hx as (->&Hk&Hlen&HE&HL&HR).
      cbn beta iota. iApply (wp_rb_attach with "H"); [lia|done|].
      iIntros (n t) "%Hx H". iApply ("HQ" $! (lefts k) n (rights k) t with "[] H").
      iPureIntro. naive_solver.
  Qed.

  (** The two halves of rb_insert_unique: the search for the place, and what is done there. *)
  Definition unique_search (fuel : nat) (hdr : loc) (v : V) : M (gmap loc (rbcell V)) ((ptr * edge) + ptr) :=
    loop fuel (λ '(par0, e),
      let! p := get_edge e in
      match p with
      | None => ret (inr (inl (par0, e)))
      | Some a =>
          let! d := node_data p in
          let ekey := keyof d in
          if lt (keyof v) ekey then ret (inl (p, ELeft a))
          else if eqb (keyof v) ekey then ret (inr (inr p))
          else ret (inl (p, ERight a))
      end) (Some hdr, EParent hdr).
  Definition unique_finish (fuel : nat) (hdr : loc) (v : V) (r : (ptr * edge) + ptr) : M (gmap loc (rbcell V)) (ptr * bool) :=
    match r with
    | inr p => ret (p, false)
    | inl (par0, e) => let! q := rb_attach fuel hdr e par0 v in ret (q, true)
    end.
  Definition unique_found hdr t0 (v : V) (z : (ptr * edge) + ptr) : bi_car (hpropI (rbcell V)) :=
    ((∃ E1 x w E2, ⌜z = inr (Some x) ∧ elems t0 = E1 ++ (x, w) :: E2 ∧ eqb (keyof v) (keyof w) = true⌝ ∧ rzip hdr [] t0) ∨
      (∃ k c, ⌜z = inl (Some (parent_of hdr k), edge_at hdr k) ∧ bctx k c 0 ∧
       length k ≤ height t0 ∧ plug k Leaf = t0 ∧
       all_lt (keyof v) (lefts k) ∧ all_gt (keyof v) (rights k)⌝ ∧ rzip hdr k Leaf))%I.
  Lemma wp_unique_search hdr t0 (v : V) m fuel :
    nondesc (elems t0) → balanced t0 m → isred t0 = false → height t0 < fuel →
    rzip hdr [] t0 ⊢ wp (unique_search fuel hdr v) (unique_found hdr t0 v).
  Proof.
    intros Hs Hb Hr Hf. iIntros "H". unfold unique_search, unique_found.
    iApply (wp_loop (λ i a, ∃ k t c m, ⌜height t ≤ i ∧ length k + height t ≤ height t0 ∧
      a = (Some (parent_of hdr k), edge_at hdr k) ∧ plug k t = t0 ∧
      bctx k c m ∧ balanced t m ∧ (isred t = true → c = true) ∧
      all_lt (keyof v) (lefts k) ∧ all_gt (keyof v) (rights k)⌝ ∧
      rzip hdr k t)%I with "[H]"); [|exact Hf|].
    2:{ iExists [], t0, true, m. iSplit; [iPureIntro|done]. repeat split; simpl; try done; try lia; try constructor. }
    clear Hb m Hr Hf. intros i a. iIntros "H". iDestruct "H" as (k t c m) "[%Hx H]".
    destruct Hx as (Hi&Hlen&->&Ht0&Hk&Hb&Hc&HL&HR). simpl.
    pose proof (elems_plug k t) as HE. rewrite Ht0 in HE.
    wstep. iDestruct "H" as "[Hc Ht]". iApply (wp_get_edge with "Hc"). iIntros "Hc".
    iAssert (rzip hdr k t) with "[Hc Ht]" as "H"; [iFrame|].
    destruct t as [|c' l x w r]; simpl rootp.
    + wstep. iRight. iExists k, c. iSplit; [iPureIntro|done]. simpl in Hb. subst m. split_and!; try done. lia.
    + simpl in HE. rewrite HE in Hs. apply (nondesc_node (keyof v)) in Hs as [Hs1 Hs2].
      iDestruct (rzip_node with "H") as "[Hx H]".
      wstep. iApply (wp_node_data with "Hx"). iIntros "Hx". iDestruct ("H" with "Hx") as "H".
      destruct (lt (keyof v) (keyof w)) eqn:E1; [|destruct (eqb (keyof v) (keyof w)) eqn:E2]; wstep.
      * iExists (pred i). simpl in Hi. iSplit; [iPureIntro; lia|].
        destruct (bframe_left _ _ _ _ _ _ Hb) as (m'&Hb'&Hbf).
        iExists (FL c' x w r :: k), l, (negb c'), m'. rewrite rzip_left. iSplit; [iPureIntro|done].
        split_and!; [lia|simpl in *; lia|done|done| |done| |simpl; by rewrite app_nil_r| ].
        -- exists c, m. split; [|done]. by apply bframe_weaken.
        -- destruct c'; simpl in Hb; [|done]. naive_solver congruence.
        -- simpl. apply (Forall_app _ ((x, w) :: elems r)). split; [|done]. by apply Hs2.
      * iLeft. iExists (lefts k ++ elems l), x, w, (elems r ++ rights k).
        rewrite -(rzip_plug hdr k) Ht0. iSplit; [iPureIntro|done].
        split_and!; [done| |done]. rewrite HE. by rewrite -!app_assoc.
      * iExists (pred i). simpl in Hi. iSplit; [iPureIntro; lia|].
        destruct (bframe_right _ _ _ _ _ _ Hb) as (m'&Hb'&Hbf).
        iExists (FR c' l x w :: k), r, false, m'. rewrite rzip_right. iSplit; [iPureIntro|done].
        split_and!; [lia|simpl in *; lia|done|done| |done| | |done].
        -- exists c, m. split; [|done]. by apply bframe_weaken.
        -- destruct c'; simpl in Hb; naive_solver congruence.
        -- simpl. apply Forall_app. split; [done|]. apply Hs1. by apply three_way.
  Qed.
  Lemma wp_unique_finish hdr t0 (v : V) fuel z Q :
    height t0 < fuel →
    unique_found hdr t0 v z -∗
    ((∀ E1 x w E2, ⌜elems t0 = E1 ++ (x, w) :: E2 ∧ eqb (keyof v) (keyof w) = true⌝ →
       rzip hdr [] t0 -∗ Q (Some x, false)) ∧
    (∀ E1 n E2 t, ⌜elems t0 = E1 ++ E2 ∧ elems t = E1 ++ (n, v) :: E2 ∧
        all_lt (keyof v) E1 ∧ all_gt (keyof v) E2 ∧
        isred t = false ∧ ∃ m, balanced t m⌝ → rzip hdr [] t -∗ Q (Some n, true))) -∗
    wp (unique_finish fuel hdr v z) Q.
  Proof.
    intros Hf. iIntros "H HQ". unfold unique_found, unique_finish. iDestruct "H" as "[H|H]".
    - iDestruct "H" as (E1 x w E2) "[%Hx H]". destruct Hx as (->&?&?). wstep.
      iDestruct "HQ" as "[HQ _]". by iApply ("HQ" $! E1 x w E2).
    - iDestruct "H" as (k c) "[%Hx H]". destruct Hx as (->&Hk&Hlen&HE&HL&HR).
      cbn beta iota. wstep. iApply (wp_rb_attach with "H"); [lia|done|].
      iDestruct "HQ" as "[_ HQ]".
      iIntros (n t) "%Hx H". wstep. iApply ("HQ" $! (lefts k) n (rights k) t with "[] H").
      iPureIntro. split_and!; try naive_solver. by rewrite -HE elems_plug.
  Qed.
  Lemma wp_insert_unique hdr t0 (v : V) m fuel Q :
    nondesc (elems t0) → balanced t0 m → isred t0 = false → height t0 < fuel →
    rzip hdr [] t0 -∗
    ((∀ E1 x w E2, ⌜elems t0 = E1 ++ (x, w) :: E2 ∧ eqb (keyof v) (keyof w) = true⌝ →
       rzip hdr [] t0 -∗ Q (Some x, false)) ∧
    (∀ E1 n E2 t, ⌜elems t0 = E1 ++ E2 ∧ elems t = E1 ++ (n, v) :: E2 ∧
        all_lt (keyof v) E1 ∧ all_gt (keyof v) E2 ∧
        isred t = false ∧ ∃ m, balanced t m⌝ → rzip hdr [] t -∗ Q (Some n, true))) -∗
    wp (rb_insert_unique keyof lt eqb fuel hdr v) Q.
  Proof.
    intros Hs Hb Hr Hf. iIntros "H HQ".
    change (rb_insert_unique keyof lt eqb fuel hdr v) with (let! r := unique_search fuel hdr v in unique_finish fuel hdr v r).
    wstep. iApply (wp_wand with "[H]"); [by iApply (wp_unique_search with "H")|].
    iIntros (z) "H". by iApply (wp_unique_finish with "H HQ").
  Qed.
End find.
