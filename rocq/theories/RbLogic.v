(** Separation-logic view of RbSpec.v and the node-level operations of the
    red-black tree. Proof file. *)
From Verif Require Export RbPure Sep.

Section logic.
  Context {V : Type}.
  Notation C := (rbcell V).
  Notation heap := (gmap loc C).
  Notation iProp := (bi_car (hpropI C)).
  Notation tree := (tree V).
  Notation tframe := (@tframe V).
  Implicit Types (t : tree) (x n par hdr : loc) (c : bool) (k : list tframe) (p q : ptr).

  Fixpoint tree_at par t : iProp :=
    match t with
    | Leaf => emp
    | Node c l n v r =>
        n ↦ Rb (Some par) (rootp l) (rootp r) c (Some v) ∗ tree_at n l ∗ tree_at n r
    end%I.
  Definition parent_of hdr k : loc := match k with [] => hdr | f :: _ => fnode f end.
  Definition edge_at hdr k : edge :=
    match k with [] => EParent hdr | FL _ n _ _ :: _ => ELeft n | FR _ _ n _ :: _ => ERight n end.
  Fixpoint ctx hdr k p : iProp :=
    match k with
    | [] => hdr ↦ Rb p None None true None
    | FL c n v r :: k =>
        n ↦ Rb (Some (parent_of hdr k)) p (rootp r) c (Some v) ∗ tree_at n r ∗ ctx hdr k (Some n)
    | FR c l n v :: k =>
        n ↦ Rb (Some (parent_of hdr k)) (rootp l) p c (Some v) ∗ tree_at n l ∗ ctx hdr k (Some n)
    end%I.
  (** A tree in a context. *)
  Definition rzip hdr k t : iProp := (ctx hdr k (rootp t) ∗ tree_at (parent_of hdr k) t)%I.

  Lemma rootp_fill f t : rootp (fill f t) = Some (fnode f).
  Proof. by destruct f. Qed.
  Lemma rzip_fill hdr f k t : rzip hdr k (fill f t) ⊣⊢ rzip hdr (f :: k) t.
  Proof.
    unfold rzip. destruct f; simpl; iSplit; iIntros "H"; iFrame.
    - iDestruct "H" as "($&$&$&$)".
    - iDestruct "H" as "(($&$&$)&$)".
    - iDestruct "H" as "($&$&$&$)".
    - iDestruct "H" as "(($&$&$)&$)".
  Qed.
  Lemma rzip_plug hdr k t : rzip hdr [] (plug k t) ⊣⊢ rzip hdr k t.
  Proof.
    revert t. induction k as [|f k IH]; intros t; simpl; [done|]. by rewrite IH rzip_fill.
  Qed.

  Lemma tree_at_ne par t n (d : C) : tree_at par t ∗ n ↦ d ⊢ ⌜rootp t ≠ Some n⌝.
  Proof.
    iIntros "[Ht Hn]". destruct t as [|c l m v r]; simpl; [iPureIntro; done|].
    iDestruct "Ht" as "(Hm&_&_)".
    iDestruct (pto_ne with "[$Hm $Hn]") as %Hne. iPureIntro. congruence.
  Qed.

  (** Access to the header from anywhere. *)
  Fixpoint top_of k p : ptr := match k with [] => p | f :: k => top_of k (Some (fnode f)) end.
  Lemma ctx_header hdr k p :
    ctx hdr k p ⊢ hdr ↦ Rb (top_of k p) None None true None ∗
      (hdr ↦ Rb (top_of k p) None None true None -∗ ctx hdr k p).
  Proof.
    revert p. induction k as [|f k IH]; intros p; simpl.
    - iIntros "$". iIntros "$".
    - destruct f as [c n v r|c l n v].
      + iIntros "($&$&H)". iDestruct (IH with "H") as "[$ H]". iIntros "Hh". by iApply "H".
      + iIntros "($&$&H)". iDestruct (IH with "H") as "[$ H]". iIntros "Hh". by iApply "H".
  Qed.
  Lemma ctx_top_ne hdr f k p n (d : C) :
    ctx hdr (f :: k) p ∗ n ↦ d ⊢ ⌜top_of (f :: k) p ≠ Some n⌝.
  Proof.
    revert f p. induction k as [|f' k IH]; intros f p.
    - simpl. destruct f as [c m v r|c l m v]; iIntros "[(Hm&_&_) Hn]";
        iDestruct (pto_ne with "[$Hm $Hn]") as %Hne; iPureIntro; simpl; congruence.
    - iIntros "[H Hn]". destruct f as [c m v r|c l m v]; iDestruct "H" as "(_&_&H)";
        iDestruct (IH with "[$H $Hn]") as %Hne; iPureIntro; exact Hne.
  Qed.
  Lemma ctx_hdr_ne hdr k p n (d : C) : ctx hdr k p ∗ n ↦ d ⊢ ⌜n ≠ hdr⌝.
  Proof.
    iIntros "[H Hn]". iDestruct (ctx_header with "H") as "[Hh _]".
    iDestruct (pto_ne with "[$Hn $Hh]") as %?. done.
  Qed.

  Context `{Allocator C}.

  Lemma wp_getf {A} (f : C → A) x (d : C) Q :
    x ↦ d -∗ (x ↦ d -∗ Q (f d)) -∗ wp (getf f (Some x)) Q.
  Proof. iIntros "Hl HQ". unfold getf. wsteps. by iApply "HQ". Qed.
  Lemma wp_setf (g : C → C) x (d : C) Q :
    x ↦ d -∗ (x ↦ g d -∗ Q tt) -∗ wp (setf g (Some x)) Q.
  Proof. iIntros "Hl HQ". unfold setf. wsteps. by iApply "HQ". Qed.
  Lemma wp_node_data x p q q' c (v : V) Q :
    x ↦ Rb p q q' c (Some v) -∗ (x ↦ Rb p q q' c (Some v) -∗ Q v) -∗ wp (node_data (Some x)) Q.
  Proof. iIntros "Hl HQ". unfold node_data. wsteps. simpl. wsteps. by iApply "HQ". Qed.

  Lemma wp_get_edge hdr k p Q :
    ctx hdr k p -∗ (ctx hdr k p -∗ Q p) -∗ wp (get_edge (edge_at hdr k)) Q.
  Proof.
    iIntros "H HQ". destruct k as [|[c n v r|c l n v] k]; simpl.
    - iApply (wp_getf with "H"). iIntros "H". by iApply "HQ".
    - iDestruct "H" as "(Hn&H)". iApply (wp_getf with "Hn"). iIntros "Hn". iApply "HQ". iFrame.
    - iDestruct "H" as "(Hn&H)". iApply (wp_getf with "Hn"). iIntros "Hn". iApply "HQ". iFrame.
  Qed.
  Lemma wp_set_edge hdr k p q Q :
    ctx hdr k p -∗ (ctx hdr k q -∗ Q tt) -∗ wp (set_edge (edge_at hdr k) q) Q.
  Proof.
    iIntros "H HQ". destruct k as [|[c n v r|c l n v] k]; simpl.
    - iApply (wp_setf with "H"). iIntros "H". by iApply "HQ".
    - iDestruct "H" as "(Hn&H)". iApply (wp_setf with "Hn"). iIntros "Hn". iApply "HQ". iFrame.
    - iDestruct "H" as "(Hn&H)". iApply (wp_setf with "Hn"). iIntros "Hn". iApply "HQ". iFrame.
  Qed.
  Lemma wp_edge_of hdr k n q q' c (v : V) Q :
    ctx hdr k (Some n) -∗ n ↦ Rb (Some (parent_of hdr k)) q q' c (Some v) -∗
    (ctx hdr k (Some n) -∗ n ↦ Rb (Some (parent_of hdr k)) q q' c (Some v) -∗ Q (edge_at hdr k)) -∗
    wp (edge_of hdr (Some n)) Q.
  Proof.
    iIntros "H Hn HQ". unfold edge_of. wstep.
    destruct k as [|f k].
    - simpl. iApply (wp_getf with "H"). iIntros "H". simpl. dec_true.
      wstep. iApply ("HQ" with "H Hn").
    - iDestruct (ctx_top_ne with "[$H $Hn]") as %Hne.
      iAssert (⌜match f with FR _ l _ _ => rootp l ≠ Some n | _ => True end⌝)%I as %Hl.
      { destruct f as [|c' l' n' v']; [done|].
        iDestruct "H" as "(_&Hl&_)". iApply (tree_at_ne with "[$Hl $Hn]"). }
      iDestruct (ctx_header with "H") as "[Hh H]".
      iApply (wp_getf with "Hh"). iIntros "Hh".
      iDestruct ("H" with "Hh") as "H". cbn [parent]. destruct (decide (Some n = _)) as [E|_]; [done|].
      wstep. iApply (wp_getf with "Hn"). iIntros "Hn". cbn [parent]. wstep.
      destruct f as [c' n' v' r'|c' l' n' v']; simpl.
      + iDestruct "H" as "(Hn'&Hr)". iApply (wp_getf with "Hn'"). iIntros "Hn'". cbn [left].
        wsteps. destruct (decide (Some n = Some n)) as [_|]; [|done]. wstep.
        iApply ("HQ" with "[$Hn' $Hr] Hn").
      + iDestruct "H" as "(Hn'&Hr)". iApply (wp_getf with "Hn'"). iIntros "Hn'". cbn [left].
        wsteps. destruct (decide (Some n = rootp l')) as [E|_]; [done|]. wstep.
        iApply ("HQ" with "[$Hn' $Hr] Hn").
  Qed.

  (** Colours. *)
  Lemma wp_is_red par t Q :
    tree_at par t -∗ (tree_at par t -∗ Q (isred t)) -∗ wp (is_red (rootp t)) Q.
  Proof.
    iIntros "H HQ". destruct t as [|c l n v r]; simpl.
    - wstep. by iApply "HQ".
    - iDestruct "H" as "(Hn&H)". iApply (wp_getf with "Hn"). iIntros "Hn". iApply "HQ". iFrame.
  Qed.
  Lemma wp_neg_red par t Q :
    t ≠ Leaf → tree_at par t -∗ (tree_at par (negroot t) -∗ Q tt) -∗ wp (setf neg_red (rootp t)) Q.
  Proof.
    iIntros (Ht) "H HQ". destruct t as [|c l n v r]; [done|].
    iDestruct "H" as "(Hn&H)". iApply (wp_setf with "Hn"). iIntros "Hn". iApply "HQ". iFrame.
  Qed.
  Lemma rootp_negroot t : rootp (negroot t) = rootp t.
  Proof. by destruct t. Qed.
  Lemma rootp_recolor c t : rootp (recolor c t) = rootp t.
  Proof. by destruct t. Qed.
  Lemma wp_set_red par c t Q :
    t ≠ Leaf → tree_at par t -∗ (tree_at par (recolor c t) -∗ Q tt) -∗ wp (setf (set_red c) (rootp t)) Q.
  Proof.
    iIntros (Ht) "H HQ". destruct t as [|c' l n v r]; [done|].
    iDestruct "H" as "(Hn&H)". iApply (wp_setf with "Hn"). iIntros "Hn". iApply "HQ". iFrame.
  Qed.
  Lemma wp_set_parent par par' t Q :
    t ≠ Leaf → tree_at par t -∗ (tree_at par' t -∗ Q tt) -∗ wp (setf (set_parent (Some par')) (rootp t)) Q.
  Proof.
    iIntros (Ht) "H HQ". destruct t as [|c' l n v r]; [done|].
    iDestruct "H" as "(Hn&H)". iApply (wp_setf with "Hn"). iIntros "Hn". iApply "HQ". iFrame.
  Qed.
  (** [if (p) p->parent = x] *)
  Lemma wp_reparent par x t Q :
    tree_at par t -∗ (tree_at x t -∗ Q tt) -∗
    wp (match rootp t with Some _ => setf (set_parent (Some x)) (rootp t) | None => ret tt end) Q.
  Proof.
    iIntros "H HQ". destruct t as [|c l n v r]; simpl.
    - wstep. by iApply "HQ".
    - iDestruct "H" as "(Hn&H)". iApply (wp_setf with "Hn"). iIntros "Hn". iApply "HQ". iFrame.
  Qed.
  Lemma wp_reparent_if par x t Q :
    tree_at par t -∗ (tree_at x t -∗ Q tt) -∗
    wp (if nonnull (rootp t) then setf (set_parent (Some x)) (rootp t) else ret tt) Q.
  Proof.
    iIntros "H HQ". destruct t as [|c l n v r]; simpl.
    - wstep. by iApply "HQ".
    - iDestruct "H" as "(Hn&H)". iApply (wp_setf with "Hn"). iIntros "Hn". iApply "HQ". iFrame.
  Qed.

  Lemma wp_flip par c l n v r Q :
    l ≠ Leaf → r ≠ Leaf → tree_at par (Node c l n v r) -∗
    (tree_at par (tflip (Node c l n v r)) -∗ Q tt) -∗ wp (flip_colors (Some n)) Q.
  Proof.
    iIntros (Hl Hr) "(Hn&Hl&Hr) HQ". unfold flip_colors.
    wstep. iApply (wp_setf with "Hn"). iIntros "Hn".
    wstep. iApply (wp_getf with "Hn"). iIntros "Hn". cbn [left neg_red].
    wstep. iApply (wp_neg_red with "Hl"); [done|]. iIntros "Hl".
    wstep. iApply (wp_getf with "Hn"). iIntros "Hn". cbn [right neg_red].
    iApply (wp_neg_red with "Hr"); [done|]. iIntros "Hr". iApply "HQ".
    simpl. rewrite !rootp_negroot. iFrame.
  Qed.

  Lemma wp_rotate_left par c a x v c' b y w d Q :
    tree_at par (Node c a x v (Node c' b y w d)) -∗
    (tree_at par (Node c (Node true a x v b) y w d) -∗ Q (Some y)) -∗
    wp (rotate_left (Some x)) Q.
  Proof.
    iIntros "(Hx&Ha&Hy&Hb&Hd) HQ". unfold rotate_left.
    wstep. iApply (wp_getf with "Hx"). iIntros "Hx". cbn [right].
    wstep. iApply (wp_getf with "Hy"). iIntros "Hy". cbn [left].
    wstep. iApply (wp_setf with "Hx"). iIntros "Hx".
    wstep. iApply (wp_getf with "Hx"). iIntros "Hx". cbn [right set_right].
    wstep. iApply (wp_reparent with "Hb"). iIntros "Hb".
    wstep. iApply (wp_setf with "Hy"). iIntros "Hy".
    wstep. iApply (wp_getf with "Hx"). iIntros "Hx". cbn [red set_right].
    wstep. iApply (wp_setf with "Hy"). iIntros "Hy".
    wstep. iApply (wp_setf with "Hx"). iIntros "Hx".
    wstep. iApply (wp_getf with "Hx"). iIntros "Hx". cbn [parent set_right set_red].
    wstep. iApply (wp_setf with "Hy"). iIntros "Hy".
    wstep. iApply (wp_setf with "Hx"). iIntros "Hx".
    wstep. iApply "HQ". simpl. iFrame.
  Qed.
  Lemma wp_rotate_right par c c' a x v b y w d Q :
    tree_at par (Node c (Node c' a x v b) y w d) -∗
    (tree_at par (Node c a x v (Node true b y w d)) -∗ Q (Some x)) -∗
    wp (rotate_right (Some y)) Q.
  Proof.
    iIntros "(Hy&(Hx&Ha&Hb)&Hd) HQ". unfold rotate_right.
    wstep. iApply (wp_getf with "Hy"). iIntros "Hy". cbn [left].
    wstep. iApply (wp_getf with "Hx"). iIntros "Hx". cbn [right].
    wstep. iApply (wp_setf with "Hy"). iIntros "Hy".
    wstep. iApply (wp_getf with "Hy"). iIntros "Hy". cbn [left set_left].
    wstep. iApply (wp_reparent with "Hb"). iIntros "Hb".
    wstep. iApply (wp_setf with "Hx"). iIntros "Hx".
    wstep. iApply (wp_getf with "Hy"). iIntros "Hy". cbn [red set_left].
    wstep. iApply (wp_setf with "Hx"). iIntros "Hx".
    wstep. iApply (wp_setf with "Hy"). iIntros "Hy".
    wstep. iApply (wp_getf with "Hy"). iIntros "Hy". cbn [parent set_left set_red].
    wstep. iApply (wp_setf with "Hx"). iIntros "Hx".
    wstep. iApply (wp_setf with "Hy"). iIntros "Hy".
    wstep. iApply "HQ". simpl. iFrame.
  Qed.

  (** [is_red(p->left)] etc. *)
  Lemma wp_red_left par t Q :
    t ≠ Leaf → tree_at par t -∗ (tree_at par t -∗ Q (isred (lsub t))) -∗
    wp (let! p := getf left (rootp t) in is_red p) Q.
  Proof.
    iIntros (Ht) "H HQ". destruct t as [|c l n v r]; [done|]. iDestruct "H" as "(Hn&Hl&Hr)".
    wstep. iApply (wp_getf with "Hn"). iIntros "Hn". cbn [left].
    iApply (wp_is_red with "Hl"). iIntros "Hl". iApply "HQ". simpl. iFrame.
  Qed.
  Lemma wp_red_right par t Q :
    t ≠ Leaf → tree_at par t -∗ (tree_at par t -∗ Q (isred (rsub t))) -∗
    wp (let! p := getf right (rootp t) in is_red p) Q.
  Proof.
    iIntros (Ht) "H HQ". destruct t as [|c l n v r]; [done|]. iDestruct "H" as "(Hn&Hl&Hr)".
    wstep. iApply (wp_getf with "Hn"). iIntros "Hn". cbn [right].
    iApply (wp_is_red with "Hr"). iIntros "Hr". iApply "HQ". simpl. iFrame.
  Qed.
  Lemma wp_red_left_left par t Q :
    t ≠ Leaf → lsub t ≠ Leaf → tree_at par t -∗ (tree_at par t -∗ Q (isred (lsub (lsub t)))) -∗
    wp (let! p := getf left (rootp t) in let! q := getf left p in is_red q) Q.
  Proof.
    iIntros (Ht Hl) "H HQ". destruct t as [|c l n v r]; [done|]. iDestruct "H" as "(Hn&Hl&Hr)".
    wstep. iApply (wp_getf with "Hn"). iIntros "Hn". cbn [left].
    iApply (wp_red_left with "Hl"); [done|]. iIntros "Hl". iApply "HQ". simpl. iFrame.
  Qed.
  Lemma wp_red_right_left par t Q :
    t ≠ Leaf → rsub t ≠ Leaf → tree_at par t -∗ (tree_at par t -∗ Q (isred (lsub (rsub t)))) -∗
    wp (let! p := getf right (rootp t) in let! q := getf left p in is_red q) Q.
  Proof.
    iIntros (Ht Hl) "H HQ". destruct t as [|c l n v r]; [done|]. iDestruct "H" as "(Hn&Hl&Hr)".
    wstep. iApply (wp_getf with "Hn"). iIntros "Hn". cbn [right].
    iApply (wp_red_left with "Hr"); [done|]. iIntros "Hr". iApply "HQ". simpl. iFrame.
  Qed.
  Lemma isred_nonleaf t : isred t = true → t ≠ Leaf.
  Proof. by destruct t. Qed.

  (** Conditions that only read. *)
  Definition reads {A} (R : iProp) (m : M heap A) (v : A) : Prop := R ⊢ wp m (λ r, ⌜r = v⌝ ∧ R).
  Lemma wp_reads {A} R (m : M heap A) v Q : reads R m v → R -∗ (R -∗ Q v) -∗ wp m Q.
  Proof.
    iIntros (Hm) "HR HQ". iApply (wp_wand with "[HR]"); [by iApply Hm|].
    iIntros (r) "[-> HR]". by iApply "HQ".
  Qed.
  Lemma reads_ret {A} R (v : A) : reads R (ret v) v.
  Proof. iIntros "H". wstep. by iFrame. Qed.
  Lemma reads_and R a b va vb :
    reads R a va → (va = true → reads R b vb) → reads R (andM a b) (va && vb).
  Proof.
    intros Ha Hb. iIntros "HR". unfold andM. wstep. iApply (wp_reads with "HR"); [done|].
    iIntros "HR". destruct va; simpl.
    - iApply (wp_reads with "HR"); [by apply Hb|]. iIntros "HR". by iFrame.
    - wstep. by iFrame.
  Qed.
  Lemma reads_or R a b va vb :
    reads R a va → (va = false → reads R b vb) → reads R (orM a b) (va || vb).
  Proof.
    intros Ha Hb. iIntros "HR". unfold orM. wstep. iApply (wp_reads with "HR"); [done|].
    iIntros "HR". destruct va; simpl.
    - wstep. by iFrame.
    - iApply (wp_reads with "HR"); [by apply Hb|]. iIntros "HR". by iFrame.
  Qed.
  Lemma reads_not R a va : reads R a va → reads R (notM a) (negb va).
  Proof.
    intros Ha. iIntros "HR". unfold notM. wstep. iApply (wp_reads with "HR"); [done|].
    iIntros "HR". wstep. by iFrame.
  Qed.
  Lemma reads_red_left par t : t ≠ Leaf → reads (tree_at par t) (let! p := getf left (rootp t) in is_red p) (isred (lsub t)).
  Proof. iIntros (Ht) "H". iApply (wp_red_left with "H"); [done|]. iIntros "H". by iFrame. Qed.
  Lemma reads_red_right par t : t ≠ Leaf → reads (tree_at par t) (let! p := getf right (rootp t) in is_red p) (isred (rsub t)).
  Proof. iIntros (Ht) "H". iApply (wp_red_right with "H"); [done|]. iIntros "H". by iFrame. Qed.
  Lemma reads_red_left_left par t : t ≠ Leaf → lsub t ≠ Leaf →
    reads (tree_at par t) (let! p := getf left (rootp t) in let! q := getf left p in is_red q) (isred (lsub (lsub t))).
  Proof. iIntros (Ht Hl) "H". iApply (wp_red_left_left with "H"); [done..|]. iIntros "H". by iFrame. Qed.
  Lemma reads_is_red par t : reads (tree_at par t) (is_red (rootp t)) (isred t).
  Proof. iIntros "H". iApply (wp_is_red with "H"). iIntros "H". by iFrame. Qed.

  (** fixup = tfix *)
  Lemma wp_fixup par t Q :
    t ≠ Leaf → tree_at par t -∗ (tree_at par (tfix t) -∗ Q (rootp (tfix t))) -∗
    wp (fixup (rootp t)) Q.
  Proof.
    iIntros (Ht) "H HQ". unfold fixup.
    wstep. iApply (wp_reads with "H").
    { apply reads_and; [by apply reads_red_right|]. intros _. apply reads_not. by apply reads_red_left. }
    iIntros "H". unfold tfix.
    set (t1 := if isred (rsub t) && negb (isred (lsub t)) then rotl t else t).
    iAssert (wp (if isred (rsub t) && negb (isred (lsub t)) then rotate_left (rootp t) else ret (rootp t))
      (λ p, ⌜p = rootp t1⌝ ∧ ⌜t1 ≠ Leaf⌝ ∧ tree_at par t1))%I with "[H]" as "H".
    { subst t1. destruct (isred (rsub t) && _) eqn:E; [|wstep; by iFrame].
      apply andb_true_iff in E as [E _]. destruct t as [|c l x v [|c' b y w d]]; try done.
      iApply (wp_rotate_left with "H"). iIntros "H". by iFrame. }
    wstep. iApply (wp_wand with "H"). iIntros (p) "(->&%Ht1&H)". clearbody t1. clear t Ht.
    wstep. iApply (wp_reads with "H").
    { apply reads_and; [by apply reads_red_left|]. intros ?%isred_nonleaf. by apply reads_red_left_left. }
    iIntros "H".
    set (t2 := if isred (lsub t1) && isred (lsub (lsub t1)) then rotr t1 else t1).
    iAssert (wp (if isred (lsub t1) && isred (lsub (lsub t1)) then rotate_right (rootp t1) else ret (rootp t1))
      (λ p, ⌜p = rootp t2⌝ ∧ ⌜t2 ≠ Leaf⌝ ∧ tree_at par t2))%I with "[H]" as "H".
    { subst t2. destruct (isred (lsub t1) && _) eqn:E; [|wstep; by iFrame].
      apply andb_true_iff in E as [E _]. destruct t1 as [|c [|c' b y w d] x v r]; try done.
      iApply (wp_rotate_right with "H"). iIntros "H". by iFrame. }
    wstep. iApply (wp_wand with "H"). iIntros (p) "(->&%Ht2&H)". clearbody t2. clear t1 Ht1.
    wstep. iApply (wp_reads with "H").
    { apply reads_and; [by apply reads_red_left|]. intros _. by apply reads_red_right. }
    iIntros "H". destruct (isred (lsub t2) && isred (rsub t2)) eqn:E.
    - apply andb_true_iff in E as [E1 E2]. destruct t2 as [|c l x v r]; [done|]. simpl in *.
      wstep. iApply (wp_flip with "H"); [by apply isred_nonleaf..|]. iIntros "H". wstep.
      by iApply "HQ".
    - wsteps. by iApply "HQ".
  Qed.

  Lemma wp_move_left par c l x v r Q :
    l ≠ Leaf → r ≠ Leaf → tree_at par (Node c l x v r) -∗
    (tree_at par (tmovel (Node c l x v r)) -∗ Q (rootp (tmovel (Node c l x v r)))) -∗
    wp (move_left (Some x)) Q.
  Proof.
    iIntros (Hl Hr) "H HQ". unfold move_left, tmovel.
    wstep. iApply (wp_flip with "H"); [done..|]. iIntros "H".
    destruct l as [|cl ll lx lv lr]; [done|]. destruct r as [|cr rl rx rv rr]; [done|]. simpl.
    iDestruct "H" as "(Hx&Hl&Hrx&Hrl&Hrr)".
    wstep. iApply (wp_getf with "Hx"). iIntros "Hx". cbn [right].
    wstep. iApply (wp_getf with "Hrx"). iIntros "Hrx". cbn [left].
    wstep. iApply (wp_is_red with "Hrl"). iIntros "Hrl".
    destruct (isred rl) eqn:E.
    - destruct rl as [|c' a y w b]; [done|]. simpl.
      wstep. iApply (wp_rotate_right x (negb cr) c' a y w b rx rv rr with "[Hrx Hrl Hrr]").
      { simpl. iFrame. }
      iIntros "Hr". wstep. iApply (wp_setf with "Hx"). iIntros "Hx". cbn [set_right].
      wstep. iApply (wp_rotate_left par (negb c) (Node (negb cl) ll lx lv lr) x v (negb cr) a y w (Node true b rx rv rr) with "[Hx Hl Hr]").
      { simpl. iFrame. }
      iIntros "H". wstep. iApply (wp_flip with "H"); [done..|]. iIntros "H". wstep.
      by iApply "HQ".
    - wstep. iApply "HQ". simpl. iFrame.
  Qed.
  Lemma wp_move_right par c l x v r Q :
    l ≠ Leaf → r ≠ Leaf → tree_at par (Node c l x v r) -∗
    (tree_at par (tmover (Node c l x v r)) -∗ Q (rootp (tmover (Node c l x v r)))) -∗
    wp (move_right (Some x)) Q.
  Proof.
    iIntros (Hl Hr) "H HQ". unfold move_right, tmover.
    wstep. iApply (wp_flip with "H"); [done..|]. iIntros "H".
    destruct l as [|cl ll lx lv lr]; [done|]. destruct r as [|cr rl rx rv rr]; [done|]. simpl.
    iDestruct "H" as "(Hx&(Hlx&Hll&Hlr)&Hr)".
    wstep. iApply (wp_getf with "Hx"). iIntros "Hx". cbn [left].
    wstep. iApply (wp_getf with "Hlx"). iIntros "Hlx". cbn [left].
    wstep. iApply (wp_is_red with "Hll"). iIntros "Hll".
    destruct (isred ll) eqn:E.
    - wstep. iApply (wp_rotate_right par (negb c) (negb cl) ll lx lv lr x v (Node (negb cr) rl rx rv rr) with "[Hx Hlx Hll Hlr Hr]").
      { simpl. iFrame. }
      iIntros "H". wstep. iApply (wp_flip with "H"); [by apply isred_nonleaf|done|]. iIntros "H". wstep.
      by iApply "HQ".
    - wstep. iApply "HQ". simpl. iFrame.
  Qed.
  Lemma reads_both_black par t : t ≠ Leaf → reads (tree_at par t) (both_black (rootp t)) (both_blackb t).
  Proof.
    intros Ht. unfold both_black, both_blackb.
    apply reads_and; [apply reads_not, reads_is_red|]. intros _. apply reads_not. by apply reads_red_left.
  Qed.
  Lemma reads_some_both_black par t :
    reads (tree_at par t) (some_both_black (rootp t)) (nonleaf t && both_blackb t).
  Proof.
    destruct t as [|c l x v r]; [apply reads_ret|].
    apply (reads_both_black par (Node c l x v r)). done.
  Qed.
End logic.
