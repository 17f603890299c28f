(** Running out of memory while a map or set is copied. Proof file. *)
From Verif Require Export FaultSpec FaultLogic FaultThrow.
From Verif Require Import FaultMap ThreadMap RbIter RbMap MapHistory MapRuns.
From iris.proofmode Require Import tactics.

Section copy.
  Context {V : Type}.
  Notation C := (rbcell V).
  Notation A := (Allocator C).
  Notation iProp := (bi_car (hpropI C)).
  Notation tree := (RbSpec.tree V).
  (** a node being copied: parent, colour, left, address, value, right *)
  Notation ix := (loc * bool * tree * loc * V * tree)%type.
  Definition src (y : ix) : iProp :=
    let '(par, c, l, x, v, r) := y in
    (x ↦ Rb (Some par) (rootp l) (rootp r) c (Some v) ∗ tree_at x l ∗ tree_at x r)%I.
  Definition src_ok (n : ptr) (fuel : nat) (y : ix) : Prop :=
    let '(par, c, l, x, v, r) := y in n = Some x ∧ height l < fuel ∧ height r < fuel.
  Definition ival (y : ix) : V := let '(par, c, l, x, v, r) := y in v.
  Definition ired (y : ix) : bool := let '(par, c, l, x, v, r) := y in c.
  Definition ileft (y : ix) : tree := let '(par, c, l, x, v, r) := y in l.
  Definition iright (y : ix) : tree := let '(par, c, l, x, v, r) := y in r.
  Definition got_left (nc : loc) (y : ix) : iProp :=
    (∃ l', ⌜copy_of (ileft y) l'⌝ ∧ src y ∗ tree_at nc l' ∗ nc ↦ Rb None (rootp l') None (ired y) (Some (ival y)))%I.
  Definition got_right (nc : loc) (y : ix) : iProp :=
    (∃ l' r', ⌜copy_of (ileft y) l' ∧ copy_of (iright y) r'⌝ ∧ src y ∗ tree_at nc l' ∗ tree_at nc r' ∗
       nc ↦ Rb None (rootp l') (rootp r') (ired y) (Some (ival y)))%I.

  Lemma xp_preorder_copy fuel n :
    Xp (λ al : A, preorder_copy fuel n) (λ x : loc * tree, n = rootp x.2 ∧ height x.2 < fuel)
      (λ x, tree_at x.1 x.2)
      (λ x p, ∃ t', ⌜copy_of x.2 t' ∧ p = rootp t'⌝ ∧ tree_at x.1 x.2 ∗ orphan_at t')%I
      (λ x, tree_at x.1 x.2 ∗ True)%I.
  Proof.
    revert n. induction fuel as [|fuel IH]; intros n.
    { eapply (xp_never 0 2); [cbn [preorder_copy]; tr|]. intros x [_ Hx]. lia. }
    cbn [preorder_copy]. destruct n as [n|].
    2: { apply xp_ret. intros [par t] [Hn Hf]. simpl in *. destruct t; [|done]. iIntros "H". iExists Leaf. by iFrame. }
    apply (xp_conseq _ _ _ _ _ (src_ok (Some n) fuel) src
      (λ y p, ∃ nc, ⌜p = Some nc⌝ ∧ got_right nc y)%I (λ y, src y ∗ True)%I).
    2: { intros [par t] [Hn Hf]. simpl in *. destruct t as [|c l x v r]; [done|]. simpl in *. injection Hn as ->.
      iIntros "H". iExists (par, c, l, x, v, r). iSplit; [iPureIntro; simpl; split_and!; [done|lia|lia]|].
      iExists emp%I. iSplitR; [done|]. iFrame "H". iSplit; [|iIntros "_ $"].
      iIntros (p) "_ H". iDestruct "H" as (nc Hp l' r' Hc) "(H&Hl&Hr&Hc)". simpl in Hc. iExists (Node c l' nc v r').
      iSplit; [iPureIntro; split; [simpl; naive_solver|done]|]. iFrame "H". simpl. iFrame. }
    apply (xp_bind _ _ _ _ (λ y v, ⌜v = ival y⌝ ∧ src y)%I).
    { apply xp_of_wp; [cw|]. intros al [[[[[par c] l] x] v] r] (Hx&Hl&Hr). injection Hx as ->. iIntros "(Hx&Hl&Hr)".
      iApply (wp_node_data with "Hx"). iIntros "Hx". iSplit; [done|]. simpl. iFrame. }
    intros v. apply (xp_bind _ _ _ _ (λ y nc, src y ∗ nc ↦ Rb None None None false (Some (ival y)))%I).
    { eapply xp_throw; [apply (xp_clean 1); [cw|]|].
      - intros al y Hy. iIntros "[%Hv H]". subst v. unfold new_rbnode. iApply wp_allocate. iIntros (nc) "Hnc". iFrame.
      - intros y Hy. iIntros "[_ $]". }
    intros nc. apply (xp_bind _ _ _ _ (λ y c, ⌜c = ired y⌝ ∧ src y ∗ nc ↦ Rb None None None false (Some (ival y)))%I).
    { apply xp_of_wp; [cw|]. intros al [[[[[par c] l] x] v0] r] (Hx&Hl&Hr). injection Hx as ->. iIntros "[(Hx&Hl&Hr) Hn]".
      iApply (wp_getf with "Hx"). iIntros "Hx". iSplit; [done|]. simpl. iFrame. }
    intros c. apply (xp_bind _ _ _ _ (λ y _, src y ∗ nc ↦ Rb None None None (ired y) (Some (ival y)))%I).
    { apply xp_of_wp; [cw|]. intros al y Hy. iIntros "[%Hc [H Hn]]". subst c. iApply (wp_setf with "Hn"). iIntros "Hn". iFrame. }
    intros _. apply (xp_bind _ _ _ _ (λ y lp, ⌜lp = rootp (ileft y)⌝ ∧ src y ∗ nc ↦ Rb None None None (ired y) (Some (ival y)))%I).
    { apply xp_of_wp; [cw|]. intros al [[[[[par c0] l] x] v0] r] (Hx&Hl&Hr). injection Hx as ->. iIntros "[(Hx&Hl&Hr) Hn]".
      iApply (wp_getf with "Hx"). iIntros "Hx". iSplit; [done|]. simpl. iFrame. }
    intros lp. apply (xp_bind _ _ _ _ (λ y _, got_left nc y)).
    { destruct lp as [lp|]; cbn [nonnull].
      2: { apply xp_of_wp; [cw|]. intros al y Hy. iIntros "[%Hl [H Hn]]". iApply (wp_setf with "Hn"). iIntros "Hn".
        iExists Leaf. iSplit; [iPureIntro; by destruct (ileft y)|]. iFrame "H". simpl. iFrame "Hn". }
      apply (xp_bind _ _ _ _ (λ y p, ∃ l', ⌜copy_of (ileft y) l' ∧ p = rootp l' ∧ nonnull p = true⌝ ∧ src y ∗ orphan_at l' ∗ nc ↦ Rb None None None (ired y) (Some (ival y)))%I).
      - eapply xp_conseq; [apply (IH (Some lp))|]. intros [[[[[par c0] l] x] v0] r] (Hx&Hl&Hr). injection Hx as ->.
        iIntros "[%Hlp [(Hx&Hl&Hr) Hn]]". simpl in *. iExists (x, l). iSplit; [done|].
        iExists (x ↦ Rb (Some par) (rootp l) (rootp r) c0 (Some v0) ∗ tree_at x r ∗ nc ↦ Rb None None None c0 (Some v0))%I.
        iFrame. simpl. iSplit.
        + iIntros (p) "(Hx&Hr&Hn) H". iDestruct "H" as (l' [Hc ->]) "[Hl Hl']". iExists l'. iSplit; [|simpl; iFrame]. iPureIntro. split_and!; [done..|].
          destruct l; [done|]. by destruct l'.
        + iIntros "(Hx&Hr&Hn) [Hl _]". iFrame.
      - intros p. apply xp_of_wp; [cw|]. intros al y Hy. iIntros "H". iDestruct "H" as (l' (Hc&->&Hn)) "(H&Hl&Hc)".
        wstep. iApply (wp_setf with "Hc"). iIntros "Hc". unfold set_left. cbn [parent right RbModel.red data].
        wstep. iApply (wp_getf with "Hc"). iIntros "Hc". cbn [left].
        destruct l' as [|c' ll' lx' lv' lr']; [done|]. iDestruct "Hl" as "(Hlx&H1&H2)". simpl rootp.
        iApply (wp_setf with "Hlx"). iIntros "Hlx". iExists (Node c' ll' lx' lv' lr'). iSplit; [done|]. simpl. iFrame. }
    intros _. apply (xp_bind _ _ _ _ (λ y rp, ⌜rp = rootp (iright y)⌝ ∧ got_left nc y)%I).
    { apply xp_of_wp; [cw|]. intros al [[[[[par c0] l] x] v0] r] (Hx&Hl&Hr). injection Hx as ->. iIntros "H".
      iDestruct "H" as (l' Hc) "((Hx&Hl&Hr)&Hl'&Hn)".
      iApply (wp_getf with "Hx"). iIntros "Hx". iSplit; [done|]. iExists l'. simpl. iSplit; [done|]. iFrame. }
    intros rp. apply (xp_bind _ _ _ _ (λ y _, got_right nc y)).
    { destruct rp as [rp|]; cbn [nonnull].
      2: { apply xp_of_wp; [cw|]. intros al y Hy. iIntros "[%Hr H]". iDestruct "H" as (l' Hc) "(H&Hl'&Hn)". iApply (wp_setf with "Hn"). iIntros "Hn".
        iExists l', Leaf. iSplit; [iPureIntro; by destruct (iright y)|]. iFrame "H Hl'". simpl. iFrame "Hn". }
      apply (xp_bind _ _ _ _ (λ y p, ∃ l' r', ⌜copy_of (ileft y) l' ∧ copy_of (iright y) r' ∧ p = rootp r' ∧ nonnull p = true⌝ ∧ src y ∗ tree_at nc l' ∗ orphan_at r' ∗ nc ↦ Rb None (rootp l') None (ired y) (Some (ival y)))%I).
      - eapply xp_conseq; [apply (IH (Some rp))|]. intros [[[[[par c0] l] x] v0] r] (Hx&Hl&Hr). injection Hx as ->.
        iIntros "[%Hlp H]". iDestruct "H" as (l' Hc) "((Hx&Hl&Hr)&Hl'&Hn)". simpl in *. iExists (x, r). iSplit; [done|].
        iExists (x ↦ Rb (Some par) (rootp l) (rootp r) c0 (Some v0) ∗ tree_at x l ∗ tree_at nc l' ∗ nc ↦ Rb None (rootp l') None c0 (Some v0))%I.
        iFrame. simpl. iSplit.
        + iIntros (p) "(Hx&Hr&Hl'&Hn) H". iDestruct "H" as (r' [Hcr ->]) "[Hl Hr']". iExists l', r'. iSplit; [|simpl; iFrame]. iPureIntro. split_and!; [done..|].
          destruct r; [done|]. by destruct r'.
        + iIntros "(Hx&Hr&Hl'&Hn) [Hl _]". iFrame.
      - intros p. apply xp_of_wp; [cw|]. intros al y Hy. iIntros "H". iDestruct "H" as (l' r' (Hcl&Hc&->&Hn)) "(H&Hl'&Hl&Hc)".
        wstep. iApply (wp_setf with "Hc"). iIntros "Hc". unfold set_right. cbn [parent left RbModel.red data].
        wstep. iApply (wp_getf with "Hc"). iIntros "Hc". cbn [right].
        destruct r' as [|c' ll' lx' lv' lr']; [done|]. iDestruct "Hl" as "(Hlx&H1&H2)". simpl rootp.
        iApply (wp_setf with "Hlx"). iIntros "Hlx". iExists l', (Node c' ll' lx' lv' lr'). iSplit; [done|]. simpl. iFrame. }
    intros _. apply xp_ret. intros y Hy. iIntros "H". iExists nc. iSplit; [done|]. done.
  Qed.

  Lemma xp_rb_assign fuel this o :
    Xp (λ al : A, rb_assign fuel this o) (λ t : tree, height t < fuel)
      (λ t, rzip this [] Leaf ∗ rzip o [] t)%I
      (λ t _, ∃ t', ⌜copy_of t t'⌝ ∧ rzip this [] t' ∗ rzip o [] t)%I
      (λ t, rzip this [] Leaf ∗ rzip o [] t ∗ True)%I.
  Proof.
    unfold rb_assign. apply (xp_bind _ _ _ _ (λ t p, ⌜p = None⌝ ∧ rzip this [] Leaf ∗ rzip o [] t)%I).
    { apply xp_of_wp; [cw|]. intros al t Hf. iIntros "[[Hc _] Ho]". simpl. iApply (wp_getf with "Hc"). iIntros "Hc".
      iSplit; [done|]. iFrame "Ho". unfold rzip. simpl. iFrame. }
    intros root. apply (xp_bind _ _ _ _ (λ t _, rzip this [] Leaf ∗ rzip o [] t)%I).
    { destruct root as [root|]; cbn [nonnull].
      - apply xp_of_wp; [cw|]. intros al t Hf. iIntros "[%Hr H]". done.
      - apply xp_ret. intros t Hf. by iIntros "[_ H]". }
    intros _. apply (xp_bind _ _ _ _ (λ t p, ⌜p = rootp t⌝ ∧ rzip this [] Leaf ∗ rzip o [] t)%I).
    { apply xp_of_wp; [cw|]. intros al t Hf. iIntros "[Ht [Hc Ho]]". simpl. iApply (wp_getf with "Hc"). iIntros "Hc".
      iSplit; [done|]. iFrame "Ht". unfold rzip. simpl. iFrame. }
    intros p. destruct p as [p|]; cbn [nonnull].
    2: { apply xp_ret. intros t Hf. iIntros "[%Ht [H Ho]]". destruct t; [|done]. iExists Leaf. iSplit; [done|]. iFrame. }
    apply (xp_bind _ _ _ _ (λ t q, ∃ t', ⌜copy_of t t' ∧ q = rootp t' ∧ nonnull q = true⌝ ∧ rzip this [] Leaf ∗ rzip o [] t ∗ orphan_at t')%I).
    - eapply xp_conseq; [apply (xp_preorder_copy fuel (Some p))|]. intros t Hf. iIntros "[%Hp [H [Ho Ht]]]". iExists (o, t). iSplit; [done|].
      simpl. iExists (rzip this [] Leaf ∗ o ↦ Rb (rootp t) None None true None)%I. iFrame. iSplit.
      + iIntros (q) "[H Ho] Hq". iDestruct "Hq" as (t' [Hc ->]) "[Ht Ht']". iExists t'. iSplit.
        * iPureIntro. split_and!; [done|done|]. destruct t; [done|]. by destruct t'.
        * iFrame "H Ht'". unfold rzip. simpl. iFrame.
      + iIntros "[H Ho] [Ht _]". iFrame "H". unfold rzip. simpl. iFrame.
    - intros q. apply xp_of_wp; [cw|]. intros al t Hf. iIntros "H". iDestruct "H" as (t' (Hc&->&Hn)) "([H _]&Ho&Ht')". simpl.
      wstep. iApply (wp_setf with "H"). iIntros "H". unfold set_parent at 1. cbn [left right RbModel.red data].
      destruct t' as [|c' l' x' v' r']; [done|]. iDestruct "Ht'" as "(Hx'&H1&H2)". simpl rootp.
      iApply (wp_setf with "Hx'"). iIntros "Hx'". iExists (Node c' l' x' v' r'). iSplit; [done|]. iFrame "Ho". unfold rzip. simpl. iFrame.
  Qed.
  Lemma xp_m_assign fuel this o :
    Xp (λ al : A, m_assign fuel this o) (λ x : list (loc * V) * list (loc * V), lg x.1 < fuel ∧ lg x.2 < fuel)
      (λ x, rbt this x.1 ∗ rbt o x.2)%I
      (λ x _, ∃ zs, ⌜zs.*2 = x.2.*2⌝ ∧ rbt this zs ∗ rbt o x.2)%I
      (λ x, rbt this [] ∗ rbt o x.2 ∗ True)%I.
  Proof.
    unfold m_assign. apply (xp_bind _ _ _ _ (λ x _, rbt this [] ∗ rbt o x.2)%I).
    { apply xp_of_wp; [cw|]. intros al x [Hf1 Hf2]. iIntros "[H Ho]". iApply (wp_m_clear with "H"); [done|]. iIntros "$". done. }
    intros _. eapply xp_conseq; [apply (xp_rb_assign fuel this o)|]. intros [xs ys] [Hf1 Hf2]. simpl. iIntros "[H Ho]".
    iDestruct (rbt_open with "H") as (t1 m1) "[%Hx1 H]". destruct Hx1 as (HE&_).
    assert (t1 = Leaf) as -> by (destruct t1; [done|]; simpl in HE; by destruct (elems t1_1)).
    iDestruct (rbt_open with "Ho") as (t0 m0) "[%Hx Ho]". destruct Hx as (HE0&Hr0&Hb0&Hh0&Hm0). cbn [fst snd] in *.
    iExists t0. iSplit; [iPureIntro; lia|]. iExists emp%I. iSplitR; [done|]. iFrame. iSplit.
    - iIntros (_) "_ H". iDestruct "H" as (t' Hcp) "[H Ho]". iExists (elems t'). iSplit; [iPureIntro; rewrite -HE0; by apply copy_of_vals|].
      iSplitL "H".
      + iApply (rbt_close with "H"); [by rewrite (copy_of_isred _ _ Hcp)|by eapply copy_of_balanced].
      + rewrite -HE0. by iApply (rbt_close with "Ho").
    - iIntros "_ (H&Ho&_)". iSplitL "H"; [by iApply (rbt_close _ Leaf 0)|]. iSplitL "Ho"; [|done]. rewrite -HE0. by iApply (rbt_close with "Ho").
  Qed.
  Lemma xp_m_copy fuel o :
    Xp (λ al : A, m_copy fuel o) (λ xs : list (loc * V), lg xs < fuel)
      (λ xs, rbt o xs)
      (λ xs this, ∃ zs, ⌜zs.*2 = xs.*2⌝ ∧ rbt this zs ∗ rbt o xs)%I
      (λ xs, rbt o xs ∗ True)%I.
  Proof.
    unfold m_copy. apply (xp_bind _ _ _ _ (λ xs this, rbt o xs ∗ rzip this [] Leaf)%I).
    { eapply xp_throw; [apply (xp_clean 1); [cw|]|].
      - intros al xs Hf. iIntros "H". iApply wp_rb_new. iIntros (hdr) "Hh". iFrame.
      - intros xs Hf. iIntros "$". }
    intros this. apply (xp_bind _ _ _ _ (λ xs _, ∃ zs, ⌜zs.*2 = xs.*2⌝ ∧ rbt this zs ∗ rbt o xs)%I).
    2: { intros _. apply xp_ret. intros xs Hf. by iIntros "H". }
    eapply xp_conseq; [apply (xp_rb_assign fuel this o)|]. intros ys Hf2. iIntros "[Ho H]".
    iDestruct (rbt_open with "Ho") as (t0 m0) "[%Hx Ho]". destruct Hx as (HE0&Hr0&Hb0&Hh0&Hm0). cbn [fst snd] in *.
    iExists t0. iSplit; [iPureIntro; lia|]. iExists emp%I. iSplitR; [done|]. iFrame. iSplit.
    - iIntros (_) "_ H". iDestruct "H" as (t' Hcp) "[H Ho]". iExists (elems t'). iSplit; [iPureIntro; rewrite -HE0; by apply copy_of_vals|].
      iSplitL "H".
      + iApply (rbt_close with "H"); [by rewrite (copy_of_isred _ _ Hcp)|by eapply copy_of_balanced].
      + rewrite -HE0. by iApply (rbt_close with "Ho").
    - iIntros "_ (H&Ho&_)". iSplitL "Ho"; [|done]. rewrite -HE0. by iApply (rbt_close with "Ho").
  Qed.

  (** an execution that throws at the second node *)
  Definition two (y : ix) : Prop := rootp (ileft y) ≠ None ∨ rootp (iright y) ≠ None.
  Lemma th_preorder_first fuel n (P : iProp) (R : V → iProp) :
    (∀ al : A, P ⊢ wp (node_data n) R) →
    n ≠ None → Th (λ al : A, preorder_copy (S fuel) n) P (∃ v, R v)%I.
  Proof.
    intros Hw Hn. cbn [preorder_copy]. destruct n as [n|]; [|done].
    apply (th_after (λ al : A, node_data (Some n)) _ _ R False%I).
    { apply xp_of_wp; [cw|]. intros al _ _. exact (Hw al). }
    intros v. apply (th_now 0 2); [|intros l; tr].
    eapply th_conseq; [apply th_alloc|reflexivity|]. iIntros "H". by iExists v.
  Qed.
  Lemma th_preorder_copy fuel n (F : ix → iProp) :
    Th (λ al : A, preorder_copy (S (S fuel)) (Some n))
      (∃ y, ⌜src_ok (Some n) (S fuel) y ∧ two y⌝ ∧ F y ∗ src y)%I
      (∃ y, F y ∗ src y ∗ ∃ nc c, nc ↦ c)%I.
  Proof.
    enough (∀ k, k = S fuel → Th (λ al : A, preorder_copy (S k) (Some n)) (∃ y, ⌜src_ok (Some n) (S fuel) y ∧ two y⌝ ∧ F y ∗ src y)%I (∃ y, F y ∗ src y ∗ ∃ nc c, nc ↦ c)%I) as HH by (by apply HH).
    intros k Hk. cbn [preorder_copy].
    apply (th_after _ _ _ (λ v, ∃ y, ⌜src_ok (Some n) (S fuel) y ∧ two y⌝ ∧ F y ∗ src y)%I False%I).
    { apply xp_of_wp; [cw|]. intros al _ _. iIntros "H". iDestruct "H" as ([[[[[par c] l] x] v] r] [(Hx&Hl&Hr) H2]) "[HF (Hx&Hl&Hr)]".
      injection Hx as ->. iApply (wp_node_data with "Hx"). iIntros "Hx". iExists (par, c, l, x, v, r). iSplit; [done|]. simpl. iFrame. }
    intros v. apply (th_after _ _ _ (λ nc, ∃ y, ⌜src_ok (Some n) (S fuel) y ∧ two y⌝ ∧ F y ∗ src y ∗ ∃ c, nc ↦ c)%I (∃ y, ⌜src_ok (Some n) (S fuel) y ∧ two y⌝ ∧ F y ∗ src y)%I).
    { apply (xp_clean 1); [cw|]. intros al _ _. iIntros "H". iDestruct "H" as (y Hy) "[HF H]". unfold new_rbnode. iApply wp_allocate. iIntros (nc) "Hnc".
      iExists y. iSplit; [done|]. iFrame. by iExists _. }
    intros nc. set (J := (∃ y, ⌜src_ok (Some n) (S fuel) y ∧ two y⌝ ∧ F y ∗ src y ∗ ∃ c, nc ↦ c)%I).
    apply (th_after _ _ _ (λ _, J) False%I).
    { apply xp_of_wp; [cw|]. intros al _ _. iIntros "H". iDestruct "H" as ([[[[[par c] l] x] v0] r] [(Hx&Hl&Hr) H2]) "[HF [(Hx&Hl&Hr) Hn]]".
      injection Hx as ->. iApply (wp_getf with "Hx"). iIntros "Hx". iExists (par, c, l, x, v0, r). iSplit; [done|]. simpl. iFrame. }
    intros c. apply (th_after _ _ _ (λ _, J) False%I).
    { apply xp_of_wp; [cw|]. intros al _ _. iIntros "H". iDestruct "H" as (y Hy) "(HF&H&Hn)". iDestruct "Hn" as (c') "Hn".
      iApply (wp_setf with "Hn"). iIntros "Hn". iExists y. iSplit; [done|]. iFrame. by iExists _. }
    intros _. apply (th_after _ _ _ (λ lp, ∃ y, ⌜src_ok (Some n) (S fuel) y ∧ two y ∧ lp = rootp (ileft y)⌝ ∧ F y ∗ src y ∗ ∃ c, nc ↦ c)%I False%I).
    { apply xp_of_wp; [cw|]. intros al _ _. iIntros "H". iDestruct "H" as ([[[[[par c0] l] x] v0] r] [(Hx&Hl&Hr) H2]) "[HF [(Hx&Hl&Hr) Hn]]".
      injection Hx as ->. iApply (wp_getf with "Hx"). iIntros "Hx". iExists (par, c0, l, x, v0, r). iSplit; [done|]. simpl. iFrame. }
    intros lp. destruct lp as [lp|]; cbn [nonnull].
    - apply (th_now 0 2); [|intros ?; tr]. apply (th_now 0 2); [|intros ?; tr].
      subst k. eapply th_conseq; [eapply (th_preorder_first fuel (Some lp) _ (λ _, ∃ y, F y ∗ src y ∗ ∃ c, nc ↦ c)%I); [|done]|reflexivity|].
      + intros al. iIntros "H". iDestruct "H" as ([[[[[par c0] l] x] v0] r] ((Hx&Hl&Hr)&H2&H3)) "[HF [(Hx&Hl&Hr) Hn]]". simpl in H3.
        destruct l as [|cl ll xl vl rl]; [done|]. injection H3 as ->. iDestruct "Hl" as "(Hlx&H1&H2)".
        iApply (wp_node_data with "Hlx"). iIntros "Hlx". iExists (par, c0, Node cl ll xl vl rl, x, v0, r). simpl. iFrame.
      + iIntros "H". iDestruct "H" as (? y) "(HF&H&Hn)". iDestruct "Hn" as (c0) "Hn". iExists y. iFrame. by iExists nc, c0.
    - apply (th_after _ _ _ (λ _, ∃ y, ⌜src_ok (Some n) (S fuel) y ∧ rootp (iright y) ≠ None⌝ ∧ F y ∗ src y ∗ ∃ c, nc ↦ c)%I False%I).
      { apply xp_of_wp; [cw|]. intros al _ _. iIntros "H". iDestruct "H" as (y (Hy&H2&H3)) "(HF&H&Hn)". iDestruct "Hn" as (c') "Hn".
        iApply (wp_setf with "Hn"). iIntros "Hn". iExists y. iSplit; [iPureIntro; split; [done|]; by destruct H2 as [[]|]|]. iFrame. by iExists _. }
      intros _. apply (th_after _ _ _ (λ rp, ∃ y, ⌜src_ok (Some n) (S fuel) y ∧ rp = rootp (iright y) ∧ rp ≠ None⌝ ∧ F y ∗ src y ∗ ∃ c, nc ↦ c)%I False%I).
      { apply xp_of_wp; [cw|]. intros al _ _. iIntros "H". iDestruct "H" as ([[[[[par c0] l] x] v0] r] [(Hx&Hl&Hr) H2]) "[HF [(Hx&Hl&Hr) Hn]]".
        injection Hx as ->. iApply (wp_getf with "Hx"). iIntros "Hx". iExists (par, c0, l, x, v0, r). iSplit; [done|]. simpl. iFrame. }
      intros rp. destruct rp as [rp|]; cbn [nonnull].
      2: { apply (th_absurd 0 2); [tr|]. iIntros "H". iDestruct "H" as (y (_&_&H2)) "H". done. }
      apply (th_now 0 2); [|intros ?; tr]. apply (th_now 0 2); [|intros ?; tr].
      subst k. eapply th_conseq; [eapply (th_preorder_first fuel (Some rp) _ (λ _, ∃ y, F y ∗ src y ∗ ∃ c, nc ↦ c)%I); [|done]|reflexivity|].
      + intros al. iIntros "H". iDestruct "H" as ([[[[[par c0] l] x] v0] r] ((Hx&Hl&Hr)&H3&H2)) "[HF [(Hx&Hl&Hr) Hn]]". simpl in H3.
        destruct r as [|cl ll xl vl rl]; [done|]. injection H3 as ->. iDestruct "Hr" as "(Hlx&H1&H2)".
        iApply (wp_node_data with "Hlx"). iIntros "Hlx". iExists (par, c0, l, x, v0, Node cl ll xl vl rl). simpl. iFrame.
      + iIntros "H". iDestruct "H" as (? y) "(HF&H&Hn)". iDestruct "Hn" as (c0) "Hn". iExists y. iFrame. by iExists nc, c0.
  Qed.

  Lemma elems_two c (l : tree) x v r par :
    2 ≤ length (elems (Node c l x v r)) → two (par, c, l, x, v, r).
  Proof. unfold two. destruct l, r; simpl; try (by left); try (by right). lia. Qed.
  Lemma th_rb_assign fuel this o ys : 2 ≤ fuel → 2 ≤ length ys → lg ys < fuel →
    Th (λ al : A, rb_assign fuel this o) (rzip this [] Leaf ∗ rbt o ys)%I (rzip this [] Leaf ∗ rbt o ys ∗ ∃ nc c, nc ↦ c)%I.
  Proof.
    intros Hf2 Hys Hlg. unfold rb_assign. destruct fuel as [|[|fuel]]; [lia|lia|].
    set (J := (rzip this [] Leaf ∗ rbt o ys)%I).
    apply (th_after _ _ _ (λ p, ⌜p = None⌝ ∧ J)%I False%I).
    { apply xp_of_wp; [cw|]. intros al _ _. iIntros "[[Hc _] Ho]". simpl. iApply (wp_getf with "Hc"). iIntros "Hc".
      iSplit; [done|]. unfold J. iFrame "Ho". unfold rzip. simpl. iFrame. }
    intros root. apply (th_after _ _ _ (λ _, J)%I False%I).
    { destruct root as [root|]; cbn [nonnull].
      - apply xp_of_wp; [cw|]. intros al _ _. iIntros "[%Hr H]". done.
      - apply xp_ret. intros _ _. by iIntros "[_ H]". }
    intros _. set (F := λ y : ix, (let '(par, c, l, x, v, r) := y return iProp in
      ⌜par = o ∧ elems (Node c l x v r) = ys ∧ isred (Node c l x v r) = false ∧ ∃ m, balanced (Node c l x v r) m⌝ ∧
      rzip this [] Leaf ∗ o ↦ Rb (Some x) None None true None)%I).
    apply (th_after _ _ _ (λ p, ∃ y, ⌜src_ok p (S fuel) y ∧ two y⌝ ∧ F y ∗ src y)%I False%I).
    { apply xp_of_wp; [cw|]. intros al _ _. iIntros "[Ht Ho]".
      iDestruct (rbt_open with "Ho") as (t0 m0) "[%Hx [Hc Ho]]". destruct Hx as (HE0&Hr0&Hb0&Hh0&Hm0). simpl.
      iApply (wp_getf with "Hc"). iIntros "Hc".
      destruct t0 as [|c l x v r]; [by subst ys; simpl in Hys; lia|].
      iExists (o, c, l, x, v, r). iSplit.
      - iPureIntro. split; [|apply elems_two; by rewrite HE0]. simpl in *. split_and!; [done|lia|lia].
      - iSplitL "Ht Hc".
        + simpl. iSplit; [iPureIntro; split_and!; by eauto|]. iFrame.
        + done. }
    intros p. destruct p as [p|]; cbn [nonnull].
    2: { apply (th_absurd 0 2); [tr|]. iIntros "H". iDestruct "H" as ([[[[[par c] l] x] v] r] [(Hp&_) _]) "H". done. }
    apply (th_now 0 2); [|intros q; tr].
    eapply th_conseq; [apply (th_preorder_copy fuel p F)|reflexivity|].
    iIntros "H". iDestruct "H" as ([[[[[par c] l] x] v] r]) "(HF&Hs&Hn)". iDestruct "HF" as "[%Hx [Ht Ho]]". destruct Hx as (->&HE&Hr&m&Hb).
    iFrame "Ht Hn". rewrite -HE. iApply (rbt_close o (Node c l x v r) m); [done..|]. unfold rzip. simpl. iFrame.
  Qed.
  Lemma lg_two (ys : list (loc * V)) : 2 ≤ length ys → 2 ≤ lg ys.
  Proof.
    intros Hl. unfold lg. assert (Nat.log2 2 ≤ Nat.log2 (S (length ys))) as H by (apply Nat.log2_le_mono; lia). change (Nat.log2 2) with 1 in H. lia.
  Qed.
  Lemma th_m_assign fuel this o xs ys : 2 ≤ length ys → lg xs < fuel → lg ys < fuel →
    Th (λ al : A, m_assign fuel this o) (rbt this xs ∗ rbt o ys)%I (rbt this [] ∗ rbt o ys ∗ ∃ nc c, nc ↦ c)%I.
  Proof.
    intros Hl Hf1 Hf2. pose proof (lg_two ys Hl). unfold m_assign.
    apply (th_after _ _ _ (λ _, rbt this [] ∗ rbt o ys)%I False%I).
    { apply xp_of_wp; [cw|]. intros al _ _. iIntros "[H Ho]". iApply (wp_m_clear with "H"); [done|]. iIntros "$". done. }
    intros _. eapply th_conseq; [apply (th_rb_assign fuel this o ys); [lia|done..]| |].
    - iIntros "[H Ho]". iFrame "Ho". iDestruct (rbt_open with "H") as (t1 m1) "[%Hx1 H]". destruct Hx1 as (HE&_).
      assert (t1 = Leaf) as -> by (destruct t1; [done|]; simpl in HE; by destruct (elems t1_1)). done.
    - iIntros "(H&Ho&Hn)". iFrame "Ho Hn". by iApply (rbt_close _ Leaf 0).
  Qed.
  Lemma th_m_copy fuel o ys : 2 ≤ length ys → lg ys < fuel →
    Th (λ al : A, m_copy fuel o) (rbt o ys)%I (rbt o ys ∗ ∃ this, rbt this [] ∗ ∃ nc c, nc ↦ c)%I.
  Proof.
    intros Hl Hf2. pose proof (lg_two ys Hl). unfold m_copy.
    apply (th_after _ _ _ (λ this, rzip this [] Leaf ∗ rbt o ys)%I (rbt o ys)%I).
    { apply (xp_clean 1); [cw|]. intros al _ _. iIntros "Ho". iApply wp_rb_new. iIntros (this) "H". iFrame. }
    intros this. apply (th_now 0 2); [|intros q; tr]. eapply th_conseq; [apply (th_rb_assign fuel this o ys); [lia|done..]|reflexivity|].
    iIntros "(H&Ho&Hn)". iFrame "Ho". iExists this. iFrame "Hn". by iApply (rbt_close _ Leaf 0).
  Qed.
End copy.
