(** Running out of memory in the single-linked containers. Proof file. *)
From Verif Require Export FaultSpec FaultLogic.
From Verif Require Import ThreadSl ForwardHistory.
From iris.proofmode Require Import tactics.

Section segments.
  Context {V : Type}.
  Notation C := (cell V).
  Notation A := (Allocator C).
  Notation iProp := (bi_car (hpropI C)).
  Notation ix := (list (loc * slot V) * loc * slot V * list (loc * slot V) * ptr)%type.

  Lemma cl_it_advance s n p : s ≤ 1 → Cl s s (λ al : A, it_advance n p).
  Proof. intros Hs. revert p. induction n as [|n IH]; intros p; simpl; cw. Qed.
  Lemma cl_new_node r : Cl 0 1 (λ al : A, new_node r).
  Proof. cw. Qed.

  Definition seg_pre (x : ix) : iProp := let '(ns1, l, s, ns2, q) := x in cells (ns1 ++ (l,s) :: ns2) q.
  (** a prefix of [vs] of length [k], [k < length vs], has been inserted behind [l] *)
  Definition seg_throw (vs : list V) (x : ix) : iProp :=
    let '(ns1, l, s, ns2, q) := x in
    (∃ ys k, ⌜k < length vs⌝ ∧ ⌜ys.*2 = take k vs⌝ ∧ cells (ns1 ++ (l,s) :: live ys ++ ns2) q)%I.
  Definition seg_post (vs : list V) (x : ix) (p : ptr) : iProp :=
    let '(ns1, l, s, ns2, q) := x in
    (∃ ys, ⌜ys.*2 = vs⌝ ∧ ⌜p = Some (last_loc l ys)⌝ ∧ cells (ns1 ++ (l,s) :: live ys ++ ns2) q)%I.
  Definition seg_at (p : ptr) (x : ix) : Prop := p = Some x.1.1.1.2.
  Definition seg_ref (r : vref V) (v : V) (x : ix) : Prop :=
    let '(ns1, l, s, ns2, q) := x in nrefers (ns1 ++ (l,s) :: ns2) r v.

  Lemma xp_insert_n n p r :
    Xp (λ al : A, fl_insert_after_n p n r) (λ y : ix * V, seg_at p y.1 ∧ seg_ref r y.2 y.1) (λ y, seg_pre y.1)
      (λ y, seg_post (replicate n y.2) y.1) (λ y, seg_throw (replicate n y.2) y.1).
  Proof.
    revert p. induction n as [|n IH]; intros p; cbn [fl_insert_after_n].
    { apply xp_ret. intros [[[[[ns1 l] s] ns2] q] v] [Hp _]. unfold seg_at in Hp. simpl in *. iIntros "H". iExists []. by iFrame. }
    apply (xp_assoc (λ al : A, new_node r) (λ (al : A) x, insert_after p x) (λ al p, fl_insert_after_n p n r) _ _
      (λ y p', ∃ n', ⌜p' = Some n'⌝ ∧ seg_pre (y.1.1.1.1.1 ++ [(y.1.1.1.1.2, y.1.1.1.2)], n', Live y.2, y.1.1.2, y.1.2))%I _ _ 1).
    - apply cl_new_node.
    - intros a. cw.
    - intros al [[[[[ns1 l] s] ns2] q] v] [-> Hr]. simpl. iIntros "H". iApply (wp_new_insert with "H"); [exact Hr|].
      iIntros (n') "H". iExists n'. iSplit; [done|]. by rewrite -app_assoc.
    - intros [[[[[ns1 l] s] ns2] q] v] [Hp Hr]. simpl. iIntros "H". iExists [], 0. iSplit; [iPureIntro; lia|]. by iFrame.
    - intros p'. eapply xp_conseq; [apply IH|]. intros [[[[[ns1 l] s] ns2] q] v] [Hp Hr]. simpl. iIntros "H".
      iDestruct "H" as (n' ->) "H". iExists ((ns1 ++ [(l,s)], n', Live v, ns2, q), v). iSplit.
      { iPureIntro. split; [done|]. simpl. apply (nrefers_insert (ns1 ++ [(l,s)]) [(n',Live v)]). by rewrite -app_assoc. }
      iExists emp%I. iSplitR; [done|]. iFrame "H". iSplit.
      + iIntros (a) "_ H". simpl. iDestruct "H" as (ys Hys ->) "H". iExists ((n',v)::ys).
        iSplit; [iPureIntro; simpl; by f_equal|]. iSplit; [by rewrite last_loc_cons|]. by rewrite -app_assoc.
      + iIntros "_ H". simpl. iDestruct "H" as (ys k Hk Hys) "H". iExists ((n',v)::ys), (S k).
        iSplit; [iPureIntro; lia|]. iSplit; [iPureIntro; simpl; by f_equal|]. by rewrite -app_assoc.
  Qed.
  Lemma xp_insert_ext vs p :
    Xp (λ al : A, fl_insert_after_ext p vs) (seg_at p) seg_pre (seg_post vs) (seg_throw vs).
  Proof.
    revert p. induction vs as [|v vs IH]; intros p; cbn [fl_insert_after_ext].
    { apply xp_ret. intros [[[[ns1 l] s] ns2] q] Hp. unfold seg_at in Hp. simpl in *. iIntros "H". iExists []. by iFrame. }
    apply (xp_assoc (λ al : A, new_node (ExtVal v)) (λ (al : A) x, insert_after p x) (λ al p, fl_insert_after_ext p vs) _ _
      (λ x p', ∃ n', ⌜p' = Some n'⌝ ∧ seg_pre (x.1.1.1.1 ++ [(x.1.1.1.2, x.1.1.2)], n', Live v, x.1.2, x.2))%I _ _ 1).
    - apply cl_new_node.
    - intros a. cw.
    - intros al [[[[ns1 l] s] ns2] q] ->. simpl. iIntros "H". iApply (wp_new_insert with "H"); [done|].
      iIntros (n') "H". iExists n'. iSplit; [done|]. by rewrite -app_assoc.
    - intros [[[[ns1 l] s] ns2] q] Hp. simpl. iIntros "H". iExists [], 0. iSplit; [iPureIntro; lia|]. by iFrame.
    - intros p'. eapply xp_conseq; [apply IH|]. intros [[[[ns1 l] s] ns2] q] Hp. simpl. iIntros "H".
      iDestruct "H" as (n' ->) "H". iExists (ns1 ++ [(l,s)], n', Live v, ns2, q). iSplit; [done|].
      iExists emp%I. iSplitR; [done|]. iFrame "H". iSplit.
      + iIntros (a) "_ H". simpl. iDestruct "H" as (ys Hys ->) "H". iExists ((n',v)::ys).
        iSplit; [iPureIntro; simpl; by f_equal|]. iSplit; [by rewrite last_loc_cons|]. by rewrite -app_assoc.
      + iIntros "_ H". simpl. iDestruct "H" as (ys k Hk Hys) "H". iExists ((n',v)::ys), (S k).
        iSplit; [iPureIntro; lia|]. iSplit; [iPureIntro; simpl; by f_equal|]. by rewrite -app_assoc.
  Qed.

  (** copying the nodes [xs] of another list *)
  Definition its_ok (fuel : nat) (p first' : ptr) (x : ix * list (loc * V)) : Prop :=
    seg_at p x.1 ∧ length x.2 < fuel ∧ first' = first x.2 None.
  Definition its_pre (x : ix * list (loc * V)) : iProp := seg_pre x.1 ∗ cells (live x.2) None.
  Definition its_post (x : ix * list (loc * V)) (p : ptr) : iProp := seg_post x.2.*2 x.1 p ∗ cells (live x.2) None.
  Definition its_throw (x : ix * list (loc * V)) : iProp := seg_throw x.2.*2 x.1 ∗ cells (live x.2) None.
  Lemma xp_insert_its fuel p first' :
    Xp (λ al : A, fl_insert_after_its fuel p first' None) (its_ok fuel p first') its_pre its_post its_throw.
  Proof.
    unfold fl_insert_after_its.
    match goal with |- Xp (λ al : A, loop fuel (@?bd al) _) _ _ _ _ => set (body := bd) end.
    revert p first'. induction fuel as [|fuel IH]; intros p first'.
    { exists PNoFuel. split; [apply perf_nofuel|]. intros x (_&Hx&_). lia. }
    cbn [loop]. destruct first' as [n|].
    2: { apply (xp_bind (λ al : A, body al (p, None))
           (λ al r, match r with inl a => loop fuel (body al) a | inr b => ret b end) _ _ (λ x r, ⌜r = inr p⌝ ∧ its_pre x)%I).
      - apply xp_of_wp.
        + unfold body. cbv beta iota. destruct (decide (@None loc ≠ None)) as [E|_]; [by destruct E|]. cw.
        + intros al x _. iIntros "H". unfold body. cbv beta iota. destruct (decide (@None loc ≠ None)) as [E|_]; [by destruct E|]. wsteps. by iFrame.
      - intros [a|b].
        + destruct a as [p' f']. eapply xp_conseq; [apply (IH p' f')|]. intros x _. iIntros "[%H H]". done.
        + apply xp_ret. intros [x xs] (Hp&_&Hx). simpl in *. iIntros "[%Hb [H Hx]]". injection Hb as ->. unfold its_post.
          destruct xs as [|[n v] xs]; [|done]. iFrame. destruct x as [[[[ns1 l] s] ns2] q]. unfold seg_at in Hp. simpl in *.
          iExists []. by iFrame. }
    apply (xp_bind (λ al : A, body al (p, Some n))
      (λ al r, match r with inl a => loop fuel (body al) a | inr b => ret b end) _ _
      (λ x r, ∃ v xs' n', ⌜x.2 = (n, v) :: xs'⌝ ∧ ⌜r = inl (Some n', first xs' None)⌝ ∧
                  n ↦ Cell (first xs' None) (Live v) ∗ cells (live xs') None ∗
                  seg_pre (x.1.1.1.1.1 ++ [(x.1.1.1.1.2, x.1.1.1.2)], n', Live v, x.1.1.2, x.1.2))%I).
    - eapply xp_throw; [apply (xp_clean 1 (λ al : A, body al (p, Some n)) (its_ok (S fuel) p (Some n)) its_pre)|].
      + unfold body. cbv beta iota. cw.
      + intros al [[[[[ns1 l] s] ns2] q] xs] (Hp&Hf&Hn). unfold seg_at in Hp. simpl in Hp, Hn. subst p.
        destruct xs as [|[n' v] xs]; [done|]. simpl in Hn. injection Hn as <-. unfold body, its_pre, seg_pre. simpl.
        iIntros "[Hns Hxs]".
        destruct (decide (Some n ≠ None)) as [_|E]; [|by destruct E]. iDestruct "Hxs" as "[Hn Hxs]". wsteps. unfold new_node. wstep.
        iApply (wp_value_at with "Hn"). iIntros "Hn". wsteps.
        iDestruct (cells_focus with "Hns") as "(H1&Hl&H2)".
        iApply (wp_insert_after with "Hl [$]"). iIntros "Hl Hx".
        wstep. iApply (wp_get_next with "Hn"). iIntros "Hn". wstep. simpl. rewrite first_live.
        iExists v, xs, l0. iSplit; [done|]. iSplit; [done|]. iFrame "Hn Hxs". iApply cells_focus. rewrite cells_snoc. iFrame.
      + intros [[[[[ns1 l] s] ns2] q] xs] (Hp&Hf&Hx). simpl. iIntros "[Hns Hxs]". unfold its_throw. simpl. iFrame.
        destruct xs as [|[n' v] xs]; [done|]. iExists [], 0. iSplit; [iPureIntro; simpl; lia|]. by iFrame.
    - intros [[p' f']|b].
      + eapply xp_conseq; [apply (IH p' f')|]. intros [[[[[ns1 l] s] ns2] q] xs] (Hp&Hf&Hx). simpl. iIntros "H".
        iDestruct "H" as (v xs' n' -> Hr) "(Hn&Hx&H)". injection Hr as -> ->.
        iExists ((ns1 ++ [(l,s)], n', Live v, ns2, q), xs'). iSplit.
        { iPureIntro. split_and!; [done| |done]. simpl in *. lia. }
        iExists (n ↦ Cell (first xs' None) (Live v))%I. unfold its_pre. simpl. iFrame. iSplit.
        * iIntros (a) "Hn [H Hx]". unfold its_post. simpl. rewrite first_live. iFrame. iDestruct "H" as (ys Hys ->) "H". iExists ((n',v)::ys).
          iSplit; [iPureIntro; simpl; by f_equal|]. iSplit; [by rewrite last_loc_cons|]. by rewrite -app_assoc.
        * iIntros "Hn [H Hx]". unfold its_throw. simpl. rewrite first_live. iFrame. iDestruct "H" as (ys k Hk Hys) "H". iExists ((n',v)::ys), (S k).
          iSplit; [iPureIntro; rewrite !fmap_length in Hk |- *; simpl in *; lia|]. iSplit; [iPureIntro; simpl; by f_equal|]. by rewrite -app_assoc.
      + apply xp_ret. intros [x xs] _. iIntros "H". iDestruct "H" as (v xs' n' _ Hr) "H". done.
  Qed.
End segments.
Ltac cw_hint h ::=
  lazymatch h with
  | @it_advance => cw_by @cl_it_advance
  end.

Section forward.
  Context {V : Type} (eqb : V → V → bool).
  Notation C := (cell V).
  Notation A := (Allocator C).
  Notation iProp := (bi_car (hpropI C)).
  Notation ok := (cstep_ok (fl_fault_spec eqb) length).
  Notation step := (λ al : A, keep_this (fl_step eqb)).
  Notation flX fuel this other op :=
    (XStep step (fl_fault_spec eqb) fl_aborted same_members flR length fuel this other op).

  Lemma wp_fl_x al fuel this other op x :
    ok fuel op x → cstep_pre flR this other x ⊢ wp (step al fuel this other op) (cstep_post flR x).
  Proof.
    destruct x as [[s o] [[s' o'] out]]. intros [Hs Hf]. simpl in Hs, Hf. unfold cstep_pre, cstep_post. simpl.
    assert (fl_spec eqb s o op = Some (s', o', out)) as Hs' by (by destruct op).
    iIntros "[H Ho]". iDestruct "H" as (xs <-) "H". iDestruct "Ho" as (ys <-) "Ho". rewrite !fmap_length in Hf.
    iApply wp_keep_this. iApply (wp_wand with "[H Ho]"); [iApply (wp_fl_step _ _ this other); [done|lia|iFrame]|].
    iIntros ([o1 r]) "[%Hr H]". iDestruct "H" as (xs1 ys1 <- <-) "[H Ho]". iSplit; [done|].
    iSplitL "H"; iExists _; by iFrame.
  Qed.

  Lemma xp_fl_at {X} this i (φ : X → Prop) (xs : X → list (loc * V)) F T :
    (∀ x, φ x → i ≤ S (length (xs x))) →
    Xp (λ al : A, fl_at this i) φ (λ x, flist this (xs x) ∗ F x)%I (λ x p, ⌜p = pos_at this (xs x) i⌝ ∧ flist this (xs x) ∗ F x)%I T.
  Proof.
    intros Hi. apply xp_of_wp; [cw|]. intros al x Hx. iIntros "[H HF]".
    iApply (wp_fl_at with "H"); [by apply Hi|]. iIntros "H". by iFrame.
  Qed.
  Lemma xp_own_ref {X} this i (φ : X → Prop) (xs : X → list (loc * V)) F T :
    (∀ x, φ x → is_Some (xs x !! i)) →
    Xp (λ al : A, own_ref this i) φ (λ x, flist this (xs x) ∗ F x)%I
      (λ x r, ∃ v, ⌜(xs x).*2 !! i = Some v ∧ refers (xs x) r v⌝ ∧ flist this (xs x) ∗ F x)%I T.
  Proof.
    intros Hi. apply xp_of_wp; [cw|]. intros al x Hx. iIntros "[H HF]". destruct (Hi x Hx) as [[l v] Hl].
    iApply (wp_own_ref with "H"); [done|]. iIntros "H". iExists v. iSplit; [iPureIntro|by iFrame].
    split; [by rewrite list_lookup_fmap Hl|]. simpl. by eapply elem_of_list_lookup_2.
  Qed.

  (** the multi-element insertions at a position of a list *)
  Definition at_ok (p : ptr) (i : nat) (x : loc * list (loc * V)) : Prop := i ≤ length x.2 ∧ p = pos_at x.1 x.2 i.
  Definition at_throw (vs : list V) (i : nat) (x : loc * list (loc * V)) : iProp :=
    ∃ ys k, ⌜k < length vs⌝ ∧ ⌜ys.*2 = take k vs⌝ ∧ flist x.1 (take i x.2 ++ ys ++ drop i x.2).
  Definition at_post (vs : list V) (i : nat) (x : loc * list (loc * V)) : iProp :=
    ∃ ys, ⌜ys.*2 = vs⌝ ∧ flist x.1 (take i x.2 ++ ys ++ drop i x.2).
  Lemma xp_fl_insert_n p i n r :
    Xp (λ al : A, fl_insert_after_n p n r) (λ y, at_ok p i y.1 ∧ refers y.1.2 r y.2) (λ y, flist y.1.1 y.1.2)
      (λ y _, at_post (replicate n y.2) i y.1) (λ y, at_throw (replicate n y.2) i y.1).
  Proof.
    eapply xp_conseq; [apply (xp_insert_n n p r)|]. intros [[this xs] v] [[Hi ->] Hr]. simpl in *. iIntros "H".
    destruct (flist_at this xs i Hi) as (ns1&l&s&->&Hys&Heq&Hr'&_). rewrite Heq.
    iExists ((ns1, l, s, live (drop i xs), None), v). iSplit; [iPureIntro; split; [done|by apply Hr']|].
    iExists emp%I. iSplitR; [done|]. iFrame "H". iSplit.
    - iIntros (a) "_ H". iDestruct "H" as (ys Hy _) "H". iExists ys. iSplit; [done|]. simpl. by rewrite Hys live_app.
    - iIntros "_ H". iDestruct "H" as (ys k Hk Hy) "H". iExists ys, k. iSplit; [done|]. iSplit; [done|]. simpl. by rewrite Hys live_app.
  Qed.
  Lemma xp_fl_insert_ext p i vs :
    Xp (λ al : A, fl_insert_after_ext p vs) (at_ok p i) (λ x, flist x.1 x.2) (λ x _, at_post vs i x) (at_throw vs i).
  Proof.
    eapply xp_conseq; [apply (xp_insert_ext vs p)|]. intros [this xs] [Hi ->]. simpl in *. iIntros "H".
    destruct (flist_at this xs i Hi) as (ns1&l&s&->&Hys&Heq&Hr'&_). rewrite Heq.
    iExists (ns1, l, s, live (drop i xs), None). iSplit; [done|].
    iExists emp%I. iSplitR; [done|]. iFrame "H". iSplit.
    - iIntros (a) "_ H". iDestruct "H" as (ys Hy _) "H". iExists ys. iSplit; [done|]. simpl. by rewrite Hys live_app.
    - iIntros "_ H". iDestruct "H" as (ys k Hk Hy) "H". iExists ys, k. iSplit; [done|]. iSplit; [done|]. simpl. by rewrite Hys live_app.
  Qed.

  (** the client code around the call *)
  Lemma xp_done {X B} (m : A → M (gmap loc C) B) (φ : X → Prop) P Q T :
    Xp m φ P (λ x _, Q x ODone) T → Xp (λ al, done (m al)) φ P Q T.
  Proof.
    intros Hm. unfold done. eapply (xp_bind m (λ _ _, ret ODone)); [exact Hm|]. intros a. apply xp_ret. intros x _. by iIntros "H".
  Qed.
  Lemma xp_unwrap {X} (this other : loc) (m : A → M (gmap loc C) (fl_out V)) (φ : X → Prop) P Q T :
    Xp m φ P (λ x r, Q x (this, other, r)) T →
    Xp (λ al, let! (o, r) := (let! r := m al in ret (other, r)) in ret (this, o, r)) φ P Q T.
  Proof.
    intros Hm. apply (xp_bind (λ al, let! r := m al in ret (other, r)) (λ _ '(o, r), ret (this, o, r)) _ _ (λ x or, Q x (this, or.1, or.2))).
    - apply (xp_bind m (λ _ r, ret (other, r)) _ _ (λ x r, Q x (this, other, r))); [exact Hm|]. intros r. apply xp_ret. intros x _. by iIntros "H".
    - intros [o r]. apply xp_ret. intros x _. by iIntros "H".
  Qed.

  (** the addresses of the nodes become part of the index *)
  Notation ny := (list (loc * V) * list (loc * V) * (list V * list V * fl_out V))%type.
  Definition vals (y : ny) : list V * list V * (list V * list V * fl_out V) := (y.1.1.*2, y.1.2.*2, y.2).
  Lemma xp_open fuel this other op (m : A → M (gmap loc C) (fl_out V)) :
    Xp m (λ y : ny, ok fuel op (vals y)) (λ y, flist this y.1.1 ∗ flist other y.1.2)%I
      (λ y r, cstep_post flR (vals y) (this, other, r)) (λ y, cstep_throw fl_aborted same_members flR this other op (vals y)) →
    Xp m (ok fuel op) (cstep_pre flR this other) (λ x r, cstep_post flR x (this, other, r))
      (cstep_throw fl_aborted same_members flR this other op).
  Proof.
    intros Hm. eapply xp_conseq; [exact Hm|]. intros [[s o] res] Hx. unfold cstep_pre. simpl. iIntros "[H Ho]".
    iDestruct "H" as (xs <-) "H". iDestruct "Ho" as (ys <-) "Ho". iExists (xs, ys, res). iSplit; [done|].
    iExists emp%I. iSplitR; [done|]. iFrame. unfold vals. simpl. iSplit; [iIntros (a) "_ $"|iIntros "_ $"].
  Qed.
  Lemma x_post this other xs ys (s o : list V) (res : list V * list V * fl_out V) r :
    res = (xs.*2, ys.*2, r) → flist this xs ∗ flist other ys ⊢ cstep_post flR (s, o, res) (this, other, r).
  Proof.
    intros ->. iIntros "[H Ho]". unfold cstep_post. simpl. iSplit; [done|]. iSplitL "H"; iExists _; by iFrame.
  Qed.
  Lemma x_throw this other op xs ys s o (res : list V * list V * fl_out V) :
    fl_aborted s o op xs.*2 ys.*2 → flist this xs ∗ flist other ys ⊢ cstep_throw fl_aborted same_members flR this other op (s, o, res).
  Proof.
    intros Ha. iIntros "[H Ho]". unfold cstep_throw. simpl. iExists _, _. iSplit; [done|]. iSplitL "H"; iExists _; by iFrame.
  Qed.

  Lemma xp_fl_clear (fuel : nat) (this other : loc) op T :
    Xp (λ al : A, fl_clear fuel this) (λ y : ny, ok fuel op (vals y)) (λ y, flist this y.1.1 ∗ flist other y.1.2)%I
      (λ y _, flist this [] ∗ flist other y.1.2)%I T.
  Proof.
    apply xp_of_wp; [cw|]. intros al [[xs ys] res] [_ Hf]. simpl in *. rewrite !fmap_length in Hf. iIntros "[H Ho]".
    iApply (wp_wand with "[H]"); [iApply (wp_fl_clear with "H"); lia|]. iIntros (_) "H". iFrame.
  Qed.
  Lemma xp_then_ret {X B D} (m : A → M (gmap loc C) B) (d : D) (φ : X → Prop) P Q T :
    Xp m φ P (λ x _, Q x d) T → Xp (λ al, m al ;! ret d) φ P Q T.
  Proof. intros Hm. apply (xp_bind m (λ _ _, ret d) _ _ _ _ _ Hm). intros b. apply xp_ret. intros x _. by iIntros "H". Qed.

  Lemma fl_xstep fuel this other op : flX fuel this other op.
  Proof.
    destruct op;
      try (apply (xstep_clean _ _ _ _ _ _ 1); [unfold keep_this, fl_step; cbv iota; cw|intros al x; by apply wp_fl_x|done|done]);
      try (apply xstep_none; [unfold keep_this, fl_step; cbv iota; cw|intros al x; by apply wp_fl_x]).
    all: unfold XStep.
    all: try (apply xp_unwrap, xp_open).
    - (* insert_after n own *)
      apply (xp_bind _ _ _ _ (λ y p, ⌜p = pos_at this y.1.1 i⌝ ∧ flist this y.1.1 ∗ flist other y.1.2)%I).
      { apply (xp_fl_at this i _ (λ y : ny, y.1.1) (λ y, flist other y.1.2)). intros [[xs ys] res] [Hs _]. simpl in *.
        apply bind_Some in Hs as (v&Hv&Hs). case_decide; [|done]. rewrite fmap_length in H. lia. }
      intros p. apply (xp_pure _ _ (λ y : ny, p = pos_at this y.1.1 i)). apply (xp_bind _ _ _ _ (λ y r, ∃ v, ⌜y.1.1.*2 !! j = Some v ∧ refers y.1.1 r v⌝ ∧ flist this y.1.1 ∗ flist other y.1.2)%I).
      { apply (xp_own_ref this j _ (λ y : ny, y.1.1) (λ y, flist other y.1.2)). intros [[xs ys] res] [[Hs _] _]. simpl in *.
        apply bind_Some in Hs as (v&Hv&Hs). rewrite list_lookup_fmap in Hv. destruct (xs !! j); [eauto|done]. }
      intros r. apply xp_done. eapply xp_conseq; [apply (xp_fl_insert_n p i n r)|].
      intros [[xs ys] res] [[Hs _] Hp]. simpl in *. iIntros "H". iDestruct "H" as (v [Hv Hr]) "[H Ho]".
      rewrite Hv /= in Hs. case_decide as Hi; [|done]. rewrite fmap_length in Hi. simplify_eq.
      iExists (this, xs, v). iSplit; [done|]. iExists (flist other ys). iFrame. iSplit.
      * iIntros (_) "Ho H". iDestruct "H" as (zs Hz) "H". unfold vals; simpl; iApply (x_post with "[$H $Ho]").
        f_equal. f_equal. symmetry. by apply snd_take_drop.
      * iIntros "Ho H". iDestruct "H" as (zs k Hk Hz) "H". unfold vals; simpl; iApply (x_throw with "[$H $Ho]"). split; [done|]. simpl.
        rewrite replicate_length in Hk. exists v, k. split_and!; [done..|]. rewrite take_replicate Nat.min_l in Hz; [|lia].
        by apply snd_take_drop.
    - (* insert_after n *)
      apply (xp_bind _ _ _ _ (λ y p, ⌜p = pos_at this y.1.1 i⌝ ∧ flist this y.1.1 ∗ flist other y.1.2)%I).
      { apply (xp_fl_at this i _ (λ y : ny, y.1.1) (λ y, flist other y.1.2)). intros [[xs ys] res] [Hs _]. simpl in *.
        case_decide; [|done]. rewrite fmap_length in H. lia. }
      intros p. apply xp_done. eapply xp_conseq; [apply (xp_fl_insert_n p i n (ExtVal v))|].
      intros [[xs ys] res] [Hs _]. simpl in *. iIntros "[%Hp [H Ho]]".
      case_decide as Hi; [|done]. rewrite fmap_length in Hi. simplify_eq.
      iExists (this, xs, v). iSplit; [done|]. iExists (flist other ys). iFrame. iSplit.
      + iIntros (_) "Ho H". iDestruct "H" as (zs Hz) "H". unfold vals; simpl; iApply (x_post with "[$H $Ho]").
        f_equal. f_equal. symmetry. by apply snd_take_drop.
      + iIntros "Ho H". iDestruct "H" as (zs k Hk Hz) "H". unfold vals; simpl; iApply (x_throw with "[$H $Ho]"). split; [done|]. simpl.
        rewrite replicate_length in Hk. exists k. split_and!; [done..|]. rewrite take_replicate Nat.min_l in Hz; [|lia].
        by apply snd_take_drop.
    - (* insert_after range *)
      apply (xp_bind _ _ _ _ (λ y p, ⌜p = pos_at this y.1.1 i⌝ ∧ flist this y.1.1 ∗ flist other y.1.2)%I).
      { apply (xp_fl_at this i _ (λ y : ny, y.1.1) (λ y, flist other y.1.2)). intros [[xs ys] res] [Hs _]. simpl in *.
        case_decide; [|done]. rewrite fmap_length in H. lia. }
      intros p. apply xp_done. eapply xp_conseq; [apply (xp_fl_insert_ext p i vs)|].
      intros [[xs ys] res] [Hs _]. simpl in *. iIntros "[%Hp [H Ho]]".
      case_decide as Hi; [|done]. rewrite fmap_length in Hi. simplify_eq.
      iExists (this, xs). iSplit; [done|]. iExists (flist other ys). iFrame. iSplit.
      + iIntros (_) "Ho H". iDestruct "H" as (zs Hz) "H". unfold vals; simpl; iApply (x_post with "[$H $Ho]").
        f_equal. f_equal. symmetry. by apply snd_take_drop.
      + iIntros "Ho H". iDestruct "H" as (zs k Hk Hz) "H". unfold vals; simpl; iApply (x_throw with "[$H $Ho]"). split; [done|]. simpl.
        exists k. split_and!; [done..|]. by apply snd_take_drop.
    - (* assign *)
      apply xp_done. unfold fl_assign_ext. apply (xp_bind _ _ _ _ (λ y _, flist this [] ∗ flist other y.1.2)%I).
      { by apply xp_fl_clear. }
      intros _. apply xp_then_ret. eapply xp_conseq; [apply (xp_fl_insert_ext (Some this) 0 vs)|].
      intros [[xs ys] res] [Hs _]. simpl in *. simplify_eq. iIntros "[H Ho]". iExists (this, []). iSplit; [by iPureIntro; split|].
      iExists (flist other ys). iFrame. iSplit.
      + iIntros (_) "Ho H". iDestruct "H" as (zs Hz) "H". unfold vals; simpl; iApply (x_post with "[$H $Ho]").
        by rewrite app_nil_r Hz.
      + iIntros "Ho H". iDestruct "H" as (zs k Hk Hz) "H". unfold vals; simpl; iApply (x_throw with "[$H $Ho]"). split; [done|]. simpl.
        exists k. split_and!; [done..|]. by rewrite app_nil_r Hz.
    - (* assign n *)
      apply xp_done. unfold fl_assign_n. apply (xp_bind _ _ _ _ (λ y _, flist this [] ∗ flist other y.1.2)%I).
      { by apply xp_fl_clear. }
      intros _. apply xp_then_ret. eapply xp_conseq; [apply (xp_fl_insert_n (Some this) 0 n (ExtVal v))|].
      intros [[xs ys] res] [Hs _]. simpl in *. simplify_eq. iIntros "[H Ho]". iExists (this, [], v). iSplit; [by iPureIntro; split_and!|].
      iExists (flist other ys). iFrame. iSplit.
      + iIntros (_) "Ho H". iDestruct "H" as (zs Hz) "H". unfold vals; simpl; iApply (x_post with "[$H $Ho]").
        by rewrite app_nil_r Hz.
      + iIntros "Ho H". iDestruct "H" as (zs k Hk Hz) "H". unfold vals; simpl; iApply (x_throw with "[$H $Ho]"). split; [done|]. simpl.
        rewrite replicate_length in Hk. exists k. split_and!; [done..|]. rewrite take_replicate Nat.min_l in Hz; [|lia]. by rewrite app_nil_r Hz.
    - (* operator= *)
      apply xp_done. unfold fl_assign_from. apply (xp_bind _ _ _ _ (λ y _, flist this [] ∗ flist other y.1.2)%I).
      { by apply xp_fl_clear. }
      intros _. apply (xp_bind _ _ _ _ (λ y b, ⌜b = first y.1.2 None⌝ ∧ flist this [] ∗ flist other y.1.2)%I).
      { apply xp_of_wp; [cw|]. intros al [[xs ys] res] _. simpl. iIntros "[H Ho]". iApply (wp_fl_begin with "Ho"). iIntros "Ho". by iFrame. }
      intros b. apply xp_then_ret. eapply xp_conseq; [apply (xp_insert_its fuel (Some this) b)|].
      intros [[xs ys] res] [Hs Hf]. simpl in *. simplify_eq. iIntros "[%Hb [H Ho]]".
      iExists (([], this, Hdr, [], None), ys). iSplit.
      { iPureIntro. split_and!; [done| |done]. simpl in *. rewrite !fmap_length in Hf. lia. }
      iDestruct "Ho" as "[Ho Hx]". iExists (other ↦ Cell (first (live ys) None) Hdr)%I. unfold its_pre. simpl. iFrame. iSplit.
      + iIntros (p) "Ho [H Hx]". unfold its_post. iDestruct "H" as (zs Hz _) "H". unfold vals; simpl.
        iApply (x_post _ _ zs ys); [by rewrite Hz|]. unfold flist. rewrite app_nil_r /=. iFrame.
      + iIntros "Ho [H Hx]". iDestruct "H" as (zs k Hk Hz) "H". unfold vals; simpl; iApply (x_throw _ _ _ zs ys).
        * split; [done|]. simpl. exists k. split; [exact Hk|exact Hz].
        * unfold flist. rewrite app_nil_r /=. iFrame.
    - eapply xp_never; [apply tr_fl_step|]. intros x [Hx _]. done.
  Qed.
  Lemma fl_survives ops :
    survives_failures (λ al : A, fl_new) (λ al, fl_destroy) step [] (fl_fault_spec eqb) (λ _, True) fl_aborted same_members ops.
  Proof.
    apply (survives_failures_ok _ _ _ _ _ _ _ _ flR length).
    - intros al. iStartProof. iApply (wp_wand with "[]"); [by iApply wp_fl_new|]. iIntros (b) "H". iExists []. by iFrame.
    - intros al fuel a s _ Hf. iIntros "H". iDestruct "H" as (xs <-) "H". rewrite fmap_length in Hf.
      by iApply (wp_fl_destroy with "H").
    - apply fl_xstep.
  Qed.
End forward.
