(** Running out of memory in set and map. Proof file. *)
From Verif Require Export FaultSpec FaultLogic.
From Verif Require Import ThreadMap MapHistory RbFind.
From iris.proofmode Require Import tactics.

Section fixpoints.
  Context {V : Type}.
  Lemma cl_postorder_destroy n p : Cl 1 1 (λ al : Allocator (rbcell V), postorder_destroy n p).
  Proof. revert p. induction n as [|n IH]; intros p; simpl; [apply cw_nofuel; lia|]. destruct p; cw. Qed.
End fixpoints.
Ltac cw_hint h ::=
  lazymatch h with
  | @postorder_destroy => cw_by @cl_postorder_destroy
  end.

Section inner.
  Context {K V : Type} (keyof : V → K) (lt eqb : K → K → bool).
  Notation A := (Allocator (rbcell V)).
  Lemma cl_insert_rebalance n hdr e par : Cl 1 1 (λ al : A, insert_rebalance n hdr e par).
  Proof. cw. Qed.
  Lemma cl_rb_remove n hdr k : Cl 1 1 (λ al : A, rb_remove keyof lt eqb n hdr k).
  Proof. cw. Qed.
End inner.
Ltac cw_hint h ::=
  lazymatch h with
  | @postorder_destroy => cw_by @cl_postorder_destroy
  | @insert_rebalance => cw_by @cl_insert_rebalance
  | @rb_remove => cw_by @cl_rb_remove
  end.
Section unique.
  Context {K V : Type} (keyof : V → K) (lt eqb : K → K → bool).
  Notation A := (Allocator (rbcell V)).
  Lemma cl_insert_unique n hdr v : Cl 0 1 (λ al : A, rb_insert_unique keyof lt eqb n hdr v).
  Proof. cw. Qed.
End unique.
Ltac cw_hint h ::=
  lazymatch h with
  | @postorder_destroy => cw_by @cl_postorder_destroy
  | @insert_rebalance => cw_by @cl_insert_rebalance
  | @rb_remove => cw_by @cl_rb_remove
  | @rb_insert_unique => cw_by @cl_insert_unique
  end.

(** Insertion in two halves: the search allocates nothing. *)
Section found.
  Context {K V : Type} (keyof : V → K) (lt eqb : K → K → bool).
  Notation C := (rbcell V).
  Notation A := (Allocator C).
  Notation iProp := (bi_car (hpropI C)).
  Context (Hord : RbSpec.key_order lt eqb).
  Notation R := (mrep keyof lt).
  Notation has := (has keyof eqb).
  Notation s_insert := (s_insert keyof lt eqb).
  Notation nokey key xs := (∃ E1 E2, xs = E1 ++ E2 ∧ all_lt keyof lt key E1 ∧ all_gt keyof lt key E2).
  Definition ufound (this : loc) (v : V) (xs : list (loc * V)) z : iProp :=
    (∃ t0 m, ⌜elems t0 = xs ∧ isred t0 = false ∧ balanced t0 m ∧ height t0 ≤ lg xs⌝ ∧
      unique_found keyof lt eqb this t0 v z)%I.
  (** the outcome of insert(v) with the contents [xs] *)
  Definition rins (this : loc) (v : V) (xs : list (loc * V)) (r : ptr * bool) : iProp :=
    ((∃ E1 x w E2, ⌜r = (Some x, false) ∧ xs = E1 ++ (x, w) :: E2 ∧ eqb (keyof v) (keyof w) = true⌝ ∧ rbt this xs) ∨
     (∃ E1 n E2, ⌜r = (Some n, true) ∧ xs = E1 ++ E2 ∧ all_lt keyof lt (keyof v) E1 ∧ all_gt keyof lt (keyof v) E2⌝ ∧
        rbt this (E1 ++ (n, v) :: E2)))%I.
  Lemma wp_s_search this v xs fuel :
    nondesc keyof lt xs → lg xs < fuel → rbt this xs ⊢ wp (unique_search keyof lt eqb fuel this v) (ufound this v xs).
  Proof.
    intros Hs Hf. iIntros "H".
    iDestruct (rbt_open with "H") as (t m) "[%Hx H]". destruct Hx as (HE&Hr&Hb&Hh&Hm). subst xs.
    iApply (wp_wand with "[H]"); [iApply (wp_unique_search _ _ _ Hord with "H"); [done|done|done|lia]|].
    iIntros (z) "H". iExists t, m. iSplit; [done|done].
  Qed.
  Lemma wp_s_finish al this v xs fuel z :
    lg xs < fuel → ufound this v xs z ⊢ wp (unique_finish (H:=al) fuel this v z) (rins this v xs).
  Proof.
    intros Hf. iIntros "H". iDestruct "H" as (t m) "[%Hx H]". destruct Hx as (<-&Hr&Hb&Hh).
    iApply (wp_unique_finish with "H"); [lia|]. iSplit.
    - iIntros (E1 x w E2) "%Hx H". destruct Hx as [HE He]. iLeft. iExists E1, x, w, E2. iSplit; [done|]. by iApply (rbt_close with "H").
    - iIntros (E1 n E2 t') "%Hx H". destruct Hx as (HE&HE'&HL&HR&?&?). iRight. iExists E1, n, E2. iSplit; [done|].
      rewrite -HE'. by iApply (rbt_close' with "H").
  Qed.
  Lemma ufound_absent this v xs e : ufound this v xs (inl e) ⊢ ⌜nokey (keyof v) xs⌝ ∧ rbt this xs.
  Proof.
    iIntros "H". iDestruct "H" as (t m) "[%Hx H]". destruct Hx as (<-&Hr&Hb&Hh). iDestruct "H" as "[H|H]".
    - iDestruct "H" as (E1 x w E2) "[%Hx H]". destruct Hx as [? _]. done.
    - iDestruct "H" as (k c) "[%Hx H]". destruct Hx as (_&_&_&Hp&HL&HR). iSplit.
      + iPureIntro. exists (lefts k), (rights k). by rewrite -Hp elems_plug.
      + rewrite -(rzip_plug this k) Hp. by iApply (rbt_close with "H").
  Qed.
  Lemma xp_rins {X} fuel this v (φ : X → Prop) (f : X → list (loc * V)) F :
    (∀ x, φ x → nondesc keyof lt (f x) ∧ lg (f x) < fuel) →
    Xp (λ al : A, rb_insert_unique keyof lt eqb fuel this v) φ (λ x, rbt this (f x) ∗ F x)%I (λ x r, rins this v (f x) r ∗ F x)%I
      (λ x, ⌜nokey (keyof v) (f x)⌝ ∧ rbt this (f x) ∗ F x)%I.
  Proof.
    intros Hf.
    change (λ al : A, rb_insert_unique keyof lt eqb fuel this v)
      with (λ al : A, let! r := unique_search keyof lt eqb fuel this v in unique_finish fuel this v r).
    apply (xp_bind (λ al : A, unique_search keyof lt eqb fuel this v) (λ al, unique_finish fuel this v) _ _ (λ x z, ufound this v (f x) z ∗ F x)%I).
    - apply xp_of_wp; [unfold unique_search; cw|]. intros _ x Hx. iIntros "[H F]".
      iApply (wp_wand with "[H]"); [iApply (wp_s_search with "H"); by apply Hf|]. iIntros (z) "H". iFrame.
    - intros [e|p].
      + eapply xp_throw; [apply (xp_clean 1 (λ al : A, unique_finish fuel this v (inl e))); [unfold unique_finish; destruct e; cw|]|].
        * intros al x Hx. simpl. iIntros "[H F]". iApply (wp_wand with "[H]"); [iApply (wp_s_finish with "H"); by apply Hf|].
          iIntros (z) "H". iFrame.
        * intros x Hx. simpl. iIntros "[H F]". iDestruct (ufound_absent with "H") as "[%Hh H]". iSplit; [done|]. iFrame.
      + apply xp_ret. intros x Hx. iIntros "[H F]". iFrame.
        iDestruct "H" as (t m) "[%Hy H]". destruct Hy as (Ht&Hr&Hb&Hh). iDestruct "H" as "[H|H]".
        * iDestruct "H" as (E1 y w E2) "[%Hy H]". destruct Hy as (Hp&HE&He). injection Hp as ->. iLeft.
          iExists E1, y, w, E2. iSplit; [by rewrite -Ht|]. rewrite -Ht. by iApply (rbt_close with "H").
        * iDestruct "H" as (k' c) "[%Hy H]". destruct Hy as [? _]. done.
  Qed.
  Lemma nokey_has key xs : nokey key xs → has key xs.*2 = false.
  Proof. intros (E1&E2&->&HL%all_lt_values&HR%all_gt_values). rewrite fmap_app. by apply (absent_has _ _ _ Hord). Qed.
  Definition ins_post (this : loc) (v : V) (vs : list V) (r : ptr * bool) : iProp :=
    (∃ x w E1 E2, ⌜r.1 = Some x ∧
        (w, r.2) = match head (matching keyof eqb (keyof v) vs) with Some w => (w, false) | None => (v, true) end ∧
        (E1 ++ (x, w) :: E2).*2 = s_insert v vs ∧ ascending keyof lt (s_insert v vs)⌝ ∧ rbt this (E1 ++ (x, w) :: E2))%I.
  Lemma rins_post this v xs r : ascending keyof lt xs.*2 → rins this v xs r ⊢ ins_post this v xs.*2 r.
  Proof.
    intros Hasc. iIntros "[H|H]".
    - iDestruct "H" as (E1 x w E2) "[%Hx H]". destruct Hx as (->&->&He). rewrite fmap_mid in Hasc.
      iExists x, w, E1, E2. iSplit; [|done].
      iPureIntro. rewrite !fmap_mid (present_matching _ _ _ Hord) // present_insert //.
    - iDestruct "H" as (E1 n E2) "[%Hx H]". destruct Hx as (->&->&HL&HR). rewrite fmap_app in Hasc.
      apply all_lt_values in HL. apply all_gt_values in HR.
      iExists n, v, E1, E2. iSplit; [|done].
      iPureIntro. rewrite fmap_mid fmap_app (absent_matching _ _ _ Hord) // (absent_insert _ _ _ Hord) //.
      split_and!; try done. by apply ascending_insert_mid.
  Qed.
  Lemma xp_unique {X} fuel this v (φ : X → Prop) (f : X → list V) F :
    (∀ x, φ x → mneed (f x) ≤ fuel) →
    Xp (λ al : A, rb_insert_unique keyof lt eqb fuel this v) φ (λ x, R this (f x) ∗ F x)%I (λ x r, ins_post this v (f x) r ∗ F x)%I
      (λ x, ⌜has (keyof v) (f x) = false⌝ ∧ R this (f x) ∗ F x)%I.
  Proof.
    intros Hf. eapply xp_conseq; [apply (xp_rins fuel this v (λ xs, nondesc keyof lt xs ∧ lg xs < fuel) (λ xs, xs) (λ _, emp)%I); done|].
    intros x Hx. specialize (Hf x Hx). iIntros "[H F]".
    iDestruct (mrep_open _ _ _ Hord with "H") as (xs) "[%Hy H]". destruct Hy as (Hy&Hasc&Hasc'&Hnd&Hlg&Hlen).
    iExists xs. iSplit; [iPureIntro; split; [done|lia]|]. iExists (F x). iFrame. iSplit.
    - iIntros (r) "F [H _]". iFrame. rewrite -Hy. iApply (rins_post with "H"). by rewrite Hy.
    - iIntros "F [%Hn [H _]]". iSplit; [|iFrame; rewrite -Hy; iApply mrep_close; [by rewrite Hy|done]].
      iPureIntro. rewrite -Hy. by apply nokey_has.
  Qed.
  Lemma xp_insert {B X} fuel this v (k : ptr * bool → M (gmap loc C) B) (φ : X → Prop) (f : X → list V) F Q :
    (∀ x, φ x → mneed (f x) ≤ fuel) → (∀ r, Cl 1 1 (λ al : A, k r)) →
    (∀ x r, φ x → ins_post this v (f x) r ∗ F x ⊢ wp (k r) (Q x)) →
    Xp (λ al : A, let! r := rb_insert_unique keyof lt eqb fuel this v in k r) φ (λ x, R this (f x) ∗ F x)%I Q
      (λ x, ⌜has (keyof v) (f x) = false⌝ ∧ R this (f x) ∗ F x)%I.
  Proof.
    intros Hf Hk Hw.
    apply (xp_bind (λ al : A, rb_insert_unique keyof lt eqb fuel this v) (λ _, k) _ _ (λ x r, ins_post this v (f x) r ∗ F x)%I).
    { by apply xp_unique. }
    intros r. apply xp_of_wp; [apply Hk|]. intros _ x Hx. by apply Hw.
  Qed.
End found.

Section set.
  Context {K V : Type} (keyof : V → K) (lt eqb : K → K → bool) (veqb : V → V → bool).
  Notation C := (rbcell V).
  Notation A := (Allocator C).
  Notation iProp := (bi_car (hpropI C)).
  Context (Hord : RbSpec.key_order lt eqb).
  Notation step := (λ al : A, keep_this (m_step keyof lt eqb veqb)).
  Notation ok := (cstep_ok (set_fault_spec keyof lt eqb veqb) mneed).
  Notation R := (mrep keyof lt).
  Notation ins := (λ xs v, s_insert keyof lt eqb v xs).

  Lemma wp_m_x al fuel this other op x :
    ok fuel op x → cstep_pre R this other x ⊢ wp (step al fuel this other op) (cstep_post R x).
  Proof.
    destruct x as [[s o] [[s' o'] out]]. intros [Hs Hf]. simpl in Hs, Hf.
    assert (m_spec keyof lt eqb veqb s o op = Some (s', o', out)) as Hs' by (by destruct op).
    iIntros "H". iApply wp_keep_this. iApply (wp_wand with "[H]"); [iApply (wp_m_step _ _ _ _ Hord _ _ _ _ _ _ _ _ _ Hs' Hf with "H")|].
    iIntros ([o1 r]) "H". done.
  Qed.
  Lemma xp_inserted fuel this v :
    Xp (λ al : A, rb_insert_unique keyof lt eqb fuel this v) (λ xs, mneed xs ≤ fuel) (R this)
      (λ xs _, R this (ins xs v)) (λ xs, ⌜has keyof eqb (keyof v) xs = false⌝ ∧ R this xs)%I.
  Proof.
    change (λ al : A, rb_insert_unique keyof lt eqb fuel this v)
      with (λ al : A, let! r := unique_search keyof lt eqb fuel this v in unique_finish fuel this v r).
    eapply xp_conseq; [apply (xp_unique _ _ _ Hord fuel this v (λ xs, mneed xs ≤ fuel) (λ xs, xs) (λ _, emp)%I); done|].
    intros xs Hf. iIntros "H". iExists xs. iSplit; [done|]. iExists emp%I. iSplitR; [done|]. iFrame "H". iSplit.
    - iIntros (r) "_ [H _]". iDestruct "H" as (x w E1 E2) "[%Hx H]". destruct Hx as (_&_&Hx&Hs). simpl. iExists _. by iSplit.
    - iIntros "_ [%Hh [H _]]". by iSplit.
  Qed.
  Lemma xp_m_insert_range fuel this vs :
    Xp (λ al : A, m_insert_range keyof lt eqb fuel this vs) (λ xs, mneed (foldl ins xs vs) ≤ fuel) (R this)
      (λ xs _, R this (foldl ins xs vs))
      (λ xs, ∃ k v, ⌜vs !! k = Some v ∧ has keyof eqb (keyof v) (foldl ins xs (take k vs)) = false⌝ ∧ R this (foldl ins xs (take k vs)))%I.
  Proof.
    induction vs as [|v vs IH]; cbn [m_insert_range foldl].
    { apply xp_ret. intros xs _. by iIntros "H". }
    apply (xp_bind (λ al : A, rb_insert_unique keyof lt eqb fuel this v) (λ al _, m_insert_range keyof lt eqb fuel this vs) _ _ (λ xs _, R this (ins xs v))).
    - eapply xp_conseq; [apply (xp_inserted fuel this v)|].
      intros xs Hf. iIntros "H". iExists xs. iSplit.
      { iPureIntro. pose proof (s_insert_length keyof lt eqb Hord v xs). pose proof (s_inserts_length keyof lt eqb Hord (s_insert keyof lt eqb v xs) vs).
        simpl in Hf. unfold mneed in *. lia. }
      iExists emp%I. iSplitR; [done|]. iFrame "H". iSplit; [iIntros (r) "_ H"; done|].
      iIntros "_ [%Hh H]". iExists 0, v. simpl. iFrame. done.
    - intros _. eapply xp_conseq; [apply IH|]. intros xs Hf. iIntros "H". iExists (ins xs v). iSplit; [done|]. iExists emp%I. iSplitR; [done|].
      iFrame "H". iSplit; [iIntros (_) "_ $"|]. iIntros "_ H". iDestruct "H" as (k w Hk) "H". iExists (S k), w. simpl. by iFrame.
  Qed.
  Lemma m_xstep fuel this other op : XStep step (set_fault_spec keyof lt eqb veqb) (set_aborted keyof lt eqb) same_members R mneed fuel this other op.
  Proof.
    destruct op;
      try (apply (xstep_clean _ _ _ _ _ _ 1); [unfold keep_this, m_step; cbv iota; cw|intros al x; by apply wp_m_x|done|done]);
      try (apply xstep_none; [unfold keep_this, m_step; cbv iota; cw|intros al x; by apply wp_m_x]).
    all: unfold XStep.
    - apply (xp_bind (λ al : A, m_step keyof lt eqb veqb fuel this other (MInsert v)) _ _ _ (λ x or, cstep_post R x (this, or.1, or.2))).
      2: { intros [o r]. apply xp_ret. intros x _. by iIntros "H". }
      unfold m_step.
      eapply xp_conseq; [apply (xp_insert _ _ _ Hord fuel this v (λ '(p, b), let! w := node_data p in ret (other, UIns w b))
        (ok fuel (MInsert v)) (λ x, x.1.1) (λ x, R other x.1.2) (λ x or, cstep_post R x (this, or.1, or.2)))|].
      + intros [[s o] [[s' o'] out]] [Hs Hf]. unfold mneed in *. simpl in *. lia.
      + intros [p b]. cw.
      + intros [[s o] [[s' o'] out]] [p b] [Hs Hf]. simpl in Hs. injection Hs as <- <- <-. simpl in Hf.
        iIntros "[H Ho]". iDestruct "H" as (x w E1 E2) "[%Hx H]". simpl in Hx. destruct Hx as (->&Hx&Hy&Hs).
        wstep. iApply (wp_data_at with "H"). iIntros "H". wstep. unfold cstep_post. simpl. iSplit.
        { iPureIntro. destruct (head _); congruence. }
        iFrame. rewrite -Hy. iApply mrep_close; [by rewrite Hy|done].
      + intros [[s o] [[s' o'] out]] Hx. unfold cstep_pre. simpl. iIntros "[H Ho]". iExists (s, o, (s', o', out)). iSplit; [done|].
        iExists emp%I. iSplitR; [done|]. simpl. iFrame. iSplit; [iIntros (a) "_ $"|].
        iIntros "_ [%Hh [H Ho]]". unfold cstep_throw. simpl. iExists s, o. iSplit; [done|]. iFrame.
    - apply (xp_bind (λ al : A, m_step keyof lt eqb veqb fuel this other (MInsertRange vs)) _ _ _ (λ x or, cstep_post R x (this, or.1, or.2))).
      2: { intros [o r]. apply xp_ret. intros x _. by iIntros "H". }
      unfold m_step. apply (xp_bind _ (λ _ _, ret (other, UDone)) _ _ (λ x _, cstep_post R x (this, other, UDone))).
      2: { intros _. apply xp_ret. intros x _. by iIntros "H". }
      eapply xp_conseq; [apply xp_m_insert_range|]. intros [[s o] [[s' o'] out]] [Hs Hf]. simpl in *. injection Hs as <- <- <-.
      unfold cstep_pre. simpl. iIntros "[H Ho]". iExists s. iSplit; [iPureIntro; lia|]. iExists (R other o). iFrame. iSplit.
      + iIntros (_) "Ho H". unfold cstep_post. simpl. iSplit; [done|]. iFrame.
      + iIntros "Ho H". iDestruct "H" as (k v Hk) "H". unfold cstep_throw. simpl. iExists _, o. iSplit; [|iFrame].
        iPureIntro. split; [done|]. destruct Hk. by exists k, v.
    - eapply (xp_never 0 2); [unfold keep_this, m_step; cbv iota; tr|]. intros x [Hx _]. done.
    - destruct (sp_m_step keyof lt eqb veqb Hord fuel this other MRecopy) as [p [Hp _]]. exists p. split; [exact Hp|]. intros x [Hx _]. done.
  Qed.
  Lemma set_survives ops :
    survives_failures (λ al : A, rb_new) (λ al, rb_destroy) step [] (set_fault_spec keyof lt eqb veqb) (λ _, True)
      (set_aborted keyof lt eqb) same_members ops.
  Proof.
    apply (survives_failures_ok _ _ _ _ _ _ _ _ R mneed).
    - intros al. by apply wp_m_new_rep.
    - intros al fuel a s _ Hf. by apply (wp_m_destroy_rep _ _ _ Hord).
    - apply m_xstep.
  Qed.
End set.

Section map.
  Context {K T : Type} (lt eqb : K → K → bool) (veqb : K * T → K * T → bool) (dflt : T).
  Notation C := (rbcell (K * T)).
  Notation A := (Allocator C).
  Context (Hord : RbSpec.key_order lt eqb).
  Notation step := (λ al : A, keep_this (map_step lt eqb veqb dflt)).
  Notation ok := (cstep_ok (map_fault_spec lt eqb veqb dflt) mneed).
  Notation R := (mrep fst lt).
  Lemma wp_map_x al fuel this other op x :
    ok fuel op x → cstep_pre R this other x ⊢ wp (step al fuel this other op) (cstep_post R x).
  Proof.
    destruct x as [[s o] [[s' o'] out]]. intros [Hs Hf]. simpl in Hs, Hf.
    assert (map_spec lt eqb veqb dflt s o op = Some (s', o', out)) as Hs' by (by destruct op as [[]| | |]).
    iIntros "H". iApply wp_keep_this. iApply (wp_wand with "[H]"); [iApply (wp_map_step _ _ _ _ Hord _ _ _ _ _ _ _ _ _ Hs' Hf with "H")|].
    iIntros ([o1 r]) "H". done.
  Qed.
  Notation ins := (λ xs v, s_insert fst lt eqb v xs).
  (** operator[] and then [k], which does not allocate *)
  Lemma xp_index {B X} fuel this (key : K) (k : ptr → M (gmap loc C) B) (φ : X → Prop) (f : X → list (K * T)) F Q :
    (∀ x, φ x → mneed (f x) ≤ fuel) → (∀ r, Cl 1 1 (λ al : A, k r)) →
    (∀ x p, φ x → (∃ E1 y w E2, ⌜p = Some y ∧ (E1 ++ (y, w) :: E2).*2 = s_insert fst lt eqb (key, dflt) (f x) ∧
        ascending fst lt (s_insert fst lt eqb (key, dflt) (f x)) ∧ eqb key w.1 = true ∧
        w.2 = match head (matching fst eqb key (f x)) with Some w => w.2 | None => dflt end⌝ ∧
        rbt this (E1 ++ (y, w) :: E2)) ∗ F x ⊢ wp (k p) (Q x)) →
    Xp (λ al : A, let! p := m_index lt eqb dflt fuel this key in k p) φ (λ x, R this (f x) ∗ F x)%I Q
      (λ x, ⌜has fst eqb key (f x) = false⌝ ∧ R this (f x) ∗ F x)%I.
  Proof.
    intros Hf Hk Hw.
    apply (xp_bind (λ al : A, m_index lt eqb dflt fuel this key) (λ _, k) _ _ (λ x p, (∃ E1 y w E2, ⌜p = Some y ∧ (E1 ++ (y, w) :: E2).*2 = s_insert fst lt eqb (key, dflt) (f x) ∧
        ascending fst lt (s_insert fst lt eqb (key, dflt) (f x)) ∧ eqb key w.1 = true ∧
        w.2 = match head (matching fst eqb key (f x)) with Some w => w.2 | None => dflt end⌝ ∧
        rbt this (E1 ++ (y, w) :: E2)) ∗ F x)%I).
    2: { intros p. apply xp_of_wp; [apply Hk|]. intros _ x Hx. by apply Hw. }
    unfold m_index.
    apply (xp_bind (λ al : A, rb_find fst lt eqb fuel this key) _ _ _ (λ x n, (∃ xs, ⌜xs.*2 = f x ∧ ascending fst lt (f x)⌝ ∧
      ((∃ E1 y v E2, ⌜n = Some y ∧ y ≠ this ∧ xs = E1 ++ (y, v) :: E2 ∧ eqb key v.1 = true⌝ ∧ rbt this xs) ∨
       (⌜n = Some this ∧ has fst eqb key xs.*2 = false⌝ ∧ rbt this xs))) ∗ F x)%I).
    - apply xp_of_wp; [cw|]. intros al x Hx. specialize (Hf x Hx). iIntros "[H F]".
      iDestruct (mrep_open _ _ _ Hord with "H") as (xs) "[%Hy H]". destruct Hy as (Hy&Hasc&Hasc'&Hnd&Hlg&Hlen).
      iDestruct (rbt_nodup with "H") as %Hnd'.
      iApply (wp_m_find _ _ _ Hord with "H"); [done|lia|]. iSplit.
      + iIntros (E1 y v E2) "%Hz H". destruct Hz as [Hz He]. iFrame "F". iExists xs. iSplit; [done|]. iLeft. iExists E1, y, v, E2. iFrame. iPureIntro.
        split_and!; try done. intros ->. rewrite Hz in Hnd'. inversion_clear Hnd' as [|?? Hn _]. apply Hn. rewrite fmap_app fmap_cons. set_solver.
      + iIntros (E1 E2) "%Hz H". destruct Hz as (Hz&HL&HR). iFrame "F". iExists xs. iSplit; [done|]. iRight. iSplit; [iPureIntro|done]. split; [done|]. 
        apply all_lt_values in HL. apply all_gt_values in HR. rewrite Hz fmap_app. by apply (absent_has _ _ _ Hord).
    - intros n. destruct (decide (n = Some this)) as [->|Hn].
      + apply (xp_bind (λ al : A, rb_insert_unique fst lt eqb fuel this (key, dflt)) (λ al r, let (n', _) := r in ret n') _ _
          (λ x r, ⌜has fst eqb key (f x) = false⌝ ∧ ins_post fst lt eqb this (key, dflt) (f x) r ∗ F x)%I).
        * eapply xp_conseq; [apply (xp_unique fst lt eqb Hord fuel this (key, dflt) φ f F Hf)|].
          intros x Hx. iIntros "[H F]". iDestruct "H" as (xs Hy) "H". destruct Hy as [Hy Hs].
          iAssert (⌜has fst eqb key (f x) = false⌝ ∧ R this (f x))%I with "[H]" as "[%Hh H]".
          { iDestruct "H" as "[H|H]".
            - iDestruct "H" as (E1 y v E2 Hz) "H". destruct Hz as [Hz [Hz' _]]. congruence.
            - iDestruct "H" as (Hz) "H". destruct Hz as [_ Hz]. iSplit; [by rewrite -Hy|]. iExists xs. by iSplit. }
          iExists x. iSplit; [done|]. iExists emp%I. iSplitR; [done|]. iFrame. iSplit.
          -- iIntros (r) "_ H". by iSplit.
          -- iIntros "_ $".
        * intros [n' b]. apply xp_ret. intros x Hx. iIntros "[%Hh [H F]]". iFrame. iDestruct "H" as (y w E1 E2) "[%Hy H]".
          destruct Hy as (Hy1&Hy2&Hy3&Hy4). simpl in Hy1, Hy2.
          assert (matching fst eqb key (f x) = []) as Hm.
          { unfold matching. apply filter_none. apply Forall_forall. intros u Hu He.
            unfold has in Hh. rewrite -not_true_iff_false in Hh. apply Hh. apply existsb_exists. exists u. split; [by apply elem_of_list_In|done]. }
          rewrite Hm in Hy2. simpl in Hy2. injection Hy2 as -> ->.
          iExists E1, y, (key, dflt), E2. iFrame. iPureIntro. rewrite Hm. simpl. split_and!; try done. by apply (ko_eqb _ _ Hord); split; apply (ko_irrefl _ _ Hord).
      + apply xp_ret. intros x Hx. iIntros "[H F]". iDestruct "H" as (xs Hy) "H". destruct Hy as [Hy Hs]. iFrame. iDestruct "H" as "[H|H]".
        * iDestruct "H" as (E1 y v E2 Hz) "H". destruct Hz as (->&_&->&He). rewrite -Hy in Hs |- *. rewrite fmap_mid in Hs.
          iExists E1, y, v, E2. iFrame. iPureIntro. rewrite !fmap_mid (present_insert fst lt) // (present_matching _ _ _ Hord) //.
        * iDestruct "H" as (Hz) "H". destruct Hz as [Hz _]. done.
  Qed.
  Lemma map_xstep fuel this other op :
    XStep step (map_fault_spec lt eqb veqb dflt) (map_aborted lt eqb) same_members R mneed fuel this other op.
  Proof.
    destruct op as [op|key|key v|key].
    2-4: try (apply xstep_none; [unfold keep_this, map_step; cbv iota; cw|intros al x; by apply wp_map_x]).
    destruct op;
      try (apply (xstep_clean _ _ _ _ _ _ 1); [unfold keep_this, map_step, m_step; cbv iota; cw|intros al x; by apply wp_map_x|done|done]);
      try (apply xstep_none; [unfold keep_this, map_step, m_step; cbv iota; cw|intros al x; by apply wp_map_x]).
    all: unfold XStep.
    - apply (xp_bind (λ al : A, map_step lt eqb veqb dflt fuel this other (MapGen (MInsert v))) _ _ _ (λ x or, cstep_post R x (this, or.1, or.2))).
      2: { intros [o r]. apply xp_ret. intros x _. by iIntros "H". }
      unfold map_step. apply (xp_bind (λ al : A, m_step fst lt eqb veqb fuel this other (MInsert v)) _ _ _ (λ x or, cstep_post R x (this, or.1, OGen or.2))).
      2: { intros [o r]. apply xp_ret. intros x _. by iIntros "H". }
      unfold m_step.
      eapply xp_conseq; [apply (xp_insert _ _ _ Hord fuel this v (λ '(p, b), let! w := node_data p in ret (other, UIns w b))
        (ok fuel (MapGen (MInsert v))) (λ x, x.1.1) (λ x, R other x.1.2) (λ x or, cstep_post R x (this, or.1, OGen or.2)))|].
      + intros [[s o] [[s' o'] out]] [Hs Hf]. unfold mneed in *. simpl in *. lia.
      + intros [p b]. cw.
      + intros [[s o] [[s' o'] out]] [p b] [Hs Hf]. simpl in Hs. injection Hs as <- <- <-. simpl in Hf.
        iIntros "[H Ho]". iDestruct "H" as (x w E1 E2) "[%Hx H]". simpl in Hx. destruct Hx as (->&Hx&Hy&Hs).
        wstep. iApply (wp_data_at with "H"). iIntros "H". wstep. unfold cstep_post. simpl. iSplit.
        { iPureIntro. destruct (head _); congruence. }
        iFrame. rewrite -Hy. iApply mrep_close; [by rewrite Hy|done].
      + intros [[s o] [[s' o'] out]] Hx. unfold cstep_pre. simpl. iIntros "[H Ho]". iExists (s, o, (s', o', out)). iSplit; [done|].
        iExists emp%I. iSplitR; [done|]. simpl. iFrame. iSplit; [iIntros (a) "_ $"|].
        iIntros "_ [%Hh [H Ho]]". unfold cstep_throw. simpl. iExists s, o. iSplit; [done|]. iFrame.
    - apply (xp_bind (λ al : A, map_step lt eqb veqb dflt fuel this other (MapGen (MInsertRange vs))) _ _ _ (λ x or, cstep_post R x (this, or.1, or.2))).
      2: { intros [o r]. apply xp_ret. intros x _. by iIntros "H". }
      unfold map_step. apply (xp_bind (λ al : A, m_step fst lt eqb veqb fuel this other (MInsertRange vs)) _ _ _ (λ x or, cstep_post R x (this, or.1, OGen or.2))).
      2: { intros [o r]. apply xp_ret. intros x _. by iIntros "H". }
      unfold m_step. apply (xp_bind _ (λ _ _, ret (other, UDone)) _ _ (λ x _, cstep_post R x (this, other, OGen UDone))).
      2: { intros _. apply xp_ret. intros x _. by iIntros "H". }
      eapply xp_conseq; [apply (xp_m_insert_range _ _ _ Hord)|]. intros [[s o] [[s' o'] out]] [Hs Hf]. simpl in *. injection Hs as <- <- <-.
      unfold cstep_pre. simpl. iIntros "[H Ho]". iExists s. iSplit; [iPureIntro; lia|]. iExists (R other o). iFrame. iSplit.
      + iIntros (_) "Ho H". unfold cstep_post. simpl. iSplit; [done|]. iFrame.
      + iIntros "Ho H". iDestruct "H" as (k v Hk) "H". unfold cstep_throw. simpl. iExists _, o. iSplit; [|iFrame].
        iPureIntro. split; [done|]. destruct Hk. by exists k, v.
    - eapply (xp_never 0 2); [unfold keep_this, map_step, m_step; cbv iota; tr|]. intros x [Hx _]. done.
    - destruct (sp_map_step lt eqb veqb dflt Hord fuel this other (MapGen MRecopy)) as [p [Hp _]]. exists p. split; [exact Hp|]. intros x [Hx _]. done.
    - apply (xp_bind (λ al : A, map_step lt eqb veqb dflt fuel this other (MapGet key)) _ _ _ (λ x or, cstep_post R x (this, or.1, or.2))).
      2: { intros [o r]. apply xp_ret. intros x _. by iIntros "H". }
      unfold map_step.
      eapply xp_conseq; [apply (xp_index fuel this key (λ p, let! w := node_data p in ret (other, OMapped w.2))
        (ok fuel (MapGet key)) (λ x, x.1.1) (λ x, R other x.1.2) (λ x or, cstep_post R x (this, or.1, or.2)))|].
      + intros [[s o] [[s' o'] out]] [Hs Hf]. unfold mneed in *. simpl in *. lia.
      + intros p. cw.
      + intros [[s o] [[s' o'] out]] p [Hs Hf]. simpl in Hs. injection Hs as <- <- <-. simpl in Hf.
        iIntros "[H Ho]". iDestruct "H" as (E1 x w E2) "[%Hx H]". simpl in Hx. destruct Hx as (->&Hx&Hs&He&Hw).
        wstep. iApply (wp_data_at with "H"). iIntros "H". wstep. unfold cstep_post. simpl. iSplit.
        { iPureIntro. by rewrite Hw. }
        iFrame. rewrite -Hx. iApply mrep_close; [by rewrite Hx|done].
      + intros [[s o] [[s' o'] out]] Hx. unfold cstep_pre. simpl. iIntros "[H Ho]". iExists (s, o, (s', o', out)). iSplit; [done|].
        iExists emp%I. iSplitR; [done|]. simpl. iFrame. iSplit; [iIntros (a) "_ $"|].
        iIntros "_ [%Hh [H Ho]]". unfold cstep_throw. simpl. iExists s, o. iSplit; [done|]. iFrame.
    - apply (xp_bind (λ al : A, map_step lt eqb veqb dflt fuel this other (MapStore key v)) _ _ _ (λ x or, cstep_post R x (this, or.1, or.2))).
      2: { intros [o r]. apply xp_ret. intros x _. by iIntros "H". }
      unfold map_step. apply (xp_bind (λ al : A, m_store lt eqb dflt fuel this key v) _ _ _ (λ x _, cstep_post R x (this, other, OGen UDone))).
      2: { intros []. apply xp_ret. intros x _. by iIntros "H". }
      unfold m_store.
      eapply xp_conseq; [apply (xp_index fuel this key (λ n, let! d := node_data n in setf (set_data (d.1, v)) n)
        (ok fuel (MapStore key v)) (λ x, x.1.1) (λ x, R other x.1.2) (λ x _, cstep_post R x (this, other, OGen UDone)))|].
      + intros [[s o] [[s' o'] out]] [Hs Hf]. unfold mneed in *. simpl in *. lia.
      + intros p. cw.
      + intros [[s o] [[s' o'] out]] p [Hs Hf]. simpl in Hs. injection Hs as <- <- <-. simpl in Hf.
        iIntros "[H Ho]". iDestruct "H" as (E1 x w E2) "[%Hx H]". simpl in Hx. destruct Hx as (->&Hx&Hs&He&Hw).
        wstep. iApply (wp_data_at with "H"). iIntros "H". iApply (wp_store_at with "H"). iIntros "H". unfold cstep_post. simpl. iSplit; [done|].
        iFrame.
        assert ((E1 ++ (x, (w.1, v)) :: E2).*2 = s_update eqb key v (s_insert fst lt eqb (key, dflt) s)) as Hy.
        { rewrite -Hx !fmap_mid (update_present lt eqb Hord) //. by rewrite -(fmap_mid _ x) Hx. }
        rewrite -Hy. iApply mrep_close; [|done]. rewrite Hy. by apply ascending_update.
      + intros [[s o] [[s' o'] out]] Hx. unfold cstep_pre. simpl. iIntros "[H Ho]". iExists (s, o, (s', o', out)). iSplit; [done|].
        iExists emp%I. iSplitR; [done|]. simpl. iFrame. iSplit; [iIntros (a) "_ $"|].
        iIntros "_ [%Hh [H Ho]]". unfold cstep_throw. simpl. iExists s, o. iSplit; [done|]. iFrame.
  Qed.
  Lemma map_survives ops :
    survives_failures (λ al : A, rb_new) (λ al, rb_destroy) step [] (map_fault_spec lt eqb veqb dflt) (λ _, True)
      (map_aborted lt eqb) same_members ops.
  Proof.
    apply (survives_failures_ok _ _ _ _ _ _ _ _ R mneed).
    - intros al. by apply wp_m_new_rep.
    - intros al fuel a s _ Hf. by apply (wp_m_destroy_rep _ _ _ Hord).
    - apply map_xstep.
  Qed.
End map.
