(** Threads: the separation logic of Sep.v for programs, and the theorem of Clients.v from per-call
    simulations. Proof file. *)
From Verif Require Export Clients Reify HistoryVLogic.
From iris.proofmode Require Import tactics.

Section pwp.
  Context {C : Type}.
  Notation heap := (gmap loc C).
  Notation iProp := (bi_car (hpropI C)).

  Definition pwp {A} (p : prog C A) (Q : A → iProp) : iProp :=
    HProp (λ h, safe ∅ p h (λ a h', hholds (Q a) h')).

  Lemma safe_frame {A} (p : prog C A) h hf (Q : A → heap → Prop) :
    h ##ₘ hf → safe ∅ p h Q →
    safe ∅ p (h ∪ hf) (λ a h', ∃ h1, h' = h1 ∪ hf ∧ h1 ##ₘ hf ∧ Q a h1).
  Proof.
    revert h. induction p as [a|u| |l q IH|l f q IH|c q IH|l q IH]; intros h Hd Hp; simpl in *; try done.
    - by exists h.
    - destruct Hp as (c&Hl&Hp). exists c. split; [|by apply IH].
      rewrite left_id_L in Hl. rewrite left_id_L. by apply lookup_union_Some_l.
    - destruct Hp as (c&Hl&Hp). exists c. split; [by apply lookup_union_Some_l|].
      rewrite insert_union_l. apply IH; [|done].
      apply map_disjoint_insert_l. split; [exact (map_disjoint_Some_l _ _ _ _ Hd Hl)|done].
    - intros l. rewrite left_id_L. intros [Hl1 Hl2]%lookup_union_None. rewrite insert_union_l.
      apply IH; [|apply Hp; by rewrite left_id_L]. by apply map_disjoint_insert_l.
    - destruct Hp as (c&Hl&Hp). exists c. split; [by apply lookup_union_Some_l|].
      rewrite delete_union (delete_notin hf); [|exact (map_disjoint_Some_l _ _ _ _ Hd Hl)].
      apply IH; [|done]. by apply map_disjoint_delete_l.
  Qed.
  Lemma pwp_wand {A} (p : prog C A) (Q Q' : A → iProp) :
    pwp p Q -∗ (∀ a, Q a -∗ Q' a) -∗ pwp p Q'.
  Proof.
    apply bi.wand_intro_r, hentails_intro. intros h Hh.
    apply hsep_unfold in Hh as (h1&h2&->&Hd&H1&H2). simpl.
    eapply safe_conseq; [by apply (safe_frame _ _ _ _ Hd H1)|].
    intros a h' (h3&->&Hd'&HQ). rewrite map_union_comm //. apply (H2 a); done.
  Qed.
  Lemma pwp_bind {A B} (p : prog C A) (k : A → prog C B) (Q : B → iProp) :
    pwp p (λ a, pwp (k a) Q) ⊢ pwp (pbind p k) Q.
  Proof. apply hentails_intro. intros h Hh. simpl in *. by eapply safe_bind. Qed.
  Lemma pwp_ret {A} (a : A) (Q : A → iProp) : Q a ⊢ pwp (PRet a) Q.
  Proof. by apply hentails_intro. Qed.

  (** A model function that accesses memory in the order of [track] *)
  Lemma pwp_of_wp {A} s t (m : Allocator C → M heap A) p P (Q : A → iProp) :
    performs m p → track s p t → (∀ al, P ⊢ wp (m al) Q) → P ⊢ pwp p Q.
  Proof.
    intros Hp Ht Hwp. apply hentails_intro. intros h Hh. simpl.
    eapply safe_of_interp; [by eapply track_ordered|]. intros al.
    destruct (hentails _ _ (Hwp al) h Hh ∅ (map_disjoint_empty_r _)) as (a&h'&Hm&_&HQ).
    rewrite !right_id_L in Hm. exists a, h'. split; [|done]. by rewrite -(performs_interp _ _ Hp).
  Qed.

  (** [m], with its program, in the logic: for every [x] whose [φ x] holds, from [P x] to [Q x] *)
  Definition Sp {A X} (m : Allocator C → M heap A) (φ : X → Prop) (P : X → iProp) (Q : X → A → iProp) : Type :=
    {p : prog C A | performs m p ∧ ∀ x, φ x → P x ⊢ pwp p (Q x)}.
  Lemma sp_of_wp {A X} s t (m : Allocator C → M heap A) (φ : X → Prop) P Q :
    Tr s t m → (∀ al x, φ x → P x ⊢ wp (m al) (Q x)) → Sp m φ P Q.
  Proof.
    intros [p [Hp Ht]] Hwp. exists p. split; [done|]. intros x Hx. eapply pwp_of_wp; [done..|]. intros al. by apply Hwp.
  Qed.
  Lemma sp_bind {A B X} (m : Allocator C → M heap A) (k : Allocator C → A → M heap B) (φ : X → Prop) P R Q :
    Sp m φ P R → (∀ a, Sp (λ al, k al a) φ (λ x, R x a) Q) → Sp (λ al, let! a := m al in k al a) φ P Q.
  Proof.
    intros [p [Hp Hw]] Hk. exists (pbind p (λ a, proj1_sig (Hk a))). split.
    { apply (perf_bind _ _ m k); [done|]. intros a. apply (proj2_sig (Hk a)). }
    intros x Hx. iIntros "H". iApply pwp_bind. iApply (pwp_wand with "[H]"); [by iApply (Hw x Hx with "H")|].
    iIntros (a) "H". by iApply (proj2 (proj2_sig (Hk a)) x Hx with "H").
  Qed.
  Lemma sp_conseq {A X Y} (m : Allocator C → M heap A) (φ : X → Prop) P Q (φ' : Y → Prop) P' Q' :
    Sp m φ' P' Q' →
    (∀ x, φ x → P x ⊢ ∃ y, ⌜φ' y⌝ ∧ ∃ (F : bi_car (hpropI C)), F ∗ P' y ∗ ∀ a, F -∗ Q' y a -∗ Q x a) →
    Sp m φ P Q.
  Proof.
    intros [p [Hp Hw]] Hc. exists p. split; [done|]. intros x Hx.
    rewrite (Hc x Hx). iIntros "H". iDestruct "H" as (y) "[%Hy H]". iDestruct "H" as (F) "(HF&HP&HQ)".
    iApply (pwp_wand with "[HP]"); [by iApply (Hw y Hy with "HP")|]. iIntros (a) "H". iApply ("HQ" with "HF H").
  Qed.
End pwp.

Section clients.
  Context {C Hd St Op Out : Type}.
  Notation heap := (gmap loc C).
  Notation iProp := (bi_car (hpropI C)).
  Context (new : Allocator C → M heap Hd) (destroy : Allocator C → nat → Hd → M heap unit)
          (step : Allocator C → nat → Hd → Hd → Op → M heap (Hd * Hd * Out))
          (init : St) (spec : St → St → Op → option (St * St * Out))
          (reads : Op → Prop) (fin : St → Prop).
  Context (R : Hd → St → iProp) (need : St → nat).
  Definition cstep_ok (fuel : nat) (op : Op) (x : St * St * (St * St * Out)) : Prop :=
    spec x.1.1 x.1.2 op = Some x.2 ∧ need x.1.1 + need x.1.2 + need x.2.1.1 + need x.2.1.2 < fuel.
  Definition cstep_pre (this other : Hd) (x : St * St * (St * St * Out)) : iProp := R this x.1.1 ∗ R other x.1.2.
  Definition cstep_post (x : St * St * (St * St * Out)) (r : Hd * Hd * Out) : iProp :=
    ⌜r.2 = x.2.2⌝ ∧ R r.1.1 x.2.1.1 ∗ R r.1.2 x.2.1.2.
  Context (Hnew : ∀ al, ⊢ wp (new al) (λ a, R a init))
          (Hdes : ∀ al fuel a s, fin s → need s < fuel → R a s ⊢ wp (destroy al fuel a) (λ _, emp))
          (Hstep : ∀ al fuel this other s o op s' o' out,
             spec s o op = Some (s', o', out) → need s + need o + need s' + need o' < fuel →
             R this s ∗ R other o ⊢
             wp (step al fuel this other op) (λ r, ⌜r.2 = out⌝ ∧ R r.1.1 s' ∗ R r.1.2 o')).
  Context (Tnew : Tr 0 2 new) (Tdes : ∀ fuel a, Tr 0 2 (λ al, destroy al fuel a))
          (Tstep : ∀ fuel this other op,
             Sp (λ al, step al fuel this other op) (cstep_ok fuel op) (cstep_pre this other) cstep_post)
          (Treads : ∀ fuel this other op, reads op → Tr 3 3 (λ al, step al fuel this other op)).

  Fixpoint fuel_ok (fuel : nat) (s o : St) (ops : list (bool * Op)) : Prop :=
    match ops with
    | [] => True
    | (false, op) :: ops =>
        match spec s o op with
        | Some (s', o', _) => need s + need o + need s' + need o' < fuel ∧ fuel_ok fuel s' o' ops
        | None => False
        end
    | (true, op) :: ops =>
        match spec o s op with
        | Some (o', s', _) => need o + need s + need o' + need s' < fuel ∧ fuel_ok fuel s' o' ops
        | None => False
        end
    end.
  Lemma fuel_ok_exists ops s o r : h_spec spec s o ops = Some r → ∃ F, ∀ fuel, F ≤ fuel → fuel_ok fuel s o ops.
  Proof.
    revert s o r. induction ops as [|[[] op] ops IH]; intros s o r Hs; simpl in *; [by exists 0|..];
      apply bind_Some in Hs as ([[a b] u]&Ha&Hs); rewrite Ha;
      apply bind_Some in Hs as ([[a' b'] us]&Hb&Hs); apply IH in Hb as [F HF].
    - exists (S (F + need o + need s + need a + need b)). intros fuel Hf. split; [lia|]. apply HF. lia.
    - exists (S (F + need s + need o + need a + need b)). intros fuel Hf. split; [lia|]. apply HF. lia.
  Qed.

  Definition run_ok (fuel : nat) (ops : list (bool * Op)) (x : St * St * (St * St * list Out)) : Prop :=
    h_spec spec x.1.1 x.1.2 ops = Some x.2 ∧ fuel_ok fuel x.1.1 x.1.2 ops.
  Definition run_pre (a b : Hd) (x : St * St * (St * St * list Out)) : iProp := R a x.1.1 ∗ R b x.1.2.
  Definition run_post (x : St * St * (St * St * list Out)) (r : Hd * Hd * list Out) : iProp :=
    ⌜r.2 = x.2.2⌝ ∧ R r.1.1 x.2.1.1 ∗ R r.1.2 x.2.1.2.
  Lemma sp_run fuel ops a b :
    Sp (λ al, v_run (step al) fuel a b ops) (run_ok fuel ops) (run_pre a b) run_post.
  Proof.
    revert a b. induction ops as [|[side op] ops IH]; intros a b.
    { exists (PRet (a, b, [])). split; [apply (perf_ret _ (a, b, []))|].
      intros [[s o] [[s' o'] outs]] [Hs _]. simpl in Hs. simplify_eq. iIntros "H". iApply pwp_ret. by iSplit. }
    destruct side.
    - destruct (Tstep fuel b a op) as (p&Hp&Hpw).
      eexists (pbind p (λ r, pbind (proj1_sig (IH r.1.2 r.1.1)) (λ q, PRet (q.1, r.2 :: q.2)))). split.
      { apply (perf_bind _ _ (λ al, step al fuel b a op)
          (λ al r, let '(b', a', r) := r in let! (ab, rs) := v_run (step al) fuel a' b' ops in ret (ab, r :: rs)));
          [done|]. intros [[b' a'] r].
        apply (perf_bind _ _ (λ al, v_run (step al) fuel a' b' ops) (λ al q, let '(ab, rs) := q in ret (ab, r :: rs))).
        - apply (proj2_sig (IH a' b')).
        - intros [ab rs]. apply (perf_ret _ (ab, r :: rs)). }
      intros [[s o] [[s' o'] outs]] [Hs Hf]. simpl in Hs, Hf.
      apply bind_Some in Hs as ([[o1 s1] u]&Ha&Hs). rewrite Ha in Hf.
      apply bind_Some in Hs as ([[s2 o2] us]&Hb&Hs). simplify_eq. destruct Hf as [Hf1 Hf2].
      iIntros "[Ha Hb]". iApply pwp_bind.
      iApply (pwp_wand with "[Ha Hb]"); [iApply (Hpw (o, s, (o1, s1, u))); [done|]; iFrame|].
      iIntros ([[b' a'] r]) "[%Hr [Hb Ha]]". simpl in Hr. subst r. simpl. iApply pwp_bind.
      iApply (pwp_wand with "[Ha Hb]").
      { iApply (proj2 (proj2_sig (IH a' b')) (s1, o1, (s', o', us))); [done|]. iFrame. }
      iIntros ([[a2 b2] outs']) "[%Hr H]". simpl in Hr. subst outs'. iApply pwp_ret. by iSplit.
    - destruct (Tstep fuel a b op) as (p&Hp&Hpw).
      eexists (pbind p (λ r, pbind (proj1_sig (IH r.1.1 r.1.2)) (λ q, PRet (q.1, r.2 :: q.2)))). split.
      { apply (perf_bind _ _ (λ al, step al fuel a b op)
          (λ al r, let '(a', b', r) := r in let! (ab, rs) := v_run (step al) fuel a' b' ops in ret (ab, r :: rs)));
          [done|]. intros [[a' b'] r].
        apply (perf_bind _ _ (λ al, v_run (step al) fuel a' b' ops) (λ al q, let '(ab, rs) := q in ret (ab, r :: rs))).
        - apply (proj2_sig (IH a' b')).
        - intros [ab rs]. apply (perf_ret _ (ab, r :: rs)). }
      intros [[s o] [[s' o'] outs]] [Hs Hf]. simpl in Hs, Hf.
      apply bind_Some in Hs as ([[s1 o1] u]&Ha&Hs). rewrite Ha in Hf.
      apply bind_Some in Hs as ([[s2 o2] us]&Hb&Hs). simplify_eq. destruct Hf as [Hf1 Hf2].
      iIntros "[Ha Hb]". iApply pwp_bind.
      iApply (pwp_wand with "[Ha Hb]"); [iApply (Hpw (s, o, (s1, o1, u))); [done|]; iFrame|].
      iIntros ([[a' b'] r]) "[%Hr [Ha Hb]]". simpl in Hr. subst r. simpl. iApply pwp_bind.
      iApply (pwp_wand with "[Ha Hb]").
      { iApply (proj2 (proj2_sig (IH a' b')) (s1, o1, (s', o', us))); [done|]. iFrame. }
      iIntros ([[a2 b2] outs']) "[%Hr H]". simpl in Hr. subst outs'. iApply pwp_ret. by iSplit.
  Qed.

  Definition prog_ok (fuel : nat) (ops : list (bool * Op)) (x : St * St * list Out) : Prop :=
    h_spec spec init init ops = Some x ∧ fuel_ok fuel init init ops ∧ fin x.1.1 ∧ fin x.1.2 ∧
    need x.1.1 < fuel ∧ need x.1.2 < fuel.
  Lemma sp_program fuel ops :
    Sp (λ al, v_program (new al) (destroy al) (step al) fuel ops) (prog_ok fuel ops)
      (λ _, emp)%I (λ x outs, ⌜outs = x.2⌝ ∧ emp)%I.
  Proof.
    destruct Tnew as (pn&Hpn&Htn).
    eexists (pbind (pbind pn (λ a, pbind pn (λ b, proj1_sig (sp_run fuel ops a b))))
      (λ r, pbind (proj1_sig (Tdes fuel r.1.1)) (λ _, pbind (proj1_sig (Tdes fuel r.1.2)) (λ _, PRet r.2)))). split.
    { apply (perf_bind _ _ (λ al, v_prefix (new al) (step al) fuel ops)
        (λ al r, let '(a, b, rs) := r in destroy al fuel a ;! destroy al fuel b ;! ret rs)).
      - apply (perf_bind _ _ new (λ al a, let! b := new al in v_run (step al) fuel a b ops)); [done|]. intros a.
        apply (perf_bind _ _ new (λ al b, v_run (step al) fuel a b ops)); [done|]. intros b.
        apply (proj2_sig (sp_run fuel ops a b)).
      - intros [[a b] rs].
        apply (perf_bind _ _ (λ al, destroy al fuel a) (λ al _, destroy al fuel b ;! ret rs)).
        { apply (proj2_sig (Tdes fuel a)). } intros _.
        apply (perf_bind _ _ (λ al, destroy al fuel b) (λ al _, ret rs)).
        { apply (proj2_sig (Tdes fuel b)). } intros _. apply (perf_ret _ rs). }
    intros [[s' o'] outs] (Hs&Hf&Hfa&Hfb&Hna&Hnb). simpl in *.
    assert (∀ a s, fin s → need s < fuel → R a s ⊢ pwp (proj1_sig (Tdes fuel a)) (λ _, emp)) as Hdd.
    { intros a s Hfs Hns. destruct (Tdes fuel a) as (p&Hp&Ht). simpl. eapply pwp_of_wp; [done..|].
      intros al. by apply Hdes. }
    assert (⊢ pwp pn (λ a, R a init)) as Hn by (eapply pwp_of_wp; done).
    iIntros "_". iApply pwp_bind. iApply pwp_bind.
    iApply (pwp_wand with "[]"); [iApply Hn|]. iIntros (a) "Ha". iApply pwp_bind.
    iApply (pwp_wand with "[]"); [iApply Hn|]. iIntros (b) "Hb".
    iApply (pwp_wand with "[Ha Hb]").
    { iApply (proj2 (proj2_sig (sp_run fuel ops a b)) (init, init, (s', o', outs))); [done|]. iFrame. }
    iIntros ([[a2 b2] outs']) "[%Hr [Ha Hb]]". simpl in Hr. subst outs'. simpl. iApply pwp_bind.
    iApply (pwp_wand with "[Ha]"); [by iApply (Hdd with "Ha")|]. iIntros (_) "_". iApply pwp_bind.
    iApply (pwp_wand with "[Hb]"); [by iApply (Hdd with "Hb")|]. iIntros (_) "_". iApply pwp_ret. by iSplit.
  Qed.

  Lemma tr_run fuel ops a b : Forall (λ o, reads o.2) ops → Tr 3 3 (λ al, v_run (step al) fuel a b ops).
  Proof.
    revert a b. induction ops as [|[side op] ops IH]; intros a b Hc.
    { by apply (tr_ret 3 3 (a, b, [])). }
    assert (reads op) as Ho by (by inversion Hc). assert (Forall (λ o, reads o.2) ops) as Hc' by (by inversion Hc).
    destruct side.
    - refine (tr_bind 3 3 3 (λ al, step al fuel b a op)
        (λ al r, let '(b', a', r) := r in let! (ab, rs) := v_run (step al) fuel a' b' ops in ret (ab, r :: rs)) _ _).
      { by apply Treads. }
      intros [[b' a'] r].
      refine (tr_bind 3 3 3 (λ al, v_run (step al) fuel a' b' ops) (λ al q, let '(ab, rs) := q in ret (ab, r :: rs)) _ _).
      { by apply IH. }
      intros [ab rs]. by apply (tr_ret 3 3 (ab, r :: rs)).
    - refine (tr_bind 3 3 3 (λ al, step al fuel a b op)
        (λ al r, let '(a', b', r) := r in let! (ab, rs) := v_run (step al) fuel a' b' ops in ret (ab, r :: rs)) _ _).
      { by apply Treads. }
      intros [[a' b'] r].
      refine (tr_bind 3 3 3 (λ al, v_run (step al) fuel a' b' ops) (λ al q, let '(ab, rs) := q in ret (ab, r :: rs)) _ _).
      { by apply IH. }
      intros [ab rs]. by apply (tr_ret 3 3 (ab, r :: rs)).
  Qed.

  Lemma wp_run_enough al fuel ops s o s' o' outs a b :
    h_spec spec s o ops = Some (s', o', outs) → fuel_ok fuel s o ops →
    R a s ∗ R b o ⊢ wp (v_run (step al) fuel a b ops) (run_post (s, o, (s', o', outs))).
  Proof.
    intros Hs HF. revert s o outs s' o' Hs HF a b.
    induction ops as [|[side op] ops IH]; intros s o outs s' o' Hs HF a b; simpl in Hs, HF.
    { simplify_eq. iIntros "H". cbn [v_run]. wstep. by iSplit. }
    destruct side.
    - apply bind_Some in Hs as ([[o1 s1] u]&Ha&Hs). rewrite Ha in HF. destruct HF as [Hf1 Hf2].
      apply bind_Some in Hs as ([[s2 o2] us]&Hb&Hs). simplify_eq.
      iIntros "[Ha Hb]". cbn [v_run]. wstep.
      iApply (wp_wand with "[Ha Hb]"); [iApply (Hstep _ _ b a _ _ _ _ _ _ Ha); [done|iFrame]|].
      iIntros ([[b' a'] r]) "[%Hr [Hb Ha]]". simpl in Hr. subst r. simpl. wstep.
      iApply (wp_wand with "[Ha Hb]"); [iApply (IH s1 o1 us s' o'); [done|done|iFrame]|].
      iIntros ([[a2 b2] outs']) "[%Hr H]". simpl in Hr. subst outs'. wsteps. by iSplit.
    - apply bind_Some in Hs as ([[s1 o1] u]&Ha&Hs). rewrite Ha in HF. destruct HF as [Hf1 Hf2].
      apply bind_Some in Hs as ([[s2 o2] us]&Hb&Hs). simplify_eq.
      iIntros "[Ha Hb]". cbn [v_run]. wstep.
      iApply (wp_wand with "[Ha Hb]"); [iApply (Hstep _ _ a b _ _ _ _ _ _ Ha); [done|iFrame]|].
      iIntros ([[a' b'] r]) "[%Hr [Ha Hb]]". simpl in Hr. subst r. simpl. wstep.
      iApply (wp_wand with "[Ha Hb]"); [iApply (IH s1 o1 us s' o'); [done|done|iFrame]|].
      iIntros ([[a2 b2] outs']) "[%Hr H]". simpl in Hr. subst outs'. wsteps. by iSplit.
  Qed.

  (** One thread. *)
  Lemma client_ok xs ys c outs : expects init spec reads fin xs ys c outs →
    ∃ F, ∀ fuel, F ≤ fuel → ∀ a b, ∃ p,
      performs (λ al, client_code new destroy step al fuel a b c) p ∧
      ∀ h, hholds (R a xs ∗ R b ys)%I h → safe h p ∅ (λ r h', r = outs ∧ h' = ∅).
  Proof.
    destruct c as [ops|ops]; simpl.
    - intros (Hc&[[xs' ys'] Hs]).
      assert (∃ F, ∀ fuel, F ≤ fuel → fuel_ok fuel xs ys ops) as [F HF] by (by eapply fuel_ok_exists).
      exists F. intros fuel Hf a b.
      destruct (tr_run fuel ops a b Hc) as (p&Hp&Ht).
      exists (pbind p (λ r, PRet r.2)). split.
      { apply (perf_bind _ _ (λ al, v_run (step al) fuel a b ops) (λ al r, let '(_, rs) := r in ret rs)); [done|].
        intros [? rs]. apply (perf_ret _ rs). }
      intros h Hh.
      destruct (hentails _ _ (wp_run_enough (bump_allocator C) fuel ops xs ys xs' ys' outs a b Hs (HF fuel Hf)) h Hh
        ∅ (map_disjoint_empty_r _)) as (r&h'&Hm&_&HQ).
      rewrite !right_id_L (performs_interp _ _ Hp) in Hm.
      eapply safe_bind; [eapply safe_read_only; [by eapply track_read_only|exact Hm]|].
      intros r' h2 [-> ->]. simpl. split; [|done]. apply HQ.
    - intros (xs'&ys'&Hs&Hfa&Hfb).
      assert (∃ F, ∀ fuel, F ≤ fuel → fuel_ok fuel init init ops) as [F HF] by (by eapply fuel_ok_exists).
      exists (S (F + need xs' + need ys')). intros fuel Hf a b.
      destruct (sp_program fuel ops) as (p&Hp&Hw). exists p. split; [done|]. intros h Hh.
      apply safe_shared; [apply map_disjoint_empty_r|].
      assert (prog_ok fuel ops (xs', ys', outs)) as Hok.
      { split_and!; simpl; [done|apply HF; lia|done|done|lia|lia]. }
      eapply safe_conseq; [apply (hentails _ _ (Hw _ Hok) ∅); by apply hemp_unfold|].
      intros r h' [Hr He]%hand_unfold. split; [by apply hpure_unfold in Hr|by apply hemp_unfold in He].
  Qed.

  Lemma clients_ok xs ys cs outs : Forall2 (expects init spec reads fin xs ys) cs outs →
    ∃ F, ∀ fuel, F ≤ fuel → ∀ a b, ∃ ps,
      Forall2 (λ c p, performs (λ al, client_code new destroy step al fuel a b c) p) cs ps ∧
      ∀ h, hholds (R a xs ∗ R b ys)%I h →
        Forall2 (λ p o, safe h p ∅ (λ r h', r = o ∧ h' = ∅)) ps outs.
  Proof.
    induction 1 as [|c o cs outs Hc _ IH]; [by exists 0; intros; exists []|].
    destruct IH as [F HF]. apply client_ok in Hc as [F1 HF1]. exists (F + F1). intros fuel Hf a b.
    destruct (HF fuel ltac:(lia) a b) as (ps&Hps&Hs). destruct (HF1 fuel ltac:(lia) a b) as (p&Hp&Hs1).
    exists (p :: ps). split; [by constructor|]. intros h Hh. constructor; [by apply Hs1|by apply Hs].
  Qed.

  Lemma clients_correct ops0 cs : threads_correct new destroy step init spec reads fin ops0 cs.
  Proof.
    intros xs ys outs0 outs Hs Hcs.
    assert (∃ F, ∀ fuel, F ≤ fuel → fuel_ok fuel init init ops0) as [F HF] by (by eapply fuel_ok_exists).
    apply clients_ok in Hcs as [F1 HF1]. exists (S (F + F1 + need xs + need ys)). intros fuel Hf al.
    apply runs_of_wp. rewrite plain_nothing. iIntros "_". unfold v_prefix. wstep.
    iApply (wp_wand with "[]"); [by iApply Hnew|]. iIntros (a) "Ha". wstep.
    iApply (wp_wand with "[]"); [by iApply Hnew|]. iIntros (b) "Hb".
    iApply (wp_wand with "[Ha Hb]").
    { iApply (wp_run_enough al fuel ops0 init init xs ys outs0 a b); [done|apply HF; lia|iFrame]. }
    iIntros ([[a' b'] outs0']) "[%Hr H]". simpl in Hr. subst outs0'. simpl. iStopProof.
    apply hentails_intro. intros h Hh. apply plain_holds. split_and!; [done| |].
    - destruct (HF1 fuel ltac:(lia) a' b') as (ps&Hps&Hsafe). exists ps. split; [done|]. intros hf Hdj.
      specialize (Hsafe h Hh). apply threads_ok; [done|by eapply Forall2_length|].
      intros i p r Hp Hr. by eapply Forall2_lookup_lr in Hsafe.
    - intros Hfa Hfb al'. apply runs_of_wp. iIntros "H".
      iAssert (R a' xs ∗ R b' ys)%I with "[H]" as "[Ha Hb]".
      { iStopProof. apply hentails_intro. intros h' ->. done. }
      wstep. iApply (wp_wand with "[Ha]"); [iApply (Hdes with "Ha"); [done|lia]|]. iIntros (_) "_".
      iApply (wp_wand with "[Hb]"); [iApply (Hdes with "Hb"); [done|lia]|]. iIntros (_) "_".
      by rewrite plain_nothing.
  Qed.
End clients.

(** The same when every call accesses memory in the order of [track]. *)
Lemma clients_correct_tr {C Hd St Op Out : Type}
    (new : Allocator C → M (gmap loc C) Hd) (destroy : Allocator C → nat → Hd → M (gmap loc C) unit)
    (step : Allocator C → nat → Hd → Hd → Op → M (gmap loc C) (Hd * Hd * Out))
    (init : St) (spec : St → St → Op → option (St * St * Out))
    (reads : Op → Prop) (fin : St → Prop) (R : Hd → St → bi_car (hpropI C)) (need : St → nat) :
  (∀ al, ⊢ wp (new al) (λ a, R a init)) →
  (∀ al fuel a s, fin s → need s < fuel → R a s ⊢ wp (destroy al fuel a) (λ _, emp)) →
  (∀ al fuel this other s o op s' o' out,
     spec s o op = Some (s', o', out) → need s + need o + need s' + need o' < fuel →
     R this s ∗ R other o ⊢
     wp (step al fuel this other op) (λ r, ⌜r.2 = out⌝ ∧ R r.1.1 s' ∗ R r.1.2 o')) →
  Tr 0 2 new → (∀ fuel a, Tr 0 2 (λ al, destroy al fuel a)) →
  (∀ fuel this other op, Tr 0 2 (λ al, step al fuel this other op)) →
  (∀ fuel this other op, reads op → Tr 3 3 (λ al, step al fuel this other op)) →
  ∀ ops0 cs, threads_correct new destroy step init spec reads fin ops0 cs.
Proof.
  intros Hnew Hdes Hstep Tnew Tdes Tstep Treads ops0 cs.
  eapply (clients_correct _ _ _ _ _ _ _ R need); [done|done|done|done|done| |done].
  intros fuel this other op. eapply sp_of_wp; [apply Tstep|].
  intros al [[s o] [[s' o'] out]] [Hs Hf]. by apply Hstep.
Qed.
Lemma wp_keep_this {C Op Out} (step : nat → loc → loc → Op → M (gmap loc C) (loc * Out)) fuel this other op Q :
  wp (step fuel this other op) (λ r, Q (this, r.1, r.2)) ⊢ wp (keep_this step fuel this other op) Q.
Proof.
  iIntros "H". unfold keep_this. wstep. iApply (wp_wand with "H"). iIntros ([o r]) "H". by wstep.
Qed.
