(** Running out of memory in vector and vector_map. Proof file. *)
From Verif Require Export FaultSpec FaultLogic.
From Verif Require Import ThreadVec VecHistory VmapProofs.
From iris.proofmode Require Import tactics.
Local Open Scope general_if_scope.

Section vector.
  Context {V : Type} (dflt : V) (eqb : V → V → bool).
  Notation block := (list (option V)).
  Notation A := (Allocator block).
  Notation iProp := (bi_car (hpropI block)).
  Notation step := (λ al : A, ve_step dflt eqb).
  Notation X := (XStep step (ve_fault_spec dflt eqb) ve_aborted ve_members vecR vneed).
  Notation ok := (cstep_ok (ve_fault_spec dflt eqb) vneed).

  Lemma ve_fault_sub s o op r : ve_fault_spec dflt eqb s o op = Some r → ve_spec_ok dflt eqb s o op = Some r.
  Proof. by destruct op. Qed.
  Lemma wp_ve_x (al : A) fuel this other op x :
    ok fuel op x → cstep_pre vecR this other x ⊢ wp (ve_step dflt eqb fuel this other op) (cstep_post vecR x).
  Proof.
    destruct x as [[s o] [[s' o'] out]]. intros [Hs Hf]. simpl in Hs, Hf. apply ve_fault_sub in Hs.
    by apply (wp_ve_step dflt eqb fuel this other s o op s' o' out).
  Qed.
  Lemma vecR_last v (s : ve_state V) : vecR v s ⊢ ⌜v_last v = length s.1 ∧ v_end v = s.2⌝.
  Proof. iIntros "H". iDestruct (vecP_last with "H") as %(?&?&?). done. Qed.

  (** the calls that allocate at most once, before they change anything, and only if they must *)
  Lemma xstep_grow fuel this other op :
    Cl 0 1 (λ al, step al fuel this other op) → ve_members this other op = (this, other) →
    (∀ s o, v_last this = length s.1 → v_end this = s.2 → v_last other = length o.1 → v_end other = o.2 → ve_aborted s o op s o) →
    X fuel this other op.
  Proof.
    intros Hc Hm Ha. unfold XStep. eapply xp_conseq; [by apply (xp_clean 1 _ (ok fuel op) (cstep_pre vecR this other) (cstep_post vecR)), (λ al, wp_ve_x al fuel this other op)|].
    intros x Hx. iIntros "H". iExists x. iSplit; [done|]. iExists emp%I. iSplitR; [done|]. iFrame "H".
    iSplit; [iIntros (a) "_ $"|]. iIntros "_ [H1 H2]". unfold cstep_throw. rewrite Hm. iExists x.1.1, x.1.2.
    iDestruct (vecR_last with "H1") as %[??]. iDestruct (vecR_last with "H2") as %[??].
    iSplit; [iPureIntro; by apply Ha|]. iFrame.
  Qed.
  Lemma xstep_stay fuel this other op : Cl 1 1 (λ al, step al fuel this other op) → X fuel this other op.
  Proof. intros Hc. apply xstep_none; [done|]. intros al x. by apply wp_ve_x. Qed.

  Lemma cl_insert_grow fuel v pos n args : Cl 0 1 (λ al : A, v_insert_values fuel v pos n args).
  Proof. cw. Qed.
  Lemma cl_insert_stay fuel v pos n args : ¬ v_end v - v_last v < n → Cl 1 1 (λ al : A, v_insert_values fuel v pos n args).
  Proof. intros Hn. unfold v_insert_values. destruct (decide (0 < n)); [|cw]. destruct (decide (v_end v - v_last v < n)) as [|_]; [done|]. cw. Qed.
  Lemma xstep_insert fuel this other op n :
    (Cl 0 1 (λ al, step al fuel this other op)) →
    (¬ v_end this - v_last this < n → Cl 1 1 (λ al, step al fuel this other op)) →
    ve_members this other op = (this, other) →
    (∀ s o, v_end this - v_last this < n → v_last this = length s.1 → v_end this = s.2 → v_last other = length o.1 → v_end other = o.2 → ve_aborted s o op s o) →
    X fuel this other op.
  Proof.
    intros Hc Hc1 Hm Ha. assert ({v_end this - v_last this < n} + {¬ v_end this - v_last this < n}) as [Hn|Hn] by apply decide, _.
    - apply xstep_grow; [done|done|]. intros. by apply Ha.
    - apply xstep_stay. by apply Hc1.
  Qed.
End vector.
Ltac cw_hint h ::=
  lazymatch h with
  | @v_insert_values => first [ cw_by @cl_insert_stay | cw_by @cl_insert_grow ]
  end.
Section vector.
  Context {V : Type} (dflt : V) (eqb : V → V → bool).
  Notation block := (list (option V)).
  Notation A := (Allocator block).
  Notation iProp := (bi_car (hpropI block)).
  Notation step := (λ al : A, ve_step dflt eqb).
  Notation X := (XStep step (ve_fault_spec dflt eqb) ve_aborted ve_members vecR vneed).
  Notation ok := (cstep_ok (ve_fault_spec dflt eqb) vneed).

  Definition cleared (this other : tvec) (x : ve_state V * ve_state V * (ve_state V * ve_state V * ve_out V)) (v : tvec) : iProp :=
    (⌜v = Vec (v_buf this) 0 (v_end this)⌝ ∧ vecP v [] x.1.1.2 ∗ vecR other x.1.2)%I.
  Definition filled (m : nat) (other : tvec) (x : ve_state V * ve_state V * (ve_state V * ve_state V * ve_out V)) (v : tvec) : iProp :=
    (vecP v [] (reserved x.1.1.2 m) ∗ vecR other x.1.2)%I.
  Lemma xp_clear fuel this other op T :
    Xp (λ al : A, v_clear fuel this) (ok fuel op) (cstep_pre vecR this other) (cleared this other) T.
  Proof.
    apply xp_of_wp; [cw|]. intros al [[[xs c] [ys d]] [[s' o'] out]] [Hs Hf]. unfold cstep_pre, cleared, vecR, vneed in *. simpl in *.
    iIntros "[H Ho]". iDestruct (vecP_last with "H") as %(?&?&?).
    iApply (wp_wand with "[H]"); [iApply (wp_v_clear with "H"); lia|]. iIntros (v') "[%Hb H]".
    iDestruct (vecP_last with "H") as %(?&?&?). simpl in *. iSplit; [|iFrame]. iPureIntro. destruct v', this; simpl in *; congruence.
  Qed.
  Lemma xp_reserve fuel v this other op m :
    (∀ s o, s.2 ≤ m → v_end other = o.2 → ve_aborted s o op ([], s.2) o) →
    ve_members this other op = (Vec (v_buf this) 0 (v_end this), other) →
    Xp (λ al : A, v_reserve fuel v m) (ok fuel op) (λ x, cleared this other x v) (filled m other)
      (cstep_throw ve_aborted ve_members vecR this other op).
  Proof.
    intros Ha Hm.
    assert (∀ (al : A) x, ok fuel op x → cleared this other x v ⊢ wp (v_reserve fuel v m) (filled m other x)) as Hw.
    { intros al [[[xs c] [ys d]] [[s' o'] out]] [Hs Hf]. unfold cleared, filled, vecR, vneed in *. simpl in *.
      iIntros "(%Hv&H&Ho)". iApply (wp_wand with "[H]"); [iApply (wp_v_reserve with "H"); simpl; lia|].
      iIntros (v') "[_ H]". iFrame. }
    assert ({m < v_end v} + {¬ m < v_end v}) as [Hn|Hn] by apply decide, _.
    - apply xp_of_wp; [|done]. unfold v_reserve. destruct (decide (m < v_end v)) as [|]; [|done]. cw.
    - eapply xp_throw; [by apply (xp_clean 1); [cw|]|].
      intros [[[xs c] [ys d]] [[s' o'] out]] _. unfold cleared, cstep_throw, vecR. simpl.
      iIntros "(->&H&Ho)". iDestruct (vecP_last with "H") as %(_&Hc&_). iDestruct (vecP_last with "Ho") as %(_&Hd&_). simpl in *.
      iExists ([], c), (ys, d). rewrite Hm. iSplit; [iPureIntro; apply (Ha (xs, c) (ys, d)); simpl; [lia|done]|]. simpl. iFrame.
  Qed.
  Ltac ve_none := unfold ve_step; cbv iota; unfold vdone, vpos, vobs; cw.
  Lemma ve_xstep fuel this other op : X fuel this other op.
  Proof.
    destruct op; try (by apply xstep_stay; ve_none).
    1,2,3: apply (xstep_insert _ _ _ _ _ _ 1); [ve_none|intros Hn; ve_none|done|intros; split; [done|]; split; [done|lia]].
    1,2: apply (xstep_insert _ _ _ _ _ _ n); [ve_none|intros Hn; ve_none|done|intros; split; [done|]; split; [done|lia]].
    - apply (xstep_insert _ _ _ _ _ _ (length xs)); [ve_none|intros Hn; ve_none|done|intros; split; [done|]; split; [done|lia]].
    - apply (xstep_insert _ _ _ _ _ _ (k - j)); [ve_none|intros Hn; ve_none|done|intros; split; [done|]; split; [done|lia]].
    - apply (xstep_insert _ _ _ _ _ _ (n - v_last this)); [ve_none|intros Hn; ve_none|done|intros; split; [done|]; split; [done|lia]].
    - apply (xstep_insert _ _ _ _ _ _ (n - v_last this)); [ve_none|intros Hn; ve_none|done|intros; split; [done|]; split; [done|lia]].
    - apply (xstep_insert _ _ _ _ _ _ (n - v_last this)); [ve_none|intros Hn; ve_none|done|intros; split; [done|]; split; [done|lia]].
    - (* assign n *)
      unfold XStep, ve_step, vdone. cbv iota.
      apply (xp_bind _ (λ _ v, ret (v, other, VDone)) _ _ (λ y v, vecP v (replicate n x) (reserved y.1.1.2 n) ∗ vecR other y.1.2)%I).
      2: { intros v. apply xp_ret. intros [[[xs c] [ys d]] [[s' o'] out]] [Hs Hf]. simpl in *. unfold ve_spec_ok, ve_spec in Hs.
           case_decide; [|done]. simpl in Hs. simplify_eq/=. iIntros "[H Ho]". unfold cstep_post. simpl. iSplit; [done|]. iFrame. }
      unfold v_assign_n. apply (xp_bind _ _ _ _ (cleared this other)); [apply xp_clear|]. intros v.
      apply (xp_bind _ _ _ _ (filled n other)); [apply xp_reserve; [done|done]|]. intros v'.
      apply xp_of_wp; [cw|]. intros al [[[xs c] [ys d]] [[s' o'] out]] [Hs Hf]. unfold filled. simpl in *.
      assert (n < fuel) as Hn.
      { unfold ve_spec_ok, ve_spec in Hs. case_decide; [|done]. simpl in Hs. simplify_eq/=. unfold vneed in Hf. simpl in Hf. rewrite replicate_length in Hf. lia. }
      iIntros "[H Ho]". iApply (wp_wand with "[H]").
      { iApply (wp_fill_up fuel v' [] _ n _ x emp%I with "[$H]"); [simpl; unfold reserved; lia|lia|apply rok_ext]. }
      iIntros (v3) "(_&H&_)". iFrame.
    - by destruct (sp_ve_step dflt eqb fuel this other (EAssignRange xs)) as [p [Hp _]]; exists p; split; [exact Hp|]; intros x [Hx _].
    - by destruct (sp_ve_step dflt eqb fuel this other (EAssignOther j k)) as [p [Hp _]]; exists p; split; [exact Hp|]; intros x [Hx _].
    - (* operator= *)
      unfold XStep, ve_step, vdone. cbv iota.
      apply (xp_bind _ (λ _ v, ret (v, other, VDone)) _ _ (λ y v, vecP v y.1.2.1 (reserved y.1.1.2 y.1.2.2) ∗ vecR other y.1.2)%I).
      2: { intros v. apply xp_ret. intros [[[xs c] [ys d]] [[s' o'] out]] [Hs Hf]. simpl in *. unfold ve_spec_ok, ve_spec in Hs.
           case_decide; [|done]. simpl in Hs. simplify_eq/=. iIntros "[H Ho]". unfold cstep_post. simpl. iSplit; [done|]. iFrame. }
      unfold v_assign. apply (xp_bind _ _ _ _ (cleared this other)); [apply xp_clear|]. intros v.
      apply (xp_bind _ _ _ _ (filled (v_capacity other) other)).
      { apply xp_reserve; [|done]. intros s o Hs Ho. unfold v_capacity in Hs. split; [done|]. split; [done|]. lia. }
      intros v'.
      apply xp_of_wp; [cw|]. intros al [[[xs c] [ys d]] [[s' o'] out]] [Hs Hf]. unfold filled, vecR. simpl in *.
      assert (length ys < fuel) as Hn by (unfold vneed in Hf; simpl in Hf; lia).
      iIntros "[(%Hl2&%He2&_&H) (%Hlw&%Hew&%Hcw&Hw)]". unfold v_capacity in *. rewrite Hew in He2 |- *. rewrite Hl2 Hlw. wstep.
      rewrite lv_nil /=. unfold reserved in He2 |- *.
      assert (raw (V:=V) (c `max` d - 0) = raw (length ys) ++ raw (c `max` d - length ys)) as ->.
      { rewrite -raw_add. f_equal. lia. }
      iApply (wp_wand with "[H Hw]").
      { iApply (wp_copy_up fuel (v_buf other) (v_buf v') [] ys _ [] with "[$H $Hw]"); simpl; lia. }
      iIntros ([i o]) "[%Hio [Hw H]]". simplify_eq. simpl. wstep.
      iSplitL "H"; [|by do 3 (iSplit; [done|])].
      unfold vecP. simpl. do 3 (iSplit; [iPureIntro; simpl; lia|]). done.
    - assert ({n < v_end this} + {¬ n < v_end this}) as [Hn|Hn] by apply decide, _.
      + apply xstep_stay. unfold ve_step, vdone, v_reserve. destruct (decide (n < v_end this)) as [|]; [|done]. cw.
      + apply xstep_grow; [ve_none|done|]. intros. split; [done|]. split; [done|lia].
    - by destruct (sp_ve_step dflt eqb fuel this other ERecopy) as [p [Hp _]]; exists p; split; [exact Hp|]; intros x [Hx _].
    - by destruct (sp_ve_step dflt eqb fuel this other (ERecreate n)) as [p [Hp _]]; exists p; split; [exact Hp|]; intros x [Hx _].
    - by destruct (sp_ve_step dflt eqb fuel this other (ERecreateN n x)) as [p [Hp _]]; exists p; split; [exact Hp|]; intros y [Hx _].
    - by destruct (sp_ve_step dflt eqb fuel this other (ERecreateRange xs)) as [p [Hp _]]; exists p; split; [exact Hp|]; intros x [Hx _].
  Qed.
  Lemma ve_survives ops :
    survives_failures (λ al : A, v_new) (λ al, v_destroy) step ([], 0) (ve_fault_spec dflt eqb) (λ _, True) ve_aborted ve_members ops.
  Proof.
    apply (survives_failures_ok _ _ _ _ _ _ _ _ vecR vneed).
    - intros al. apply vec_new_R.
    - intros al fuel a s _ Hf. iIntros "H". iApply (wp_v_destroy with "H"). unfold vneed in Hf. lia.
    - apply ve_xstep.
  Qed.
End vector.

Section vmap.
  Context {K T : Type} (keq : K → K → bool) (dfltK : K) (dfltT : T) (eqb : K * T → K * T → bool).
  Notation A := (Allocator (list (option (K * T)))).
  Notation step := (λ al : A, vm_step keq dfltK dfltT eqb).
  Notation X := (XStep step (vm_fault_spec keq dfltK dfltT eqb) (vm_aborted keq) vm_members vecR vneed).
  Notation ok := (cstep_ok (vm_fault_spec keq dfltK dfltT eqb) vneed).
  Lemma vm_fault_sub s o op r : vm_fault_spec keq dfltK dfltT eqb s o op = Some r → vm_spec keq dfltK dfltT eqb s o op = Some r.
  Proof.
    destruct op as [op| | | | | | |]; try done. cbn [vm_fault_spec vm_spec]. intros Hr.
    apply bind_Some in Hr as ([[s1 o1] u]&Hs&?). apply ve_fault_sub in Hs. by rewrite Hs.
  Qed.
  Lemma wp_vm_x (al : A) fuel this other op x :
    ok fuel op x → cstep_pre vecR this other x ⊢ wp (vm_step keq dfltK dfltT eqb fuel this other op) (cstep_post vecR x).
  Proof.
    destruct x as [[s o] [[s' o'] out]]. intros [Hs Hf]. simpl in Hs, Hf. apply vm_fault_sub in Hs.
    by apply (wp_vm_step keq dfltK dfltT eqb fuel this other s o op s' o' out).
  Qed.
  (** insertion in two halves: the search allocates nothing *)
  Notation B := (list (option (K * T))).
  Notation iProp := (bi_car (hpropI B)).
  Notation Y := (ve_state (K * T) * ve_state (K * T) * (ve_state (K * T) * ve_state (K * T) * vm_out K T))%type.
  Notation thr := (cstep_throw (vm_aborted keq) vm_members vecR).
  Definition vfound (this other : tvec) (key : K) (x : Y) (i : nat) : iProp :=
    (⌜i = kpos keq key x.1.1.1⌝ ∧ cstep_pre vecR this other x)%I.
  Lemma vm_ok_room fuel op x : ok fuel op x → length x.1.1.1 + 1 < fuel.
  Proof. intros [_ Hf]. unfold vneed in Hf. lia. Qed.
  Lemma xp_vm_find fuel this other key (φ : Y → Prop) X' :
    (∀ x, φ x → length x.1.1.1 + 1 < fuel) →
    Xp (λ al : A, vm_find keq fuel this key) φ (cstep_pre vecR this other) (vfound this other key) X'.
  Proof.
    intros Hf. apply xp_of_wp; [cw|]. intros al x Hx. unfold cstep_pre, vfound. iIntros "[H Ho]".
    iApply (wp_wand with "[H]"); [iApply (wp_vm_find with "H"); specialize (Hf x Hx); lia|].
    iIntros (i) "[%Hi H]". iSplit; [done|]. iFrame.
  Qed.
  (** the entry is new and is appended *)
  Definition vadded (other : tvec) (e : K * T) (x : Y) (r : tvec * nat) : iProp :=
    (⌜r.2 = kpos keq e.1 x.1.1.1 ∧ vm_new keq e.1 x.1.1.1 = true⌝ ∧ vecR r.1 (vm_add keq e.1 e.2 x.1.1) ∗ vecR other x.1.2)%I.
  Lemma xp_vm_append fuel this other i r e (φ : Y → Prop) (Th : Y → iProp) :
    ¬ i ≠ v_last this →
    (∀ x, φ x → length x.1.1.1 + 1 < fuel ∧ vrefers this x.1.1.1 r e) →
    (∀ x, φ x → x.1.1.2 < length x.1.1.1 + 1 → vm_new keq e.1 x.1.1.1 = true → vecR this x.1.1 ∗ vecR other x.1.2 ⊢ Th x) →
    Xp (λ al : A, v_insert fuel this i r) φ (λ x, vfound this other e.1 x i) (vadded other e) Th.
  Proof.
    intros Hi%dec_stable Hφ HT.
    assert (∀ (al : A) x, φ x → vfound this other e.1 x i ⊢ wp (v_insert fuel this i r) (vadded other e x)) as Hw.
    { intros al x Hx. destruct (Hφ x Hx) as [Hf Hr]. unfold vfound, cstep_pre, vadded, vecR, v_insert. iIntros "[%Hk [H Ho]]".
      iDestruct (vecP_last with "H") as %(Hl&_). rewrite Hl in Hi. rewrite Hk in Hi. rewrite Hk. clear i Hk.
      iApply (wp_wand with "[H]").
      { iApply (wp_v_insert_n fuel this x.1.1.1 x.1.1.2 (kpos keq e.1 x.1.1.1) 1 r e with "H"); [lia|lia|done|].
        destruct r as [|p j]; [done|]. destruct Hr as [_ Hj]. apply lookup_lt_Some in Hj. lia. }
      iIntros ([v' i']) "(%Hi'&_&H)". cbn [fst snd] in *. unfold vm_add, vm_new. destruct (decide _); [lia|]. simpl.
      rewrite Hi ins_end bool_decide_eq_true_2 //. iSplit; [iPureIntro; split; [congruence|done]|]. destruct e. iFrame. }
    assert ({v_end this - v_last this < 1} + {¬ v_end this - v_last this < 1}) as [Hn|Hn] by apply decide, _.
    2: { apply xp_of_wp; [unfold v_insert, v_insert_n; cw|exact Hw]. }
    eapply xp_throw; [apply (xp_clean 1); [unfold v_insert, v_insert_n; cw|exact Hw]|].
    intros x Hx. unfold vfound, cstep_pre. iIntros "[%Hk [H Ho]]". iDestruct (vecR_last with "H") as %[Hl He].
    iApply (HT x Hx); [lia| |iFrame]. unfold vm_new. apply bool_decide_eq_true_2. congruence.
  Qed.
  Lemma vfound_old this other key x i : i ≠ v_last this → vfound this other key x i ⊢
    ⌜i = kpos keq key x.1.1.1 ∧ vm_new keq key x.1.1.1 = false ∧ ∀ t, vm_add keq key t x.1.1 = x.1.1⌝ ∧ cstep_pre vecR this other x.
  Proof.
    intros Hi. unfold vfound, cstep_pre. iIntros "[%Hk [H Ho]]". iDestruct (vecR_last with "H") as %[Hl He]. iSplit; [|iFrame].
    pose proof (kpos_le keq key x.1.1.1). iPureIntro. split; [done|]. unfold vm_new, vm_add.
    split; [apply bool_decide_eq_false_2; congruence|]. intros t. destruct (decide _); [done|]. congruence || lia.
  Qed.
  Lemma xp_vm_insert fuel this other op r :
    (∀ x, ok fuel op x → ∃ e, vrefers this x.1.1.1 r e) →
    (∀ x e, ok fuel op x → vrefers this x.1.1.1 r e →
       x.2 = (vm_add keq e.1 e.2 x.1.1, x.1.2, OIns (kpos keq e.1 x.1.1.1) (vm_new keq e.1 x.1.1.1))) →
    vm_members this other op = (this, other) →
    (∀ x e, ok fuel op x → vrefers this x.1.1.1 r e → x.1.1.2 < length x.1.1.1 + 1 → vm_new keq e.1 x.1.1.1 = true →
       vm_aborted keq x.1.1 x.1.2 op x.1.1 x.1.2) →
    Xp (λ al : A, vm_insert keq fuel this r) (ok fuel op) (cstep_pre vecR this other)
      (λ x y, cstep_post vecR x (y.1.1, other, OIns y.1.2 y.2)) (thr this other op).
  Proof.
    intros He Hs Hm Ha. unfold vm_insert.
    apply (xp_bind _ _ _ _ (λ x e, ⌜vrefers this x.1.1.1 r e⌝ ∧ cstep_pre vecR this other x)%I).
    { apply xp_of_wp; [destruct r; cw|]. intros al x Hx. unfold cstep_pre. iIntros "[H Ho]".
      destruct (He x Hx) as [e Hr]. destruct r as [y|p j]; cbn [deref vrefers] in *.
      - subst y. wstep. iSplit; [done|]. iFrame.
      - destruct Hr as [-> Hj]. iApply (vecP_rd with "H"); [done|]. iIntros "H". iSplit; [done|]. iFrame. }
    intros e. apply xp_pure. apply (xp_bind _ _ _ _ (vfound this other e.1)).
    { apply xp_vm_find. intros x [Hx _]. by eapply vm_ok_room. }
    intros i. assert ({i ≠ v_last this} + {¬ i ≠ v_last this}) as [Hi|Hi] by apply decide, _.
    - destruct (decide (i ≠ v_last this)) as [_|]; [|done]. apply xp_ret. intros x [Hx Hr].
      iIntros "H". iDestruct (vfound_old with "H") as "[%Hk H]"; [done|]. destruct Hk as (->&Hn&Hk).
      unfold cstep_post. rewrite (Hs x e Hx Hr). simpl. rewrite Hn Hk. iSplit; [done|]. iExact "H".
    - destruct (decide (i ≠ v_last this)) as [|_]; [done|].
      apply (xp_bind _ _ _ _ (vadded other e)).
      + apply xp_vm_append; [done|intros x [Hx Hr]; split; [by eapply vm_ok_room|done]|].
        intros x [Hx Hr] Hc Hn. iIntros "H". unfold cstep_throw. rewrite Hm. iExists x.1.1, x.1.2.
        iSplit; [iPureIntro; by apply (Ha x e)|]. iExact "H".
      + intros [v j]. apply xp_ret. intros x [Hx Hr]. unfold vadded, cstep_post. simpl. iIntros "[%Hk H]". destruct Hk as [-> Hn].
        rewrite (Hs x e Hx Hr). simpl. rewrite Hn. iSplit; [done|]. iExact "H".
  Qed.
  Lemma xp_vm_index fuel this other op k :
    vm_members this other op = (this, other) →
    (∀ x, ok fuel op x → x.1.1.2 < length x.1.1.1 + 1 → vm_new keq k x.1.1.1 = true →
       vm_aborted keq x.1.1 x.1.2 op x.1.1 x.1.2) →
    Xp (λ al : A, vm_index keq dfltT fuel this k) (ok fuel op) (cstep_pre vecR this other)
      (λ x y, ⌜y.2 = kpos keq k x.1.1.1⌝ ∧ vecR y.1 (vm_add keq k dfltT x.1.1) ∗ vecR other x.1.2)%I (thr this other op).
  Proof.
    intros Hm Ha. unfold vm_index. apply (xp_bind _ _ _ _ (vfound this other k)).
    { apply xp_vm_find. intros x Hx. by eapply vm_ok_room. }
    intros i. assert ({i ≠ v_last this} + {¬ i ≠ v_last this}) as [Hi|Hi] by apply decide, _.
    - destruct (decide (i ≠ v_last this)) as [_|]; [|done]. apply xp_ret. intros x Hx.
      iIntros "H". iDestruct (vfound_old with "H") as "[%Hk H]"; [done|]. destruct Hk as (->&Hn&Hk).
      simpl. rewrite Hk. iSplit; [done|]. iExact "H".
    - destruct (decide (i ≠ v_last this)) as [|_]; [done|].
      eapply xp_conseq; [apply (xp_vm_append fuel this other i (VExt (k, dfltT)) (k, dfltT) (ok fuel op) (thr this other op))|].
      + done.
      + intros x Hx; split; [by eapply vm_ok_room|done].
      + intros x Hx Hc Hn. iIntros "H". unfold cstep_throw. rewrite Hm. iExists x.1.1, x.1.2.
        iSplit; [iPureIntro; by apply Ha|]. iExact "H".
      + intros x Hx. simpl. iIntros "H". iExists x. iSplit; [done|]. iExists emp%I. iSplitR; [done|]. iFrame "H". iSplit.
        * iIntros (a) "_ [%Hk H]". iSplit; [iPureIntro; apply Hk|]. iExact "H".
        * iIntros "_ H". iExact "H".
  Qed.
  Lemma vm_xstep fuel this other op : X fuel this other op.
  Proof.
    destruct op as [op|k t|j|k|k t| | |];
      try (apply xstep_none; [unfold vm_step; cbv iota; cw|intros al x; by apply wp_vm_x]).
    - unfold XStep, vm_step. cbv iota.
      apply (xp_bind (λ al : A, ve_step (dfltK, dfltT) eqb fuel this other op) _ _ _
        (λ x r, ⌜x.2.2 = OBase r.2⌝ ∧ vecR r.1.1 x.2.1.1 ∗ vecR r.1.2 x.2.1.2)%I).
      { eapply xp_conseq; [apply (ve_xstep (dfltK, dfltT) eqb fuel this other op)|].
        intros [[s o] [[s' o'] out]] [Hs Hf]. cbn [vm_fault_spec] in Hs. apply bind_Some in Hs as ([[s1 o1] r]&Hs&H). cbn [fst snd] in Hs, H, Hf. simplify_eq.
        iIntros "H". iExists (s, o, (s', o', r)). iSplit; [iPureIntro; split; [exact Hs|exact Hf]|]. iExists emp%I. iSplitR; [done|].
        iSplitL; [iExact "H"|]. iSplit.
        - iIntros (a) "_ [%Ha H]". simpl in *. iSplit; [iPureIntro; by rewrite Ha|]. iExact "H".
        - iIntros "_ H". iExact "H". }
      intros [[v w] r]. apply xp_ret. intros [[s o] [[s' o'] out]] _. simpl in *.
      iIntros "[%Hr H]". unfold cstep_post. simpl. iSplit; [done|]. iExact "H".
    - unfold XStep, vm_step. cbv iota.
      apply (xp_bind _ _ _ _ (λ x y, cstep_post vecR x (y.1.1, other, OIns y.1.2 y.2))).
      + apply xp_vm_insert; [intros; by eexists| |done|].
        * intros x e [Hs _] <-. simpl in Hs. by simplify_eq.
        * by intros x e [Hs _] <- Hc Hn.
      + intros [[v i] b]. apply xp_ret. done.
    - unfold XStep, vm_step. cbv iota.
      apply (xp_bind _ _ _ _ (λ x y, cstep_post vecR x (y.1.1, other, OIns y.1.2 y.2))).
      + apply xp_vm_insert; [| |done|].
        * intros x [Hs _]. simpl in Hs. apply bind_Some in Hs as (e&He&_). by exists e.
        * intros x e [Hs _] [_ Hr]. simpl in Hs. rewrite Hr in Hs. simpl in Hs. by simplify_eq.
        * intros x e [Hs _] [_ Hr] Hc Hn. split; [done|]. split; [done|]. split; [done|]. by exists e.
      + intros [[v i] b]. apply xp_ret. done.
    - unfold XStep, vm_step. cbv iota.
      apply (xp_bind _ _ _ _ (λ x y, ⌜y.2 = kpos keq k x.1.1.1⌝ ∧ vecR y.1 (vm_add keq k dfltT x.1.1) ∗ vecR other x.1.2)%I).
      { by apply xp_vm_index. }
      intros [v i]. apply xp_of_wp; [cw|]. intros al x [Hs _]. simpl in Hs. apply bind_Some in Hs as (e&He&Hs).
      simpl. iIntros "(->&H&Ho)". wstep. iApply (vecP_rd with "H"); [done|]. iIntros "H". wstep.
      unfold cstep_post. simplify_eq. rewrite -Hs. simpl. iSplit; [done|]. iFrame.
    - unfold XStep, vm_step. cbv iota.
      apply (xp_bind _ _ _ _ (λ x y, ⌜y.2 = kpos keq k x.1.1.1⌝ ∧ vecR y.1 (vm_add keq k dfltT x.1.1) ∗ vecR other x.1.2)%I).
      { by apply xp_vm_index. }
      intros [v i]. apply xp_of_wp; [cw|]. intros al [[[xs c] o] x2] [Hs _]. simpl in Hs.
      simpl. iIntros "(->&H&Ho)". destruct (vm_add_lookup keq k dfltT xs c) as [e He].
      wstep. iApply (vecP_rd with "H"); [done|]. iIntros "H". wstep.
      iApply (wp_wand with "[H]").
      { iApply (wp_v_set_at _ _ _ _ (e.1, t) with "H"). by eapply lookup_lt_Some. }
      iIntros (_) "H". wstep. unfold cstep_post. simplify_eq. simpl. iSplit; [done|]. iFrame "Ho". unfold vecR, set_val. simpl.
      rewrite (VmapProofs.alter_insert (λ e0 : K * T, (e0.1, t)) _ _ e He). iExact "H".
  Qed.
  Lemma vm_survives ops :
    survives_failures (λ al : A, v_new) (λ al, v_destroy) step ([], 0) (vm_fault_spec keq dfltK dfltT eqb) (λ _, True) (vm_aborted keq) vm_members ops.
  Proof.
    apply (survives_failures_ok _ _ _ _ _ _ _ _ vecR vneed).
    - intros al. apply vec_new_R.
    - intros al fuel a s _ Hf. iIntros "H". iApply (wp_v_destroy with "H"). unfold vneed in Hf. lia.
    - apply vm_xstep.
  Qed.
End vmap.
