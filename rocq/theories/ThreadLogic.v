(** Threads: local safety of a program, from the triples of the single-threaded model; threads with
    disjoint memory and a common read-only part. Proof file. *)
From Coq Require Import ssreflect.
From Verif Require Export Threads.
Local Open Scope general_if_scope.

Section local.
  Context {C : Type}.
  Notation heap := (gmap loc C).
  Implicit Types (h hr : heap).

  Fixpoint interp {A} (al : Allocator C) (p : prog C A) : M heap A := λ h,
    match p with
    | PRet a => Ok (a, h)
    | PUB u => UB u
    | PNoFuel => NoFuel
    | PLoad l k => match h !! l with Some c => interp al (k c) h | None => UB Dangling end
    | PModify l f k => match h !! l with Some c => interp al k (<[l := f c]> h) | None => UB Dangling end
    | PAlloc c k => let l := @alloc_addr _ al h in interp al (k l) (<[l := c]> h)
    | PFree l k => match h !! l with Some c => interp al k (delete l h) | None => UB Dangling end
    end.
  Lemma interp_bind {A B} al (p : prog C A) (k : A → prog C B) h :
    interp al (pbind p k) h = bind (interp al p) (λ a, interp al (k a)) h.
  Proof.
    revert h. induction p as [a|u| |l q IH|l f q IH|c q IH|l q IH]; intros h; simpl; unfold bind; try done.
    - destruct (h !! l) as [c|]; [|done]. by rewrite IH.
    - destruct (h !! l) as [c|]; [|done]. by rewrite IH.
    - by rewrite IH.
    - destruct (h !! l) as [c|]; [|done]. by rewrite IH.
  Qed.
  Lemma performs_interp {A} (m : Allocator C → M heap A) p : performs m p → ∀ al h, m al h = interp al p h.
  Proof.
    induction 1 as [| | | | | | |A B m k p q _ IH1 _ IH2]; intros al h; try done.
    rewrite interp_bind. unfold bind. rewrite -IH1. destruct (m al h) as [[a h']| |]; [|done|done]. apply IH2.
  Qed.

  (** *** Which accesses a program makes: 0 anything may follow, 1 after an allocation, 2 no more
      allocation (only after 1 -> free); every path is frees, then allocations, then frees *)
  Fixpoint ordered {A} (s : nat) (p : prog C A) : Prop :=
    match p with
    | PRet _ | PUB _ | PNoFuel => True
    | PLoad _ k => ∀ c, ordered s (k c)
    | PModify _ _ k => ordered s k
    | PAlloc _ k => s ≤ 1 ∧ ∀ l, ordered 1 (k l)
    | PFree _ k => ordered (if decide (s = 0) then 0 else 2) k
    end.
  Fixpoint read_only {A} (p : prog C A) : Prop :=
    match p with
    | PRet _ | PUB _ | PNoFuel => True
    | PLoad _ k => ∀ c, read_only (k c)
    | PModify _ _ _ | PAlloc _ _ | PFree _ _ => False
    end.

  (** An allocator that behaves like [al] except on memories with the addresses of [h0]. *)
  Definition al_except_addr (al : Allocator C) h0 (l : loc) (h : heap) : loc :=
    if decide (dom h = dom h0) then l else @alloc_addr _ al h.
  Lemma al_except_fresh al h0 l : h0 !! l = None → ∀ h, h !! al_except_addr al h0 l h = None.
  Proof.
    intros Hl h. unfold al_except_addr. destruct (decide _) as [E|E]; [|apply alloc_addr_fresh].
    apply not_elem_of_dom. rewrite E. by apply not_elem_of_dom.
  Qed.
  Definition al_except al h0 l (Hl : h0 !! l = None) : Allocator C :=
    {| alloc_addr := al_except_addr al h0 l; alloc_addr_fresh := al_except_fresh al h0 l Hl |}.

  Lemma interp_no_alloc {A} (al al' : Allocator C) (p : prog C A) h :
    ordered 2 p → interp al p h = interp al' p h.
  Proof.
    revert h. induction p as [a|u| |l q IH|l f q IH|c q IH|l q IH]; intros h Hp; simpl in *; try done.
    - destruct (h !! l); [|done]. by apply IH.
    - destruct (h !! l); [|done]. by apply IH.
    - lia.
    - destruct (h !! l); [|done]. by apply IH.
  Qed.
  Lemma interp_except {A} al h0 l0 Hl0 (p : prog C A) h :
    ordered 1 p → l0 ∈ dom h →
    interp (al_except al h0 l0 Hl0) p h = interp al p h.
  Proof.
    revert h. induction p as [a|u| |l q IH|l f q IH|c q IH|l q IH]; intros h Hp Hh; simpl in *; try done.
    - destruct (h !! l); [|done]. by apply IH.
    - destruct (h !! l); [|done]. apply IH; [done|]. rewrite dom_insert. set_solver.
    - destruct Hp as [_ Hp]. assert (al_except_addr al h0 l0 h = @alloc_addr _ al h) as ->.
      { unfold al_except_addr. destruct (decide _) as [E|E]; [|done]. exfalso.
        rewrite E in Hh. apply elem_of_dom in Hh as [? Hh]. congruence. }
      apply IH; [done|]. rewrite dom_insert. set_solver.
    - destruct (h !! l); [|done]. by apply interp_no_alloc.
  Qed.
  Lemma ordered_mono {A} s t (p : prog C A) : s ≤ t → ordered t p → ordered s p.
  Proof.
    revert s t. induction p as [a|u| |l q IH|l f q IH|c q IH|l q IH]; intros s t Hst Hp; simpl in *; try done.
    - intros c. eapply IH; eauto.
    - eapply IH; eauto.
    - destruct Hp as [? Hp]. split; [lia|]. intros l. apply Hp.
    - eapply IH; [|exact Hp]. destruct (decide (s = 0)), (decide (t = 0)); lia.
  Qed.

  (** *** Local safety, with memory [hr] that may be read only and own memory [h] *)
  Fixpoint safe {A} hr (p : prog C A) (h : heap) (Q : A → heap → Prop) : Prop :=
    match p with
    | PRet a => Q a h
    | PUB _ | PNoFuel => False
    | PLoad l k => ∃ c, (hr ∪ h) !! l = Some c ∧ safe hr (k c) h Q
    | PModify l f k => ∃ c, h !! l = Some c ∧ safe hr k (<[l := f c]> h) Q
    | PAlloc c k => ∀ l, (hr ∪ h) !! l = None → safe hr (k l) (<[l := c]> h) Q
    | PFree l k => ∃ c, h !! l = Some c ∧ safe hr k (delete l h) Q
    end.
  Lemma safe_bind {A B} hr (p : prog C A) (k : A → prog C B) h (Q : B → heap → Prop) R :
    safe hr p h R → (∀ a h', R a h' → safe hr (k a) h' Q) → safe hr (pbind p k) h Q.
  Proof.
    intros Hp Hk. revert h Hp. induction p as [a|u| |l q IH|l f q IH|c q IH|l q IH]; intros h Hp; simpl in *; try done.
    - eauto.
    - destruct Hp as (c&?&?). eauto.
    - destruct Hp as (c&?&?). eauto.
    - eauto.
    - destruct Hp as (c&?&?). eauto.
  Qed.
  Lemma safe_conseq {A} hr (p : prog C A) h (Q R : A → heap → Prop) :
    safe hr p h R → (∀ a h', R a h' → Q a h') → safe hr p h Q.
  Proof.
    intros Hp HQ. revert h Hp. induction p as [a|u| |l q IH|l f q IH|c q IH|l q IH]; intros h Hp; simpl in *; try done.
    - eauto.
    - destruct Hp as (c&?&?). eauto.
    - destruct Hp as (c&?&?). eauto.
    - eauto.
    - destruct Hp as (c&?&?). eauto.
  Qed.
  (** other memory may be there for reading *)
  Lemma safe_shared {A} hr (p : prog C A) h (Q : A → heap → Prop) : hr ##ₘ h → safe ∅ p h Q → safe hr p h Q.
  Proof.
    revert h. induction p as [a|u| |l q IH|l f q IH|c q IH|l q IH]; intros h Hd Hp; simpl in *; try done.
    - destruct Hp as (c&Hl&Hp). exists c. rewrite left_id_L in Hl. split; [|by apply IH].
      by rewrite lookup_union_r //; eapply map_disjoint_Some_r.
    - destruct Hp as (c&Hl&Hp). exists c. split; [done|]. apply IH; [|done].
      apply map_disjoint_insert_r. split; [by eapply map_disjoint_Some_r|done].
    - intros l Hl. apply lookup_union_None in Hl as [H1 H2]. apply IH.
      + by apply map_disjoint_insert_r.
      + apply Hp. by rewrite left_id_L.
    - destruct Hp as (c&Hl&Hp). exists c. split; [done|]. apply IH; [|done]. by apply map_disjoint_delete_r.
  Qed.

  (** From runs alone, for every allocator, to local safety. *)
  Lemma safe_of_interp {A} s (p : prog C A) h (Q : A → heap → Prop) : ordered s p →
    (∀ al, ∃ a h', interp al p h = Ok (a, h') ∧ Q a h') → safe ∅ p h Q.
  Proof.
    revert s h. induction p as [a|u| |l q IH|l f q IH|c q IH|l q IH]; intros s h Ho Hp; simpl in *.
    - destruct (Hp (bump_allocator C)) as (a'&h'&?&?). by simplify_eq.
    - by destruct (Hp (bump_allocator C)) as (a'&h'&?&?).
    - by destruct (Hp (bump_allocator C)) as (a'&h'&?&?).
    - destruct (h !! l) as [c|] eqn:E.
      + exists c. rewrite left_id_L. split; [done|]. eapply IH; [apply Ho|done].
      + by destruct (Hp (bump_allocator C)) as (a'&h'&?&?).
    - destruct (h !! l) as [c|] eqn:E.
      + exists c. split; [done|]. by eapply IH.
      + by destruct (Hp (bump_allocator C)) as (a'&h'&?&?).
    - intros l. rewrite left_id_L. intros Hl. eapply IH; [apply Ho|]. intros al.
      destruct (Hp (al_except al h l Hl)) as (a&h'&Ha&HQ). exists a, h'. split; [|done].
      rewrite -Ha. simpl. unfold al_except_addr. rewrite decide_True //.
      symmetry. apply interp_except; [apply Ho|]. rewrite dom_insert. set_solver.
    - destruct (h !! l) as [c|] eqn:E.
      + exists c. split; [done|]. by eapply IH.
      + by destruct (Hp (bump_allocator C)) as (a'&h'&?&?).
  Qed.
  Lemma safe_read_only {A} al (p : prog C A) hr a h' : read_only p →
    interp al p hr = Ok (a, h') → safe hr p ∅ (λ b h, b = a ∧ h = ∅).
  Proof.
    induction p as [b|u| |l q IH|l f q IH|c q IH|l q IH]; intros Hr Hp; simpl in *; try done.
    - by simplify_eq.
    - rewrite right_id_L. destruct (hr !! l) as [c|]; [|done]. exists c. split; [done|]. by apply IH.
  Qed.
End local.

(** *** Several threads *)
Section pool.
  Context {C A : Type}.
  Notation heap := (gmap loc C).
  Implicit Types (h hr : heap) (ps : list (prog C A)).

  (** [h] consists of the disjoint pieces [hs] *)
  Fixpoint pieces (hs : list heap) h : Prop :=
    match hs with
    | [] => h = ∅
    | h1 :: hs => ∃ h2, h = h1 ∪ h2 ∧ h1 ##ₘ h2 ∧ pieces hs h2
    end.
  Lemma pieces_focus hs h i hi : pieces hs h → hs !! i = Some hi →
    ∃ ho, h = hi ∪ ho ∧ hi ##ₘ ho ∧ ∀ hi', hi' ##ₘ ho → pieces (<[i := hi']> hs) (hi' ∪ ho).
  Proof.
    revert h i. induction hs as [|h1 hs IH]; intros h [|i] Hp Hi; simplify_eq/=.
    - destruct Hp as (h2&->&Hd&Hp). exists h2. split_and!; [done|done|]. intros hi' Hd'. exists h2. done.
    - destruct Hp as (h2&->&Hd&Hp). destruct (IH _ _ Hp Hi) as (ho&->&Hd2&HH).
      exists (h1 ∪ ho). apply map_disjoint_union_r in Hd as [Hd1 Hd3]. split_and!.
      + rewrite !assoc_L. by rewrite (map_union_comm h1 hi).
      + by apply map_disjoint_union_r.
      + intros hi' Hd'. apply map_disjoint_union_r in Hd' as [Hd4 Hd5]. exists (hi' ∪ ho). split_and!.
        * rewrite !assoc_L. by rewrite (map_union_comm hi' h1).
        * by apply map_disjoint_union_r.
        * by apply HH.
  Qed.
  Lemma pieces_two hs h i j hi hj : pieces hs h → i ≠ j → hs !! i = Some hi → hs !! j = Some hj → hi ##ₘ hj.
  Proof.
    revert h i j. induction hs as [|h1 hs IH]; intros h [|i] [|j] Hp Hne Hi Hj; simplify_eq/=.
    - destruct Hp as (h2&->&Hd&Hp). destruct (pieces_focus _ _ _ _ Hp Hj) as (ho&->&_).
      by apply map_disjoint_union_r in Hd as [? _].
    - destruct Hp as (h2&->&Hd&Hp). destruct (pieces_focus _ _ _ _ Hp Hi) as (ho&->&_).
      by apply map_disjoint_union_r in Hd as [? _].
    - destruct Hp as (h2&->&Hd&Hp). apply (IH h2 i j); [done|congruence|done|done].
  Qed.

  (** The state of all threads: common memory [hr] (read only), other memory [hf], own memory. *)
  Definition threads_inv hr hf (Qs : list (A → heap → Prop)) h ps : Prop :=
    ∃ hs ht, length hs = length ps ∧ length Qs = length ps ∧
      h = hr ∪ ht ∧ hr ##ₘ ht ∧ pieces (hf :: hs) ht ∧
      ∀ i p hi Q, ps !! i = Some p → hs !! i = Some hi → Qs !! i = Some Q → safe hr p hi Q.

  Lemma threads_step hr hf Qs h ps h' ps' :
    threads_inv hr hf Qs h ps → tstep (h, ps) (h', ps') → threads_inv hr hf Qs h' ps'.
  Proof.
    intros (hs&ht&Hl1&Hl2&->&Hd&Hp&Hs) Hst. inversion Hst as [i h0 p h1 p' ps0 Hi Hstep]; subst.
    assert (is_Some (hs !! i)) as [hi Hhi] by (apply lookup_lt_is_Some; rewrite Hl1; by eapply lookup_lt_Some).
    assert (is_Some (Qs !! i)) as [Q HQ] by (apply lookup_lt_is_Some; rewrite Hl2; by eapply lookup_lt_Some).
    pose proof (Hs _ _ _ _ Hi Hhi HQ) as Hsi.
    destruct (pieces_focus (hf :: hs) ht (S i) hi Hp Hhi) as (ho&->&Hdo&Hfoc).
    apply map_disjoint_union_r in Hd as [Hd1 Hd2].
    assert (∀ hi', h' = hr ∪ (hi' ∪ ho) → hr ##ₘ hi' → hi' ##ₘ ho → safe hr p' hi' Q →
      threads_inv hr hf Qs h' (<[i := p']> ps)) as HH.
    { intros hi' -> Ha Hb Hc. exists (<[i := hi']> hs), (hi' ∪ ho).
      rewrite !insert_length. split_and!; [done|done|done|by apply map_disjoint_union_r|by apply (Hfoc hi')|].
      intros j q hj Q' Hj Hhj HQ'. destruct (decide (i = j)) as [<-|Hne].
      - rewrite list_lookup_insert in Hj; [by eapply lookup_lt_Some|].
        rewrite list_lookup_insert in Hhj; [by eapply lookup_lt_Some|]. by simplify_eq.
      - rewrite list_lookup_insert_ne // in Hj. rewrite list_lookup_insert_ne // in Hhj. by eapply Hs. }
    inversion Hstep as [? l k c Hl|? l f k c Hl|? c k l Hl|? l k c Hl]; subst; simpl in Hsi.
    - destruct Hsi as (c'&Hc'&Hsi). apply (HH hi); [done|done|done|].
      assert (c' = c) as ->; [|done].
      rewrite assoc_L in Hl. rewrite (lookup_union_Some_l _ _ _ _ Hc') in Hl. by simplify_eq.
    - destruct Hsi as (c'&Hc'&Hsi).
      assert (c' = c) as ->.
      { rewrite lookup_union_r in Hl; [exact (map_disjoint_Some_r _ _ _ _ Hd1 Hc')|].
        rewrite (lookup_union_Some_l _ _ _ _ Hc') in Hl. by simplify_eq. }
      apply (HH (<[l := f c]> hi)); [|..|done].
      + rewrite insert_union_r; [exact (map_disjoint_Some_r _ _ _ _ Hd1 Hc')|]. by rewrite insert_union_l.
      + apply map_disjoint_insert_r. split; [exact (map_disjoint_Some_r _ _ _ _ Hd1 Hc')|done].
      + apply map_disjoint_insert_l. split; [exact (map_disjoint_Some_l _ _ _ _ Hdo Hc')|done].
    - apply lookup_union_None in Hl as [Hl1' Hl2']. apply lookup_union_None in Hl2' as [Hl2' Hl3].
      apply (HH (<[l := c]> hi)); [|..|].
      + by rewrite insert_union_r // insert_union_l.
      + by apply map_disjoint_insert_r.
      + by apply map_disjoint_insert_l.
      + apply Hsi. by apply lookup_union_None.
    - destruct Hsi as (c'&Hc'&Hsi). apply (HH (delete l hi)); [|..|done].
      + rewrite !delete_union. f_equal; [|f_equal].
        * rewrite delete_notin //. exact (map_disjoint_Some_r _ _ _ _ Hd1 Hc').
        * rewrite delete_notin //. exact (map_disjoint_Some_l _ _ _ _ Hdo Hc').
      + by apply map_disjoint_delete_r.
      + by apply map_disjoint_delete_l.
  Qed.
  Lemma threads_steps hr hf Qs h ps h' ps' :
    threads_inv hr hf Qs h ps → rtc tstep (h, ps) (h', ps') → threads_inv hr hf Qs h' ps'.
  Proof.
    intros Hi Hr. remember (h, ps) as c eqn:Ec. remember (h', ps') as c' eqn:Ec'.
    revert h ps Hi Ec. induction Hr as [c|c [h1 ps1] c' Hs Hr IH]; intros h ps Hi ->.
    - by simplify_eq.
    - eapply IH; [done|by eapply threads_step|done].
  Qed.
  Lemma safe_next hr (p : prog C A) h Q l r : safe hr p h Q → next_access p = Some (l, r) →
    if r then is_Some ((hr ∪ h) !! l) else is_Some (h !! l).
  Proof. destruct p; simpl; try done; intros Hs [= <- <-]; destruct Hs as (c&?&_); by exists c. Qed.
  Lemma threads_no_race hr hf Qs h ps : threads_inv hr hf Qs h ps → ¬ data_race ps.
  Proof.
    intros (hs&ht&Hl1&Hl2&->&Hd&Hp&Hs) (i&j&p&q&l&r&r'&Hne&Hi&Hj&Hnp&Hnq&Hr).
    assert (∀ i p, ps !! i = Some p → ∃ hi Q, hs !! i = Some hi ∧ safe hr p hi Q ∧ hr ##ₘ hi) as HH.
    { intros i' p' Hi'.
      assert (is_Some (hs !! i')) as [hi Hhi] by (apply lookup_lt_is_Some; rewrite Hl1; by eapply lookup_lt_Some).
      assert (is_Some (Qs !! i')) as [Q HQ] by (apply lookup_lt_is_Some; rewrite Hl2; by eapply lookup_lt_Some).
      exists hi, Q. split_and!; [done|by eapply Hs|].
      destruct (pieces_focus (hf :: hs) ht (S i') hi Hp Hhi) as (ho&->&_).
      by apply map_disjoint_union_r in Hd as [? _]. }
    destruct (HH _ _ Hi) as (hi&Q&Hhi&Hsi&Hdi), (HH _ _ Hj) as (hj&Q'&Hhj&Hsj&Hdj).
    assert (hi ##ₘ hj) as Hij by (apply (pieces_two (hf :: hs) ht (S i) (S j)); auto).
    pose proof (safe_next _ _ _ _ _ _ Hsi Hnp) as Hx. pose proof (safe_next _ _ _ _ _ _ Hsj Hnq) as Hy.
    assert (is_Some ((hr ∪ hi) !! l) → is_Some (hj !! l) → False) as F1.
    { intros [x Hx'] [y Hy']. apply lookup_union_Some_raw in Hx' as [Hx'|[_ Hx']].
      - pose proof (map_disjoint_Some_l _ _ _ _ Hdj Hx'). congruence.
      - pose proof (map_disjoint_Some_l _ _ _ _ Hij Hx'). congruence. }
    assert (is_Some (hi !! l) → is_Some ((hr ∪ hj) !! l) → False) as F2.
    { intros [x Hx'] [y Hy']. apply lookup_union_Some_raw in Hy' as [Hy'|[_ Hy']].
      - pose proof (map_disjoint_Some_l _ _ _ _ Hdi Hy'). congruence.
      - pose proof (map_disjoint_Some_l _ _ _ _ Hij Hx'). congruence. }
    assert (is_Some (hi !! l) → is_Some (hj !! l) → False) as F3.
    { intros [x Hx'] [y Hy']. pose proof (map_disjoint_Some_l _ _ _ _ Hij Hx'). congruence. }
    destruct r, r'; simplify_eq/=; eauto.
  Qed.
  Lemma threads_not_stuck hr hf Qs h ps i p :
    threads_inv hr hf Qs h ps → ps !! i = Some p → ¬ stuck h p.
  Proof.
    intros (hs&ht&Hl1&Hl2&->&Hd&Hp&Hs) Hi (Hf&Hst).
    assert (is_Some (hs !! i)) as [hi Hhi] by (apply lookup_lt_is_Some; rewrite Hl1; by eapply lookup_lt_Some).
    assert (is_Some (Qs !! i)) as [Q HQ] by (apply lookup_lt_is_Some; rewrite Hl2; by eapply lookup_lt_Some).
    pose proof (Hs _ _ _ _ Hi Hhi HQ) as Hsi.
    destruct (pieces_focus (hf :: hs) ht (S i) hi Hp Hhi) as (ho&->&Hdo&_).
    assert (∀ l c, hi !! l = Some c → (hr ∪ (hi ∪ ho)) !! l = Some c) as Hlk.
    { intros l c Hl. apply map_disjoint_union_r in Hd as [Hd1 Hd2].
      rewrite lookup_union_r; [exact (map_disjoint_Some_r _ _ _ _ Hd1 Hl)|]. by apply lookup_union_Some_l. }
    destruct p as [a|u| |l k|l f k|c k|l k]; simpl in Hsi; try done.
    - apply Hf. by exists a.
    - destruct Hsi as (c&Hc&_). eapply Hst. apply (ps_load _ l k c).
      rewrite assoc_L. by apply lookup_union_Some_l.
    - destruct Hsi as (c&Hc&_). eapply Hst. by eapply ps_modify, Hlk.
    - eapply Hst. eapply (ps_alloc _ c k), (bump_addr_fresh (hr ∪ (hi ∪ ho))).
    - destruct Hsi as (c&Hc&_). eapply Hst. by eapply ps_free, Hlk.
  Qed.

  (** Termination *)
  Definition smaller (p' p : prog C A) : Prop := ∃ h h', pstep h p h' p'.
  Lemma smaller_wf p : Acc smaller p.
  Proof.
    induction p as [a|u| |l q IH|l f q IH|c q IH|l q IH]; constructor; intros p' (h&h'&Hs); inversion Hs; subst; eauto.
  Qed.
  Inductive pool_smaller : list (prog C A) → list (prog C A) → Prop :=
    | pool_smaller_intro i p p' ps : ps !! i = Some p → smaller p' p → pool_smaller (<[i := p']> ps) ps.
  Lemma pool_smaller_wf ps : Acc pool_smaller ps.
  Proof.
    induction ps as [|p ps IH].
    { constructor. intros ps' Hs. inversion Hs as [i p p' ps0 Hi]; subst. by destruct i. }
    revert p. induction IH as [ps _ IHps]. intros p. induction (smaller_wf p) as [p Hp IHp].
    constructor. intros ps' Hs. inversion Hs as [i q q' ps0 Hi Hq]; subst. destruct i as [|i]; simplify_eq/=.
    - by apply IHp.
    - apply IHps. by econstructor.
  Qed.
  Lemma tstep_wf h ps : Acc (λ c' c, tstep c c') (h, ps).
  Proof.
    revert h. induction (pool_smaller_wf ps) as [ps _ IH]. intros h. constructor. intros [h' ps'] Hs.
    inversion Hs as [i h0 p h1 p' ps0 Hi Hp]; subst. apply IH. econstructor; [done|]. by exists h, h'.
  Qed.

  (** Threads whose own memory is empty at the beginning and at the end. *)
  Lemma threads_ok hr hf ps rs :
    hr ##ₘ hf → length ps = length rs →
    (∀ i p r, ps !! i = Some p → rs !! i = Some r → safe hr p ∅ (λ a h, a = r ∧ h = ∅)) →
    every_schedule (hr ∪ hf) ps rs (λ h, h = hr ∪ hf).
  Proof.
    intros Hd Hlen Hs. split; [apply tstep_wf|]. intros h ps' Hr.
    set (Qs := (λ r (a : A) (h : heap), a = r ∧ h = ∅) <$> rs).
    assert (∀ hs : list heap, (∀ i h, hs !! i = Some h → h = ∅) → pieces hs ∅) as Hemp.
    { induction hs as [|h1 hs IH]; intros He; simpl; [done|]. exists ∅.
      rewrite (He 0 h1) //. split_and!; [by rewrite left_id_L|apply map_disjoint_empty_r|]. apply IH. intros i h2 Hi. by apply (He (S i)). }
    assert (∀ (hs : list heap) h, (∀ i h, hs !! i = Some h → h = ∅) → pieces hs h → h = ∅) as Hemp'.
    { induction hs as [|h1 hs IH]; intros h1' He; simpl; [done|]. intros (h2&->&_&Hp).
      rewrite (He 0 h1) // left_id_L. apply IH; [|done]. intros i h3 Hi. by apply (He (S i)). }
    assert (threads_inv hr hf Qs (hr ∪ hf) ps) as Hinv.
    { exists (replicate (length ps) ∅), hf. rewrite replicate_length fmap_length. split_and!; [done|done|done|done| |].
      - exists ∅. split_and!; [by rewrite right_id_L|apply map_disjoint_empty_r|]. apply Hemp.
        intros i h1 Hi. by apply lookup_replicate in Hi as [-> _].
      - intros i p hi Q Hi Hhi HQ. apply lookup_replicate in Hhi as [-> _].
        unfold Qs in HQ. rewrite list_lookup_fmap in HQ.
        destruct (rs !! i) as [r|] eqn:Er; simplify_eq/=. by apply (Hs i). }
    pose proof (threads_steps _ _ _ _ _ _ _ Hinv Hr) as Hinv'.
    split_and!; [by eapply threads_no_race|intros i p Hi; by eapply threads_not_stuck|].
    intros Hfin. destruct Hinv' as (hs&ht&Hl1&Hl2&->&Hd'&Hp&Hs').
    unfold Qs in Hl2. rewrite fmap_length in Hl2.
    assert (∀ i p, ps' !! i = Some p → ∃ r, rs !! i = Some r ∧ p = PRet r ∧ hs !! i = Some ∅) as Hres.
    { intros i p Hi.
      assert (is_Some (hs !! i)) as [hi Hhi] by (apply lookup_lt_is_Some; rewrite Hl1; by eapply lookup_lt_Some).
      assert (is_Some (rs !! i)) as [r Hri] by (apply lookup_lt_is_Some; rewrite Hl2; by eapply lookup_lt_Some).
      assert (Qs !! i = Some (λ (a : A) (h : heap), a = r ∧ h = ∅)) as HQ by (unfold Qs; by rewrite list_lookup_fmap Hri).
      pose proof (Hs' _ _ _ _ Hi Hhi HQ) as Hsi. rewrite Forall_lookup in Hfin.
      destruct (Hfin i p Hi) as [a ->]. simpl in Hsi. destruct Hsi as [-> ->]. eauto. }
    split.
    - apply list_eq. intros i. rewrite list_lookup_fmap. destruct (ps' !! i) as [p|] eqn:Ei.
      + destruct (Hres i p Ei) as (r&->&->&_). done.
      + apply lookup_ge_None in Ei. rewrite -Hl2 in Ei. by rewrite (proj2 (lookup_ge_None rs i) Ei).
    - f_equal. destruct Hp as (h2&->&_&Hp). rewrite (Hemp' hs h2); [|done|by rewrite right_id_L].
      intros i h1 Hi. assert (is_Some (ps' !! i)) as [p Hpi] by (apply lookup_lt_is_Some; rewrite -Hl1; by eapply lookup_lt_Some).
      destruct (Hres i p Hpi) as (?&_&_&?). by simplify_eq.
  Qed.
End pool.
