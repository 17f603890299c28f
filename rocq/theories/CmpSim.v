(** Member functions with throwing function objects against the plain ones. Proof file. *)
From Verif Require Export CmpSpec.

Section sim.
  Context {S : Type}.
  Implicit Types (Thr : Prop).

  Definition reads_only {A} (m : M S A) : Prop := ∀ s a s', m s = Ok (a, s') → s' = s.
  Lemma reads_ret {A} (a : A) : reads_only (ret a).
  Proof. intros s a' s'. by intros [= _ ->]. Qed.
  Lemma reads_fail {A} u : reads_only (fail (A:=A) u).
  Proof. intros s a' s'. done. Qed.
  Lemma reads_bind {A B} (m : M S A) (k : A → M S B) :
    reads_only m → (∀ a, reads_only (k a)) → reads_only (bind m k).
  Proof.
    intros Hm Hk s b s'. unfold bind. destruct (m s) as [[a s1]| |] eqn:E; [|done|done].
    intros Hb. apply Hk in Hb as ->. by apply Hm in E.
  Qed.
  Lemma reads_loop {A B} fuel (body : A → M S (A + B)) a :
    (∀ a, reads_only (body a)) → reads_only (loop fuel body a).
  Proof.
    intros Hb. revert a. induction fuel as [|fuel IH]; intros a; [done|].
    cbn [loop]. apply reads_bind; [done|]. intros [a'|b]; [apply IH|apply reads_ret].
  Qed.

  Notation aon := (@all_or_nothing S _).
  Lemma aon_ret {A} Thr (a : A) : aon Thr (tret a) (ret a).
  Proof. intros c s. right. by exists c. Qed.
  Lemma aon_tdo {A} Thr (m : M S A) : aon Thr (tdo m) m.
  Proof.
    intros c s. right. unfold tdo, bind, as_plain. destruct (m s) as [[a s1]| |]; [by exists c|done|done].
  Qed.
  Lemma aon_bind {A B} Thr (p : T S A) (m : M S A) (k : A → T S B) k' :
    reads_only m → aon Thr p m → (∀ a, aon Thr (k a) (k' a)) → aon Thr (tbind p k) (bind m k').
  Proof.
    intros Hr Hp Hk c s. unfold tbind, bind. destruct (Hp c s) as [[Ht ->]|Ha]; [by left|].
    destruct (m s) as [[a s1]| |] eqn:E; simpl in Ha.
    - destruct Ha as [c1 ->]. apply Hr in E as ->. apply Hk.
    - right. by rewrite Ha.
    - right. by rewrite Ha.
  Qed.
  Lemma aon_do {A B} Thr (m : M S A) (k : A → T S B) k' :
    reads_only m → (∀ a, aon Thr (k a) (k' a)) → aon Thr (tbind (tdo m) k) (bind m k').
  Proof. intros Hr Hk. apply aon_bind; [done|apply aon_tdo|done]. Qed.
  Lemma aon_call {A B} Thr (f : nat → option A) (a : A) (k : A → T S B) m :
    (∀ c a', f c = Some a' → a' = a) → (∀ c, f c = None → Thr) → aon Thr (k a) m →
    aon Thr (tbind (tcall f) k) m.
  Proof.
    intros Hf Hn Hk c s. unfold tbind, tcall, bind, ret. destruct (f c) as [a'|] eqn:E.
    - rewrite (Hf _ _ E). apply Hk.
    - left. split; [by eapply Hn|done].
  Qed.
  Lemma aon_tret {A B} Thr (a : A) (k : A → T S B) m : aon Thr (k a) m → aon Thr (tbind (tret a) k) m.
  Proof. intros Hk c s. apply Hk. Qed.
  Lemma aon_map {A B} Thr (p : T S A) (m : M S A) (g : A → B) :
    aon Thr p m → aon Thr (tbind p (λ a, tret (g a))) (bind m (λ a, ret (g a))).
  Proof.
    intros Hp c s. unfold tbind, bind. destruct (Hp c s) as [[Ht ->]|Ha]; [by left|]. right.
    destruct (m s) as [[a s1]| |]; simpl in Ha.
    - destruct Ha as [c1 ->]. by exists c1.
    - by rewrite Ha.
    - by rewrite Ha.
  Qed.
  Lemma aon_loop {A B} Thr fuel (body : A → T S (A + B)) body' a :
    (∀ a, aon Thr (body a) (body' a)) → (∀ a, reads_only (body' a)) → aon Thr (tloop fuel body a) (loop fuel body' a).
  Proof.
    intros Hb Hr. revert a. induction fuel as [|fuel IH]; intros a; [by right|].
    cbn [tloop loop]. apply aon_bind; [done|done|]. intros [a'|b]; [apply IH|apply aon_ret].
  Qed.

  (** The same without the claim about memory after an exception. *)
  Definition weakly {A} Thr (p : T S A) (m : M S A) : Prop :=
    ∀ c s, (Thr ∧ ∃ s', p c s = Ok (None, s')) ∨ as_plain (p c s) (m s).
  Lemma weakly_aon {A} Thr (p : T S A) m : aon Thr p m → weakly Thr p m.
  Proof. intros Hp c s. destruct (Hp c s) as [[Ht Hp']|Hp']; [left; by eauto|by right]. Qed.
  Lemma weakly_bind {A B} Thr (p : T S A) (m : M S A) (k : A → T S B) k' :
    weakly Thr p m → (∀ a, weakly Thr (k a) (k' a)) → weakly Thr (tbind p k) (bind m k').
  Proof.
    intros Hp Hk c s. unfold tbind, bind. destruct (Hp c s) as [(Ht&s'&->)|Ha]; [left; by eauto|].
    destruct (m s) as [[a s1]| |] eqn:E; simpl in Ha.
    - destruct Ha as [c1 ->]. apply Hk.
    - right. by rewrite Ha.
    - right. by rewrite Ha.
  Qed.
  Lemma weakly_do {A B} Thr (m : M S A) (k : A → T S B) k' :
    (∀ a, weakly Thr (k a) (k' a)) → weakly Thr (tbind (tdo m) k) (bind m k').
  Proof. intros Hk. apply weakly_bind; [apply weakly_aon, aon_tdo|done]. Qed.
  Lemma weakly_ret {A} Thr (a : A) : weakly Thr (tret a) (ret a).
  Proof. apply weakly_aon, aon_ret. Qed.
  Lemma weakly_call {A B} Thr (f : nat → option A) (a : A) (k : A → T S B) m :
    (∀ c a', f c = Some a' → a' = a) → (∀ c, f c = None → Thr) → weakly Thr (k a) m →
    weakly Thr (tbind (tcall f) k) m.
  Proof.
    intros Hf Hn Hk c s. unfold tbind, tcall, bind, ret. destruct (f c) as [a'|] eqn:E.
    - rewrite (Hf _ _ E). apply Hk.
    - left. split; [by eapply Hn|by eexists].
  Qed.
  Lemma weakly_call_last {A} Thr (f : nat → option A) (a : A) :
    (∀ c a', f c = Some a' → a' = a) → (∀ c, f c = None → Thr) → weakly Thr (tcall f) (ret a).
  Proof.
    intros Hf Hn c s. unfold tcall, ret, as_plain. destruct (f c) as [a'|] eqn:E.
    - right. rewrite (Hf _ _ E). by eexists.
    - left. split; [by eapply Hn|by eexists].
  Qed.
  Lemma weakly_tret {A B} Thr (a : A) (k : A → T S B) m : weakly Thr (k a) m → weakly Thr (tbind (tret a) k) m.
  Proof. intros Hk c s. apply Hk. Qed.
  Lemma weakly_ext {A} Thr (p p' : T S A) (m m' : M S A) :
    (∀ c s, p c s = p' c s) → (∀ s, m s = m' s) → weakly Thr p' m' → weakly Thr p m.
  Proof. intros Hp Hm Hw c s. rewrite Hp, Hm. apply Hw. Qed.
  Lemma weakly_loop {A B} Thr fuel (body : A → T S (A + B)) body' a :
    (∀ a, weakly Thr (body a) (body' a)) → weakly Thr (tloop fuel body a) (loop fuel body' a).
  Proof.
    intros Hb. revert a. induction fuel as [|fuel IH]; intros a; [by right|].
    cbn [tloop loop]. apply weakly_bind; [done|]. intros [a'|b]; [apply IH|apply weakly_ret].
  Qed.
End sim.

Section rb.
  Context {K V : Type} `{Allocator (rbcell V)}.
  Notation heap := (gmap loc (rbcell V)).

  Lemma reads_getf {A} (f : rbcell V → A) p : reads_only (getf f p).
  Proof.
    intros s a s'. unfold getf, loadp, bind, ret, addr, load. destruct p as [p|]; [|done].
    unfold ret. destruct (s !! p); [|done]. by intros [= _ ->].
  Qed.
  Lemma reads_node_data p : reads_only (node_data (V:=V) p).
  Proof.
    intros s a s'. unfold node_data, loadp, bind, addr, load. destruct p as [p|]; [|done].
    unfold ret. destruct (s !! p) as [c|]; [|done]. destruct (data c); [|done]. by intros [= _ ->].
  Qed.
  Lemma reads_get_edge e : reads_only (get_edge (V:=V) e).
  Proof. destruct e; apply reads_getf. Qed.
End rb.
Ltac ro := repeat (first
  [ apply reads_getf | apply reads_node_data | apply reads_get_edge | apply reads_ret | apply reads_fail
  | apply reads_bind; [|intros ?] | apply reads_loop; intros ?
  | match goal with |- reads_only (match ?x with _ => _ end) => destruct x end ]).

Section sims.
  Context {K V : Type} `{Allocator (rbcell V)}.
  Context (keyof : V → K) (lt eqb : K → K → bool) (ltf eqf : nat → K → K → option bool).
  Context (Hlt : answers_like ltf lt) (Heq : answers_like eqf eqb).
  Notation Thr := (may_throw ltf eqf).
  Notation heap := (gmap loc (rbcell V)).

  Lemma reads_next_node fuel p : reads_only (next_node (V:=V) fuel p).
  Proof. unfold next_node, min_node. ro. Qed.
  Lemma reads_find fuel this key : reads_only (rb_find keyof lt eqb fuel this key).
  Proof. unfold rb_find. ro. Qed.
  Lemma reads_lower_bound fuel this key : reads_only (rb_lower_bound keyof lt fuel this key).
  Proof. unfold rb_lower_bound. ro. Qed.

  Lemma lt_ok x y : ∀ c b, ltf c x y = Some b → b = lt x y.
  Proof. intros c b. apply Hlt. Qed.
  Lemma eq_ok x y : ∀ c b, eqf c x y = Some b → b = eqb x y.
  Proof. intros c b. apply Heq. Qed.
  Lemma lt_thr x y : ∀ c, ltf c x y = None → Thr.
  Proof. intros c Hc. exists c, x, y. by left. Qed.
  Lemma eq_thr x y : ∀ c, eqf c x y = None → Thr.
  Proof. intros c Hc. exists c, x, y. by right. Qed.

  Lemma aon_find fuel this key :
    all_or_nothing Thr (xrb_find keyof ltf eqf fuel this key) (rb_find keyof lt eqb fuel this key).
  Proof.
    unfold xrb_find, rb_find. apply aon_do; [ro|]. intros root. apply (aon_map _ _ _ (λ n, if nonnull n then n else Some this)).
    apply aon_loop; [|intros ?; ro]. intros [n|]; [|apply aon_ret].
    apply aon_do; [ro|]. intros d. eapply aon_call; [apply lt_ok|apply lt_thr|].
    destruct (lt key (keyof d)).
    { apply (aon_map _ _ _ inl), aon_tdo. }
    eapply aon_call; [apply eq_ok|apply eq_thr|]. destruct (eqb key (keyof d)); [apply aon_ret|].
    apply (aon_map _ _ _ inl), aon_tdo.
  Qed.
  Lemma aon_lower_bound fuel this key :
    all_or_nothing Thr (xrb_lower_bound keyof ltf fuel this key) (rb_lower_bound keyof lt fuel this key).
  Proof.
    unfold xrb_lower_bound, rb_lower_bound. apply aon_do; [ro|]. intros root.
    apply aon_loop; [|intros ?; ro]. intros [[n|] prev]; [|apply aon_ret].
    apply aon_do; [ro|]. intros d. eapply aon_call; [apply lt_ok|apply lt_thr|].
    destruct (lt (keyof d) key).
    - apply (aon_map _ _ _ (λ r, inl (r, prev))), aon_tdo.
    - apply (aon_map _ _ _ (λ l, inl (l, Some n))), aon_tdo.
  Qed.
  Lemma aon_insert fuel this v :
    all_or_nothing Thr (xrb_insert_unique keyof ltf eqf fuel this v) (rb_insert_unique keyof lt eqb fuel this v).
  Proof.
    unfold xrb_insert_unique, rb_insert_unique. apply aon_bind; [ro| |].
    { apply aon_loop; [|intros ?; ro]. intros [par e].
      apply aon_do; [ro|]. intros [a|]; [|apply aon_ret].
      apply aon_do; [ro|]. intros d. eapply aon_call; [apply lt_ok|apply lt_thr|].
      destruct (lt (keyof v) (keyof d)); [apply aon_ret|].
      eapply aon_call; [apply eq_ok|apply eq_thr|]. destruct (eqb (keyof v) (keyof d)); apply aon_ret. }
    intros [[par e]|p]; [|apply aon_ret]. apply (aon_map _ _ _ (λ n, (n, true))), aon_tdo.
  Qed.
  Lemma aon_upper_bound fuel this key :
    all_or_nothing Thr (xm_upper_bound keyof ltf fuel this key) (m_upper_bound keyof lt fuel this key).
  Proof.
    unfold xm_upper_bound, m_upper_bound. apply aon_bind; [apply reads_lower_bound|apply aon_lower_bound|].
    intros lo. apply aon_tdo.
  Qed.
  Lemma aon_equal_range fuel this key :
    all_or_nothing Thr (xm_equal_range keyof ltf fuel this key) (m_equal_range keyof lt fuel this key).
  Proof.
    unfold xm_equal_range, m_equal_range. apply aon_bind; [apply reads_lower_bound|apply aon_lower_bound|].
    intros lo. apply (aon_map _ _ _ (λ up, (lo, up))), aon_tdo.
  Qed.
  Lemma aon_count fuel this key :
    all_or_nothing Thr (xm_count keyof ltf eqf fuel this key) (m_count keyof lt eqb fuel this key).
  Proof.
    unfold xm_count, m_count. apply (aon_map _ _ _ (λ n, if bool_decide (n ≠ Some this) then 1 else 0)), aon_find.
  Qed.
  Lemma insert_range_sim fuel this vs c (h : heap) :
    (Thr ∧ ∃ vs1 vs2 h', vs = vs1 ++ vs2 ∧ m_insert_range keyof lt eqb fuel this vs1 h = Ok (tt, h') ∧
       xm_insert_range keyof ltf eqf fuel this vs c h = Ok (None, h')) ∨
    as_plain (xm_insert_range keyof ltf eqf fuel this vs c h) (m_insert_range keyof lt eqb fuel this vs h).
  Proof.
    revert c h. induction vs as [|v vs IH]; intros c h; [right; by exists c|].
    cbn [xm_insert_range m_insert_range]. unfold tbind, m_insert, bind.
    destruct (aon_insert fuel this v c h) as [[Ht Hx]|Ha].
    { left. split; [done|]. exists [], (v :: vs), h. by rewrite Hx. }
    destruct (rb_insert_unique keyof lt eqb fuel this v h) as [[a h1]| |] eqn:E; simpl in Ha.
    - destruct Ha as [c1 ->]. destruct (IH c1 h1) as [(Ht&vs1&vs2&h'&->&Hv&Hx)|Hp]; [|by right].
      left. split; [done|]. exists (v :: vs1), vs2, h'. split; [done|]. split; [|done].
      cbn [m_insert_range]. unfold m_insert, bind. by rewrite E.
    - right. by rewrite Ha.
    - right. by rewrite Ha.
  Qed.

  Lemma weakly_remove fuel this key :
    weakly Thr (xrb_remove keyof ltf eqf fuel this key) (rb_remove keyof lt eqb fuel this key).
  Proof.
    unfold xrb_remove, rb_remove. apply weakly_bind.
    2:{ intros [par deleted]. repeat (apply weakly_do; intros ?). apply weakly_ret. }
    apply weakly_loop. intros [root par]. apply weakly_do. intros [r|]; [|apply weakly_ret].
    apply weakly_do. intros par'. apply weakly_do. intros d.
    eapply weakly_call; [apply lt_ok|apply lt_thr|]. destruct (lt key (keyof d)) eqn:El.
    { repeat (apply weakly_do; intros ?). apply weakly_ret. }
    apply weakly_do. intros l. apply weakly_do. intros lr. apply weakly_bind.
    { destruct lr; [|apply weakly_ret]. repeat (apply weakly_do; intros ?).
      apply weakly_call_last; [apply lt_ok|apply lt_thr]. }
    intros isless. apply weakly_do. intros r'. apply weakly_bind.
    { destruct isless; [apply weakly_ret|]. simpl.
      eapply (weakly_ext _ _ _ _ (let! d := node_data r' in
        if eqb key (keyof d) then let! rr := getf right r' in ret (negb (nonnull rr)) else ret false)).
      - done.
      - intros s. unfold andM, bind, ret. destruct (node_data r' s) as [[? ?]| |]; [|done|done].
        by destruct (eqb key _).
      - apply weakly_do. intros d'. eapply weakly_call; [apply eq_ok|apply eq_thr|].
        destruct (eqb key (keyof d')); [|apply weakly_ret]. apply weakly_do. intros rr. apply weakly_ret. }
    intros [|].
    { repeat (apply weakly_do; intros ?). apply weakly_ret. }
    apply weakly_do. intros rr. apply weakly_do. intros b.
    assert (weakly Thr (
      let@ r := tdo (get_edge root) in
      let@ d := tdo (node_data r) in
      let@ eq := tcall (λ c, eqf c key (keyof d)) in
      if eq : bool then
        let@ deleted := tdo (rb_replace_by_min fuel this root) in
        let@ par := tdo (get_edge root) in
        tret (inr (par, deleted))
      else
        let@ a := tdo (addr r) in
        tret (inl (ERight a, par')))
      (let! r := get_edge root in
       let! d := node_data r in
       if eqb key (keyof d) then
         let! deleted := rb_replace_by_min fuel this root in
         let! par := get_edge root in
         ret (inr (par, deleted))
       else
         let! a := addr r in
         ret (inl (ERight a, par')))) as Hrest.
    { apply weakly_do. intros r2. apply weakly_do. intros d2.
      eapply weakly_call; [apply eq_ok|apply eq_thr|]. destruct (eqb key (keyof d2)).
      - repeat (apply weakly_do; intros ?). apply weakly_ret.
      - apply weakly_do. intros ?. apply weakly_ret. }
    destruct b; [|by apply weakly_tret].
    revert Hrest.
    generalize (let@ r := tdo (get_edge root) in
      let@ d := tdo (node_data r) in
      let@ eq := tcall (λ c, eqf c key (keyof d)) in
      if eq : bool then
        let@ deleted := tdo (rb_replace_by_min fuel this root) in
        let@ par := tdo (get_edge root) in
        tret (inr (par, deleted))
      else
        let@ a := tdo (addr r) in
        tret (inl (ERight a, par'))).
    intros P HP c s. unfold tbind, tdo, tcall, bind, ret.
    destruct (move_right r' s) as [[r1 s1]| |]; [|by right|by right].
    destruct (set_edge root r1 s1) as [[[] s2]| |]; [|by right|by right].
    pose proof (HP (Datatypes.S c) s2) as HP'. unfold bind in HP'.
    destruct (get_edge root s2) as [[r2 s3]| |] eqn:Eg; [|by right|by right].
    apply reads_get_edge in Eg as ->.
    destruct (node_data r2 s2) as [[d2 s3]| |] eqn:Ed; [|by right|by right].
    apply reads_node_data in Ed as ->.
    destruct (ltf c key (keyof d2)) eqn:Ef; [exact HP'|]. left. split; [by eapply lt_thr|by eexists].
  Qed.
  Lemma weakly_erase fuel this key :
    weakly Thr (xm_erase keyof ltf eqf fuel this key) (m_erase keyof lt eqb fuel this key).
  Proof.
    unfold xm_erase, m_erase. apply weakly_bind; [apply weakly_remove|].
    intros n. apply weakly_do. intros []. apply weakly_ret.
  Qed.
End sims.

Section map.
  Context {K M : Type} `{Allocator (rbcell (K * M))}.
  Context (lt eqb : K → K → bool) (ltf eqf : nat → K → K → option bool).
  Context (Hlt : answers_like ltf lt) (Heq : answers_like eqf eqb).
  Lemma aon_index (dflt : M) fuel this key :
    all_or_nothing (may_throw ltf eqf) (xm_index ltf eqf dflt fuel this key) (m_index lt eqb dflt fuel this key).
  Proof.
    unfold xm_index, m_index. apply aon_bind; [apply reads_find|by apply aon_find|].
    intros n. destruct (decide (n = Some this)); [|apply aon_ret].
    intros c s. unfold tbind, bind.
    destruct (aon_insert fst lt eqb ltf eqf Hlt Heq fuel this (key, dflt) c s) as [[Ht ->]|Ha]; [by left|]. right.
    destruct (rb_insert_unique fst lt eqb fuel this (key, dflt) s) as [[[n' b] s1]| |]; simpl in Ha.
    - destruct Ha as [c1 ->]. by exists c1.
    - by rewrite Ha.
    - by rewrite Ha.
  Qed.
End map.
