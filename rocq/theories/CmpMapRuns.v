(** Programs on sets and maps that catch the exceptions of their comparisons: the property lemmas, in
    the vocabulary of CatchSpec.v, CmpMapSpec.v and MapSpec.v (C95). *)
From Verif Require Import CatchSim CmpMapSpec MapRuns MappedRuns.
(*@HEADER
From Verif Require Import CmpMapSpec CmpMapRuns.

Section cmp.
@*)
(*@FOOTER
End cmp.
@*)

Section conv.
  Context {C St Op Out : Type}.
  Notation heap := (gmap loc C).
  Context (new : M heap loc) (destroy : nat → loc → M heap unit) (step : nat → loc → loc → Op → M heap (loc * Out)).
  Definition wide (fuel : nat) (a b : loc) (op : Op) : M heap (loc * loc * Out) :=
    let! (o, r) := step fuel a b op in ret (a, o, r).
  Lemma wide_run fuel a b ops h : v_run wide fuel a b ops h = h_run step fuel a b ops h.
  Proof.
    revert a b h. induction ops as [|[[|] op] ops IH]; intros a b h; [done| |]; cbn [v_run h_run]; unfold wide, bind, ret.
    - destruct (step fuel b a op h) as [[[a' r] h1]| |]; [|done|done]. by rewrite IH.
    - destruct (step fuel a b op h) as [[[b' r] h1]| |]; [|done|done]. by rewrite IH.
  Qed.
  Lemma wide_correct init (spec : St → St → Op → option (St * St * Out)) ops :
    h_correct new destroy step init spec ops → v_correct new destroy wide init spec (λ _, True) ops.
  Proof.
    intros Hc xs ys outs Hs _ _. destruct (Hc xs ys outs Hs) as [F HF]. exists F. intros fuel Hf h hf Hp Hd.
    destruct (HF fuel Hf h hf Hp Hd) as (r&h'&Hr&Hq). exists r, h'. split; [|done]. rewrite <- Hr.
    unfold v_program, v_prefix, h_program, bind.
    destruct (new (h ∪ hf)) as [[a h1]| |]; [|done|done]. destruct (new h1) as [[b h2]| |]; [|done|done].
    by rewrite wide_run.
  Qed.
End conv.

Section steps.
  Context {K V : Type} (keyof : V → K) (lt eqb : K → K → bool) (veqb : V → V → bool).
  Context (ltf eqf : nat → K → K → option bool) `{Allocator (rbcell V)}.
  Context (Hlt : answers_like ltf lt) (Heq : answers_like eqf eqb).
  Lemma aon_same {S A} Thr (p : T S A) (m m' : M S A) : (∀ s, m s = m' s) → all_or_nothing Thr p m' → all_or_nothing Thr p m.
  Proof. intros He Hp c s. rewrite He. apply Hp. Qed.
  Lemma aon_m_step fuel this other op :
    all_or_nothing (may_throw ltf eqf) (xm_step keyof lt eqb veqb ltf eqf fuel this other op)
      (m_step' keyof lt eqb veqb fuel this other op).
  Proof.
    destruct op; try apply aon_tdo; cbn [xm_step]; unfold m_step'; cbn [m_step].
    - apply (aon_same _ _ _ (let! (p, b) := m_insert keyof lt eqb fuel this v in
        let! w := node_data p in ret (this, other, UIns w b))).
      { intros s. unfold bind, ret. destruct (m_insert keyof lt eqb fuel this v s) as [[[p b] s1]| |]; [|done|done].
        by destruct (node_data p s1) as [[? ?]| |]. }
      apply aon_after; [by apply aon_insert|]. intros [p b]. apply (aon_map _ _ _ (λ w, (this, other, UIns w b))), aon_tdo.
    - apply (aon_same _ _ _ (let! p := m_find keyof lt eqb fuel this k in
        let! o := m_show this p in ret (this, other, o))).
      { intros s. unfold bind, ret. destruct (m_find keyof lt eqb fuel this k s) as [[p s1]| |]; [|done|done].
        by destruct (m_show this p s1) as [[? ?]| |]. }
      apply aon_after; [by apply aon_find|]. intros p. apply (aon_map _ _ _ (λ o, (this, other, o))), aon_tdo.
    - apply (aon_same _ _ _ (let! n := m_count keyof lt eqb fuel this k in ret (this, other, UNum n))).
      { intros s. unfold bind, ret. by destruct (m_count keyof lt eqb fuel this k s) as [[p s1]| |]. }
      apply (aon_map _ _ _ (λ n, (this, other, UNum n))). by apply aon_count.
    - apply (aon_same _ _ _ (let! p := m_lower_bound keyof lt fuel this k in
        let! o := m_show this p in ret (this, other, o))).
      { intros s. unfold bind, ret. destruct (m_lower_bound keyof lt fuel this k s) as [[p s1]| |]; [|done|done].
        by destruct (m_show this p s1) as [[? ?]| |]. }
      apply aon_after; [by apply aon_lower_bound|]. intros p. apply (aon_map _ _ _ (λ o, (this, other, o))), aon_tdo.
  Qed.
End steps.
Section steps2.
  Context {K T0 : Type} (lt eqb : K → K → bool) (veqb : K * T0 → K * T0 → bool) (dflt : T0).
  Context (ltf eqf : nat → K → K → option bool) `{Allocator (rbcell (K * T0))}.
  Context (Hlt : answers_like ltf lt) (Heq : answers_like eqf eqb).
  Lemma aon_at fuel this key :
    all_or_nothing (may_throw ltf eqf) (xm_at (M:=T0) ltf eqf fuel this key) (m_at lt eqb fuel this key).
  Proof.
    unfold xm_at, m_at. apply aon_after; [by apply aon_find|]. intros n. apply (aon_map _ _ _ snd), aon_tdo.
  Qed.
  Lemma aon_map_step fuel this other op :
    all_or_nothing (may_throw ltf eqf) (xmap_step lt eqb veqb dflt ltf eqf fuel this other op)
      (map_step' lt eqb veqb dflt fuel this other op).
  Proof.
    destruct op as [op|k|k v|k]; cbn [xmap_step]; unfold map_step'; cbn [map_step].
    - apply (aon_same _ _ _ (let! (a, o, r) := m_step' fst lt eqb veqb fuel this other op in ret (a, o, OGen r))).
      { intros s. unfold m_step', bind, ret. by destruct (m_step fst lt eqb veqb fuel this other op s) as [[[? ?] ?]| |]. }
      apply aon_after; [by apply aon_m_step|]. intros [[a o] r]. apply aon_ret.
    - apply (aon_same _ _ _ (let! p := m_index lt eqb dflt fuel this k in
        let! w := node_data p in ret (this, other, OMapped w.2))).
      { intros s. unfold bind, ret. destruct (m_index lt eqb dflt fuel this k s) as [[p s1]| |]; [|done|done].
        by destruct (node_data p s1) as [[? ?]| |]. }
      apply aon_after; [by apply aon_index|]. intros p. apply (aon_map _ _ _ (λ w, (this, other, OMapped w.2))), aon_tdo.
    - apply (aon_same _ _ _ (let! p := m_index lt eqb dflt fuel this k in
        let! d := node_data p in setf (set_data (d.1, v)) p ;! ret (this, other, OGen UDone))).
      { intros s. unfold m_store, bind, ret. destruct (m_index lt eqb dflt fuel this k s) as [[p s1]| |]; [|done|done].
        destruct (node_data p s1) as [[d s2]| |]; [|done|done]. by destruct (setf _ p s2) as [[? ?]| |]. }
      apply aon_after; [by apply aon_index|]. intros p. apply aon_after; [apply aon_tdo|]. intros d.
      apply (aon_map _ _ _ (λ _, (this, other, OGen UDone))), aon_tdo.
    - apply (aon_same _ _ _ (let! v := m_at lt eqb fuel this k in ret (this, other, OMapped v))).
      { intros s. unfold bind, ret. by destruct (m_at lt eqb fuel this k s) as [[p s1]| |]. }
      apply (aon_map _ _ _ (λ v, (this, other, OMapped v))), aon_at.
  Qed.
End steps2.

Section set.
  (*@ C95 at of map: at an exception memory is unchanged; otherwise the call is the plain one. *)
  Lemma at_throws {K T0 : Type} `{Allocator (rbcell (K * T0))} (lt eqb : K → K → bool)
    (ltf eqf : nat → K → K → option bool) (fuel : nat) (this : loc) (key : K) :
    answers_like ltf lt → answers_like eqf eqb →
    all_or_nothing (may_throw ltf eqf) (xm_at (M:=T0) ltf eqf fuel this key) (m_at lt eqb fuel this key).
  Proof. intros. by apply aon_at. Qed.
  (*@ C95_partial Programs on two sets that catch the exceptions of insert, find, count and lower_bound (erase,
     range insertion and copying do not throw here), from every memory: they do what the plain program
     does that makes only the calls that do not throw. *)
  Lemma set_catching {K V : Type} `{Allocator (rbcell V)} (keyof : V → K) (lt eqb : K → K → bool)
    (ltf eqf : nat → K → K → option bool) (veqb : V → V → bool) (fuel : nat) (a b : loc)
    (ops : list (nat * (bool * m_op K V))) (h : gmap loc (rbcell V)) :
    answers_like ltf lt → answers_like eqf eqb →
    as_without_throwing_calls (may_throw ltf eqf) (m_step' keyof lt eqb veqb)
      (xm_step keyof lt eqb veqb ltf eqf) fuel a b ops h.
  Proof. intros. apply select_run. intros. by apply aon_m_step. Qed.
  (*@ C95_partial ... and observe the ascending sequence of C01 without them; nothing else goes wrong and no memory
     is left. *)
  Lemma set_catching_history {K V : Type} `{Allocator (rbcell V)} (keyof : V → K) (lt eqb : K → K → bool)
    (ltf eqf : nat → K → K → option bool) (veqb : V → V → bool) (ops : list (nat * (bool * m_op K V))) :
    key_order lt eqb → answers_like ltf lt → answers_like eqf eqb →
    catching_correct (may_throw ltf eqf) rb_new rb_destroy (xm_step keyof lt eqb veqb ltf eqf) []
      (m_spec keyof lt eqb veqb) ops.
  Proof.
    intros Hko ? ?. apply (catching _ _ _ (m_step' keyof lt eqb veqb)).
    - intros. by apply aon_m_step.
    - intros. apply wide_correct. by apply set_history.
  Qed.
  (*@ C95_partial The same for two maps, whose operator[] and at may throw too. *)
  Lemma map_catching {K T0 : Type} `{Allocator (rbcell (K * T0))} (lt eqb : K → K → bool)
    (ltf eqf : nat → K → K → option bool) (veqb : K * T0 → K * T0 → bool) (dflt : T0) (fuel : nat) (a b : loc)
    (ops : list (nat * (bool * map_op K T0))) (h : gmap loc (rbcell (K * T0))) :
    answers_like ltf lt → answers_like eqf eqb →
    as_without_throwing_calls (may_throw ltf eqf) (map_step' lt eqb veqb dflt)
      (xmap_step lt eqb veqb dflt ltf eqf) fuel a b ops h.
  Proof. intros. apply select_run. intros. by apply aon_map_step. Qed.
  (*@ C95_partial ... *)
  Lemma map_catching_history {K T0 : Type} `{Allocator (rbcell (K * T0))} (lt eqb : K → K → bool)
    (ltf eqf : nat → K → K → option bool) (veqb : K * T0 → K * T0 → bool) (dflt : T0)
    (ops : list (nat * (bool * map_op K T0))) :
    key_order lt eqb → answers_like ltf lt → answers_like eqf eqb →
    catching_correct (may_throw ltf eqf) rb_new rb_destroy (xmap_step lt eqb veqb dflt ltf eqf) []
      (map_spec lt eqb veqb dflt) ops.
  Proof.
    intros Hko ? ?. apply (catching _ _ _ (map_step' lt eqb veqb dflt)).
    - intros. by apply aon_map_step.
    - intros. apply wide_correct. by apply map_history.
  Qed.
End set.
