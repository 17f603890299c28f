(** pair, and the library's comparison function objects as Compare: the property lemmas. *)
From Coq Require Import ssreflect.
From Verif Require Import PairModel State MapSpec MapRuns.
Local Open Scope general_if_scope.
(*@HEADER
From Verif Require Import PairModel State MapSpec PairRuns.
@*)

(** A key type whose operators are those of a total order, as for the arithmetic types (without
    NaN) and pointers. *)
Record totally_ordered {T} (lt gt eq ne : T → T → bool) : Prop := {
  to_irrefl : ∀ x, lt x x = false;
  to_trans : ∀ x y z, lt x y = true → lt y z = true → lt x z = true;
  to_total : ∀ x y, lt x y = true ∨ x = y ∨ lt y x = true;
  to_eq : ∀ x y, eq x y = true ↔ x = y;
  to_ne : ∀ x y, ne x y = true ↔ x ≠ y;
  to_gt : ∀ x y, gt x y = true ↔ lt y x = true
}.

Lemma StronglySorted_impl_here {A} (R R' : A → A → Prop) l :
  (∀ x y, R x y → R' x y) → StronglySorted R l → StronglySorted R' l.
Proof.
  intros HR. induction 1 as [|x l Hl IH Hx]; constructor; [done|]. eapply Forall_impl; [exact Hx|]. apply HR.
Qed.

Lemma h_reaches_conseq {C Op Out St : Type} `{Allocator C} new step init spec
  (rep rep' : loc → St → gmap loc C → Prop) (ops : list (bool * Op)) :
  (∀ a s h, rep a s h → rep' a s h) →
  h_reaches (Out:=Out) new step init spec rep ops → h_reaches new step init spec rep' ops.
Proof.
  intros Hr HH xs ys outs Hs. destruct (HH xs ys outs Hs) as [F HF]. exists F. intros fuel Hf.
  eapply Verif.Sep.runs_conseq; [exact (HF fuel Hf)|].
  intros [[a b] o] h (->&h1&h2&->&Hd&H1&H2). split; [done|]. exists h1, h2. split_and!; auto.
Qed.

Section pair.
  Context {T1 T2 : Type}.
  Implicit Types (m : pairs T1 T2).

  Lemma gives_rd_first o p m (Q : T1 → _ → Prop) : m !! o = Some p → Q p.1 m → gives (rd_first o) m Q.
  Proof. intros Ho HQ. exists p.1, m. split; [|done]. unfold rd_first. by rewrite Ho. Qed.
  Lemma gives_rd_second o p m (Q : T2 → _ → Prop) : m !! o = Some p → Q p.2 m → gives (rd_second o) m Q.
  Proof. intros Ho HQ. exists p.2, m. split; [|done]. unfold rd_second. by rewrite Ho. Qed.
  Lemma gives_wr_first o p x m (Q : unit → _ → Prop) :
    m !! o = Some p → Q tt (<[o := (x, p.2)]> m) → gives (wr_first o x) m Q.
  Proof. intros Ho HQ. exists tt, (<[o := (x, p.2)]> m). split; [|done]. unfold wr_first. by rewrite Ho. Qed.
  Lemma gives_wr_second o p y m (Q : unit → _ → Prop) :
    m !! o = Some p → Q tt (<[o := (p.1, y)]> m) → gives (wr_second o y) m Q.
  Proof. intros Ho HQ. exists tt, (<[o := (p.1, y)]> m). split; [|done]. unfold wr_second. by rewrite Ho. Qed.
  Lemma set_same m o p q : m !! o = Some p → <[o := q]> m !! o = Some q.
  Proof. intros. apply list_lookup_insert. by eapply lookup_lt_Some. Qed.
End pair.

(*@ C69 Construction: a new object with the two values, equal to the source when copied; all other
   objects keep their values. *)
Lemma pair_construct {T1 T2} (x : T1) (y : T2) (m : pairs T1 T2) other p :
  m !! other = Some p →
  gives (pr_new x y) m (λ o m', o = length m ∧ m' = m ++ [(x, y)]) ∧
  gives (pr_make x y) m (λ o m', o = length m ∧ m' = m ++ [(x, y)]) ∧
  gives (pr_copy other) m (λ o m', o = length m ∧ m' = m ++ [p]).
Proof.
  intros Ho. split; [by eexists _, _|]. split; [by eexists _, _|]. unfold pr_copy.
  apply gives_bind. eapply gives_rd_first; [done|]. apply gives_bind. eapply gives_rd_second; [done|].
  eexists _, _. split; [done|]. split; [done|]. by destruct p.
Qed.
(*@ C69 Assignment, also from the object itself: the target gets the other's value in both members,
   nothing else changes. *)
Lemma pair_assign {T1 T2} (m : pairs T1 T2) this other p q :
  m !! this = Some p → m !! other = Some q →
  gives (pr_assign this other) m (λ _ m', m' = <[this := q]> m).
Proof.
  intros Ht Ho. unfold pr_assign.
  apply gives_bind. eapply gives_rd_first; [done|]. apply gives_bind. eapply gives_wr_first; [done|].
  apply gives_bind. destruct (decide (this = other)) as [->|Hne].
  - simplify_eq. eapply gives_rd_second; [by eapply set_same|].
    eapply gives_wr_second; [by eapply set_same|]. rewrite list_insert_insert. by destruct p.
  - eapply gives_rd_second; [by rewrite list_lookup_insert_ne|].
    eapply gives_wr_second; [by eapply set_same|]. rewrite list_insert_insert. by destruct q.
Qed.
(*@ C69 Conversions: construction and assignment from a pair of other types convert member-wise. *)
Lemma pair_convert {T1 T2 U1 U2} (c1 : U1 → T1) (c2 : U2 → T2) (u : U1 * U2) (m : pairs T1 T2) this p :
  m !! this = Some p →
  gives (pr_convert c1 c2 u) m (λ o m', o = length m ∧ m' = m ++ [(c1 u.1, c2 u.2)]) ∧
  gives (pr_assign_convert c1 c2 this u) m (λ _ m', m' = <[this := (c1 u.1, c2 u.2)]> m).
Proof.
  intros Ht. split; [by eexists _, _|]. unfold pr_assign_convert.
  apply gives_bind. eapply gives_wr_first; [done|]. eapply gives_wr_second; [by eapply set_same|].
  by rewrite list_insert_insert.
Qed.
(*@ C69 swap exchanges the values of two pairs, in both members, and of one pair with itself
   changes nothing. *)
Lemma pair_swap {T1 T2} (m : pairs T1 T2) this other p q :
  m !! this = Some p → m !! other = Some q →
  gives (pr_swap this other) m (λ _ m', m' !! this = Some q ∧ m' !! other = Some p ∧
    length m' = length m ∧ ∀ o, o ≠ this → o ≠ other → m' !! o = m !! o).
Proof.
  intros Ht Ho. unfold pr_swap.
  apply gives_bind, gives_bind. eapply gives_rd_first; [done|].
  apply gives_bind. eapply gives_rd_first; [done|].
  apply gives_bind. eapply gives_wr_first; [done|].
  destruct (decide (this = other)) as [->|Hne].
  - simplify_eq. eapply gives_wr_first; [by eapply set_same|].
    rewrite list_insert_insert. simpl.
    replace (p.1, p.2) with p by (by destruct p). rewrite (list_insert_id _ _ p) //.
    apply gives_bind. eapply gives_rd_second; [done|].
    apply gives_bind. eapply gives_rd_second; [done|].
    apply gives_bind. eapply gives_wr_second; [done|].
    replace (p.1, p.2) with p by (by destruct p). rewrite (list_insert_id _ _ p) //.
    eapply gives_wr_second; [done|].
    replace (p.1, p.2) with p by (by destruct p). rewrite (list_insert_id _ _ p) //.
  - eapply gives_wr_first; [by rewrite list_lookup_insert_ne|].
    assert (this < length m) by (by eapply lookup_lt_Some).
    assert (other < length m) by (by eapply lookup_lt_Some).
    set (m2 := <[other := (p.1, q.2)]> (<[this := (q.1, p.2)]> m)).
    assert (m2 !! this = Some (q.1, p.2)) as H1.
    { unfold m2. rewrite list_lookup_insert_ne; [by rewrite list_lookup_insert|congruence]. }
    assert (m2 !! other = Some (p.1, q.2)) as H2.
    { unfold m2. rewrite list_lookup_insert; [done|by rewrite insert_length]. }
    assert (length m2 = length m) as H3 by (unfold m2; by rewrite !insert_length).
    apply gives_bind. eapply gives_rd_second; [exact H1|].
    apply gives_bind. eapply gives_rd_second; [exact H2|].
    apply gives_bind. eapply gives_wr_second; [exact H1|].
    eapply gives_wr_second; [rewrite list_lookup_insert_ne; [exact H2|congruence]|]. simpl.
    split_and!.
    + rewrite list_lookup_insert_ne; [|congruence]. rewrite list_lookup_insert; [by destruct q|by rewrite H3].
    + rewrite list_lookup_insert; [by destruct p|by rewrite insert_length H3].
    + by rewrite !insert_length.
    + intros o Hot Hoo. by rewrite !list_lookup_insert_ne.
Qed.
(*@ C69 == holds exactly when both members are equal, and != is its negation; neither changes
   anything. *)
Lemma pair_equal {T1 T2} (eq1 : T1 → T1 → bool) (eq2 : T2 → T2 → bool) (m : pairs T1 T2) x y p q :
  m !! x = Some p → m !! y = Some q →
  gives (pr_eq eq1 eq2 x y) m (λ b m', m' = m ∧ (b = true ↔ eq1 p.1 q.1 = true ∧ eq2 p.2 q.2 = true)) ∧
  gives (pr_ne eq1 eq2 x y) m (λ b m', m' = m ∧ (b = true ↔ ¬ (eq1 p.1 q.1 = true ∧ eq2 p.2 q.2 = true))).
Proof.
  intros Hx Hy.
  assert (gives (pr_eq eq1 eq2 x y) m (λ b m', m' = m ∧ (b = true ↔ eq1 p.1 q.1 = true ∧ eq2 p.2 q.2 = true))) as He.
  { unfold pr_eq. apply gives_bind. eapply gives_rd_first; [done|].
    apply gives_bind. eapply gives_rd_first; [done|].
    destruct (eq1 p.1 q.1) eqn:E.
    - apply gives_bind. eapply gives_rd_second; [done|].
      apply gives_bind. eapply gives_rd_second; [done|]. apply gives_ret. split; [done|]. tauto.
    - apply gives_ret. split; [done|]. split; [done|]. by intros [? _]. }
  split; [exact He|]. unfold pr_ne. apply gives_bind. eapply gives_conseq; [exact He|].
  intros b m' (->&Hb). apply gives_ret. split; [done|]. destruct b; simpl; [|].
  - split; [done|]. intros H. by destruct H; apply Hb.
  - split; [|done]. intros _ H. by apply Hb in H.
Qed.

(** *** less and greater as the Compare argument *)
(*@ C68 For a totally ordered key type, less and greater are orders as map and set need them, with
   equal_to as the matching equality, and not_equal_to is the negation of equal_to. *)
Lemma function_objects_order {T} (lt gt eq ne : T → T → bool) : totally_ordered lt gt eq ne →
  key_order (f_less lt) (f_equal_to eq) ∧ key_order (f_greater gt) (f_equal_to eq) ∧
  ∀ x y, f_not_equal_to ne x y = negb (f_equal_to eq x y).
Proof.
  intros [Hi Ht Hto He Hn Hg].
  assert (∀ x y, lt x y = true → lt y x = false) as Hasym.
  { intros x y H. destruct (lt y x) eqn:E; [|done]. by rewrite -(Hi x) (Ht x y x). }
  assert (∀ x y, lt x y = false ↔ x = y ∨ lt y x = true) as Hf.
  { intros x y. split.
    - intros H. destruct (Hto x y) as [?|[?|?]]; [congruence|by left|by right].
    - intros [->|H]; [apply Hi|by apply Hasym]. }
  assert (∀ x y, gt x y = lt y x) as Hgt.
  { intros x y. destruct (lt y x) eqn:E; [by apply Hg|].
    destruct (gt x y) eqn:E2; [|done]. apply Hg in E2. congruence. }
  unfold f_less, f_greater, f_equal_to, f_not_equal_to. split_and!.
  - split; [done|exact Ht|..].
    + intros x y z. rewrite !Hf. intros [->|H1] [->|H2]; eauto.
    + intros x y. rewrite He !Hf. split; [intros ->; auto|]. intros [[?|H1] [?|H2]]; try done.
      apply Hasym in H1. congruence.
  - split.
    + intros x. by rewrite Hgt.
    + intros x y z. rewrite !Hgt. intros. by eapply Ht.
    + intros x y z. rewrite !Hgt !Hf. intros [->|H1] [->|H2]; eauto.
    + intros x y. rewrite !Hgt He !Hf. split; [intros ->; auto|]. intros [[?|H1] [?|H2]]; try done.
      apply Hasym in H1. congruence.
  - intros x y. destruct (eq x y) eqn:E; simpl.
    + apply He in E as ->. destruct (ne y y) eqn:E2; [|done]. by apply Hn in E2.
    + apply Hn. intros ->. assert (eq y y = true) by (by apply He). congruence.
Qed.
(*@ C68 Hence sets with either Compare behave as finite sets over every history, those with less in
   ascending and those with greater in descending order of the keys. *)
Lemma function_objects_sets {T} `{Allocator (rbcell T)} (lt gt eq ne : T → T → bool) ops :
  totally_ordered lt gt eq ne →
  set_correct id (f_less lt) (f_equal_to eq) eq ops ∧
  h_reaches rb_new (m_step id (f_less lt) (f_equal_to eq) eq) [] (m_spec id (f_less lt) (f_equal_to eq) eq)
    (λ a vs h, StronglySorted (λ x y, lt x y = true) vs ∧ ∃ xs, xs.*2 = vs ∧ is_rbtree a xs h) ops ∧
  set_correct id (f_greater gt) (f_equal_to eq) eq ops ∧
  h_reaches rb_new (m_step id (f_greater gt) (f_equal_to eq) eq) [] (m_spec id (f_greater gt) (f_equal_to eq) eq)
    (λ a vs h, StronglySorted (λ x y, lt y x = true) vs ∧ ∃ xs, xs.*2 = vs ∧ is_rbtree a xs h) ops.
Proof.
  intros Ho. destruct (function_objects_order lt gt eq ne Ho) as (Hl&Hg&_). split_and!.
  - by apply set_history.
  - eapply h_reaches_conseq; [|by apply set_reaches]. intros a vs h (xs&<-&Hs&Hr). split; [exact Hs|eauto].
  - by apply set_history.
  - eapply h_reaches_conseq; [|by apply set_reaches]. intros a vs h (xs&<-&Hs&Hr). split; [|eauto].
    eapply StronglySorted_impl_here; [|exact Hs]. intros x y Hxy. by apply (to_gt _ _ _ _ Ho).
Qed.

(** *** distance and advance *)
(*@ C67_partial distance gives the number of steps between two iterators exactly when it fits an int, and
   advancing by it then leads from the first to the last. *)
Lemma distance_exact (w first last : Z) : (1 < w)%Z →
  (u_distance w first last = last - first ↔ - 2 ^ (w - 1) ≤ last - first < 2 ^ (w - 1))%Z ∧
  (u_advance first (u_distance w first last) = last ↔ - 2 ^ (w - 1) ≤ last - first < 2 ^ (w - 1))%Z.
Proof.
  intros Hw. unfold u_distance, u_advance, to_int. set (d := (last - first)%Z).
  assert (2 ^ w = 2 * 2 ^ (w - 1))%Z as E.
  { replace w with (Z.succ (w - 1)) at 1 by lia. rewrite Z.pow_succ_r //. lia. }
  assert (0 < 2 ^ (w - 1))%Z by (apply Z.pow_pos_nonneg; lia).
  pose proof (Z.mod_pos_bound d (2 ^ w) ltac:(lia)) as Hb.
  assert (((if decide (d mod 2 ^ w < 2 ^ (w - 1)) then d mod 2 ^ w else d mod 2 ^ w - 2 ^ w) = d ↔
    - 2 ^ (w - 1) ≤ d < 2 ^ (w - 1))%Z) as HH.
  { destruct (decide _) as [Hlt|Hge].
    - split; [lia|]. intros Hd. destruct (decide (0 ≤ d)%Z); [apply Z.mod_small; lia|].
      exfalso. assert (d mod 2 ^ w = d + 2 ^ w)%Z; [|lia].
      symmetry. apply (Z.mod_unique _ _ (-1)); lia.
    - split; [lia|]. intros Hd. destruct (decide (0 ≤ d)%Z).
      + rewrite Z.mod_small in Hge; lia.
      + assert (d mod 2 ^ w = d + 2 ^ w)%Z; [|lia]. symmetry. apply (Z.mod_unique _ _ (-1)); lia. }
  split; [exact HH|]. rewrite -HH. unfold d. lia.
Qed.
