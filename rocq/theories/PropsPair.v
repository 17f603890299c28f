(** GENERATED by tools/genprops.py from PairRuns.v: property theorems only.
    Every proof is the lemma of the same statement proved there. *)
From Verif Require Import PairModel State MapSpec PairRuns.

  (** Construction: a new object with the two values, equal to the source when copied; all other
   objects keep their values. *)
  Theorem C69_pair_construct :
    ∀ {T1 T2} (x : T1) (y : T2) (m : pairs T1 T2) other p,
  m !! other = Some p →
  gives (pr_new x y) m (λ o m', o = length m ∧ m' = m ++ [(x, y)]) ∧
  gives (pr_make x y) m (λ o m', o = length m ∧ m' = m ++ [(x, y)]) ∧
  gives (pr_copy other) m (λ o m', o = length m ∧ m' = m ++ [p]).
  Proof. first [exact pair_construct | apply pair_construct | intros; eapply pair_construct; eassumption]. Qed.

  (** Assignment, also from the object itself: the target gets the other's value in both members,
   nothing else changes. *)
  Theorem C69_pair_assign :
    ∀ {T1 T2} (m : pairs T1 T2) this other p q,
  m !! this = Some p → m !! other = Some q →
  gives (pr_assign this other) m (λ _ m', m' = <[this := q]> m).
  Proof. first [exact pair_assign | apply pair_assign | intros; eapply pair_assign; eassumption]. Qed.

  (** Conversions: construction and assignment from a pair of other types convert member-wise. *)
  Theorem C69_pair_convert :
    ∀ {T1 T2 U1 U2} (c1 : U1 → T1) (c2 : U2 → T2) (u : U1 * U2) (m : pairs T1 T2) this p,
  m !! this = Some p →
  gives (pr_convert c1 c2 u) m (λ o m', o = length m ∧ m' = m ++ [(c1 u.1, c2 u.2)]) ∧
  gives (pr_assign_convert c1 c2 this u) m (λ _ m', m' = <[this := (c1 u.1, c2 u.2)]> m).
  Proof. first [exact pair_convert | apply pair_convert | intros; eapply pair_convert; eassumption]. Qed.

  (** swap exchanges the values of two pairs, in both members, and of one pair with itself
   changes nothing. *)
  Theorem C69_pair_swap :
    ∀ {T1 T2} (m : pairs T1 T2) this other p q,
  m !! this = Some p → m !! other = Some q →
  gives (pr_swap this other) m (λ _ m', m' !! this = Some q ∧ m' !! other = Some p ∧
    length m' = length m ∧ ∀ o, o ≠ this → o ≠ other → m' !! o = m !! o).
  Proof. first [exact pair_swap | apply pair_swap | intros; eapply pair_swap; eassumption]. Qed.

  (** == holds exactly when both members are equal, and != is its negation; neither changes
   anything. *)
  Theorem C69_pair_equal :
    ∀ {T1 T2} (eq1 : T1 → T1 → bool) (eq2 : T2 → T2 → bool) (m : pairs T1 T2) x y p q,
  m !! x = Some p → m !! y = Some q →
  gives (pr_eq eq1 eq2 x y) m (λ b m', m' = m ∧ (b = true ↔ eq1 p.1 q.1 = true ∧ eq2 p.2 q.2 = true)) ∧
  gives (pr_ne eq1 eq2 x y) m (λ b m', m' = m ∧ (b = true ↔ ¬ (eq1 p.1 q.1 = true ∧ eq2 p.2 q.2 = true))).
  Proof. first [exact pair_equal | apply pair_equal | intros; eapply pair_equal; eassumption]. Qed.

  (** For a totally ordered key type, less and greater are orders as map and set need them, with
   equal_to as the matching equality, and not_equal_to is the negation of equal_to. *)
  Theorem C68_function_objects_order :
    ∀ {T} (lt gt eq ne : T → T → bool),
 totally_ordered lt gt eq ne →
  key_order (f_less lt) (f_equal_to eq) ∧ key_order (f_greater gt) (f_equal_to eq) ∧
  ∀ x y, f_not_equal_to ne x y = negb (f_equal_to eq x y).
  Proof. first [exact function_objects_order | apply function_objects_order | intros; eapply function_objects_order; eassumption]. Qed.

  (** Hence sets with either Compare behave as finite sets over every history, those with less in
   ascending and those with greater in descending order of the keys. *)
  Theorem C68_function_objects_sets :
    ∀ {T} `{Allocator (rbcell T)} (lt gt eq ne : T → T → bool) ops,
  totally_ordered lt gt eq ne →
  set_correct id (f_less lt) (f_equal_to eq) eq ops ∧
  h_reaches rb_new (m_step id (f_less lt) (f_equal_to eq) eq) [] (m_spec id (f_less lt) (f_equal_to eq) eq)
    (λ a vs h, StronglySorted (λ x y, lt x y = true) vs ∧ ∃ xs, xs.*2 = vs ∧ is_rbtree a xs h) ops ∧
  set_correct id (f_greater gt) (f_equal_to eq) eq ops ∧
  h_reaches rb_new (m_step id (f_greater gt) (f_equal_to eq) eq) [] (m_spec id (f_greater gt) (f_equal_to eq) eq)
    (λ a vs h, StronglySorted (λ x y, lt y x = true) vs ∧ ∃ xs, xs.*2 = vs ∧ is_rbtree a xs h) ops.
  Proof. first [exact function_objects_sets | apply function_objects_sets | intros; eapply function_objects_sets; eassumption]. Qed.

  (** distance gives the number of steps between two iterators exactly when it fits an int, and
   advancing by it then leads from the first to the last. *)
  Theorem C67_distance_exact_partial :
    ∀ (w first last : Z),
 (1 < w)%Z →
  (u_distance w first last = last - first ↔ - 2 ^ (w - 1) ≤ last - first < 2 ^ (w - 1))%Z ∧
  (u_advance first (u_distance w first last) = last ↔ - 2 ^ (w - 1) ≤ last - first < 2 ^ (w - 1))%Z.
  Proof. first [exact distance_exact | apply distance_exact | intros; eapply distance_exact; eassumption]. Qed.



Print Assumptions C69_pair_construct.
Print Assumptions C69_pair_assign.
Print Assumptions C69_pair_convert.
Print Assumptions C69_pair_swap.
Print Assumptions C69_pair_equal.
Print Assumptions C68_function_objects_order.
Print Assumptions C68_function_objects_sets.
Print Assumptions C67_distance_exact_partial.
