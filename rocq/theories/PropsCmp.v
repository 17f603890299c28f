(** GENERATED by tools/genprops.py from CmpRuns.v: property theorems only.
    Every proof is the lemma of the same statement proved there. *)
From Verif Require Import CmpSpec CmpRuns.

Section cmp.
  Context {K V : Type} `{Allocator (rbcell V)}.
  Context (keyof : V → K) (lt eqb : K → K → bool) (ltf eqf : nat → K → K → option bool).

  (** find: at an exception memory is unchanged; otherwise the call is that of C01. *)
  Theorem C95_find_throws :
    ∀ fuel this key,
    answers_like ltf lt → answers_like eqf eqb →
    all_or_nothing (may_throw ltf eqf) (xm_find keyof ltf eqf fuel this key) (m_find keyof lt eqb fuel this key).
  Proof. first [exact find_throws | apply find_throws | intros; eapply find_throws; eassumption]. Qed.

  (** the same for count. *)
  Theorem C95_count_throws :
    ∀ fuel this key,
    answers_like ltf lt → answers_like eqf eqb →
    all_or_nothing (may_throw ltf eqf) (xm_count keyof ltf eqf fuel this key) (m_count keyof lt eqb fuel this key).
  Proof. first [exact count_throws | apply count_throws | intros; eapply count_throws; eassumption]. Qed.

  (** ... lower_bound. *)
  Theorem C95_lower_bound_throws :
    ∀ fuel this key,
    answers_like ltf lt →
    all_or_nothing (may_throw ltf eqf) (xm_lower_bound keyof ltf fuel this key) (m_lower_bound keyof lt fuel this key).
  Proof. first [exact lower_bound_throws | apply lower_bound_throws | intros; eapply lower_bound_throws; eassumption]. Qed.

  (** ... upper_bound. *)
  Theorem C95_upper_bound_throws :
    ∀ fuel this key,
    answers_like ltf lt →
    all_or_nothing (may_throw ltf eqf) (xm_upper_bound keyof ltf fuel this key) (m_upper_bound keyof lt fuel this key).
  Proof. first [exact upper_bound_throws | apply upper_bound_throws | intros; eapply upper_bound_throws; eassumption]. Qed.

  (** ... equal_range. *)
  Theorem C95_equal_range_throws :
    ∀ fuel this key,
    answers_like ltf lt →
    all_or_nothing (may_throw ltf eqf) (xm_equal_range keyof ltf fuel this key) (m_equal_range keyof lt fuel this key).
  Proof. first [exact equal_range_throws | apply equal_range_throws | intros; eapply equal_range_throws; eassumption]. Qed.

  (** insert(value): at an exception the container and all other memory is as it was before. *)
  Theorem C95_insert_throws :
    ∀ fuel this (v : V),
    answers_like ltf lt → answers_like eqf eqb →
    all_or_nothing (may_throw ltf eqf) (xm_insert keyof ltf eqf fuel this v) (m_insert keyof lt eqb fuel this v).
  Proof. first [exact insert_throws | apply insert_throws | intros; eapply insert_throws; eassumption]. Qed.

  (** range insertion: at an exception memory is as after the insertion of a prefix of the range. *)
  Theorem C95_insert_range_throws :
    ∀ fuel this (vs : list V) c (h : gmap loc (rbcell V)),
    answers_like ltf lt → answers_like eqf eqb →
    (may_throw ltf eqf ∧ ∃ vs1 vs2 h', vs = vs1 ++ vs2 ∧ m_insert_range keyof lt eqb fuel this vs1 h = Ok (tt, h') ∧
       xm_insert_range keyof ltf eqf fuel this vs c h = Ok (None, h')) ∨
    as_plain (xm_insert_range keyof ltf eqf fuel this vs c h) (m_insert_range keyof lt eqb fuel this vs h).
  Proof. first [exact insert_range_throws | apply insert_range_throws | intros; eapply insert_range_throws; eassumption]. Qed.

  (** operator[] of map, like insert. *)
  Theorem C95_index_throws :
    ∀ {T0 : Type} `{Allocator (rbcell (K * T0))} (dflt : T0) fuel this (key : K),
    answers_like ltf lt → answers_like eqf eqb →
    all_or_nothing (may_throw ltf eqf) (xm_index ltf eqf dflt fuel this key) (m_index lt eqb dflt fuel this key).
  Proof. first [exact index_throws | apply index_throws | intros; eapply index_throws; eassumption]. Qed.

  (** erase(key): without an exception it is the call of C01; after one the tree still holds
     every element, at its old address and in ascending order, but its nodes may no longer be
     coloured and balanced as erase needs them. *)
  Theorem C95_erase_throws_partial :
    ∀ fuel this (xs : list (loc * V)) (key : K) c,
    key_order lt eqb → log_steps (length xs) < fuel → answers_like ltf lt → answers_like eqf eqb →
    runs (is_map keyof lt this xs) (xm_erase keyof ltf eqf fuel this key c)
      (λ q h,
         match q with
         | None => may_throw ltf eqf ∧ is_loose_map keyof lt this xs h
         | Some (r, _) =>
             if has keyof eqb key xs.*2
             then r = 1 ∧ ∃ i x w, xs !! i = Some (x, w) ∧ eqb key (keyof w) = true ∧
                    is_map keyof lt this (take i xs ++ drop (S i) xs) h
             else r = 0 ∧ is_map keyof lt this xs h
         end).
  Proof. first [exact erase_throws | apply erase_throws | intros; eapply erase_throws; eassumption]. Qed.

  (** After such an exception find is still right. *)
  Theorem C95_erase_torn_find_partial :
    ∀ fuel this (xs : list (loc * V)) (key : K),
    key_order lt eqb → length xs < fuel →
    runs (is_loose_map keyof lt this xs) (m_find keyof lt eqb fuel this key)
      (λ p h,
         is_loose_map keyof lt this xs h ∧
         if has keyof eqb key xs.*2
         then ∃ i x w, xs !! i = Some (x, w) ∧ eqb key (keyof w) = true ∧ p = Some x
         else p = m_end this).
  Proof. first [exact erase_torn_find | apply erase_torn_find | intros; eapply erase_torn_find; eassumption]. Qed.

  (** ... begin() *)
  Theorem C95_erase_torn_begin_partial :
    ∀ fuel this (xs : list (loc * V)),
    length xs < fuel →
    runs (is_loose_map keyof lt this xs) (m_begin fuel this)
      (λ p h, is_loose_map keyof lt this xs h ∧ p = iter_at this xs 0).
  Proof. first [exact erase_torn_begin | apply erase_torn_begin | intros; eapply erase_torn_begin; eassumption]. Qed.

  (** ... and ++ on the iterator to element i still visit exactly the elements. *)
  Theorem C95_erase_torn_incr_partial :
    ∀ fuel this (xs : list (loc * V)) i,
    i < length xs → length xs < fuel →
    runs (is_loose_map keyof lt this xs) (m_incr fuel (iter_at this xs i))
      (λ p h, is_loose_map keyof lt this xs h ∧ p = iter_at this xs (Datatypes.S i)).
  Proof. first [exact erase_torn_incr | apply erase_torn_incr | intros; eapply erase_torn_incr; eassumption]. Qed.

  (** ... and clear() makes it an empty, usable container *)
  Theorem C95_erase_torn_clear_partial :
    ∀ fuel this (xs : list (loc * V)),
    length xs < fuel →
    runs (is_loose_map keyof lt this xs) (m_clear fuel this) (λ _ h, is_map keyof lt this [] h).
  Proof. first [exact erase_torn_clear | apply erase_torn_clear | intros; eapply erase_torn_clear; eassumption]. Qed.

  (** ... and the destructor leaves nothing. *)
  Theorem C95_erase_torn_destroy_partial :
    ∀ fuel this (xs : list (loc * V)),
    length xs < fuel →
    runs (is_loose_map keyof lt this xs) (rb_destroy fuel this) (λ _ h, nothing h).
  Proof. first [exact erase_torn_destroy | apply erase_torn_destroy | intros; eapply erase_torn_destroy; eassumption]. Qed.

  (** erase, a genuine defect: set<int> s; insert 4, 2, 3, 1; erase(4) whose third call of
   Compare or == throws; the client catches the exception and calls erase(2): it returns 1, but
   element 4 is gone as well, and its node is never freed. *)
  Theorem C95_erase_torn_loses_refuted :
  let al := bump_allocator in
  let never := λ (c x y : nat), Some (Nat.eqb x y) in
  let third := λ (c x y : nat), if Nat.eqb c 2 then None else Some (Nat.ltb x y) in
  outcome ((
    let! s := rb_new in
    m_insert_range id Nat.ltb Nat.eqb 100 s [4; 2; 3; 1] ;!
    let! q := xm_erase id third never 100 s 4 0 in
    let! xs := m_forward 100 s in
    let! n := m_erase id Nat.ltb Nat.eqb 100 s 2 in
    let! ys := m_forward 100 s in
    rb_destroy 100 s ;!
    ret (q, xs, n, ys)) ∅) = Ok (None, [1; 2; 3; 4], 1, [1; 3], 1).
  Proof. first [exact erase_torn_loses | apply erase_torn_loses | intros; eapply erase_torn_loses; eassumption]. Qed.

End cmp.

Print Assumptions C95_find_throws.
Print Assumptions C95_count_throws.
Print Assumptions C95_lower_bound_throws.
Print Assumptions C95_upper_bound_throws.
Print Assumptions C95_equal_range_throws.
Print Assumptions C95_insert_throws.
Print Assumptions C95_insert_range_throws.
Print Assumptions C95_index_throws.
Print Assumptions C95_erase_throws_partial.
Print Assumptions C95_erase_torn_find_partial.
Print Assumptions C95_erase_torn_begin_partial.
Print Assumptions C95_erase_torn_incr_partial.
Print Assumptions C95_erase_torn_clear_partial.
Print Assumptions C95_erase_torn_destroy_partial.
Print Assumptions C95_erase_torn_loses_refuted.
