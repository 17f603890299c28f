(** GENERATED by tools/genprops.py from MappedRuns.v: property theorems only.
    Every proof is the lemma of the same statement proved there. *)
From Verif Require Import MapSpec MappedRuns.

Section mapped.
  Context {K T : Type} (lt eqb : K → K → bool) (dflt : T).
  Context `{Allocator (rbcell (K * T))}.
  Implicit Types (xs : list (loc * (K * T))).

  (** Whole programs on two maps, with operator[], m[k] = v and at as well. *)
  Theorem C01_map_history :
    ∀ (veqb : K * T → K * T → bool) ops,
    key_order lt eqb → map_correct lt eqb veqb dflt ops.
  Proof. first [exact map_history | apply map_history | intros; eapply map_history; eassumption]. Qed.

  (** Whole programs on two maps, with operator[], m[k] = v and at as well. *)
  Theorem C02_map_history :
    ∀ (veqb : K * T → K * T → bool) ops,
    key_order lt eqb → map_correct lt eqb veqb dflt ops.
  Proof. first [exact map_history | apply map_history | intros; eapply map_history; eassumption]. Qed.

  (** Whole programs on two maps, with operator[], m[k] = v and at as well. *)
  Theorem C05_map_history :
    ∀ (veqb : K * T → K * T → bool) ops,
    key_order lt eqb → map_correct lt eqb veqb dflt ops.
  Proof. first [exact map_history | apply map_history | intros; eapply map_history; eassumption]. Qed.

  (** Whole programs on two maps, with operator[], m[k] = v and at as well. *)
  Theorem C06_map_history :
    ∀ (veqb : K * T → K * T → bool) ops,
    key_order lt eqb → map_correct lt eqb veqb dflt ops.
  Proof. first [exact map_history | apply map_history | intros; eapply map_history; eassumption]. Qed.

  (** Whole programs on two maps, with operator[], m[k] = v and at as well. *)
  Theorem C08_map_history :
    ∀ (veqb : K * T → K * T → bool) ops,
    key_order lt eqb → map_correct lt eqb veqb dflt ops.
  Proof. first [exact map_history | apply map_history | intros; eapply map_history; eassumption]. Qed.

  (** Whole programs on two maps, with operator[], m[k] = v and at as well. *)
  Theorem C12_map_history :
    ∀ (veqb : K * T → K * T → bool) ops,
    key_order lt eqb → map_correct lt eqb veqb dflt ops.
  Proof. first [exact map_history | apply map_history | intros; eapply map_history; eassumption]. Qed.

  (** The state after every history on two maps. *)
  Theorem C01_map_reaches :
    ∀ (veqb : K * T → K * T → bool) ops,
    key_order lt eqb →
    h_reaches rb_new (map_step lt eqb veqb dflt) [] (map_spec lt eqb veqb dflt)
      (λ a vs h, ∃ xs, xs.*2 = vs ∧ is_map fst lt a xs h) ops.
  Proof. first [exact map_reaches | apply map_reaches | intros; eapply map_reaches; eassumption]. Qed.

  (** The state after every history on two maps. *)
  Theorem C02_map_reaches :
    ∀ (veqb : K * T → K * T → bool) ops,
    key_order lt eqb →
    h_reaches rb_new (map_step lt eqb veqb dflt) [] (map_spec lt eqb veqb dflt)
      (λ a vs h, ∃ xs, xs.*2 = vs ∧ is_map fst lt a xs h) ops.
  Proof. first [exact map_reaches | apply map_reaches | intros; eapply map_reaches; eassumption]. Qed.

  (** The state after every history on two maps. *)
  Theorem C03_map_reaches :
    ∀ (veqb : K * T → K * T → bool) ops,
    key_order lt eqb →
    h_reaches rb_new (map_step lt eqb veqb dflt) [] (map_spec lt eqb veqb dflt)
      (λ a vs h, ∃ xs, xs.*2 = vs ∧ is_map fst lt a xs h) ops.
  Proof. first [exact map_reaches | apply map_reaches | intros; eapply map_reaches; eassumption]. Qed.

  (** The state after every history on two maps. *)
  Theorem C04_map_reaches :
    ∀ (veqb : K * T → K * T → bool) ops,
    key_order lt eqb →
    h_reaches rb_new (map_step lt eqb veqb dflt) [] (map_spec lt eqb veqb dflt)
      (λ a vs h, ∃ xs, xs.*2 = vs ∧ is_map fst lt a xs h) ops.
  Proof. first [exact map_reaches | apply map_reaches | intros; eapply map_reaches; eassumption]. Qed.

  (** The state after every history on two maps. *)
  Theorem C05_map_reaches :
    ∀ (veqb : K * T → K * T → bool) ops,
    key_order lt eqb →
    h_reaches rb_new (map_step lt eqb veqb dflt) [] (map_spec lt eqb veqb dflt)
      (λ a vs h, ∃ xs, xs.*2 = vs ∧ is_map fst lt a xs h) ops.
  Proof. first [exact map_reaches | apply map_reaches | intros; eapply map_reaches; eassumption]. Qed.

  (** The state after every history on two maps. *)
  Theorem C06_map_reaches :
    ∀ (veqb : K * T → K * T → bool) ops,
    key_order lt eqb →
    h_reaches rb_new (map_step lt eqb veqb dflt) [] (map_spec lt eqb veqb dflt)
      (λ a vs h, ∃ xs, xs.*2 = vs ∧ is_map fst lt a xs h) ops.
  Proof. first [exact map_reaches | apply map_reaches | intros; eapply map_reaches; eassumption]. Qed.

  (** The state after every history on two maps. *)
  Theorem C08_map_reaches :
    ∀ (veqb : K * T → K * T → bool) ops,
    key_order lt eqb →
    h_reaches rb_new (map_step lt eqb veqb dflt) [] (map_spec lt eqb veqb dflt)
      (λ a vs h, ∃ xs, xs.*2 = vs ∧ is_map fst lt a xs h) ops.
  Proof. first [exact map_reaches | apply map_reaches | intros; eapply map_reaches; eassumption]. Qed.

  (** The state after every history on two maps. *)
  Theorem C12_map_reaches :
    ∀ (veqb : K * T → K * T → bool) ops,
    key_order lt eqb →
    h_reaches rb_new (map_step lt eqb veqb dflt) [] (map_spec lt eqb veqb dflt)
      (λ a vs h, ∃ xs, xs.*2 = vs ∧ is_map fst lt a xs h) ops.
  Proof. first [exact map_reaches | apply map_reaches | intros; eapply map_reaches; eassumption]. Qed.

  (** The state after every history on two maps. *)
  Theorem C13_map_reaches_partial :
    ∀ (veqb : K * T → K * T → bool) ops,
    key_order lt eqb →
    h_reaches rb_new (map_step lt eqb veqb dflt) [] (map_spec lt eqb veqb dflt)
      (λ a vs h, ∃ xs, xs.*2 = vs ∧ is_map fst lt a xs h) ops.
  Proof. first [exact map_reaches | apply map_reaches | intros; eapply map_reaches; eassumption]. Qed.

  (** operator[](key): the reference is to the mapped value of the
     element with that key if there is one (and nothing changes), else of one new
     element (key, T()) put at its place in the order; every other element keeps its
     address and value. *)
  Theorem C01_index_ok :
    ∀ fuel this xs (key : K),
    key_order lt eqb → log_steps (length xs) < fuel →
    runs (is_map fst lt this xs) (m_index lt eqb dflt fuel this key)
      (λ p h,
         if has fst eqb key xs.*2
         then ∃ i x w, xs !! i = Some (x, w) ∧ eqb key w.1 = true ∧
                    p = Some x ∧ is_map fst lt this xs h
         else ∃ i n, p = Some n ∧ i ≤ length xs ∧
                    is_map fst lt this (take i xs ++ (n, (key, dflt)) :: drop i xs) h).
  Proof. first [exact index_ok | apply index_ok | intros; eapply index_ok; eassumption]. Qed.

  (** operator[](key): the reference is to the mapped value of the
     element with that key if there is one (and nothing changes), else of one new
     element (key, T()) put at its place in the order; every other element keeps its
     address and value. *)
  Theorem C03_index_ok :
    ∀ fuel this xs (key : K),
    key_order lt eqb → log_steps (length xs) < fuel →
    runs (is_map fst lt this xs) (m_index lt eqb dflt fuel this key)
      (λ p h,
         if has fst eqb key xs.*2
         then ∃ i x w, xs !! i = Some (x, w) ∧ eqb key w.1 = true ∧
                    p = Some x ∧ is_map fst lt this xs h
         else ∃ i n, p = Some n ∧ i ≤ length xs ∧
                    is_map fst lt this (take i xs ++ (n, (key, dflt)) :: drop i xs) h).
  Proof. first [exact index_ok | apply index_ok | intros; eapply index_ok; eassumption]. Qed.

  (** operator[](key): the reference is to the mapped value of the
     element with that key if there is one (and nothing changes), else of one new
     element (key, T()) put at its place in the order; every other element keeps its
     address and value. *)
  Theorem C04_index_ok :
    ∀ fuel this xs (key : K),
    key_order lt eqb → log_steps (length xs) < fuel →
    runs (is_map fst lt this xs) (m_index lt eqb dflt fuel this key)
      (λ p h,
         if has fst eqb key xs.*2
         then ∃ i x w, xs !! i = Some (x, w) ∧ eqb key w.1 = true ∧
                    p = Some x ∧ is_map fst lt this xs h
         else ∃ i n, p = Some n ∧ i ≤ length xs ∧
                    is_map fst lt this (take i xs ++ (n, (key, dflt)) :: drop i xs) h).
  Proof. first [exact index_ok | apply index_ok | intros; eapply index_ok; eassumption]. Qed.

  (** operator[](key): the reference is to the mapped value of the
     element with that key if there is one (and nothing changes), else of one new
     element (key, T()) put at its place in the order; every other element keeps its
     address and value. *)
  Theorem C05_index_ok :
    ∀ fuel this xs (key : K),
    key_order lt eqb → log_steps (length xs) < fuel →
    runs (is_map fst lt this xs) (m_index lt eqb dflt fuel this key)
      (λ p h,
         if has fst eqb key xs.*2
         then ∃ i x w, xs !! i = Some (x, w) ∧ eqb key w.1 = true ∧
                    p = Some x ∧ is_map fst lt this xs h
         else ∃ i n, p = Some n ∧ i ≤ length xs ∧
                    is_map fst lt this (take i xs ++ (n, (key, dflt)) :: drop i xs) h).
  Proof. first [exact index_ok | apply index_ok | intros; eapply index_ok; eassumption]. Qed.

End mapped.

Print Assumptions C01_map_history.
Print Assumptions C02_map_history.
Print Assumptions C05_map_history.
Print Assumptions C06_map_history.
Print Assumptions C08_map_history.
Print Assumptions C12_map_history.
Print Assumptions C01_map_reaches.
Print Assumptions C02_map_reaches.
Print Assumptions C03_map_reaches.
Print Assumptions C04_map_reaches.
Print Assumptions C05_map_reaches.
Print Assumptions C06_map_reaches.
Print Assumptions C08_map_reaches.
Print Assumptions C12_map_reaches.
Print Assumptions C13_map_reaches_partial.
Print Assumptions C01_index_ok.
Print Assumptions C03_index_ok.
Print Assumptions C04_index_ok.
Print Assumptions C05_index_ok.
