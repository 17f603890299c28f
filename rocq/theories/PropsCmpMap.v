(** GENERATED by tools/genprops.py from CmpMapRuns.v: property theorems only.
    Every proof is the lemma of the same statement proved there. *)
From Verif Require Import CmpMapSpec CmpMapRuns.

Section cmp.

  (** at of map: at an exception memory is unchanged; otherwise the call is the plain one. *)
  Theorem C95_at_throws :
    ∀ {K T0 : Type} `{Allocator (rbcell (K * T0))} (lt eqb : K → K → bool)
    (ltf eqf : nat → K → K → option bool) (fuel : nat) (this : loc) (key : K),
    answers_like ltf lt → answers_like eqf eqb →
    all_or_nothing (may_throw ltf eqf) (xm_at (M:=T0) ltf eqf fuel this key) (m_at lt eqb fuel this key).
  Proof. first [exact at_throws | apply at_throws | intros; eapply at_throws; eassumption]. Qed.

  (** Programs on two sets that catch the exceptions of insert, find, count and lower_bound (erase,
     range insertion and copying do not throw here), from every memory: they do what the plain program
     does that makes only the calls that do not throw. *)
  Theorem C95_set_catching_partial :
    ∀ {K V : Type} `{Allocator (rbcell V)} (keyof : V → K) (lt eqb : K → K → bool)
    (ltf eqf : nat → K → K → option bool) (veqb : V → V → bool) (fuel : nat) (a b : loc)
    (ops : list (nat * (bool * m_op K V))) (h : gmap loc (rbcell V)),
    answers_like ltf lt → answers_like eqf eqb →
    as_without_throwing_calls (may_throw ltf eqf) (m_step' keyof lt eqb veqb)
      (xm_step keyof lt eqb veqb ltf eqf) fuel a b ops h.
  Proof. first [exact set_catching | apply set_catching | intros; eapply set_catching; eassumption]. Qed.

  (** ... and observe the ascending sequence of C01 without them; nothing else goes wrong and no memory
     is left. *)
  Theorem C95_set_catching_history_partial :
    ∀ {K V : Type} `{Allocator (rbcell V)} (keyof : V → K) (lt eqb : K → K → bool)
    (ltf eqf : nat → K → K → option bool) (veqb : V → V → bool) (ops : list (nat * (bool * m_op K V))),
    key_order lt eqb → answers_like ltf lt → answers_like eqf eqb →
    catching_correct (may_throw ltf eqf) rb_new rb_destroy (xm_step keyof lt eqb veqb ltf eqf) []
      (m_spec keyof lt eqb veqb) ops.
  Proof. first [exact set_catching_history | apply set_catching_history | intros; eapply set_catching_history; eassumption]. Qed.

  (** The same for two maps, whose operator[] and at may throw too. *)
  Theorem C95_map_catching_partial :
    ∀ {K T0 : Type} `{Allocator (rbcell (K * T0))} (lt eqb : K → K → bool)
    (ltf eqf : nat → K → K → option bool) (veqb : K * T0 → K * T0 → bool) (dflt : T0) (fuel : nat) (a b : loc)
    (ops : list (nat * (bool * map_op K T0))) (h : gmap loc (rbcell (K * T0))),
    answers_like ltf lt → answers_like eqf eqb →
    as_without_throwing_calls (may_throw ltf eqf) (map_step' lt eqb veqb dflt)
      (xmap_step lt eqb veqb dflt ltf eqf) fuel a b ops h.
  Proof. first [exact map_catching | apply map_catching | intros; eapply map_catching; eassumption]. Qed.

  (** ... *)
  Theorem C95_map_catching_history_partial :
    ∀ {K T0 : Type} `{Allocator (rbcell (K * T0))} (lt eqb : K → K → bool)
    (ltf eqf : nat → K → K → option bool) (veqb : K * T0 → K * T0 → bool) (dflt : T0)
    (ops : list (nat * (bool * map_op K T0))),
    key_order lt eqb → answers_like ltf lt → answers_like eqf eqb →
    catching_correct (may_throw ltf eqf) rb_new rb_destroy (xmap_step lt eqb veqb dflt ltf eqf) []
      (map_spec lt eqb veqb dflt) ops.
  Proof. first [exact map_catching_history | apply map_catching_history | intros; eapply map_catching_history; eassumption]. Qed.

End cmp.

Print Assumptions C95_at_throws.
Print Assumptions C95_set_catching_partial.
Print Assumptions C95_set_catching_history_partial.
Print Assumptions C95_map_catching_partial.
Print Assumptions C95_map_catching_history_partial.
