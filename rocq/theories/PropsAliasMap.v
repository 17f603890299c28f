(** GENERATED by tools/genprops.py from AliasMapRuns.v: property theorems only.
    Every proof is the lemma of the same statement proved there. *)
From Verif Require Import MapSpec RbRefModel AliasMapRuns.

Section aliasmap.
  Context {K T : Type} (lt eqb : K → K → bool) (dflt : T).
  Context `{Allocator (rbcell (K * T))}.

  (** operator[](it->first) denotes that element's mapped value and inserts nothing. *)
  Theorem C75_index_own_key :
    ∀ fuel this (xs : list (loc * (K * T))) i x v,
    key_order lt eqb → xs !! i = Some (x, v) → log_steps (length xs) < fuel →
    runs (is_map fst lt this xs) (m_index_ref lt eqb dflt fuel this (NodeKey x))
      (λ p h, p = Some x ∧ is_map fst lt this xs h).
  Proof. first [exact index_own_key | apply index_own_key | intros; eapply index_own_key; eassumption]. Qed.

End aliasmap.

Print Assumptions C75_index_own_key.
