(** GENERATED by tools/genprops.py from MultiRuns.v: property theorems only.
    Every proof is the lemma of the same statement proved there. *)
From Verif Require Import MultiSpec MultiRuns.

Section multi.
  Context {K V : Type} (keyof : V → K) (lt eqb : K → K → bool).
  Context `{Allocator (rbcell V)}.

  (** Whole programs on two trees with duplicate keys: for every history of
     insert_equal, remove, clear, empty, find, count, lower_bound, upper_bound,
     iteration over equal_range, forward and backward traversal, assignment and
     copy in which remove and count are called for keys that at most one element
     has, every observation is the one made on the abstract sequences; nothing goes
     wrong, and after both destructors no memory is left over. *)
  Theorem C10_multi_history_partial :
    ∀ ops,
    key_order lt eqb → multi_correct keyof lt eqb ops.
  Proof. first [exact multi_history | apply multi_history | intros; eapply multi_history; eassumption]. Qed.

  (** Whole programs on two trees with duplicate keys: for every history of
     insert_equal, remove, clear, empty, find, count, lower_bound, upper_bound,
     iteration over equal_range, forward and backward traversal, assignment and
     copy in which remove and count are called for keys that at most one element
     has, every observation is the one made on the abstract sequences; nothing goes
     wrong, and after both destructors no memory is left over. *)
  Theorem C11_multi_history_partial :
    ∀ ops,
    key_order lt eqb → multi_correct keyof lt eqb ops.
  Proof. first [exact multi_history | apply multi_history | intros; eapply multi_history; eassumption]. Qed.

  (** After every such history both objects are well-formed
     search trees (balanced, non-descending) that hold exactly the abstract
     sequences, and own exactly their nodes. *)
  Theorem C10_multi_reaches_partial :
    ∀ ops,
    key_order lt eqb →
    h_reaches rb_new (x_step keyof lt eqb) [] (x_spec keyof lt eqb)
      (λ a vs h, ∃ xs, xs.*2 = vs ∧ is_multi keyof lt a xs h) ops.
  Proof. first [exact multi_reaches | apply multi_reaches | intros; eapply multi_reaches; eassumption]. Qed.

  (** After every such history both objects are well-formed
     search trees (balanced, non-descending) that hold exactly the abstract
     sequences, and own exactly their nodes. *)
  Theorem C11_multi_reaches_partial :
    ∀ ops,
    key_order lt eqb →
    h_reaches rb_new (x_step keyof lt eqb) [] (x_spec keyof lt eqb)
      (λ a vs h, ∃ xs, xs.*2 = vs ∧ is_multi keyof lt a xs h) ops.
  Proof. first [exact multi_reaches | apply multi_reaches | intros; eapply multi_reaches; eassumption]. Qed.

  (** Insertion order: a program that inserts any values one after the other (each
     insert_equal returns the node with the value) and then traverses the tree sees
     all of them in non-descending order, and iterating over equal_range(k) sees
     exactly the values with key k in the order in which they were inserted. *)
  Theorem C10_insertion_order :
    ∀ (vs : list V) (k : K),
    key_order lt eqb →
    ∃ ws, Permutation ws vs ∧ nondescending keyof lt ws ∧
      ∃ F, ∀ fuel, F ≤ fuel →
        runs nothing
          (h_program rb_new rb_destroy (x_step keyof lt eqb) fuel
             (((λ v, (false, XInsert v)) <$> vs) ++ [(false, XForward); (false, XRange k)]))
          (λ outs h, outs = (UVal <$> vs) ++ [USeq ws; USeq (matching keyof eqb k vs)] ∧ nothing h).
  Proof. first [exact insertion_order | apply insertion_order | intros; eapply insertion_order; eassumption]. Qed.

End multi.

Print Assumptions C10_multi_history_partial.
Print Assumptions C11_multi_history_partial.
Print Assumptions C10_multi_reaches_partial.
Print Assumptions C11_multi_reaches_partial.
Print Assumptions C10_insertion_order.
