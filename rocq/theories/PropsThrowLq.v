(** GENERATED by tools/genprops.py from ThrowLqRuns.v: property theorems only.
    Every proof is the lemma of the same statement proved there. *)
From Verif Require Import LazySpec ThrowLqModel ThrowLqRuns.

Section lazy.
  Context {V : Type} `{Allocator (cell V)}.

  (** push_back when the copy throws: the exception leaves the elements and the members of
     the queue as they were, but one node - the first spare one, if there was one - is lost.
     Missing: the node. *)
  Theorem C93_lq_push_back_copy_throws_partial :
    ∀ q (xs : list (loc * V)) ds r v,
    refers xs r v →
    runs (is_lqueue q xs ds) (xlq_push_back (Some 0) q r)
      (λ x h, x = None ∧ both (is_lqueue q xs (drop 1 ds)) lost_node h).
  Proof. first [exact lq_push_back_copy_throws | apply lq_push_back_copy_throws | intros; eapply lq_push_back_copy_throws; eassumption]. Qed.

  (** push_front. *)
  Theorem C93_lq_push_front_copy_throws_partial :
    ∀ q (xs : list (loc * V)) ds r v,
    refers xs r v →
    runs (is_lqueue q xs ds) (xlq_push_front (Some 0) q r)
      (λ x h, x = None ∧ both (is_lqueue q xs (drop 1 ds)) lost_node h).
  Proof. first [exact lq_push_front_copy_throws | apply lq_push_front_copy_throws | intros; eapply lq_push_front_copy_throws; eassumption]. Qed.

  (** insert_after(pos, x). *)
  Theorem C93_lq_insert_after_copy_throws_partial :
    ∀ q (xs : list (loc * V)) ds pos r v,
    refers xs r v →
    runs (is_lqueue q xs ds) (xlq_insert_after (Some 0) q pos r)
      (λ x h, x = None ∧ both (is_lqueue q xs (drop 1 ds)) lost_node h).
  Proof. first [exact lq_insert_after_copy_throws | apply lq_insert_after_copy_throws | intros; eapply lq_insert_after_copy_throws; eassumption]. Qed.

  (** insert_after(pos, n, value), when copy number k + 1 throws: the first k values are
     in the queue, one node is lost, and the queue is as usable as before if pos is not the last
     position. Missing: the node; pos the last position (tail_ is then stale, as in C85). *)
  Theorem C93_lq_insert_n_copy_throws_partial :
    ∀ q (xs : list (loc * V)) ds i n r v k,
    i ≤ length xs → refers xs r v → k < n →
    runs (is_lqueue q xs ds) (xlq_insert_after_n (Some k) q (pos_at (lq_head q) xs i) n r)
      (λ x h, x = None ∧ ∃ ys, ys.*2 = replicate k v ∧ reused ys.*1 ds ∧
         let q' := if decide (i < length xs ∨ k = 0) then q
                   else lq_set_tail q (Some (last_loc (lq_head q) (xs ++ ys))) in
         both (is_lqueue q' (take i xs ++ ys ++ drop i xs) (drop (S k) ds)) lost_node h).
  Proof. first [exact lq_insert_n_copy_throws | apply lq_insert_n_copy_throws | intros; eapply lq_insert_n_copy_throws; eassumption]. Qed.

  (** so after the destructor of the queue a node is left in memory. (A destructor that
     still has spare nodes has undefined behaviour for other T, see C27.) *)
  Theorem C93_lq_push_back_copy_leaks_refuted :
    ∀ triv fuel q (xs : list (loc * V)) ds r v,
    refers xs r v → triv = true ∨ length ds ≤ 1 → length xs < fuel → length ds < fuel →
    runs (is_lqueue q xs ds) (let! q' := caught_lq q (xlq_push_back (Some 0) q r) in lq_destroy triv fuel q')
      (λ _ h, lost_node h).
  Proof. first [exact lq_push_back_copy_leaks | apply lq_push_back_copy_leaks | intros; eapply lq_push_back_copy_leaks; eassumption]. Qed.

  (** When no copy throws these are the functions of the other claims. *)
  Theorem C93_lq_no_throw_partial :
    ∀ q (h : gmap loc (cell V)),
    (∀ r, xlq_push_back None q r h = (let! q' := lq_push_back q r in ret (Some q')) h) ∧
    (∀ r, xlq_push_front None q r h = (let! q' := lq_push_front q r in ret (Some q')) h) ∧
    (∀ pos r, xlq_insert_after None q pos r h = (let! q' := lq_insert_after q pos r in ret (Some q')) h) ∧
    (∀ pos n r, xlq_insert_after_n None q pos n r h = (let! q' := lq_insert_after_n q pos n r in ret (Some q')) h).
  Proof. first [exact lq_no_throw | apply lq_no_throw | intros; eapply lq_no_throw; eassumption]. Qed.

End lazy.

Print Assumptions C93_lq_push_back_copy_throws_partial.
Print Assumptions C93_lq_push_front_copy_throws_partial.
Print Assumptions C93_lq_insert_after_copy_throws_partial.
Print Assumptions C93_lq_insert_n_copy_throws_partial.
Print Assumptions C93_lq_push_back_copy_leaks_refuted.
Print Assumptions C93_lq_no_throw_partial.
