(** Trees with duplicate keys: whole programs (C10, C11). *)
From Verif Require Export MultiSpec.
From Verif Require Import MultiHistory RbFind.
(*@HEADER
From Verif Require Import MultiSpec MultiRuns.

Section multi.
  Context {K V : Type} (keyof : V → K) (lt eqb : K → K → bool).
  Context `{Allocator (rbcell V)}.
@*)
(*@FOOTER
End multi.
@*)

Section multi.
  Context {K V : Type} (keyof : V → K) (lt eqb : K → K → bool).
  Context `{Allocator (rbcell V)}.

  (*@ C10_partial,C11_partial Whole programs on two trees with duplicate keys: for every history of
     insert_equal, remove, clear, empty, find, count, lower_bound, upper_bound,
     iteration over equal_range, forward and backward traversal, assignment and
     copy in which remove and count are called for keys that at most one element
     has, every observation is the one made on the abstract sequences; nothing goes
     wrong, and after both destructors no memory is left over. *)
  Lemma multi_history ops :
    key_order lt eqb → multi_correct keyof lt eqb ops.
  Proof. intros. by apply multi_history_correct. Qed.

  (*@ C10_partial,C11_partial After every such history both objects are well-formed
     search trees (balanced, non-descending) that hold exactly the abstract
     sequences, and own exactly their nodes. *)
  Lemma multi_reaches ops :
    key_order lt eqb →
    h_reaches rb_new (x_step keyof lt eqb) [] (x_spec keyof lt eqb)
      (λ a vs h, ∃ xs, xs.*2 = vs ∧ is_multi keyof lt a xs h) ops.
  Proof. intros. by apply multi_history_reaches. Qed.

  Lemma matching_x_insert (Hord : key_order lt eqb) key (v : V) xs :
    matching keyof eqb key (x_insert keyof lt v xs) = matching keyof eqb key (xs ++ [v]).
  Proof.
    unfold x_insert, matching, above. rewrite !filter_app (filter_cons _ v). cbn [filter].
    assert (∀ w, eqb key (keyof w) = true → lt (keyof v) (keyof w) = lt (keyof v) key) as Hc.
    { intros w [H1 H2]%(ko_eqb _ _ Hord). destruct (lt (keyof v) (keyof w)) eqn:E1, (lt (keyof v) key) eqn:E2; try done.
      - by rewrite (ko_ntrans _ _ Hord _ _ _ E2 H1) in E1.
      - by rewrite (ko_ntrans _ _ Hord _ _ _ E1 H2) in E2. }
    rewrite !list_filter_filter.
    destruct (lt (keyof v) key) eqn:Ek.
    - assert (eqb key (keyof v) = false) as Ev by (apply (eqb_false_gt _ _ Hord); done).
      rewrite (filter_none _ xs).
      2:{ apply Forall_forall. intros w _ [Hw1 Hw2]. rewrite (Hc w Hw1) in Hw2. done. }
      change (list_filter (λ w, eqb key (keyof w) = true) _ []) with ([] : list V).
      destruct (decide (eqb key (keyof v) = true)) as [|_]; [congruence|]. simpl.
      rewrite filter_cons. destruct (decide _) as [|_]; [congruence|]. rewrite app_nil_r.
      apply list_filter_iff. intros w. split; [tauto|]. intros Hw. by rewrite (Hc w Hw).
    - rewrite (list_filter_iff (λ w, eqb key (keyof w) = true ∧ lt (keyof v) (keyof w) = false) (λ w, eqb key (keyof w) = true)).
      2:{ intros w. split; [tauto|]. intros Hw. by rewrite (Hc w Hw). }
      f_equal. rewrite filter_cons. rewrite (filter_none _ xs).
      2:{ apply Forall_forall. intros w _ [Hw1 Hw2]. rewrite (Hc w Hw1) in Hw2. congruence. }
      done.
  Qed.
  Lemma nondescending_x_insert (Hord : key_order lt eqb) (v : V) xs :
    nondescending keyof lt xs → nondescending keyof lt (x_insert keyof lt v xs).
  Proof.
    intros Hs.
    assert (∀ (P : V → Prop) `{∀ w, Decision (P w)} l, nondescending keyof lt l → nondescending keyof lt (filter P l)) as Hfil.
    { intros P HP l. induction 1 as [|a l Hl IH Ha]; [constructor|]. rewrite filter_cons. destruct (decide (P a)); [|done].
      constructor; [done|]. apply Forall_forall. intros b Hb%elem_of_list_filter. rewrite Forall_forall in Ha. naive_solver. }
    unfold x_insert, above. apply sorted_app. split_and!; [by apply Hfil| |].
    - constructor; [by apply Hfil|]. apply Forall_forall. intros b Hb%elem_of_list_filter. apply (lt_asym _ _ Hord). tauto.
    - apply Forall_forall. intros a Ha%elem_of_list_filter. constructor; [tauto|].
      apply Forall_forall. intros b Hb%elem_of_list_filter. destruct Ha as [Ha _], Hb as [Hb _].
      destruct (lt (keyof b) (keyof a)) eqn:E; [|done].
      by rewrite (ko_trans _ _ Hord _ _ _ Hb E) in Ha.
  Qed.
  Lemma perm_x_insert (v : V) xs : Permutation (x_insert keyof lt v xs) (v :: xs).
  Proof.
    unfold x_insert, above. rewrite -Permutation_middle. constructor.
    induction xs as [|w xs IH]; [done|]. rewrite !filter_cons.
    destruct (lt (keyof v) (keyof w)); simpl.
    - by rewrite -Permutation_middle IH.
    - by rewrite IH.
  Qed.
  Lemma x_spec_inserts vs ops xs ys :
    h_spec (x_spec keyof lt eqb) xs ys (((λ v, (false, XInsert v)) <$> vs) ++ ops) =
    '(ab, rs) ← h_spec (x_spec keyof lt eqb) (foldl (λ l v, x_insert keyof lt v l) xs vs) ys ops;
    Some (ab, (UVal <$> vs) ++ rs).
  Proof.
    revert xs. induction vs as [|v vs IH]; intros xs; simpl.
    - by destruct (h_spec _ _ _ _) as [[ab rs]|].
    - rewrite IH. by destruct (h_spec _ _ _ _) as [[ab rs]|].
  Qed.
  (*@ C10 Insertion order: a program that inserts any values one after the other (each
     insert_equal returns the node with the value) and then traverses the tree sees
     all of them in non-descending order, and iterating over equal_range(k) sees
     exactly the values with key k in the order in which they were inserted. *)
  Lemma insertion_order (vs : list V) (k : K) :
    key_order lt eqb →
    ∃ ws, Permutation ws vs ∧ nondescending keyof lt ws ∧
      ∃ F, ∀ fuel, F ≤ fuel →
        runs nothing
          (h_program rb_new rb_destroy (x_step keyof lt eqb) fuel
             (((λ v, (false, XInsert v)) <$> vs) ++ [(false, XForward); (false, XRange k)]))
          (λ outs h, outs = (UVal <$> vs) ++ [USeq ws; USeq (matching keyof eqb k vs)] ∧ nothing h).
  Proof.
    intros Hord. exists (foldl (λ l v, x_insert keyof lt v l) [] vs).
    assert (∀ xs, Permutation (foldl (λ l v, x_insert keyof lt v l) xs vs) (xs ++ vs) ∧
              (nondescending keyof lt xs → nondescending keyof lt (foldl (λ l v, x_insert keyof lt v l) xs vs)) ∧
              matching keyof eqb k (foldl (λ l v, x_insert keyof lt v l) xs vs) = matching keyof eqb k (xs ++ vs)) as Hall.
    { induction vs as [|v vs IH]; intros xs; simpl.
      - rewrite app_nil_r. done.
      - destruct (IH (x_insert keyof lt v xs)) as (H1&H2&H3). split_and!.
        + rewrite H1 perm_x_insert /=. apply Permutation_middle.
        + intros Hs. by apply H2, nondescending_x_insert.
        + rewrite H3. unfold matching in *. rewrite filter_app.
          pose proof (matching_x_insert Hord k v xs) as Hm. unfold matching in Hm. rewrite Hm.
          by rewrite -filter_app -app_assoc. }
    destruct (Hall []) as (H1&H2&H3). split; [done|]. split; [apply H2; constructor|].
    assert (h_spec (x_spec keyof lt eqb) [] [] (((λ v, (false, XInsert v)) <$> vs) ++ [(false, XForward); (false, XRange k)]) =
      Some (foldl (λ l v, x_insert keyof lt v l) [] vs, [],
        (UVal <$> vs) ++ [USeq (foldl (λ l v, x_insert keyof lt v l) [] vs); USeq (matching keyof eqb k vs)])) as Hsp.
    { rewrite x_spec_inserts. simpl. by rewrite H3. }
    exact (multi_history_correct keyof lt eqb Hord _ _ _ _ Hsp).
  Qed.
End multi.
