(** Proofs about the non-modifying algorithms. *)
From Coq Require Import ssreflect.
From Verif Require Import AlgSpec.
Local Open Scope general_if_scope.

Ltac dT := match goal with |- context [decide ?P] =>
  let H := fresh in destruct (decide P) as [_|H]; [|exfalso; simpl in *; lia] end.
Ltac dF := match goal with |- context [decide ?P] =>
  let H := fresh in destruct (decide P) as [H|_]; [exfalso; simpl in *; lia|] end.

Section mem.
  Context {A : Type}.
  Implicit Types (m : amem A) (xs ys : list A).

  Lemma gives_ard m i x (Q : A → amem A → Prop) : m !! i = Some (Some x) → Q x m → gives (ard i) m Q.
  Proof. intros Hi HQ. exists x, m. split; [|done]. unfold ard. by rewrite Hi. Qed.
  Lemma gives_awr m i x y (Q : unit → amem A → Prop) :
    m !! i = Some (Some x) → Q tt (<[i := Some y]> m) → gives (awr i y) m Q.
  Proof. intros Hi HQ. eexists _, _. split; [|done]. unfold awr. by rewrite Hi. Qed.
  Lemma gives_cget m r v (Q : A → amem A → Prop) : refers m r v → Q v m → gives (cget r) m Q.
  Proof. destruct r; simpl; [intros ->; apply gives_ret|apply gives_ard]. Qed.

  Lemma holds_cons m i x xs : holds m i (x :: xs) ↔ m !! i = Some (Some x) ∧ holds m (S i) xs.
  Proof.
    split.
    - intros H. split; [rewrite -(Nat.add_0_r i); by apply H|].
      intros k y Hk. specialize (H (S k) y Hk). by rewrite Nat.add_succ_r in H.
    - intros [H0 H] [|k] y Hk; simplify_eq/=; [by rewrite Nat.add_0_r|].
      rewrite Nat.add_succ_r. by apply H.
  Qed.
  Lemma holds_lookup m i xs k x : holds m i xs → xs !! k = Some x → m !! (i + k) = Some (Some x).
  Proof. intros H. apply H. Qed.
  Lemma holds_drop m i xs k : holds m i xs → holds m (i + k) (drop k xs).
  Proof. intros H j x Hj. rewrite lookup_drop in Hj. rewrite -Nat.add_assoc. by apply H. Qed.
  Lemma holds_take m i xs k : holds m i xs → holds m i (take k xs).
  Proof. intros H j x [Hj _]%lookup_take_Some. by apply H. Qed.
  Lemma holds_app m i xs ys : holds m i (xs ++ ys) ↔ holds m i xs ∧ holds m (i + length xs) ys.
  Proof.
    split.
    - intros H. split.
      + intros k x Hk. apply H. by apply lookup_app_l_Some.
      + intros k x Hk. rewrite -Nat.add_assoc. apply H. rewrite lookup_app_r; [lia|].
        by replace (length xs + k - length xs) with k by lia.
    - intros [H1 H2] k x [Hk|[Hk1 Hk2]]%lookup_app_Some; [by apply H1|].
      specialize (H2 _ _ Hk2). by replace (i + length xs + (k - length xs)) with (i + k) in H2 by lia.
  Qed.
  Lemma holds_get m first xs i : holds m first xs → first ≤ i < first + length xs →
    ∃ x, xs !! (i - first) = Some x ∧ m !! i = Some (Some x).
  Proof.
    intros H Hi. destruct (lookup_lt_is_Some_2 xs (i - first)) as [x Hx]; [lia|].
    exists x. split; [done|]. specialize (H _ _ Hx). by replace (first + (i - first)) with i in H by lia.
  Qed.
End mem.

Section reading.
  Context {A : Type}.
  Context (aeq alt : A → A → bool) (imax : Z).
  Implicit Types (m : amem A) (xs ys : list A).

  (** a scan for the first position satisfying a test *)
  Lemma find_if_gives fuel first xs (p : A → bool) m : holds m first xs → length xs < fuel →
    gives (a_find_if fuel first (first + length xs) p) m (λ r m',
      m' = m ∧ ∃ k, r = first + k ∧ first_such (at_sat p xs) (length xs) k).
  Proof.
    intros H Hf. unfold a_find_if.
    apply (gives_loop (λ i s, s = m ∧ first ≤ i ≤ first + length xs ∧ ∀ j, j < i - first → ¬ at_sat p xs j)
             (λ i, first + length xs - i)); [split_and!; solve [done|lia|intros; lia]|lia|].
    intros i s (->&Hi&Hn). case_decide as Hd.
    - apply gives_ret. split; [done|]. exists (length xs). split; [done|]. split_and!; [done| |lia].
      intros j Hj. apply Hn. lia.
    - destruct (holds_get m first xs i) as (x&Hx&Hm); [done|lia|].
      apply gives_bind. apply (gives_ard _ _ x); [done|]. destruct (p x) eqn:Hp; apply gives_ret.
      + split; [done|]. exists (i - first). split; [lia|]. split_and!; [lia|done|]. intros _. by exists x.
      + split; [split_and!; [done|lia..|]|lia]. intros j Hj. destruct (decide (j = i - first)) as [->|].
        * intros (y&Hy&Hpy). congruence.
        * apply Hn. lia.
  Qed.
  Lemma loop_ext {S X B} fuel (b1 b2 : X → M S (X + B)) a s :
    (∀ x s, b1 x s = b2 x s) → loop fuel b1 a s = loop fuel b2 a s.
  Proof.
    intros Hb. revert a s. induction fuel as [|fuel IH]; intros a s; [done|]. cbn [loop]. unfold bind.
    rewrite Hb. destruct (b2 a s) as [[[]]| |]; [apply IH|done..].
  Qed.
  Lemma gives_ext {S X} (m1 m2 : M S X) s Q : m1 s = m2 s → gives m2 s Q → gives m1 s Q.
  Proof. intros He (a&s'&?&?). exists a, s'. by rewrite He. Qed.
  Lemma find_if_not_gives fuel first xs (p : A → bool) m : holds m first xs → length xs < fuel →
    gives (a_find_if_not fuel first (first + length xs) p) m (λ r m',
      m' = m ∧ ∃ k, r = first + k ∧ first_such (λ j, ∃ x, xs !! j = Some x ∧ p x = false) (length xs) k).
  Proof.
    intros H Hf. eapply gives_conseq; [apply (find_if_gives fuel first xs (λ x, negb (p x)) m H Hf)|].
    intros r m' (->&k&->&Hk1&Hk2&Hk3). split; [done|]. exists k. split; [done|]. split_and!; [done| |].
    - intros j Hj (x&Hx&Hp). apply (Hk2 j Hj). exists x. by rewrite Hp.
    - intros Hlt. destruct (Hk3 Hlt) as (x&Hx&Hp). exists x. by destruct (p x).
  Qed.
  (** find is a scan too, as long as the reference keeps its value *)
  Lemma find_gives fuel first xs r v m : holds m first xs → refers m r v → length xs < fuel →
    gives (a_find aeq fuel first (first + length xs) r) m (λ i m',
      m' = m ∧ ∃ k, i = first + k ∧ first_such (at_sat (λ x, aeq x v) xs) (length xs) k).
  Proof.
    intros H Hr Hf. unfold a_find.
    apply (gives_loop (λ i s, s = m ∧ first ≤ i ≤ first + length xs ∧ ∀ j, j < i - first → ¬ at_sat (λ x, aeq x v) xs j)
             (λ i, first + length xs - i)); [split_and!; solve [done|lia|intros; lia]|lia|].
    intros i s (->&Hi&Hn). case_decide as Hd.
    - apply gives_ret. split; [done|]. exists (length xs). split; [done|]. split_and!; [done| |lia].
      intros j Hj. apply Hn. lia.
    - destruct (holds_get m first xs i) as (x&Hx&Hm); [done|lia|].
      apply gives_bind. apply (gives_ard _ _ x); [done|]. apply gives_bind. apply (gives_cget _ _ v); [done|].
      destruct (aeq x v) eqn:Hp; apply gives_ret.
      + split; [done|]. exists (i - first). split; [lia|]. split_and!; [lia|done|]. intros _. by exists x.
      + split; [split_and!; [done|lia..|]|lia]. intros j Hj. destruct (decide (j = i - first)) as [->|].
        * intros (y&Hy&Hpy). congruence.
        * apply Hn. lia.
  Qed.

  Lemma all_of_gives fuel first xs (p : A → bool) m : holds m first xs → length xs < fuel →
    gives (a_all_of fuel first (first + length xs) p) m (λ b m',
      m' = m ∧ (b = true ↔ Forall (λ x, p x = true) xs)).
  Proof.
    intros H Hf. unfold a_all_of. apply gives_bind. eapply gives_conseq; [by apply find_if_not_gives|].
    intros r m' (->&k&->&Hk1&Hk2&Hk3). apply gives_ret. split; [done|]. rewrite bool_decide_eq_true Forall_lookup.
    split.
    - intros Hk i x Hx. destruct (p x) eqn:Hp; [done|]. exfalso. apply (Hk2 i); [|by exists x].
      apply lookup_lt_Some in Hx. lia.
    - intros Hall. destruct (decide (k < length xs)) as [Hlt|]; [|lia]. destruct (Hk3 Hlt) as (x&Hx&Hp).
      rewrite (Hall _ _ Hx) in Hp. done.
  Qed.
  Lemma any_of_gives fuel first xs (p : A → bool) m : holds m first xs → length xs < fuel →
    gives (a_any_of fuel first (first + length xs) p) m (λ b m',
      m' = m ∧ (b = true ↔ Exists (λ x, p x = true) xs)).
  Proof.
    intros H Hf. unfold a_any_of. apply gives_bind. eapply gives_conseq; [by apply find_if_gives|].
    intros r m' (->&k&->&Hk1&Hk2&Hk3). apply gives_ret. split; [done|]. rewrite negb_true_iff bool_decide_eq_false Exists_exists.
    split.
    - intros Hk. destruct Hk3 as (x&Hx&Hp); [lia|]. exists x. split; [by eapply elem_of_list_lookup_2|done].
    - intros (x&[i Hx]%elem_of_list_lookup&Hp) Hk. apply (Hk2 i); [|by exists x].
      apply lookup_lt_Some in Hx. lia.
  Qed.
  Lemma none_of_gives fuel first xs (p : A → bool) m : holds m first xs → length xs < fuel →
    gives (a_none_of fuel first (first + length xs) p) m (λ b m',
      m' = m ∧ (b = true ↔ Forall (λ x, p x = false) xs)).
  Proof.
    intros H Hf. unfold a_none_of. apply gives_bind. eapply gives_conseq; [by apply find_if_gives|].
    intros r m' (->&k&->&Hk1&Hk2&Hk3). apply gives_ret. split; [done|]. rewrite bool_decide_eq_true Forall_lookup.
    split.
    - intros Hk i x Hx. destruct (p x) eqn:Hp; [|done]. exfalso. apply (Hk2 i); [|by exists x].
      apply lookup_lt_Some in Hx. lia.
    - intros Hall. destruct (decide (k < length xs)) as [Hlt|]; [|lia]. destruct (Hk3 Hlt) as (x&Hx&Hp).
      rewrite (Hall _ _ Hx) in Hp. done.
  Qed.

  (** count *)
  Definition cnt (p : A → bool) xs : nat := length (filter (λ x, p x = true) xs).
  Lemma cnt_cons p x xs : cnt p (x :: xs) = (if p x then S (cnt p xs) else cnt p xs).
  Proof. unfold cnt. rewrite filter_cons. destruct (p x) eqn:E; case_decide; try done; congruence. Qed.
  Lemma count_if_aux fuel first xs (p : A → bool) m c : holds m first xs → length xs < fuel →
    (c + Z.of_nat (cnt p xs) ≤ imax)%Z →
    gives (loop fuel (λ '(first', c),
      if decide (first' = first + length xs) then ret (inr c) else
      let! x := ard first' in
      if p x then let! c := int_incr imax c in ret (inl (S first', c)) else ret (inl (S first', c))) (first, c)) m
      (λ r m', m' = m ∧ r = (c + Z.of_nat (cnt p xs))%Z).
  Proof.
    revert fuel first c. induction xs as [|x xs IH]; intros fuel first c H Hf Hc; (destruct fuel as [|fuel]; [simpl in *; lia|]); apply gives_unfold.
    - cbn [length]. dT. apply gives_ret. split; [done|]. unfold cnt. simpl. lia.
    - cbn [length] in *. apply holds_cons in H as [H0 H]. dF. apply gives_bind. apply (gives_ard _ _ x); [done|].
      rewrite cnt_cons in Hc |- *. replace (first + S (length xs)) with (S first + length xs) by lia. destruct (p x).
      + apply gives_bind. unfold int_incr. case_decide; [|lia]. apply gives_ret. apply gives_ret.
        eapply gives_conseq; [apply IH; [done|lia|lia]|]. intros r m' [-> ->]. split; [done|lia].
      + apply gives_ret. apply IH; [done|lia|lia].
  Qed.
  Lemma count_if_gives fuel first xs (p : A → bool) m : holds m first xs → length xs < fuel →
    (Z.of_nat (cnt p xs) ≤ imax)%Z →
    gives (a_count_if imax fuel first (first + length xs) p) m (λ r m', m' = m ∧ r = Z.of_nat (cnt p xs)).
  Proof. intros. by apply count_if_aux. Qed.
  Lemma count_aux fuel first xs r v m c : holds m first xs → refers m r v → length xs < fuel →
    (c + Z.of_nat (cnt (λ x, aeq x v) xs) ≤ imax)%Z →
    gives (loop fuel (λ '(first', c),
      if decide (first' = first + length xs) then ret (inr c) else
      let! x := ard first' in
      let! v := cget r in
      if aeq x v then let! c := int_incr imax c in ret (inl (S first', c)) else ret (inl (S first', c))) (first, c)) m
      (λ z m', m' = m ∧ z = (c + Z.of_nat (cnt (λ x, aeq x v) xs))%Z).
  Proof.
    intros H Hr. revert fuel first c H. induction xs as [|x xs IH]; intros fuel first c H Hf Hc; (destruct fuel as [|fuel]; [simpl in *; lia|]); apply gives_unfold.
    - cbn [length]. dT. apply gives_ret. split; [done|]. unfold cnt. simpl. lia.
    - cbn [length] in *. apply holds_cons in H as [H0 H]. dF. apply gives_bind. apply (gives_ard _ _ x); [done|].
      apply gives_bind. apply (gives_cget _ _ v); [done|].
      rewrite cnt_cons in Hc |- *. replace (first + S (length xs)) with (S first + length xs) by lia. destruct (aeq x v).
      + apply gives_bind. unfold int_incr. case_decide; [|lia]. apply gives_ret. apply gives_ret.
        eapply gives_conseq; [apply IH; [done|lia|lia]|]. intros z m' [-> ->]. split; [done|lia].
      + apply gives_ret. apply IH; [done|lia|lia].
  Qed.
  Lemma count_gives fuel first xs r v m : holds m first xs → refers m r v → length xs < fuel →
    (Z.of_nat (cnt (λ x, aeq x v) xs) ≤ imax)%Z →
    gives (a_count aeq imax fuel first (first + length xs) r) m (λ z m', m' = m ∧ z = Z.of_nat (cnt (λ x, aeq x v) xs)).
  Proof. intros. by apply (count_aux fuel first xs r v m 0%Z). Qed.
  (** more than INT_MAX matches: the counter overflows *)
  Lemma wrong_unfold {S X B} (body : X → M S (X + B)) fuel a s u :
    (∃ r s', body a s = Ok (r, s') ∧ match r with inl a' => goes_wrong (loop fuel body a') s' u | inr _ => False end) ∨ body a s = UB u →
    goes_wrong (loop (Datatypes.S fuel) body a) s u.
  Proof. unfold goes_wrong. cbn [loop]. unfold bind. intros [([a'|]&s'&->&H)| -> ]; [exact H|done|done]. Qed.
  Lemma count_if_wrong_aux fuel first xs (p : A → bool) m c : holds m first xs → length xs < fuel →
    (c ≤ imax)%Z → (imax < c + Z.of_nat (cnt p xs))%Z →
    goes_wrong (loop fuel (λ '(first', c),
      if decide (first' = first + length xs) then ret (inr c) else
      let! x := ard first' in
      if p x then let! c := int_incr imax c in ret (inl (S first', c)) else ret (inl (S first', c))) (first, c)) m IntOverflow.
  Proof.
    revert fuel first c. induction xs as [|x xs IH]; intros fuel first c H Hf Hc Hc2; [unfold cnt in Hc2; simpl in Hc2; lia|].
    destruct fuel as [|fuel]; [simpl in *; lia|]. cbn [length] in *. apply holds_cons in H as [H0 H]. apply wrong_unfold.
    dF. unfold bind, ard. rewrite H0. rewrite cnt_cons in Hc2.
    replace (first + S (length xs)) with (S first + length xs) by lia. destruct (p x).
    - unfold int_incr. destruct (decide (c < imax)%Z); [left|by right]. eexists _, _. split; [reflexivity|].
      cbn beta iota. apply IH; [done|lia..].
    - left. eexists _, _. split; [reflexivity|]. cbn beta iota. apply IH; [done|lia..].
  Qed.
  Lemma count_wrong_aux fuel first xs r v m c : holds m first xs → refers m r v → length xs < fuel →
    (c ≤ imax)%Z → (imax < c + Z.of_nat (cnt (λ x, aeq x v) xs))%Z →
    goes_wrong (loop fuel (λ '(first', c),
      if decide (first' = first + length xs) then ret (inr c) else
      let! x := ard first' in
      let! v := cget r in
      if aeq x v then let! c := int_incr imax c in ret (inl (S first', c)) else ret (inl (S first', c))) (first, c)) m IntOverflow.
  Proof.
    intros H Hr. revert fuel first c H. induction xs as [|x xs IH]; intros fuel first c H Hf Hc Hc2; [unfold cnt in Hc2; simpl in Hc2; lia|].
    destruct fuel as [|fuel]; [simpl in *; lia|]. cbn [length] in *. apply holds_cons in H as [H0 H]. apply wrong_unfold.
    assert (cget r m = Ok (v, m)) as Hg.
    { destruct r; simpl in *; [by subst|]. unfold ard. by rewrite Hr. }
    dF. unfold bind, ard. rewrite H0 Hg. rewrite cnt_cons in Hc2.
    replace (first + S (length xs)) with (S first + length xs) by lia. destruct (aeq x v).
    - unfold int_incr. destruct (decide (c < imax)%Z); [left|by right]. eexists _, _. split; [reflexivity|].
      cbn beta iota. apply IH; [done|lia..].
    - left. eexists _, _. split; [reflexivity|]. cbn beta iota. apply IH; [done|lia..].
  Qed.

  (** adjacent_find *)
  Lemma adjacent_find_gives fuel first xs (p : A → A → bool) m : holds m first xs → length xs < fuel →
    gives (a_adjacent_find_p p fuel first (first + length xs)) m (λ r m',
      m' = m ∧ ∃ k, r = first + k ∧ first_such (adjacent p xs) (length xs) k).
  Proof.
    intros H Hf. unfold a_adjacent_find_p. case_decide as Hd.
    - apply gives_ret. split; [done|]. exists (length xs). split; [done|]. split_and!; [done|intros; lia|lia].
    - apply (gives_loop (λ '(i, n) s, s = m ∧ n = S i ∧ first ≤ i < first + length xs ∧ ∀ j, j < i - first → ¬ adjacent p xs j)
             (λ '(i, _), first + length xs - i)); [split_and!; solve [done|lia|intros; lia]|lia|].
      intros [i n] s (->&->&Hi&Hn). case_decide as Hd2.
      + apply gives_ret. split; [done|]. exists (length xs). split; [done|]. split_and!; [done| |lia].
        intros j Hj. destruct (decide (j < i - first)) as [|]; [by apply Hn|].
        intros (x&y&_&Hy&_). apply lookup_lt_Some in Hy. lia.
      + destruct (holds_get m first xs i) as (x&Hx&Hm); [done|lia|].
        destruct (holds_get m first xs (S i)) as (y&Hy&Hm2); [done|lia|].
        apply gives_bind. apply (gives_ard _ _ x); [done|]. apply gives_bind. apply (gives_ard _ _ y); [done|].
        replace (S i - first) with (S (i - first)) in Hy by lia.
        destruct (p x y) eqn:Hp; apply gives_ret.
        * split; [done|]. exists (i - first). split; [lia|]. split_and!; [lia|done|]. intros _. by exists x, y.
        * split; [split_and!; [done|lia..|]|lia]. intros j Hj. destruct (decide (j = i - first)) as [->|].
          -- intros (x'&y'&Hx'&Hy'&Hpy). congruence.
          -- apply Hn. lia.
  Qed.

  (** search *)
  Lemma search_gives fuel first xs sub ys (p : A → A → bool) m : holds m first xs → holds m sub ys →
    length xs < fuel → length ys < fuel →
    gives (a_search_p p fuel first (first + length xs) sub (sub + length ys)) m (λ r m',
      m' = m ∧ ∃ k, r = first + k ∧ first_such (occurs p xs ys) (length xs) k).
  Proof.
    intros H Hs Hf1 Hf2. unfold a_search_p.
    apply (gives_loop (λ i s, s = m ∧ first ≤ i ≤ first + length xs ∧ ∀ j, j < i - first → ¬ occurs p xs ys j)
             (λ i, first + length xs - i)); [split_and!; solve [done|lia|intros; lia]|lia|].
    intros i s (->&Hi&Hn). apply gives_bind.
    eapply gives_conseq.
    { apply (gives_loop (λ '(i', s') st, st = m ∧ ∃ k, i' = i + k ∧ s' = sub + k ∧ k ≤ length ys ∧ i' ≤ first + length xs ∧
          ∀ j y, j < k → ys !! j = Some y → ∃ x, xs !! (i - first + j) = Some x ∧ p x y = true)
        (λ '(_, s'), sub + length ys - s')
        (λ r st, st = m ∧ match r with
           | Some r => (r = i ∧ occurs p xs ys (i - first)) ∨
                       (r = first + length xs ∧ 0 < length ys ∧ ∀ j, i - first ≤ j → ¬ occurs p xs ys j)
           | None => i < first + length xs ∧ ¬ occurs p xs ys (i - first)
           end)).
      - split; [done|]. exists 0. split_and!; solve [done|lia|intros; lia].
      - lia.
      - intros [i' s'] st (->&k&->&->&Hk&Hl&Hm). case_decide as Hd1.
        { apply gives_ret. split; [done|]. left. split; [done|]. intros j y Hj. apply Hm; [|done].
          apply lookup_lt_Some in Hj. lia. }
        case_decide as Hd2.
        { apply gives_ret. split; [done|]. right. split; [done|]. split; [lia|]. intros j Hj Ho.
          destruct (lookup_lt_is_Some_2 ys k) as [y Hy]; [lia|]. destruct (Ho _ _ Hy) as (x&Hx&_).
          apply lookup_lt_Some in Hx. lia. }
        destruct (lookup_lt_is_Some_2 ys k) as [y Hy]; [lia|].
        destruct (holds_get m first xs (i + k)) as (x&Hx&Hmx); [done|lia|].
        apply gives_bind. apply (gives_ard _ _ x); [done|]. apply gives_bind. apply (gives_ard _ _ y); [by apply Hs|].
        destruct (p x y) eqn:Hp; apply gives_ret.
        + split; [|lia]. split; [done|]. exists (S k). split_and!; try done; try lia.
          intros j y' Hj Hy'. destruct (decide (j = k)) as [->|]; [|apply Hm; [lia|done]].
          simplify_eq. exists x. split; [|done]. rewrite -Hx. f_equal. lia.
        + split; [done|]. split; [lia|]. intros Ho. destruct (Ho _ _ Hy) as (x'&Hx'&Hp').
          replace (i - first + k) with (i + k - first) in Hx' by lia. congruence. }
    intros [r|] st (->&Hr); apply gives_ret.
    - split; [done|]. destruct Hr as [[-> Ho]|(->&Hl&Ho)].
      + exists (i - first). split; [lia|]. split_and!; [lia|done|done].
      + exists (length xs). split; [done|]. split_and!; [done| |lia]. intros j Hj.
        destruct (decide (j < i - first)); [by apply Hn|apply Ho; lia].
    - destruct Hr as [Hlt Ho]. split; [split_and!; [done|lia..|]|lia]. intros j Hj.
      destruct (decide (j = i - first)) as [->|]; [done|]. apply Hn. lia.
  Qed.
End reading.
