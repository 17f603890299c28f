(** Proofs about search_n, comparisons, binary searches and minima. *)
From Coq Require Import ssreflect.
From Verif Require Import AlgSpec AlgProofs.
Local Open Scope general_if_scope.

Section reading2.
  Context {A : Type}.
  Context (aeq alt : A → A → bool) (imax : Z).
  Implicit Types (m : amem A) (xs ys : list A).

  (** search_n: correct if the predicate agrees with == on the elements of the range *)
  Lemma search_n_gives fuel first xs count r v (pred : A → A → bool) m : holds m first xs → refers m r v →
    (∀ x, x ∈ xs → aeq x v = pred x v) → length xs < fuel →
    gives (a_search_n_p aeq pred fuel first (first + length xs) count r) m (λ i m',
      m' = m ∧ ∃ k, i = first + k ∧ first_such (run_of (λ x, pred x v) xs count) (length xs) k).
  Proof.
    intros H Hr Hag Hf. unfold a_search_n_p. case_decide as Hc.
    { apply gives_ret. split; [done|]. exists 0. split; [lia|]. split_and!; [lia|intros; lia|]. intros _ k Hk. lia. }
    apply (gives_loop (λ i s, s = m ∧ first ≤ i ≤ first + length xs ∧ ∀ j, j < i - first → ¬ run_of (λ x, pred x v) xs count j)
             (λ i, first + length xs - i)); [split_and!; solve [done|lia|intros; lia]|lia|].
    intros i s (->&Hi&Hn). case_decide as Hd.
    { apply gives_ret. split; [done|]. exists (length xs). split; [done|]. split_and!; [done| |lia].
      intros j Hj. apply Hn. lia. }
    destruct (holds_get m first xs i) as (x&Hx&Hm); [done|lia|].
    apply gives_bind. apply (gives_ard _ _ x); [done|]. apply gives_bind. apply (gives_cget _ _ v); [done|].
    rewrite Hag; [by eapply elem_of_list_lookup_2|]. destruct (pred x v) eqn:Hp.
    - apply gives_bind. eapply gives_conseq.
      { apply (gives_loop (λ '(f, c) st, st = m ∧ i ≤ f < first + length xs ∧ c = (Z.of_nat (S f - i))%Z ∧ (c ≤ count)%Z ∧
            ∀ j, i ≤ j ≤ f → at_sat (λ x, pred x v) xs (j - first))
          (λ '(f, _), first + length xs - f)
          (λ q st, st = m ∧ match q with
            | inr q => (q = i ∧ run_of (λ x, pred x v) xs count (i - first)) ∨
                       (q = first + length xs ∧ ∀ j, i - first ≤ j → ¬ run_of (λ x, pred x v) xs count j)
            | inl f => i ≤ f < first + length xs ∧ ∀ j, i - first ≤ j ≤ f - first → ¬ run_of (λ x, pred x v) xs count j
            end)).
        - split_and!; [done|lia..|]. intros j Hj. replace (j - first) with (i - first) by lia. by exists x.
        - lia.
        - intros [f c] st (->&Hf2&->&Hle&Hrun). case_decide as Hcc.
          { apply gives_ret. split; [done|]. left. split; [done|]. intros k Hk.
            replace (i - first + k) with (i + k - first) by lia. apply Hrun. lia. }
          case_decide as Hl.
          { apply gives_ret. split; [done|]. right. split; [done|]. intros j Hj Hjr.
            destruct (Hjr (S f - i)) as (y&Hy&_); [lia|]. apply lookup_lt_Some in Hy. lia. }
          destruct (holds_get m first xs (S f)) as (y&Hy&Hmy); [done|lia|].
          apply gives_bind. apply (gives_ard _ _ y); [done|]. apply gives_bind. apply (gives_cget _ _ v); [done|].
          destruct (pred y v) eqn:Hpy; apply gives_ret.
          + split; [|lia]. split_and!; [done|lia..|]. intros j Hj. destruct (decide (j = S f)) as [->|]; [by exists y|].
            apply Hrun. lia.
          + split; [done|]. split; [lia|]. intros j Hj Hjr.
            destruct (Hjr (S f - first - j)) as (z&Hz&Hpz); [lia|].
            replace (j + (S f - first - j)) with (S f - first) in Hz by lia. congruence. }
      intros [f|q] st (->&Hq); apply gives_ret.
      + destruct Hq as [Hq1 Hq2]. split; [|lia]. split_and!; [done|lia..|]. intros j Hj.
        destruct (decide (j < i - first)); [by apply Hn|]. apply Hq2. lia.
      + split; [done|]. destruct Hq as [[-> Hq]|[-> Hq]].
        * exists (i - first). split; [lia|]. split_and!; [lia|done|done].
        * exists (length xs). split; [done|]. split_and!; [done| |lia]. intros j Hj.
          destruct (decide (j < i - first)); [by apply Hn|]. apply Hq. lia.
    - apply gives_ret. split; [|lia]. split_and!; [done|lia..|]. intros j Hj.
      destruct (decide (j < i - first)); [by apply Hn|]. intros Hjr. destruct (Hjr 0) as (y&Hy&Hpy); [lia|].
      replace (j + 0) with (i - first) in Hy by lia. congruence.
  Qed.
  (** the predicate version does not use the predicate for the first element: when no element
      of the range is == to the value, it finds nothing *)
  Lemma search_n_p_none fuel first xs count r v (pred : A → A → bool) m : holds m first xs → refers m r v →
    (0 < count)%Z → (∀ x, x ∈ xs → aeq x v = false) → length xs < fuel →
    gives (a_search_n_p aeq pred fuel first (first + length xs) count r) m (λ i m', m' = m ∧ i = first + length xs).
  Proof.
    intros H Hr Hc Hno Hf. unfold a_search_n_p. case_decide; [lia|].
    apply (gives_loop (λ i s, s = m ∧ first ≤ i ≤ first + length xs) (λ i, first + length xs - i)); [split_and!; solve [done|lia]|lia|].
    intros i s (->&Hi). case_decide as Hd; [by apply gives_ret|].
    destruct (holds_get m first xs i) as (x&Hx&Hm); [done|lia|].
    apply gives_bind. apply (gives_ard _ _ x); [done|]. apply gives_bind. apply (gives_cget _ _ v); [done|].
    rewrite Hno; [by eapply elem_of_list_lookup_2|]. apply gives_ret. split; [|lia]. split; [done|lia].
  Qed.

  (** equal *)
  Lemma equal3_gives fuel f1 xs f2 ys (p : A → A → bool) m : holds m f1 xs → holds m f2 ys →
    length xs ≤ length ys → length xs < fuel →
    gives (a_equal3_p p fuel f1 (f1 + length xs) f2) m (λ b m',
      m' = m ∧ (b = true ↔ Forall2 (λ x y, p x y = true) xs (take (length xs) ys))).
  Proof.
    unfold a_equal3_p. revert fuel f1 f2 ys. induction xs as [|x xs IH]; intros fuel f1 f2 ys H1 H2 Hl Hf; (destruct fuel as [|fuel]; [simpl in *; lia|]); apply gives_unfold.
    - cbn [length]. dT. apply gives_ret. split; [done|]. split; [intros _; constructor|done].
    - destruct ys as [|y ys]; [simpl in *; lia|]. cbn [length] in *. apply holds_cons in H1 as [H1 H1'], H2 as [H2 H2']. dF.
      apply gives_bind. apply (gives_ard _ _ x); [done|]. apply gives_bind. apply (gives_ard _ _ y); [done|].
      cbn [take]. destruct (p x y) eqn:Hp; apply gives_ret.
      + replace (f1 + S (length xs)) with (S f1 + length xs) by lia. eapply gives_conseq; [apply IH; [done..|lia|lia]|].
        intros b m' [-> Hb]. split; [done|]. rewrite Hb. split; [by constructor|]. intros Hf2. by inversion Hf2.
      + split; [done|]. split; [done|]. intros Hf2. inversion Hf2. congruence.
  Qed.
  Lemma equal4_gives fuel f1 xs f2 ys (p : A → A → bool) m : holds m f1 xs → holds m f2 ys →
    length xs < fuel →
    gives (a_equal4_p p fuel f1 (f1 + length xs) f2 (f2 + length ys)) m (λ b m',
      m' = m ∧ (b = true ↔ Forall2 (λ x y, p x y = true) xs ys)).
  Proof.
    unfold a_equal4_p. revert fuel f1 f2 ys. induction xs as [|x xs IH]; intros fuel f1 f2 ys H1 H2 Hf; (destruct fuel as [|fuel]; [simpl in *; lia|]); apply gives_unfold.
    - destruct (decide _) as [Hd|]; [simpl in *; lia|]. apply gives_ret. split; [done|]. rewrite andb_true_iff !bool_decide_eq_true.
      cbn [length]. split; [intros [_ Hy]; destruct ys; [constructor|simpl in *; lia]|]. intros Hf2; inversion Hf2; simpl; lia.
    - destruct ys as [|y ys].
      + destruct (decide _) as [Hd|]; [simpl in *; lia|]. apply gives_ret. split; [done|]. rewrite andb_true_iff !bool_decide_eq_true.
        cbn [length]. split; [lia|]. intros Hf2; inversion Hf2.
      + cbn [length] in *. apply holds_cons in H1 as [H1 H1'], H2 as [H2 H2']. destruct (decide _) as [_|Hd]; [|lia].
        apply gives_bind. apply (gives_ard _ _ x); [done|]. apply gives_bind. apply (gives_ard _ _ y); [done|].
        destruct (p x y) eqn:Hp; apply gives_ret.
        * replace (f1 + S (length xs)) with (S f1 + length xs) by lia. replace (f2 + S (length ys)) with (S f2 + length ys) by lia.
          eapply gives_conseq; [apply IH; [done..|lia]|].
          intros b m' [-> Hb]. split; [done|]. rewrite Hb. split; [by constructor|]. intros Hf2. by inversion Hf2.
        * split; [done|]. split; [done|]. intros Hf2. inversion Hf2. congruence.
  Qed.
  (** mismatch *)
  Lemma first_such_S P Q n k : first_such P n k → ¬ Q 0 → (∀ j, Q (S j) ↔ P j) → first_such Q (S n) (S k).
  Proof.
    intros (Hk1&Hk2&Hk3) H0 HPQ. split_and!; [lia| |].
    - intros [|j] Hj; [done|]. rewrite HPQ. apply Hk2. lia.
    - intros. apply HPQ, Hk3. lia.
  Qed.
  Lemma mismatch3_gives fuel f1 xs f2 ys (p : A → A → bool) m : holds m f1 xs → holds m f2 ys →
    length xs ≤ length ys → length xs < fuel →
    gives (a_mismatch3_p p fuel f1 (f1 + length xs) f2) m (λ r m',
      m' = m ∧ ∃ k, r = (f1 + k, f2 + k) ∧ first_such (differs p xs ys) (length xs) k).
  Proof.
    unfold a_mismatch3_p. revert fuel f1 f2 ys. induction xs as [|x xs IH]; intros fuel f1 f2 ys H1 H2 Hl Hf; (destruct fuel as [|fuel]; [simpl in *; lia|]); apply gives_unfold.
    - cbn [length]. dT. apply gives_ret. split; [done|]. exists 0. rewrite !Nat.add_0_r. split; [done|]. split_and!; solve [lia|intros; lia].
    - destruct ys as [|y ys]; [simpl in *; lia|]. cbn [length] in *. apply holds_cons in H1 as [H1 H1'], H2 as [H2 H2']. dF.
      apply gives_bind. apply (gives_ard _ _ x); [done|]. apply gives_bind. apply (gives_ard _ _ y); [done|].
      destruct (p x y) eqn:Hp; apply gives_ret.
      + replace (f1 + S (length xs)) with (S f1 + length xs) by lia. eapply gives_conseq; [apply IH; [done..|lia|lia]|].
        intros b m' (->&k&->&Hk). split; [done|]. exists (S k). split; [f_equal; lia|]. eapply first_such_S; [exact Hk| |done].
        intros (x'&y'&?&?&?). simplify_eq/=. congruence.
      + split; [done|]. exists 0. rewrite !Nat.add_0_r. split; [done|]. split_and!; [lia|intros; lia|]. intros _. by exists x, y.
  Qed.
  Lemma mismatch4_gives fuel f1 xs f2 ys (p : A → A → bool) m : holds m f1 xs → holds m f2 ys →
    length xs < fuel →
    gives (a_mismatch4_p p fuel f1 (f1 + length xs) f2 (f2 + length ys)) m (λ r m',
      m' = m ∧ ∃ k, r = (f1 + k, f2 + k) ∧ first_such (differs p xs ys) (length xs `min` length ys) k).
  Proof.
    unfold a_mismatch4_p. revert fuel f1 f2 ys. induction xs as [|x xs IH]; intros fuel f1 f2 ys H1 H2 Hf; (destruct fuel as [|fuel]; [simpl in *; lia|]); apply gives_unfold.
    - cbn [length]. dT. apply gives_ret. split; [done|]. exists 0. rewrite !Nat.add_0_r. split; [done|]. split_and!; solve [simpl; lia|intros; simpl in *; lia].
    - destruct ys as [|y ys]; cbn [length] in *.
      + dF. dT. apply gives_ret. split; [done|]. exists 0. rewrite !Nat.add_0_r. split; [done|]. split_and!; solve [simpl; lia|intros; simpl in *; lia].
      + apply holds_cons in H1 as [H1 H1'], H2 as [H2 H2']. dF. dF.
        apply gives_bind. apply (gives_ard _ _ x); [done|]. apply gives_bind. apply (gives_ard _ _ y); [done|].
        destruct (p x y) eqn:Hp; apply gives_ret.
        * replace (f1 + S (length xs)) with (S f1 + length xs) by lia. replace (f2 + S (length ys)) with (S f2 + length ys) by lia.
          eapply gives_conseq; [apply IH; [done..|lia]|].
          intros b m' (->&k&->&Hk). split; [done|]. exists (S k). split; [f_equal; lia|]. eapply first_such_S; [exact Hk| |done].
          intros (x'&y'&?&?&?). simplify_eq/=. congruence.
        * split; [done|]. exists 0. rewrite !Nat.add_0_r. split; [done|]. split_and!; [lia|intros; lia|]. intros _. by exists x, y.
  Qed.

  (** binary searches: the loop on [count] elements from [first] *)
  Lemma bsearch_loop fuel first xs k (test : A → M (amem A) bool) (p : A → bool) m c :
    holds m first xs → (∀ x, test x m = Ok (p x, m)) → partition_at p xs k → c = Z.of_nat (length xs) →
    (if decide (xs = []) then 0 else S (Nat.log2 (length xs))) < fuel →
    gives (loop fuel (λ '(first, count),
      if decide (count > 0)%Z then
        let step := Z.quot count 2 in
        let it := (first + Z.to_nat step)%nat in
        let! x := ard it in
        let! b := test x in
        if b then ret (inl (S it, count - (step + 1))%Z) else ret (inl (first, step))
      else ret (inr first)) (first, c)) m (λ r m', m' = m ∧ r = first + k).
  Proof.
    intros H Ht. revert first xs k c H. induction fuel as [|fuel IH]; intros first xs k c H [Hk Hp] -> Hf; [lia|].
    apply gives_unfold. destruct (decide (Z.of_nat (length xs) > 0)%Z) as [Hd|Hd].
    - assert (xs ≠ []) as Hne by (intros ->; cbn [length] in Hd; lia). destruct (decide (xs = [])) as [?|_]; [done|].
      assert (Z.quot (Z.of_nat (length xs)) 2 = Z.of_nat (length xs / 2)) as Hq.
      { rewrite Z.quot_div_nonneg; [lia|lia|]. by rewrite Nat2Z.inj_div. }
      set (n := length xs) in *. set (h := n / 2) in *.
      assert (h < n) as Hh by (apply Nat.div_lt; lia).
      assert (n = 2 * h ∨ n = 2 * h + 1) as Hn2.
      { pose proof (Nat.div_mod n 2 ltac:(lia)). pose proof (Nat.mod_upper_bound n 2 ltac:(lia)). fold h in H0. lia. }
      cbn zeta. rewrite Hq Nat2Z.id.
      destruct (lookup_lt_is_Some_2 xs h Hh) as [x Hx]. apply gives_bind. apply (gives_ard _ _ x); [by apply H|].
      apply gives_bind. eapply gives_eq; [apply Ht|]. pose proof (Hp _ _ Hx) as Hpx. destruct (p x); apply gives_ret.
      + destruct Hpx as [Hpx _]. specialize (Hpx eq_refl).
        eapply gives_conseq; [apply (IH (S (first + h)) (drop (S h) xs) (k - S h) (Z.of_nat n - (Z.of_nat h + 1))%Z)|].
        * replace (S (first + h)) with (first + S h) by lia. by apply holds_drop.
        * split; [rewrite drop_length; fold n; lia|]. intros i y Hy. rewrite lookup_drop in Hy. rewrite (Hp _ _ Hy). lia.
        * rewrite drop_length. fold n. lia.
        * destruct (decide _) as [|Hne2]; [lia|]. rewrite drop_length. fold n. 
          assert (n - S h ≠ 0). { intros E. apply Hne2. apply nil_length_inv. rewrite drop_length. fold n. lia. }
          assert (1 < n) by lia.
          assert (Nat.log2 (n - S h) ≤ Nat.log2 h) by (apply Nat.log2_le_mono; lia).
          assert (S (Nat.log2 h) = Nat.log2 n).
          { destruct Hn2 as [E|E]; rewrite E; [rewrite Nat.log2_double; lia|rewrite Nat.log2_succ_double; lia]. }
          lia.
        * intros r m' [-> ->]. split; [done|lia].
      + assert (¬ h < k) as Hkh. { intros Hlt. apply Hpx in Hlt. done. }
        eapply gives_conseq; [apply (IH first (take h xs) k (Z.of_nat h))|].
        * by apply holds_take.
        * split; [rewrite take_length; fold n; lia|]. intros i y [Hy _]%lookup_take_Some. by apply Hp.
        * rewrite take_length. fold n. lia.
        * destruct (decide _) as [|Hne2]; [lia|]. rewrite take_length. fold n. replace (h `min` n) with h by lia.
          assert (h ≠ 0). { intros E. apply Hne2. rewrite E. done. }
          assert (S (Nat.log2 h) = Nat.log2 n).
          { destruct Hn2 as [E|E]; rewrite E; [rewrite Nat.log2_double; lia|rewrite Nat.log2_succ_double; lia]. }
          lia.
        * intros r m' [-> ->]. split; [done|lia].
    - apply gives_ret. split; [done|]. destruct xs; simpl in *; lia.
  Qed.

  Lemma to_int_small z : (0 ≤ z ≤ imax)%Z → to_int imax z = z.
  Proof. intros Hz. unfold to_int. rewrite Z.mod_small; lia. Qed.
  Lemma to_int_le z : (0 ≤ imax)%Z → (to_int imax z ≤ imax)%Z.
  Proof. intros Hz. unfold to_int. pose proof (Z.mod_pos_bound (z + (imax + 1)) (2 * (imax + 1)) ltac:(lia)). lia. Qed.
  Lemma refers_cget m r v : refers m r v → cget r m = Ok (v, m).
  Proof. destruct r; simpl; [by intros ->|]. intros Hr. unfold ard. by rewrite Hr. Qed.
  Lemma fuel_log xs fuel : 1 + Nat.log2 (length xs) < fuel → (if decide (xs = []) then 0 else S (Nat.log2 (length xs))) < fuel.
  Proof. case_decide; lia. Qed.

  Lemma lower_bound_any fuel first last xs comp r v k m : holds m first xs → refers m r v →
    partition_at (λ x, comp x v) xs k → to_int imax (Z.of_nat last - Z.of_nat first) = Z.of_nat (length xs) →
    1 + Nat.log2 (length xs) < fuel →
    gives (a_lower_bound_c imax comp fuel first last r) m (λ i m', m' = m ∧ i = first + k).
  Proof.
    intros H Hr Hp Hc Hf. unfold a_lower_bound_c. rewrite Hc.
    eapply gives_ext; [|apply (bsearch_loop fuel first xs k (λ x, let! v := cget r in ret (comp x v)) (λ x, comp x v) m (Z.of_nat (length xs)) H); [|done|done|by apply fuel_log]].
    - apply loop_ext. intros [f c] s. case_decide; [|done]. cbn zeta. unfold bind, ard, ret, cget.
      destruct (s !! (f + _)) as [[x|]|]; [|done..]. destruct r as [y|i]; [by destruct (comp x y)|]. unfold ard.
      destruct (s !! i) as [[y|]|]; [|done..]. by destruct (comp x y).
    - intros x. unfold bind. by rewrite (refers_cget _ _ _ Hr).
  Qed.
  Lemma upper_bound_any fuel first last xs comp r v k m : holds m first xs → refers m r v →
    partition_at (λ x, negb (comp v x)) xs k → to_int imax (Z.of_nat last - Z.of_nat first) = Z.of_nat (length xs) →
    1 + Nat.log2 (length xs) < fuel →
    gives (a_upper_bound_c imax comp fuel first last r) m (λ i m', m' = m ∧ i = first + k).
  Proof.
    intros H Hr Hp Hc Hf. unfold a_upper_bound_c. rewrite Hc.
    eapply gives_ext; [|apply (bsearch_loop fuel first xs k (λ x, let! v := cget r in ret (negb (comp v x))) (λ x, negb (comp v x)) m (Z.of_nat (length xs)) H); [|done|done|by apply fuel_log]].
    - apply loop_ext. intros [f c] s. case_decide; [|done]. cbn zeta. unfold bind, ard, ret, cget.
      destruct (s !! (f + _)) as [[x|]|]; [|done..]. destruct r as [y|i]; [by destruct (comp y x)|]. unfold ard.
      destruct (s !! i) as [[y|]|]; [|done..]. by destruct (comp y x).
    - intros x. unfold bind. by rewrite (refers_cget _ _ _ Hr).
  Qed.
  Lemma lower_bound_gives fuel first xs comp r v k m : holds m first xs → refers m r v →
    partition_at (λ x, comp x v) xs k → (Z.of_nat (length xs) ≤ imax)%Z → 1 + Nat.log2 (length xs) < fuel →
    gives (a_lower_bound_c imax comp fuel first (first + length xs) r) m (λ i m', m' = m ∧ i = first + k).
  Proof. intros. apply (lower_bound_any fuel first _ xs comp r v k); try done. rewrite to_int_small; lia. Qed.
  Lemma upper_bound_gives fuel first xs comp r v k m : holds m first xs → refers m r v →
    partition_at (λ x, negb (comp v x)) xs k → (Z.of_nat (length xs) ≤ imax)%Z → 1 + Nat.log2 (length xs) < fuel →
    gives (a_upper_bound_c imax comp fuel first (first + length xs) r) m (λ i m', m' = m ∧ i = first + k).
  Proof. intros. apply (upper_bound_any fuel first _ xs comp r v k); try done. rewrite to_int_small; lia. Qed.
  (** a range of more than INT_MAX elements, all less than the value *)
  Lemma lower_bound_long fuel first xs comp r v m : holds m first xs → refers m r v → (0 ≤ imax)%Z →
    (∀ x, x ∈ xs → comp x v = true) → (imax < Z.of_nat (length xs))%Z → 1 + Nat.log2 (length xs) < fuel →
    gives (a_lower_bound_c imax comp fuel first (first + length xs) r) m (λ i m', m' = m ∧ i ≠ first + length xs).
  Proof.
    intros H Hr Hi Hall Hl Hf.
    pose proof (to_int_le (Z.of_nat (first + length xs) - Z.of_nat first) Hi) as Hle.
    set (c := to_int imax (Z.of_nat (first + length xs) - Z.of_nat first)) in *.
    destruct (decide (c > 0)%Z) as [Hc|Hc].
    - eapply gives_conseq; [apply (lower_bound_any fuel first (first + length xs) (take (Z.to_nat c) xs) comp r v (Z.to_nat c))|].
      + by apply holds_take.
      + done.
      + split; [rewrite take_length; lia|]. intros i x [Hx Hlt]%lookup_take_Some.
        split; [done|]. intros _. apply Hall. by eapply elem_of_list_lookup_2.
      + fold c. rewrite take_length. lia.
      + rewrite take_length. pose proof (Nat.log2_le_mono (Z.to_nat c `min` length xs) (length xs) ltac:(lia)). lia.
      + intros i m' [-> ->]. split; [done|lia].
    - unfold a_lower_bound_c. fold c. destruct fuel as [|fuel]; [lia|]. apply gives_unfold.
      destruct (decide (c > 0)%Z); [lia|]. apply gives_ret. split; [done|]. lia.
  Qed.
  Lemma binary_search_gives fuel first xs comp r v k k2 m : holds m first xs → refers m r v →
    partition_at (λ x, comp x v) xs k → partition_at (λ x, negb (comp v x)) xs k2 →
    (Z.of_nat (length xs) ≤ imax)%Z → 1 + Nat.log2 (length xs) < fuel →
    gives (a_binary_search_c imax comp fuel first (first + length xs) r) m (λ b m', m' = m ∧
      (b = true ↔ ∃ x, x ∈ xs ∧ equivalent comp x v)).
  Proof.
    intros H Hr [Hk Hp] Hp2 Hl Hf. unfold a_binary_search_c. apply gives_bind.
    eapply gives_conseq; [by apply (lower_bound_gives fuel first xs comp r v k)|]. intros i m' [-> ->]. case_decide as Hd.
    - apply gives_ret. split; [done|]. split; [done|]. intros (x&[j Hx]%elem_of_list_lookup&Hx1&Hx2).
      assert (j < k) as Hj by (apply lookup_lt_Some in Hx; lia). apply (Hp _ _ Hx) in Hj. congruence.
    - destruct (lookup_lt_is_Some_2 xs k) as [x Hx]; [lia|].
      apply gives_bind. apply (gives_cget _ _ v); [done|]. apply gives_bind. apply (gives_ard _ _ x); [by apply H|].
      apply gives_ret. split; [done|].
      assert (comp x v = false) as Hxv. { destruct (comp x v) eqn:E; [|done]. apply (Hp _ _ Hx) in E. lia. }
      rewrite negb_true_iff. split.
      + intros E. exists x. split; [by eapply elem_of_list_lookup_2|done].
      + intros (y&[j Hy]%elem_of_list_lookup&Hy1&Hy2). destruct Hp2 as [_ Hp2].
        assert (¬ j < k) as Hjk. { intros Hj. apply (Hp _ _ Hy) in Hj. congruence. }
        pose proof (proj1 (Hp2 _ _ Hy) ltac:(by rewrite Hy2)) as Hj2.
        assert (k < k2) as Hk2 by lia. apply (Hp2 _ _ Hx) in Hk2. by apply negb_true_iff.
  Qed.
  Lemma equal_range_gives fuel first xs comp r v k k2 m : holds m first xs → refers m r v →
    partition_at (λ x, comp x v) xs k → partition_at (λ x, negb (comp v x)) xs k2 →
    (∀ x, x ∈ xs → comp x v = true → comp v x = false) →
    (Z.of_nat (length xs) ≤ imax)%Z → 1 + Nat.log2 (length xs) < fuel →
    gives (a_equal_range_c imax comp fuel first (first + length xs) r) m (λ p m', m' = m ∧ p = (first + k, first + k2)).
  Proof.
    intros H Hr Hpk [Hk2 Hp2] Has Hl Hf. unfold a_equal_range_c. apply gives_bind.
    eapply gives_conseq; [by apply (lower_bound_gives fuel first xs comp r v k)|]. intros i m' [-> ->]. destruct Hpk as [Hk Hp].
    assert (k ≤ k2) as Hkk.
    { destruct (decide (k ≤ k2)) as [|Hn]; [done|]. destruct (lookup_lt_is_Some_2 xs k2) as [x Hx]; [lia|].
      assert (k2 < k) as Hlt by lia. apply (Hp _ _ Hx) in Hlt. apply Has in Hlt; [|by eapply elem_of_list_lookup_2].
      assert (k2 < k2); [|lia]. apply (Hp2 _ _ Hx). by rewrite Hlt. }
    apply gives_bind. eapply gives_conseq; [apply (upper_bound_any fuel (first + k) (first + length xs) (drop k xs) comp r v (k2 - k))|].
    - by apply holds_drop.
    - done.
    - split; [rewrite drop_length; lia|]. intros i x Hx. rewrite lookup_drop in Hx. rewrite (Hp2 _ _ Hx). lia.
    - rewrite drop_length to_int_small; lia.
    - rewrite drop_length. pose proof (Nat.log2_le_mono (length xs - k) (length xs) ltac:(lia)). lia.
    - intros i m' [-> ->]. apply gives_ret. split; [done|]. f_equal. lia.
  Qed.

  (** a range in order is partitioned *)
  Lemma partition_exists (p : A → bool) xs :
    (∀ i j x y, i < j → xs !! i = Some x → xs !! j = Some y → p y = true → p x = true) → ∃ k, partition_at p xs k.
  Proof.
    induction xs as [|x xs IH]; intros H; [exists 0; split; [done|intros ?? Hx; done]|].
    destruct IH as (k&Hk&Hp). { intros i j a b Hij Ha Hb. apply (H (S i) (S j)); [lia|done..]. }
    destruct (p x) eqn:E.
    - exists (S k). split; [simpl; lia|]. intros [|i] y Hy; simplify_eq/=; [split; [lia|done]|]. rewrite (Hp _ _ Hy). lia.
    - exists 0. split; [lia|]. intros i y Hy. split; [|lia]. intros Hpy. destruct i as [|i]; simplify_eq/=; [congruence|].
      rewrite (H 0 (S i) x y) in E; [lia|done..].
  Qed.
  Lemma wo_trans_l (lt : A → A → bool) x y z : weak_order lt → lt x y = true → lt z y = false → lt x z = true.
  Proof.
    intros [Hi Ht Hc] H1 H2. destruct (lt x z) eqn:H3; [done|]. destruct (lt y z) eqn:H4.
    - rewrite (Ht x y z H1 H4) in H3. done.
    - destruct (lt z x) eqn:H5; [by rewrite (Ht z x y H5 H1) in H2|].
      destruct (Hc x z y) as [E _]; [done..|]. congruence.
  Qed.
  Lemma wo_trans_r (lt : A → A → bool) x y z : weak_order lt → lt x y = true → lt x z = false → lt z y = true.
  Proof.
    intros [Hi Ht Hc] H1 H2. destruct (lt z y) eqn:H3; [done|]. destruct (lt y z) eqn:H4.
    - rewrite (Ht x y z H1 H4) in H2. done.
    - destruct (lt z x) eqn:H5; [by rewrite (Ht z x y H5 H1) in H3|].
      destruct (Hc x z y) as [E _]; [done..|]. congruence.
  Qed.
  Lemma wo_ntrans (lt : A → A → bool) x y z : weak_order lt → lt y x = false → lt z y = false → lt z x = false.
  Proof.
    intros HW H1 H2. destruct (lt z x) eqn:H3; [|done].
    rewrite (wo_trans_r lt z x y HW H3 H2) in H1. done.
  Qed.
  Lemma in_order_partition (lt : A → A → bool) xs v : weak_order lt → in_order lt xs →
    (∃ k, partition_at (λ x, lt x v) xs k) ∧ (∃ k, partition_at (λ x, negb (lt v x)) xs k).
  Proof.
    intros HW Ho. split; apply partition_exists; intros i j x y Hij Hx Hy; specialize (Ho i j x y Hij Hx Hy).
    - intros Hyv. destruct (lt x v) eqn:E; [done|]. 
      rewrite (wo_trans_l lt y v x HW Hyv E) in Ho. done.
    - rewrite !negb_true_iff. intros Hvy. destruct (lt v x) eqn:E; [|done].
      rewrite (wo_trans_r lt v x y HW E Hvy) in Ho. done.
  Qed.

  (** is_sorted_until *)
  Lemma in_order_snoc (lt : A → A → bool) xs x : weak_order lt →
    in_order lt (xs ++ [x]) ↔ in_order lt xs ∧ (∀ y, last xs = Some y → lt x y = false).
  Proof.
    intros HW. split.
    - intros Ho. split.
      + intros i j a b Hij Ha Hb. apply (Ho i j); [done|by apply lookup_app_l_Some..].
      + intros y Hy. rewrite last_lookup in Hy. apply (Ho (pred (length xs)) (length xs) y x).
        * apply lookup_lt_Some in Hy. lia.
        * by apply lookup_app_l_Some.
        * by rewrite lookup_app_r // Nat.sub_diag.
    - intros [Ho Hl] i j a b Hij Ha Hb.
      apply lookup_app_Some in Hb as [Hb|[Hjl Hb]].
      + apply (Ho i j); [done| |done]. apply lookup_app_Some in Ha as [Ha|[? _]]; [done|]. apply lookup_lt_Some in Hb. lia.
      + apply list_lookup_singleton_Some in Hb as [En ->]. rewrite lookup_app_l in Ha; [lia|].
        destruct (last xs) as [y|] eqn:El; [|apply last_None in El; subst; done].
        specialize (Hl y eq_refl). rewrite last_lookup in El.
        destruct (decide (i = pred (length xs))) as [->|]; [by simplify_eq|].
        apply (wo_ntrans lt a y b HW); [|done]. apply (Ho i (pred (length xs))); [|done..]. apply lookup_lt_Some in Ha. lia.
  Qed.
  Lemma is_sorted_until_gives fuel first xs m : weak_order alt → holds m first xs → length xs < fuel →
    gives (a_is_sorted_until alt fuel first (first + length xs)) m (λ r m', m' = m ∧ ∃ k, r = first + k ∧ k ≤ length xs ∧
      in_order alt (take k xs) ∧ (k < length xs → ¬ in_order alt (take (S k) xs))).
  Proof.
    intros HW H Hf. unfold a_is_sorted_until. case_decide as Hd.
    { apply gives_ret. split; [done|]. exists (length xs). split_and!; [done|done| |lia].
      destruct xs; [|simpl in *; lia]. intros i j a b _ Ha. done. }
    apply (gives_loop (λ '(f, n) s, s = m ∧ n = f ∧ first ≤ f < first + length xs ∧ in_order alt (take (S f - first) xs))
             (λ '(f, _), first + length xs - f)).
    - split_and!; [done|done|lia|lia|]. replace (S first - first) with 1 by lia. destruct xs as [|x xs]; [simpl in *; lia|].
      simpl. rewrite take_0. intros [|i] [|j] a b ? ? ?; simplify_eq/=; lia.
    - lia.
    - intros [f n] s (->&->&Hi&Ho). cbn zeta.
      destruct (holds_get m first xs f) as (x&Hx&Hmx); [done|lia|].
      assert (last (take (S f - first) xs) = Some x) as Hlast.
      { rewrite last_lookup take_length. rewrite lookup_take; [lia|]. rewrite -Hx. f_equal. lia. }
      case_decide as Hl.
      { apply gives_ret. split; [done|]. exists (length xs). split_and!; [done|done| |lia].
        by replace (S f - first) with (length xs) in Ho by lia. }
      destruct (holds_get m first xs (S f)) as (y&Hy&Hmy); [done|lia|].
      apply gives_bind. apply (gives_ard _ _ y); [done|]. apply gives_bind. apply (gives_ard _ _ x); [done|].
      assert (in_order alt (take (S (S f - first)) xs) ↔ alt y x = false) as Hio.
      { rewrite (take_S_r _ _ y); [done|]. rewrite (in_order_snoc _ _ _ HW). split.
        - intros [_ Hn]. by apply Hn.
        - intros E. split; [done|]. intros z Hz. congruence. }
      destruct (alt y x) eqn:E; apply gives_ret.
      + split; [done|]. exists (S f - first). split_and!; [lia|lia|done|]. intros _ Hio2. apply Hio in Hio2. done.
      + split; [|lia]. split_and!; [done|done|lia|lia|]. replace (S (S f) - first) with (S (S f - first)) by lia. by apply Hio.
  Qed.
  Lemma is_sorted_gives fuel first xs m : weak_order alt → holds m first xs → length xs < fuel →
    gives (a_is_sorted alt fuel first (first + length xs)) m (λ b m', m' = m ∧ (b = true ↔ in_order alt xs)).
  Proof.
    intros HW H Hf. unfold a_is_sorted. apply gives_bind. eapply gives_conseq; [by apply is_sorted_until_gives|].
    intros r m' (->&k&->&Hk&Ho&Hn). apply gives_ret. split; [done|]. rewrite bool_decide_eq_true. split.
    - intros E. replace k with (length xs) in Ho by lia. by rewrite firstn_all in Ho.
    - intros Hio. destruct (decide (k < length xs)) as [Hlt|]; [|lia]. destruct (Hn Hlt).
      intros i j a b Hij [Ha _]%lookup_take_Some [Hb _]%lookup_take_Some. by apply (Hio i j).
  Qed.

  (** min_element and max_element *)
  Lemma min_element_gives fuel first xs m : weak_order alt → holds m first xs → length xs < fuel →
    gives (a_min_element alt fuel first (first + length xs)) m (λ r m', m' = m ∧ ∃ k, r = first + k ∧
      match xs !! k with
      | None => xs = [] ∧ k = 0
      | Some x => ∀ j y, xs !! j = Some y → alt y x = false ∧ (j < k → alt x y = true)
      end).
  Proof.
    intros HW H Hf. unfold a_min_element. case_decide as Hd.
    { apply gives_ret. split; [done|]. exists 0. destruct xs; [|simpl in *; lia]. split; [simpl; lia|done]. }
    apply (gives_loop (λ '(f, s) st, st = m ∧ first ≤ s < f ∧ f ≤ first + length xs ∧ ∃ x, xs !! (s - first) = Some x ∧
        ∀ j y, j < f - first → xs !! j = Some y → alt y x = false ∧ (j < s - first → alt x y = true))
             (λ '(f, _), first + length xs - f)).
    - split_and!; [done|lia..|]. destruct xs as [|x xs]; [simpl in *; lia|]. rewrite Nat.sub_diag. exists x. split; [done|].
      intros [|j] y Hj Hy; simplify_eq/=; [|lia]. split; [apply HW|lia].
    - lia.
    - intros [f s] st (->&Hs&Hf2&x&Hx&Hmin). case_decide as Hl.
      { apply gives_ret. split; [done|]. exists (s - first). split; [lia|]. rewrite Hx. intros j y Hy. apply Hmin; [|done].
        apply lookup_lt_Some in Hy. lia. }
      destruct (holds_get m first xs f) as (y&Hy&Hmy); [done|lia|].
      destruct (holds_get m first xs s) as (x'&Hx'&Hmx); [done|lia|]. assert (x' = x) as -> by congruence.
      apply gives_bind. apply (gives_ard _ _ y); [done|]. apply gives_bind. apply (gives_ard _ _ x); [done|]. apply gives_ret.
      split; [|lia]. destruct (alt y x) eqn:E.
      + split_and!; [done|lia..|]. exists y. split; [done|]. intros j z Hj Hz. destruct (decide (j = f - first)) as [->|].
        * simplify_eq. split; [apply HW|lia].
        * destruct (Hmin j z ltac:(lia) Hz) as [Hz1 Hz2]. assert (alt y z = true) as Hyz by (by apply (wo_trans_l alt y x z HW)).
          split; [|done]. destruct (alt z y) eqn:E2; [|done]. rewrite (wo_trans alt HW _ _ _ E2 E) in Hz1. done.
      + split_and!; [done|lia..|]. exists x. split; [done|]. intros j z Hj Hz. destruct (decide (j = f - first)) as [->|].
        * simplify_eq. split; [done|lia].
        * apply Hmin; [lia|done].
  Qed.
  Lemma max_element_gives fuel first xs m : weak_order alt → holds m first xs → length xs < fuel →
    gives (a_max_element alt fuel first (first + length xs)) m (λ r m', m' = m ∧ ∃ k, r = first + k ∧
      match xs !! k with
      | None => xs = [] ∧ k = 0
      | Some x => ∀ j y, xs !! j = Some y → alt x y = false ∧ (j < k → alt y x = true)
      end).
  Proof.
    intros HW H Hf. unfold a_max_element. case_decide as Hd.
    { apply gives_ret. split; [done|]. exists 0. destruct xs; [|simpl in *; lia]. split; [simpl; lia|done]. }
    apply (gives_loop (λ '(f, s) st, st = m ∧ first ≤ s < f ∧ f ≤ first + length xs ∧ ∃ x, xs !! (s - first) = Some x ∧
        ∀ j y, j < f - first → xs !! j = Some y → alt x y = false ∧ (j < s - first → alt y x = true))
             (λ '(f, _), first + length xs - f)).
    - split_and!; [done|lia..|]. destruct xs as [|x xs]; [simpl in *; lia|]. rewrite Nat.sub_diag. exists x. split; [done|].
      intros [|j] y Hj Hy; simplify_eq/=; [|lia]. split; [apply HW|lia].
    - lia.
    - intros [f s] st (->&Hs&Hf2&x&Hx&Hmin). case_decide as Hl.
      { apply gives_ret. split; [done|]. exists (s - first). split; [lia|]. rewrite Hx. intros j y Hy. apply Hmin; [|done].
        apply lookup_lt_Some in Hy. lia. }
      destruct (holds_get m first xs f) as (y&Hy&Hmy); [done|lia|].
      destruct (holds_get m first xs s) as (x'&Hx'&Hmx); [done|lia|]. assert (x' = x) as -> by congruence.
      apply gives_bind. apply (gives_ard _ _ x); [done|]. apply gives_bind. apply (gives_ard _ _ y); [done|]. apply gives_ret.
      split; [|lia]. destruct (alt x y) eqn:E.
      + split_and!; [done|lia..|]. exists y. split; [done|]. intros j z Hj Hz. destruct (decide (j = f - first)) as [->|].
        * simplify_eq. split; [apply HW|lia].
        * destruct (Hmin j z ltac:(lia) Hz) as [Hz1 Hz2]. assert (alt z y = true) as Hyz by (by apply (wo_trans_r alt x y z HW)).
          split; [|done]. destruct (alt y z) eqn:E2; [|done]. rewrite (wo_trans alt HW _ _ _ E E2) in Hz1. done.
      + split_and!; [done|lia..|]. exists x. split; [done|]. intros j z Hj Hz. destruct (decide (j = f - first)) as [->|].
        * simplify_eq. split; [done|lia].
        * apply Hmin; [lia|done].
  Qed.
End reading2.
