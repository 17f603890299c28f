(** Algorithms with function objects that keep state or throw: the property lemmas, in the vocabulary
    of AlgSpec.v, AlgPredSpec.v and State.v only. *)
From Coq Require Import ssreflect.
From Verif Require Import AlgPredSpec AlgProofs AlgProofs2 AlgProofs3.
Local Open Scope general_if_scope.
(*@HEADER
From Verif Require Import AlgPredSpec AlgPredRuns.

Section algorithms.
  Context {A : Type} (moved : A → A) (imax : Z).
  Implicit Types (xs ys : list A) (m : amem A) (p : nat → A → option bool).
@*)
(*@FOOTER
End algorithms.
@*)

Section algorithms.
  Context {A : Type} (moved : A → A) (imax : Z).
  Implicit Types (xs ys : list A) (m : amem A) (p : nat → A → option bool).
  Ltac start fuel := destruct fuel as [|fuel]; [simpl in *; lia|]; apply gives_unfold.

  (*@ C97 find_if, whatever the function object answers and whether or not it throws: one call per
     element, in order, until the first one answered with true; nothing is written. *)
  Lemma find_if_asks fuel first xs p m : holds m first xs → length xs < fuel →
    gives (x_find_if fuel first (first + length xs) p) m (λ r m',
      m' = m ∧ r = match asking p 0 xs with Some k => Some (first + k) | None => None end).
  Proof.
    unfold x_find_if. generalize 0 as c. revert fuel first. induction xs as [|x xs IH]; intros fuel first c H Hf; start fuel.
    - cbn [length]. dT. apply gives_ret. split; [done|]. simpl. done.
    - cbn [length asking] in *. apply holds_cons in H as [H0 H]. dF. apply gives_bind. apply (gives_ard _ _ x); [done|].
      replace (first + S (length xs)) with (S first + length xs) by lia. destruct (p c x) as [[|]|].
      + apply gives_ret. split; [done|]. by rewrite Nat.add_0_r.
      + apply gives_ret. eapply gives_conseq; [apply IH; [done|lia]|]. intros r m' [-> ->]. split; [done|].
        destruct (asking p (S c) xs); [f_equal; lia|done].
      + by apply gives_ret.
  Qed.
  (*@ C97 find_if_not. *)
  Lemma find_if_not_asks fuel first xs p m : holds m first xs → length xs < fuel →
    gives (x_find_if_not fuel first (first + length xs) p) m (λ r m',
      m' = m ∧ r = match asking (opposite p) 0 xs with Some k => Some (first + k) | None => None end).
  Proof.
    intros H Hf. eapply gives_ext; [|apply (find_if_asks fuel first xs (opposite p) m H Hf)].
    apply loop_ext. intros [c i] s. case_decide; [done|]. unfold bind, opposite. destruct (ard i s) as [[x ?]| |]; [|done..].
    by destruct (p c x) as [[|]|].
  Qed.
  Lemma asking_le p c xs k : asking p c xs = Some k → k ≤ length xs.
  Proof.
    revert c k. induction xs as [|x xs IH]; intros c k; simpl; [intros [= <-]; lia|].
    destruct (p c x) as [[|]|]; [intros [= <-]; lia| |done]. destruct (asking p (S c) xs) eqn:E; [|done]. intros [= <-]. apply IH in E. lia.
  Qed.
  (*@ C97 all_of, any_of and none_of: the answer, and no call after the one that decides it. *)
  Lemma quantifiers_ask fuel first xs p m : holds m first xs → length xs < fuel →
    gives (x_all_of fuel first (first + length xs) p) m (λ r m',
      m' = m ∧ r = match asking (opposite p) 0 xs with Some k => Some (bool_decide (k = length xs)) | None => None end) ∧
    gives (x_any_of fuel first (first + length xs) p) m (λ r m',
      m' = m ∧ r = match asking p 0 xs with Some k => Some (bool_decide (k < length xs)) | None => None end) ∧
    gives (x_none_of fuel first (first + length xs) p) m (λ r m',
      m' = m ∧ r = match asking p 0 xs with Some k => Some (bool_decide (k = length xs)) | None => None end).
  Proof.
    intros H Hf. unfold x_all_of, x_any_of, x_none_of. split_and!; apply gives_bind.
    - eapply gives_conseq; [by apply find_if_not_asks|]. intros r m' [-> ->]. apply gives_ret. split; [done|].
      destruct (asking _ 0 xs); [|done]. f_equal. apply bool_decide_ext. lia.
    - eapply gives_conseq; [by apply find_if_asks|]. intros r m' [-> ->]. apply gives_ret. split; [done|].
      destruct (asking _ 0 xs) eqn:E; [|done]. apply asking_le in E. f_equal. apply bool_decide_ext. lia.
    - eapply gives_conseq; [by apply find_if_asks|]. intros r m' [-> ->]. apply gives_ret. split; [done|].
      destruct (asking _ 0 xs); [|done]. f_equal. apply bool_decide_ext. lia.
  Qed.
  (*@ C97 count_if calls the function object once for each element, in order, when the number of matches
     fits in an int. *)
  Lemma count_if_asks fuel first xs p m : holds m first xs → length xs < fuel →
    (Z.of_nat (length (chosen p 0 xs).2) ≤ imax)%Z →
    gives (x_count_if imax fuel first (first + length xs) p) m (λ r m',
      m' = m ∧ r = unless_thrown (chosen p 0 xs).1 (Z.of_nat (length (chosen p 0 xs).2))).
  Proof.
    intros H Hf Hz. unfold x_count_if.
    assert (∀ k z, (z + Z.of_nat (length (chosen p k xs).2) ≤ imax)%Z →
      gives (loop fuel (λ '(k, i, c),
        if decide (i = first + length xs) then ret (inr (Some c)) else
        let! x := ard i in
        match p k x with
        | None => ret (inr None)
        | Some b => if b : bool then let! c := int_incr imax c in ret (inl (S k, S i, c)) else ret (inl (S k, S i, c))
        end) (k, first, z)) m (λ r m', m' = m ∧ r = unless_thrown (chosen p k xs).1 (z + Z.of_nat (length (chosen p k xs).2))%Z)) as Hg; [|apply (Hg 0 0%Z); lia].
    clear Hz. revert fuel first H Hf. induction xs as [|x xs IH]; intros fuel first H Hf k z Hz; start fuel.
    - cbn [length]. dT. apply gives_ret. split; [done|]. simpl. by rewrite Z.add_0_r.
    - cbn [length chosen] in *. apply holds_cons in H as [H0 H]. dF. apply gives_bind. apply (gives_ard _ _ x); [done|].
      replace (first + S (length xs)) with (S first + length xs) by lia. destruct (p k x) as [[|]|].
      + cbn [fst snd length] in *. apply gives_bind. unfold int_incr. rewrite decide_True; [lia|]. apply gives_ret, gives_ret.
        eapply gives_conseq; [apply IH; [done|lia|lia]|]. intros r m' [-> ->]. split; [done|]. f_equal. lia.
      + apply gives_ret. apply IH; [done|lia|done].
      + by apply gives_ret.
  Qed.
  (*@ C97 copy_if writes the elements answered with true, up to an exception, and nothing else. The
     destination starts at or before the source, or after it. *)
  Lemma copy_if_asks p fuel first xs d m : holds m first xs → live m d (length (chosen p 0 xs).2) →
    d ≤ first ∨ first + length xs ≤ d → length xs < fuel →
    gives (x_copy_if p fuel first (first + length xs) d) m (λ r m',
      r = unless_thrown (chosen p 0 xs).1 (d + length (chosen p 0 xs).2) ∧ written m d (chosen p 0 xs).2 m').
  Proof.
    unfold x_copy_if. generalize 0 as c. revert fuel first d m. induction xs as [|x xs IH]; intros fuel first d m c H Hl Hd Hf; start fuel.
    - cbn [length]. dT. apply gives_ret. split; [simpl; f_equal; lia|apply written_nil].
    - cbn [length chosen] in *. apply holds_cons in H as [H0 H]. dF. apply gives_bind. apply (gives_ard _ _ x); [done|].
      replace (first + S (length xs)) with (S first + length xs) by lia. destruct (p c x) as [[|]|].
      + cbn [fst snd length] in *. apply live_S in Hl as [[z Hz] Hl].
        apply gives_bind. apply (gives_ard _ _ x); [done|]. apply gives_bind. apply (gives_awr _ _ z); [done|]. apply gives_ret.
        eapply gives_conseq; [apply IH; [apply holds_insert; [done|lia]|by apply live_insert|lia|lia]|].
        intros r m' [-> Hw]. split; [f_equal; lia|]. by eapply written_cons.
      + apply gives_ret. apply IH; [done|done|lia|lia].
      + apply gives_ret. split; [done|apply written_nil].
  Qed.
  (*@ C97 remove_copy_if writes the elements answered with false, up to an exception. *)
  Lemma remove_copy_if_asks p fuel first xs d m : holds m first xs → live m d (length (chosen (opposite p) 0 xs).2) →
    d ≤ first ∨ first + length xs ≤ d → length xs < fuel →
    gives (x_remove_copy_if p fuel first (first + length xs) d) m (λ r m',
      r = unless_thrown (chosen (opposite p) 0 xs).1 (d + length (chosen (opposite p) 0 xs).2) ∧
      written m d (chosen (opposite p) 0 xs).2 m').
  Proof.
    intros H Hl Hd Hf. eapply gives_ext; [|apply (copy_if_asks (opposite p) fuel first xs d m H Hl Hd Hf)].
    apply loop_ext. intros [[c i] j] s. case_decide; [done|]. unfold bind, opposite. destruct (ard i s) as [[x ?]| |]; [|done..].
    by destruct (p c x) as [[|]|].
  Qed.
  (*@ C97 replace_if replaces the elements answered with true, up to an exception; the new value may be
     an element of the range. *)
  Lemma replace_if_asks p fuel first xs (r : cref A) v m : holds m first xs → refers m r v → length xs < fuel →
    gives (x_replace_if p fuel first (first + length xs) r) m (λ q m',
      q = unless_thrown (replaced p v 0 xs).1 tt ∧ written m first (replaced p v 0 xs).2 m').
  Proof.
    unfold x_replace_if. generalize 0 as c. revert fuel first m. induction xs as [|x xs IH]; intros fuel first m c H Hr Hf; start fuel.
    - cbn [length]. dT. apply gives_ret. split; [done|apply written_nil].
    - cbn [length replaced] in *. pose proof H as Hall. apply holds_cons in H as [H0 H]. dF. apply gives_bind. apply (gives_ard _ _ x); [done|].
      replace (first + S (length xs)) with (S first + length xs) by lia. destruct (p c x) as [[|]|]; cbn [fst snd].
      + apply gives_bind. apply gives_bind. apply (gives_cget _ _ v); [done|]. apply (gives_awr _ _ x); [done|]. apply gives_ret.
        eapply gives_conseq; [apply IH; [apply holds_insert; [done|lia]|by apply refers_insert_same|lia]|].
        intros q m' [-> Hw]. split; [done|]. by eapply written_cons.
      + apply gives_bind. apply gives_ret, gives_ret. eapply gives_conseq; [apply IH; [done|done|lia]|].
        intros q m' [-> Hw]. split; [done|]. eapply written_cons; [done|]. by rewrite list_insert_id.
      + apply gives_ret. split; [done|]. split_and!; [done..|]. done.
  Qed.
  Lemma compact_asks p fuel w i ys last m c :
    holds m (S i) ys → w ≤ i → last = S i + length ys → live m w (last - w) → length ys < fuel →
    gives (loop fuel (λ '(c, first, i),
          let i := S i in
          if decide (i = last) then ret (inr (Some first)) else
          let! x := ard i in
          match p c x with
          | None => ret (inr None)
          | Some b =>
              if negb b then a_move moved first i ;! ret (inl (S c, S first, i))
              else ret (inl (S c, first, i))
          end) (c, w, i)) m
    (λ r m', r = unless_thrown (chosen (opposite p) c ys).1 (w + length (chosen (opposite p) c ys).2) ∧
      holds m' w (chosen (opposite p) c ys).2 ∧
      same_outside m w (last - w) m' ∧ live m' w (last - w)).
  Proof.
    intros H Hw -> Hl Hf. revert fuel w i m c H Hw Hl Hf.
    induction ys as [|y ys IH]; intros fuel w i m c H Hw Hl Hf; start fuel; cbn zeta.
    - cbn [length]. dT. apply gives_ret. split_and!; [simpl; f_equal; lia|by intros ??|by split|done].
    - cbn [length chosen] in *. apply holds_cons in H as [H0 H]. dF. apply gives_bind. apply (gives_ard _ _ y); [done|].
      replace (S i + S (length ys)) with (S (S i) + length ys) in * by lia.
      assert (opposite p c y = match p c y with Some b => Some (negb b) | None => None end) as -> by done.
      destruct (p c y) as [[|]|]; cbn [negb fst snd].
      + apply gives_ret. apply IH; [done|lia|done|lia].
      + destruct (Hl 0) as [z Hz]; [lia|]. rewrite Nat.add_0_r in Hz.
        apply gives_bind. unfold a_move. apply gives_bind. apply (gives_ard _ _ y); [done|]. apply gives_bind.
        apply (gives_awr _ _ y); [done|]. apply (gives_awr _ _ z); [rewrite list_lookup_insert_ne; [lia|done]|]. apply gives_ret.
        set (m1 := <[w:=Some y]> (<[S i:=Some (moved y)]> m)).
        assert (w < length m) by by eapply lookup_lt_Some.
        assert (S i < length m) by by eapply lookup_lt_Some.
        assert (same_outside m w (S (S i) + length ys - w) m1) as Hs1.
        { split; [by rewrite !insert_length|]. intros j Hj. unfold m1. rewrite !list_lookup_insert_ne; [lia..|done]. }
        eapply gives_conseq; [apply (IH fuel (S w) (S i) m1)|].
        * apply holds_insert; [apply holds_insert; [done|lia]|lia].
        * lia.
        * apply live_insert, live_insert. intros k Hk. destruct (Hl (S k)) as [z' Hz']; [lia|]. exists z'. by rewrite Nat.add_succ_r in Hz'.
        * lia.
        * intros r m' (->&G1&[G2 G2']&G3). cbn [length].
          assert (m' !! w = Some (Some y)) as Hwy.
          { rewrite G2'; [lia|]. unfold m1. apply list_lookup_insert. by rewrite insert_length. }
          split_and!; [f_equal; lia|by apply holds_cons| |].
          -- destruct Hs1 as [Hs1 Hs1']. split; [congruence|]. intros j Hj. rewrite G2'; [lia|]. apply Hs1'. lia.
          -- replace (S (S i) + length ys - w) with (S (S (S i) + length ys - S w)) by lia. apply live_S. split; [by exists y|done].
      + apply gives_ret. split_and!; [done|by intros ??|by split|done].
  Qed.
  (*@ C97 remove_if: find_if asks a copy of the function object up to the first element answered with
     true; if there is one, the function object itself, in its first state, is then asked about those
     behind it. The elements to keep, up to an exception, are moved to the front in their order; every
     cell of the range still holds an object and the others are not written. *)
  Lemma remove_if_asks p fuel first xs m : holds m first xs → length xs < fuel →
    gives (x_remove_if moved p fuel first (first + length xs)) m (λ r m',
      match asking p 0 xs with
      | None => r = None ∧ m' = m
      | Some k =>
          let q := chosen (opposite p) 0 (drop (S k) xs) in
          r = unless_thrown q.1 (first + (k + length q.2)) ∧ holds m' first (take k xs ++ q.2) ∧
          same_outside m (first + k) (length xs - k) m' ∧ live m' first (length xs)
      end).
  Proof.
    intros H Hf. unfold x_remove_if. apply gives_bind. eapply gives_conseq; [by apply find_if_asks|].
    intros r m' [-> ->]. destruct (asking p 0 xs) as [k|] eqn:E; [|by apply gives_ret].
    apply asking_le in E. cbn zeta. case_decide as Hd.
    - assert (k = length xs) as -> by lia. apply gives_ret. rewrite drop_ge; [lia|]. rewrite take_ge //. simpl. rewrite app_nil_r.
      split_and!; [f_equal; lia|done|by split|by apply holds_live].
    - eapply gives_conseq; [apply (compact_asks p fuel (first + k) (first + k) (drop (S k) xs))|].
      + replace (S (first + k)) with (first + S k) by lia. by apply holds_drop.
      + lia.
      + rewrite drop_length. lia.
      + intros j Hj. destruct (holds_live _ _ _ H (k + j)) as [y Hy]; [lia|]. exists y. rewrite -Hy. f_equal. lia.
      + rewrite drop_length. lia.
      + intros r m' (->&G1&[G2 G2']&G3).
        assert (holds m' first (take k xs)) as Ht.
        { intros j y [Hy Hj]%lookup_take_Some. rewrite G2'; [lia|]. by apply H. }
        replace (first + length xs - (first + k)) with (length xs - k) in * by lia.
        split_and!; [f_equal; lia| |by split|].
        * apply holds_app. split; [done|]. rewrite take_length. by replace (k `min` length xs) with k by lia.
        * intros j Hj. destruct (decide (j < k)) as [Hjk|].
          -- destruct (lookup_lt_is_Some_2 xs j Hj) as [y Hy]. exists y. apply Ht. by rewrite lookup_take.
          -- destruct (G3 (j - k)) as [y Hy]; [lia|]. exists y. rewrite -Hy. f_equal. lia.
  Qed.
  Lemma asking_chosen p q c c' xs : (∀ c x, p c x = q x) →
    match asking p c xs with
    | None => (chosen (opposite p) c xs).1 = false
    | Some k => chosen (opposite p) c xs =
        (let r := chosen (opposite p) c' (drop (S k) xs) in (r.1, take k xs ++ r.2))
    end.
  Proof.
    intros Hp. assert (∀ xs c c', chosen (opposite p) c xs = chosen (opposite p) c' xs) as Hc.
    { clear -Hp. induction xs as [|x xs IH]; intros c c'; [done|]. cbn [chosen].
      assert (∀ c, opposite p c x = match q x with Some b => Some (negb b) | None => None end) as Ho by (intros; unfold opposite; by rewrite Hp).
      rewrite !Ho.
      destruct (q x) as [[|]|]; cbn [negb]; [apply IH| |done]. by rewrite (IH (S c) (S c')). }
    revert c. induction xs as [|x xs IH]; intros c; [done|]. cbn [asking chosen].
    assert (opposite p c x = match p c x with Some b => Some (negb b) | None => None end) as -> by done.
    destruct (p c x) as [[|]|]; cbn [negb].
    - rewrite (Hc xs (S c) c'). cbn [drop take app]. rewrite drop_0. by destruct (chosen (opposite p) c' xs) as [??].
    - specialize (IH (S c)). destruct (asking p (S c) xs) as [k|]; [by rewrite IH|done].
    - done.
  Qed.
  (*@ C97 remove_if with a function object without state that may throw: without an exception exactly the
     elements answered with false are kept, in order; otherwise an exception leaves the call. *)
  Lemma remove_if_throws p (q : A → option bool) fuel first xs m : holds m first xs → length xs < fuel →
    (∀ c x, p c x = q x) →
    gives (x_remove_if moved p fuel first (first + length xs)) m (λ r m',
      r = unless_thrown (chosen (opposite p) 0 xs).1 (first + length (chosen (opposite p) 0 xs).2) ∧
      (r ≠ None → holds m' first (chosen (opposite p) 0 xs).2) ∧
      same_outside m first (length xs) m' ∧ live m' first (length xs)).
  Proof.
    intros H Hf Hp. eapply gives_conseq; [by apply remove_if_asks|]. intros r m'. pose proof (asking_chosen p q 0 0 xs Hp) as Ha.
    destruct (asking p 0 xs) as [k|] eqn:E.
    - apply asking_le in E. cbn zeta in *. rewrite Ha. cbn [fst snd]. rewrite app_length take_length_le; [lia|]. intros (->&G1&[G2 G3]&G4).
      split_and!; [done|done| |done]. split; [done|]. intros j Hj. apply G3. lia.
    - rewrite Ha. intros [-> ->]. split_and!; [done|done|by split|by apply holds_live].
  Qed.
  Lemma loop_plain {X Y B Z} fuel (R : X → Y → Prop) (g : B → Z) (b1 : X → M (amem A) (X + Z)) (b2 : Y → M (amem A) (Y + B)) :
    (∀ x y m, R x y → match b2 y m with
       | Ok (inl y', m') => ∃ x', b1 x m = Ok (inl x', m') ∧ R x' y'
       | Ok (inr z, m') => b1 x m = Ok (inr (g z), m')
       | UB u => b1 x m = UB u | NoFuel => b1 x m = NoFuel end) →
    ∀ x y m, R x y → loop fuel b1 x m = match loop fuel b2 y m with Ok (z, m') => Ok (g z, m') | UB u => UB u | NoFuel => NoFuel end.
  Proof.
    intros Hb. induction fuel as [|fuel IH]; intros x y m HR; [done|]. cbn [loop]. unfold bind. specialize (Hb x y m HR).
    destruct (b2 y m) as [[[y'|z] m']| |]; [|by rewrite Hb..]. destruct Hb as (x'&->&?). by apply IH.
  Qed.
  (*@ C97 With a plain function these are the algorithms of C49, C55 and C56. *)
  Lemma algorithms_plain (p : A → bool) fuel first last d (r : cref A) m :
    x_find_if fuel first last (λ _ x, Some (p x)) m = (let! i := a_find_if fuel first last p in ret (Some i)) m ∧
    x_copy_if (λ _ x, Some (p x)) fuel first last d m = (let! i := a_copy_if p fuel first last d in ret (Some i)) m ∧
    x_replace_if (λ _ x, Some (p x)) fuel first last r m = (a_replace_if p fuel first last r ;! ret (Some tt)) m ∧
    x_remove_if moved (λ _ x, Some (p x)) fuel first last m = (let! i := a_remove_if moved p fuel first last in ret (Some i)) m.
  Proof.
    assert (∀ {B Z} (g : B → Z) (c : M (amem A) B) m, (let! i := c in ret (g i)) m = match c m with Ok (z, m') => Ok (g z, m') | UB u => UB u | NoFuel => NoFuel end) as Hend.
    { intros B Z g c m'. unfold bind. by destruct (c m') as [[]| |]. }
    assert (∀ m, x_find_if fuel first last (λ _ x, Some (p x)) m = match a_find_if fuel first last p m with Ok (z, m') => Ok (Some z, m') | UB u => UB u | NoFuel => NoFuel end) as Hfind.
    { intros m'. unfold x_find_if, a_find_if. apply (loop_plain fuel (λ x y, x.2 = y)); [|done].
      intros [c i] y m1 Hy. simpl in Hy. subst y. case_decide; [done|]. unfold bind. destruct (ard i m1) as [[x m2]| |]; [|done..].
      destruct (p x); cbn; eauto. }
    split_and!.
    - by rewrite (Hend _ _ Some) Hfind.
    - rewrite (Hend _ _ Some). unfold x_copy_if, a_copy_if. apply (loop_plain fuel (λ x y, x.1.2 = y.1 ∧ x.2 = y.2)); [|done].
      intros [[c i] j] [i1 j1] m1 [Hi Hj]. simpl in Hi, Hj. subst i1 j1. case_decide; [done|]. unfold bind. destruct (ard i m1) as [[x m2]| |]; [|done..].
      destruct (p x); cbn; [|eauto]. destruct (ard i m2) as [[x2 m3]| |]; [|done..]. destruct (awr j x2 m3) as [[u m4]| |]; cbn; eauto.
    - rewrite (Hend _ _ (λ _, Some tt)). unfold x_replace_if, a_replace_if. apply (loop_plain fuel (λ x y, x.2 = y) (λ _, Some tt)); [|done].
      intros [c i] i1 m1 Hi. simpl in Hi. subst i1. case_decide; [done|]. unfold bind. destruct (ard i m1) as [[x m2]| |]; [|done..].
      destruct (p x); cbn; [|eauto]. destruct (cget r m2) as [[x2 m3]| |]; [|done..]. destruct (awr i x2 m3) as [[u m4]| |]; cbn; eauto.
    - rewrite (Hend _ _ Some). unfold x_remove_if, a_remove_if, bind at 1 4. rewrite Hfind.
      destruct (a_find_if fuel first last p m) as [[i m1]| |]; [|done..]. case_decide; [done|].
      apply (loop_plain fuel (λ x y, x.1.2 = y.1 ∧ x.2 = y.2)); [|done].
      intros [[c w] j] [w1 j1] m2 [Hi Hj]. simpl in Hi, Hj. subst w1 j1. cbn zeta. case_decide; [done|]. unfold bind.
      destruct (ard (S j) m2) as [[x m3]| |]; [|done..].
      destruct (p x); cbn; [eauto|]. destruct (a_move moved w (S j) m3) as [[u m4]| |]; cbn; eauto.
  Qed.
End algorithms.
