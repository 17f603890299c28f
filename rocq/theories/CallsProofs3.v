(** Proofs about the calls of search, search_n and the minimum/maximum algorithms, and the relation to AlgModel.v. *)
From Coq Require Import ssreflect.
From Verif Require Import CallsSpec AlgProofs AlgProofs2 AlgProofs3 CallsProofs.
Local Open Scope general_if_scope.

Section searching.
  Context {A : Type}.
  Implicit Types (m : amem A) (xs ys : list A) (h cs : list (A * A)) (p q : list (A * A) → A * A → bool).

  Lemma c_search_inner p fuel i xs j ys first last m h : holds m i xs → holds m j ys → last = i + length xs → length xs < fuel →
    gives (loop fuel (λ '(i, s),
        if decide (s = j + length ys) then ret (inr (Some first)) else
        if decide (i = last) then ret (inr (Some last)) else
        let! x := qui (ard i) in
        let! y := qui (ard s) in
        let! b := call p (x, y) in
        if negb b then ret (inr None) else ret (inl (S i, S s))) (i, j)) (m, h) (λ r s, ∃ cs, s = (m, h ++ cs) ∧ 
          (r = None → xs ≠ []) ∧ (∀ k, r = Some k → k = first ∨ k = last) ∧
          length cs ≤ length ys ∧ (xs = [] → cs = []) ∧ ∀ x y, (x, y) ∈ cs → x ∈ xs ∧ y ∈ ys).
  Proof.
    revert fuel i j ys h. induction xs as [|x xs IH]; intros fuel i j ys h H1 H2 -> Hf; start fuel.
    - cbn [length]. case_decide; [|rewrite decide_True; [lia|]].
      + apply gives_ret. exists []. rewrite app_nil_r. split_and!; [done|done|intros k E; left; congruence|cbn; lia|done|]. by intros ?? ?%elem_of_nil.
      + apply gives_ret. exists []. rewrite app_nil_r. split_and!; [done|done|intros k E; right; congruence|cbn; lia|done|]. by intros ?? ?%elem_of_nil.
    - cbn [length] in *. destruct ys as [|y ys]; cbn [length].
      + dT. apply gives_ret. exists []. rewrite app_nil_r. split_and!; [done|done|intros k E; left; congruence|done|done|]. by intros ?? ?%elem_of_nil.
      + dF. dF. apply holds_cons in H1 as [H1 H1'], H2 as [H2 H2']. qrd x. qrd y. qcall. destruct (p h (x, y)); apply gives_ret.
        * replace (j + S (length ys)) with (S j + length ys) by lia.
          eapply gives_conseq; [apply (IH fuel (S i) (S j) ys); [done|done|lia|lia]|].
          intros r s (cs&->&Hn&Hs&Hl&He&Hin). exists ((x, y) :: cs). split_and!.
          -- by rewrite snoc_app.
          -- done.
          -- done.
          -- cbn [length]. lia.
          -- done.
          -- intros x' y' [E|Hc]%elem_of_cons; [simplify_eq; split; left|]. apply Hin in Hc as [??]. split; by right.
        * exists [(x, y)]. split_and!; [done|done|done|cbn [length]; lia|done|].
          intros x' y' E%elem_of_list_singleton. simplify_eq. split; left.
  Qed.
  Lemma c_search_gives p fuel first xs sub ys m h : holds m first xs → holds m sub ys → length xs < fuel →
    gives (c_search p fuel first (first + length xs) sub (sub + length ys)) (m, h) (λ r s,
      first ≤ r ≤ first + length xs ∧ ∃ cs, s = (m, h ++ cs) ∧ length cs ≤ length xs * length ys ∧
        ∀ x y, (x, y) ∈ cs → x ∈ xs ∧ y ∈ ys).
  Proof.
    intros H1 H2 Hf. unfold c_search.
    assert (∀ fuel' i ts h, holds m i ts → i + length ts = first + length xs → length ts < fuel' → length ts < fuel → (∀ x, x ∈ ts → x ∈ xs) →
      gives (loop fuel' (λ first0,
        let! r := loop fuel (λ '(i, s),
          if decide (s = sub + length ys) then ret (inr (Some first0)) else
          if decide (i = first + length xs) then ret (inr (Some (first + length xs))) else
          let! x := qui (ard i) in
          let! y := qui (ard s) in
          let! b := call p (x, y) in
          if negb b then ret (inr None) else ret (inl (S i, S s))) (first0, sub) in
        match r with Some r => ret (inr r) | None => ret (inl (S first0)) end) i) (m, h) (λ r s,
        i ≤ r ≤ first + length xs ∧ ∃ cs, s = (m, h ++ cs) ∧ length cs ≤ length ts * length ys ∧
          ∀ x y, (x, y) ∈ cs → x ∈ xs ∧ y ∈ ys)) as Hloop; [|by apply Hloop].
    induction fuel' as [|fuel' IH]; intros i ts h' Ht Hlen Hf1 Hf2 Hsub; [lia|]. apply gives_unfold, gives_bind.
    eapply gives_conseq; [apply (c_search_inner p fuel i ts sub ys i (first + length xs)); [done|done|lia|lia]|].
    intros r s (cs&->&Hn&Hs&Hl&He&Hin). destruct r as [r|]; apply gives_ret.
    - split; [destruct (Hs r eq_refl); lia|]. exists cs. split_and!; [done| |].
      + destruct ts; [rewrite He //; cbn; lia|]. cbn [length]. nia.
      + intros x y Hc. apply Hin in Hc as [??]. split; [by apply Hsub|done].
    - destruct ts as [|t ts]; [by destruct Hn|]. apply holds_cons in Ht as [_ Ht]. cbn [length] in *.
      eapply gives_conseq; [apply (IH (S i) ts); [done|lia|lia|lia|]|].
      { intros x Hx. apply Hsub. by right. }
      intros r s (Hr&cs2&->&Hl2&Hin2). split; [lia|]. exists (cs ++ cs2). rewrite app_assoc app_length. split_and!; [done|nia|].
      intros x y [Hc|Hc]%elem_of_app; [|by apply Hin2]. apply Hin in Hc as [??]. split; [by apply Hsub|done].
  Qed.

  Lemma c_search_n_gives q p fuel first xs count rv v m h : holds m first xs → refers m rv v → length xs < fuel →
    gives (c_search_n_p q p fuel first (first + length xs) count rv) (m, h) (λ r s,
      first ≤ r ≤ first + length xs ∧ ∃ k, k ≤ length xs ∧ s = (m, h ++ take k (against v xs))).
  Proof.
    intros H Hr Hf. unfold c_search_n_p. case_decide as Hc.
    { apply gives_ret. split; [lia|]. exists 0. rewrite take_0 app_nil_r. split; [lia|done]. }
    assert (∀ i x h0, first ≤ i → xs !! (i - first) = Some x → h0 = h ++ take (i - first) (against v xs) →
      h0 ++ [(x, v)] = h ++ take (S i - first) (against v xs)) as Hsnoc.
    { intros i x h0 Hi Hx ->. replace (S i - first) with (S (i - first)) by lia. rewrite -app_assoc. f_equal.
      symmetry. apply take_S_r. unfold against. by rewrite list_lookup_fmap Hx. }
    apply (gives_loop (λ i s, first ≤ i ≤ first + length xs ∧ s = (m, h ++ take (i - first) (against v xs))) (λ i, first + length xs - i)).
    { rewrite Nat.sub_diag take_0 app_nil_r. split; [lia|done]. }
    { lia. }
    intros i s [Hi ->]. case_decide as Hd.
    { apply gives_ret. split; [lia|]. exists (i - first). split; [lia|done]. }
    destruct (holds_get m first xs i) as (x&Hx&Hm); [done|lia|]. qrd x. qget v. qcall.
    rewrite (Hsnoc i x _ ltac:(lia) Hx eq_refl). destruct (q _ _).
    2: { apply gives_ret. split; [|lia]. split; [lia|done]. }
    apply gives_bind. eapply (gives_conseq _ _ (λ r s, match r with
      | inr r => first ≤ r ≤ first + length xs ∧ ∃ k, k ≤ length xs ∧ s = (m, h ++ take k (against v xs))
      | inl j => i ≤ j < first + length xs ∧ s = (m, h ++ take (S j - first) (against v xs)) end)).
    - apply (gives_loop (λ '(j, c) s, i ≤ j < first + length xs ∧ s = (m, h ++ take (S j - first) (against v xs))) (λ '(j, c), first + length xs - j)).
      + split; [lia|done].
      + lia.
      + intros [j c] s [Hj ->]. case_decide as Hcc.
        { apply gives_ret. split; [lia|]. exists (S j - first). split; [lia|done]. }
        case_decide as Hjl.
        { apply gives_ret. split; [lia|]. exists (S j - first). split; [lia|done]. }
        destruct (holds_get m first xs (S j)) as (y&Hy&Hmy); [done|lia|]. qrd y. qget v. qcall.
        rewrite (Hsnoc (S j) y _ ltac:(lia) Hy eq_refl). destruct (p _ _); apply gives_ret.
        * split; [|lia]. split; [lia|done].
        * split; [lia|done].
    - intros [j|r] s Hq; apply gives_ret.
      + destruct Hq as [Hj ->]. split; [|lia]. split; [lia|done].
      + done.
  Qed.
End searching.

Section minmax.
  Context {A : Type}.
  Implicit Types (m : amem A) (xs ys : list A) (h cs : list (A * A)) (p : list (A * A) → A * A → bool).

  Lemma c_min_element_gives p fuel first xs m h : holds m first xs → length xs < fuel →
    gives (c_min_element p fuel first (first + length xs)) (m, h) (λ r s,
      first ≤ r ≤ first + length xs ∧ ∃ cs, s = (m, h ++ cs) ∧ cs.*1 = tail xs ∧ cs.*2 ⊆ xs).
  Proof.
    intros H Hf. unfold c_min_element. destruct xs as [|x0 xs].
    { cbn [length]. dT. apply gives_ret. split; [lia|]. exists []. rewrite app_nil_r. split_and!; [done|done|]. by intros ? ?%elem_of_nil. }
    cbn [length tail] in *. dF. pose proof H as Hall. apply holds_cons in H as [H0 H].
    assert (∀ fuel' i ts sm h, holds m i ts → i + length ts = first + S (length xs) → first ≤ sm < i → length ts < fuel' →
      gives (loop fuel' (λ '(i, smallest),
        if decide (i = first + S (length xs)) then ret (inr smallest) else
        let! x := qui (ard i) in
        let! y := qui (ard smallest) in
        let! b := call p (x, y) in
        ret (inl (S i, if b : bool then i else smallest))) (i, sm)) (m, h) (λ r s,
        first ≤ r ≤ first + S (length xs) ∧ ∃ cs, s = (m, h ++ cs) ∧ cs.*1 = ts ∧ cs.*2 ⊆ x0 :: xs)) as Hloop.
    2: { apply Hloop; [done|cbn [length] in *; lia|lia|cbn [length] in *; lia]. }
    clear H. induction fuel' as [|fuel' IH]; intros i ts sm h' Ht Hlen Hsm Hf'; [lia|]. apply gives_unfold. destruct ts as [|t ts]; cbn [length] in *.
    - dT. apply gives_ret. split; [lia|]. exists []. rewrite app_nil_r. split_and!; [done|done|]. by intros ? ?%elem_of_nil.
    - dF. apply holds_cons in Ht as [Ht Ht']. destruct (holds_get m first (x0 :: xs) sm) as (y&Hy&Hmy); [done|cbn [length]; lia|].
      qrd t. qrd y. qcall. apply gives_ret. eapply gives_conseq; [apply (IH (S i) ts); [done|lia| |lia]|].
      { destruct (p _ _); lia. }
      intros r s (Hr&cs&->&E1&E2). split; [lia|]. exists ((t, y) :: cs). split_and!.
      + by rewrite snoc_app.
      + by rewrite fmap_cons E1.
      + rewrite fmap_cons. intros z [->|Hz]%elem_of_cons; [by eapply elem_of_list_lookup_2|by apply E2].
  Qed.
  Lemma c_max_element_gives p fuel first xs m h : holds m first xs → length xs < fuel →
    gives (c_max_element p fuel first (first + length xs)) (m, h) (λ r s,
      first ≤ r ≤ first + length xs ∧ ∃ cs, s = (m, h ++ cs) ∧ cs.*2 = tail xs ∧ cs.*1 ⊆ xs).
  Proof.
    intros H Hf. unfold c_max_element. destruct xs as [|x0 xs].
    { cbn [length]. dT. apply gives_ret. split; [lia|]. exists []. rewrite app_nil_r. split_and!; [done|done|]. by intros ? ?%elem_of_nil. }
    cbn [length tail] in *. dF. pose proof H as Hall. apply holds_cons in H as [H0 H].
    assert (∀ fuel' i ts sm h, holds m i ts → i + length ts = first + S (length xs) → first ≤ sm < i → length ts < fuel' →
      gives (loop fuel' (λ '(i, largest),
        if decide (i = first + S (length xs)) then ret (inr largest) else
        let! y := qui (ard largest) in
        let! x := qui (ard i) in
        let! b := call p (y, x) in
        ret (inl (S i, if b : bool then i else largest))) (i, sm)) (m, h) (λ r s,
        first ≤ r ≤ first + S (length xs) ∧ ∃ cs, s = (m, h ++ cs) ∧ cs.*2 = ts ∧ cs.*1 ⊆ x0 :: xs)) as Hloop.
    2: { apply Hloop; [done|cbn [length] in *; lia|lia|cbn [length] in *; lia]. }
    clear H. induction fuel' as [|fuel' IH]; intros i ts sm h' Ht Hlen Hsm Hf'; [lia|]. apply gives_unfold. destruct ts as [|t ts]; cbn [length] in *.
    - dT. apply gives_ret. split; [lia|]. exists []. rewrite app_nil_r. split_and!; [done|done|]. by intros ? ?%elem_of_nil.
    - dF. apply holds_cons in Ht as [Ht Ht']. destruct (holds_get m first (x0 :: xs) sm) as (y&Hy&Hmy); [done|cbn [length]; lia|].
      qrd y. qrd t. qcall. apply gives_ret. eapply gives_conseq; [apply (IH (S i) ts); [done|lia| |lia]|].
      { destruct (p _ _); lia. }
      intros r s (Hr&cs&->&E1&E2). split; [lia|]. exists ((y, t) :: cs). split_and!.
      + by rewrite snoc_app.
      + by rewrite fmap_cons E1.
      + rewrite fmap_cons. intros z [->|Hz]%elem_of_cons; [by eapply elem_of_list_lookup_2|by apply E2].
  Qed.
  Lemma c_minmax_element_gives p fuel first xs m h : holds m first xs → length xs < fuel →
    gives (c_minmax_element p fuel first (first + length xs)) (m, h) (λ _ s, ∃ cs, s = (m, h ++ cs) ∧ length cs = 2 * (length xs - 1)).
  Proof.
    intros H Hf. unfold c_minmax_element. apply gives_bind. eapply gives_conseq; [by apply c_min_element_gives|].
    intros r s (_&cs&->&E&_). apply gives_bind. eapply gives_conseq; [by apply c_max_element_gives|].
    intros r' s (_&cs2&->&E2&_). apply gives_ret. exists (cs ++ cs2). rewrite app_assoc app_length. split; [done|].
    assert (length cs = length xs - 1) as -> by (rewrite -(fmap_length fst) E; destruct xs; simpl; lia).
    assert (length cs2 = length xs - 1) as -> by (rewrite -(fmap_length snd) E2; destruct xs; simpl; lia). lia.
  Qed.
End minmax.

(** ** Forgetting the calls *)
Section erasure.
  Context {A B : Type}.
  Lemma er_ret {X} (x : X) : records (ret x : M (cmem A B) X) (ret x).
  Proof. by intros s h. Qed.
  Lemma er_bind {X Y} (mc : M (cmem A B) X) m (kc : X → M (cmem A B) Y) k :
    records mc m → (∀ x, records (kc x) (k x)) → records (bind mc kc) (bind m k).
  Proof.
    intros Hm Hk s h. specialize (Hm s h). unfold bind. unfold forget in *. destruct (mc (s, h)) as [[x [s' h']]|u|]; rewrite -Hm; [apply Hk|done|done].
  Qed.
  Lemma er_qui {X} (m : M (amem A) X) : records (qui m : M (cmem A B) X) m.
  Proof. intros s h. unfold qui, forget. by destruct (m s) as [[x s']|u|]. Qed.
  (** a call with an answer that depends on the arguments only *)
  Lemma er_call {X Y} (f : B → X) b (kc : X → M (cmem A B) Y) k : records (kc (f b)) k → records (bind (call (λ _, f) b) kc) k.
  Proof. intros Hk s h. unfold bind, call. apply Hk. Qed.
  Lemma er_loop {X Y} fuel (bc : X → M (cmem A B) (X + Y)) b a : (∀ a, records (bc a) (b a)) → records (loop fuel bc a) (loop fuel b a).
  Proof.
    intros Hb. revert a. induction fuel as [|fuel IH]; intros a; [by intros s h|]. cbn [loop]. apply er_bind; [apply Hb|].
    intros [a'|y]; [apply IH|apply er_ret].
  Qed.
End erasure.
Ltac er := repeat first
  [ progress intros | progress cbn zeta | progress cbn [fst snd] | apply er_ret | apply er_qui | apply er_call | apply er_bind | apply er_loop
  | match goal with
    | |- records (match ?x with _ => _ end) _ => destruct x
    | |- records (if ?x then _ else _) _ => destruct x
    | |- records (let '(_, _) := ?x in _) _ => destruct x
    end ].
