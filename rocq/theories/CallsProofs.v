(** Proofs about the calls the algorithms make. *)
From Coq Require Import ssreflect.
From Verif Require Import CallsSpec AlgProofs AlgProofs2 AlgProofs3.
Local Open Scope general_if_scope.

Section rules.
  Context {A B : Type}.
  Implicit Types (h cs : list B).
  Lemma gives_qui {X} (m : M (amem A) X) s h (Q : X → cmem A B → Prop) :
    gives m s (λ x s', Q x (s', h)) → gives (qui m) (s, h) Q.
  Proof. intros (x&s'&Hm&HQ). exists x, (s', h). split; [|done]. unfold qui. by rewrite Hm. Qed.
  Lemma gives_call {X} (f : list B → B → X) b s h (Q : X → cmem A B → Prop) :
    Q (f h b) (s, h ++ [b]) → gives (call f b) (s, h) Q.
  Proof. intros HQ. by eexists _, _. Qed.

  Lemma answers_length {X} (f : list B → B → X) h cs : length (answers f h cs) = length cs.
  Proof. revert h. induction cs as [|c cs IH]; intros h; simpl; auto. Qed.
  Lemma snoc_app h c cs : (h ++ [c]) ++ cs = h ++ c :: cs.
  Proof. by rewrite -app_assoc. Qed.

  Lemma first_answer_hit (f : list B → B → bool) h c cs b : f h c = b → first_answer f h (c :: cs) b 0.
  Proof. intros E. split_and!; [lia|intros; lia|]. intros _. simpl. by rewrite E. Qed.
  Lemma first_answer_next (f : list B → B → bool) h c cs b k :
    f h c ≠ b → first_answer f (h ++ [c]) cs b k → first_answer f h (c :: cs) b (S k).
  Proof.
    intros E Hk. eapply first_such_S; [exact Hk| |done]. simpl. intros ?. by simplify_eq.
  Qed.

  (** the truth value of "no call was answered by b" *)
  Lemma first_answer_all (f : list B → B → bool) h cs b k : first_answer f h cs b k →
    (k = length cs ↔ Forall (λ a, a = negb b) (answers f h cs)).
  Proof.
    intros (Hk1&Hk2&Hk3). rewrite Forall_lookup. split.
    - intros -> i a Hi. destruct (decide (a = b)) as [->|]; [|by destruct a, b].
      exfalso. eapply Hk2; [|exact Hi]. apply lookup_lt_Some in Hi. by rewrite answers_length in Hi.
    - intros Hall. destruct (decide (k = length cs)) as [|Hne]; [done|]. pose proof (Hall _ _ (Hk3 ltac:(lia))) as E. by destruct b.
  Qed.
  Lemma first_answer_some (f : list B → B → bool) h cs b k : first_answer f h cs b k →
    (k ≠ length cs ↔ b ∈ answers f h cs).
  Proof.
    intros (Hk1&Hk2&Hk3). split.
    - intros Hne. eapply elem_of_list_lookup_2, Hk3. lia.
    - intros [i Hi]%elem_of_list_lookup ->. eapply Hk2; [|exact Hi]. apply lookup_lt_Some in Hi. by rewrite answers_length in Hi.
  Qed.
  (** a scan: one call after the other until one is answered by [stop] *)
  Lemma scan_gives {St R} (pos : nat → St) (f : list B → B → bool) (stop : bool) (hit : nat → R) (fin : R) (body : St → M (cmem A B) (St + R)) cs fuel a s h :
    length cs < fuel → a = pos 0 →
    (∀ h', gives (body (pos (length cs))) (s, h') (λ r s', r = inr fin ∧ s' = (s, h'))) →
    (∀ j c h', cs !! j = Some c → gives (body (pos j)) (s, h') (λ r s', s' = (s, h' ++ [c]) ∧
      r = if bool_decide (f h' c = stop) then inr (hit j) else inl (pos (S j)))) →
    gives (loop fuel body a) (s, h) (λ r s', ∃ k, first_answer f h cs stop k ∧
      s' = (s, h ++ take (S k) cs) ∧ r = if decide (k = length cs) then fin else hit k).
  Proof.
    revert pos hit fuel a h. induction cs as [|c cs IH]; intros pos hit fuel a h Hf -> Hend Hstep; (destruct fuel as [|fuel]; [cbn in Hf; lia|]); apply gives_unfold.
    - eapply gives_conseq; [apply Hend|]. intros r s' [-> ->]. exists 0. split_and!.
      + split_and!; [done|intros; lia|cbn; lia].
      + cbn [take]. by rewrite app_nil_r.
      + done.
    - eapply gives_conseq; [by apply (Hstep 0 c)|]. intros r s' [-> ->]. case_bool_decide as E.
      + exists 0. split_and!; [by apply first_answer_hit|by rewrite /= take_0|done].
      + eapply gives_conseq; [apply (IH (λ j, pos (S j)) (λ j, hit (S j)) fuel _ (h ++ [c]))|].
        * cbn in Hf. lia.
        * done.
        * intros h'. apply (Hend h').
        * intros j c' h' Hj. by apply (Hstep (S j) c').
        * intros r s' (k&Hk&->&->). exists (S k). split_and!; [by apply first_answer_next|by rewrite snoc_app|].
          cbn [length]. by repeat case_decide; try lia.
  Qed.
End rules.

Ltac qrd x := apply gives_bind, gives_qui; apply (gives_ard _ _ x); [done|].
Ltac qget v := apply gives_bind, gives_qui; apply (gives_cget _ _ v); [done|].
Ltac qwr z := apply gives_bind, gives_qui; apply (gives_awr _ _ z); [done|].
Ltac qcall := apply gives_bind, gives_call.
Ltac start fuel := destruct fuel as [|fuel]; [cbn [length] in *; lia|]; apply gives_unfold.

Section unary.
  Context {A : Type} (moved : A → A) (imax : Z).
  Implicit Types (m : amem A) (xs h : list A) (p : list A → A → bool).

  Lemma c_find_if_gives p fuel first xs m h : holds m first xs → length xs < fuel →
    gives (c_find_if p fuel first (first + length xs)) (m, h) (λ r s, ∃ k, r = first + k ∧
      first_answer p h xs true k ∧ s = (m, h ++ take (S k) xs)).
  Proof.
    intros H Hf. unfold c_find_if.
    eapply gives_conseq; [apply (scan_gives (λ j, first + j) p true (λ j, first + j) (first + length xs) _ xs); [done|lia| |]|].
    - intros h'. dT. by apply gives_ret.
    - intros j c h' Hj. pose proof (lookup_lt_Some _ _ _ Hj). dF. apply H in Hj. qrd c. qcall.
      destruct (p h' c); apply gives_ret; [done|]. split; [done|]. cbn. do 2 f_equal. lia.
    - intros r s (k&Hk&->&->). exists k. split_and!; [by case_decide; [subst|]|done|done].
  Qed.
  Lemma c_find_if_not_gives p fuel first xs m h : holds m first xs → length xs < fuel →
    gives (c_find_if_not p fuel first (first + length xs)) (m, h) (λ r s, ∃ k, r = first + k ∧
      first_answer p h xs false k ∧ s = (m, h ++ take (S k) xs)).
  Proof.
    intros H Hf. unfold c_find_if_not.
    eapply gives_conseq; [apply (scan_gives (λ j, first + j) p false (λ j, first + j) (first + length xs) _ xs); [done|lia| |]|].
    - intros h'. dT. by apply gives_ret.
    - intros j c h' Hj. pose proof (lookup_lt_Some _ _ _ Hj). dF. apply H in Hj. qrd c. qcall.
      destruct (p h' c); apply gives_ret; [|done]. split; [done|]. cbn. do 2 f_equal. lia.
    - intros r s (k&Hk&->&->). exists k. split_and!; [by case_decide; [subst|]|done|done].
  Qed.
  Lemma c_all_of_gives p fuel first xs m h : holds m first xs → length xs < fuel →
    gives (c_all_of p fuel first (first + length xs)) (m, h) (λ r s, (r = true ↔ Forall (λ a, a = true) (answers p h xs)) ∧
      ∃ k, first_answer p h xs false k ∧ s = (m, h ++ take (S k) xs)).
  Proof.
    intros H Hf. unfold c_all_of. apply gives_bind. eapply gives_conseq; [by apply c_find_if_not_gives|].
    intros r s (k&->&Hk&->). apply gives_ret. split; [|by exists k]. rewrite bool_decide_eq_true -(first_answer_all p h xs false k Hk). lia.
  Qed.
  Lemma c_any_of_gives p fuel first xs m h : holds m first xs → length xs < fuel →
    gives (c_any_of p fuel first (first + length xs)) (m, h) (λ r s, (r = true ↔ true ∈ answers p h xs) ∧
      ∃ k, first_answer p h xs true k ∧ s = (m, h ++ take (S k) xs)).
  Proof.
    intros H Hf. unfold c_any_of. apply gives_bind. eapply gives_conseq; [by apply c_find_if_gives|].
    intros r s (k&->&Hk&->). apply gives_ret. split; [|by exists k].
    rewrite negb_true_iff bool_decide_eq_false -(first_answer_some p h xs true k Hk). lia.
  Qed.
  Lemma c_none_of_gives p fuel first xs m h : holds m first xs → length xs < fuel →
    gives (c_none_of p fuel first (first + length xs)) (m, h) (λ r s, (r = true ↔ Forall (λ a, a = false) (answers p h xs)) ∧
      ∃ k, first_answer p h xs true k ∧ s = (m, h ++ take (S k) xs)).
  Proof.
    intros H Hf. unfold c_none_of. apply gives_bind. eapply gives_conseq; [by apply c_find_if_gives|].
    intros r s (k&->&Hk&->). apply gives_ret. split; [|by exists k]. rewrite bool_decide_eq_true -(first_answer_all p h xs true k Hk). lia.
  Qed.

  Lemma c_count_if_aux p fuel first xs m h c : holds m first xs → length xs < fuel → (0 ≤ c)%Z →
    (c + Z.of_nat (length (filter (λ a, a = true) (answers p h xs))) ≤ imax)%Z →
    gives (loop fuel (λ '(i, c),
      if decide (i = first + length xs) then ret (inr c) else
      let! x := qui (ard i) in
      let! b := call p x in
      if b : bool then let! c := qui (int_incr imax c) in ret (inl (S i, c)) else ret (inl (S i, c))) (first, c)) (m, h)
     (λ r s, r = (c + Z.of_nat (length (filter (λ a, a = true) (answers p h xs))))%Z ∧ s = (m, h ++ xs)).
  Proof.
    revert fuel first h c. induction xs as [|x xs IH]; intros fuel first h c H Hf Hc Hl; start fuel.
    - cbn [length]. dT. apply gives_ret. cbn. rewrite app_nil_r. split; [lia|done].
    - cbn [length] in *. apply holds_cons in H as [H0 H]. dF. cbn [answers] in *. qrd x. qcall.
      replace (first + S (length xs)) with (S first + length xs) by lia. destruct (p h x).
      + rewrite filter_cons_True // in Hl |- *. cbn [length] in *. apply gives_bind, gives_qui. unfold int_incr.
        destruct (decide _); [|lia]. apply gives_ret. apply gives_ret.
        eapply gives_conseq; [apply IH; [done|lia|lia|lia]|]. intros r s [-> ->]. rewrite snoc_app. split; [lia|done].
      + rewrite filter_cons_False // in Hl |- *. apply gives_ret.
        eapply gives_conseq; [apply IH; [done|lia|lia|lia]|]. intros r s [-> ->]. rewrite snoc_app. split; [lia|done].
  Qed.
  Lemma c_count_if_gives p fuel first xs m h : holds m first xs → length xs < fuel →
    (Z.of_nat (length (filter (λ a, a = true) (answers p h xs))) ≤ imax)%Z →
    gives (c_count_if imax p fuel first (first + length xs)) (m, h) (λ r s,
      r = Z.of_nat (length (filter (λ a, a = true) (answers p h xs))) ∧ s = (m, h ++ xs)).
  Proof. intros. unfold c_count_if. eapply gives_conseq; [by apply c_count_if_aux|]. done. Qed.

  Lemma c_copy_if_gives p fuel first xs d m h : holds m first xs → live m d (length (where_is true (answers p h xs) xs)) →
    d ≤ first ∨ first + length xs ≤ d → length xs < fuel →
    gives (c_copy_if p fuel first (first + length xs) d) (m, h) (λ r s, r = d + length (where_is true (answers p h xs) xs) ∧
      written m d (where_is true (answers p h xs) xs) s.1 ∧ s.2 = h ++ xs).
  Proof.
    unfold c_copy_if. revert fuel first d m h. induction xs as [|x xs IH]; intros fuel first d m h H Hl Hd Hf; start fuel.
    - cbn [length]. dT. apply gives_ret. split_and!; [simpl; lia|apply written_nil|by rewrite app_nil_r].
    - cbn [length answers where_is] in *. apply holds_cons in H as [H0 H]. dF. qrd x. qcall.
      replace (first + S (length xs)) with (S first + length xs) by lia. destruct (p h x).
      + rewrite bool_decide_eq_true_2 // in Hl |- *. cbn [length] in *. apply live_S in Hl as [[z Hz] Hl].
        qrd x. qwr z. apply gives_ret.
        eapply gives_conseq; [apply IH; [apply holds_insert; [done|lia]|by apply live_insert|lia|lia]|].
        intros r s (->&Hw&->). rewrite snoc_app. split_and!; [lia|by eapply written_cons|done].
      + rewrite bool_decide_eq_false_2 // in Hl |- *. apply gives_ret.
        eapply gives_conseq; [apply IH; [done|done|lia|lia]|]. intros r s (->&Hw&->). by rewrite snoc_app.
  Qed.
  Lemma c_remove_copy_if_gives p fuel first xs d m h : holds m first xs → live m d (length (where_is false (answers p h xs) xs)) →
    d ≤ first ∨ first + length xs ≤ d → length xs < fuel →
    gives (c_remove_copy_if p fuel first (first + length xs) d) (m, h) (λ r s, r = d + length (where_is false (answers p h xs) xs) ∧
      written m d (where_is false (answers p h xs) xs) s.1 ∧ s.2 = h ++ xs).
  Proof.
    unfold c_remove_copy_if. revert fuel first d m h. induction xs as [|x xs IH]; intros fuel first d m h H Hl Hd Hf; start fuel.
    - cbn [length]. dT. apply gives_ret. split_and!; [simpl; lia|apply written_nil|by rewrite app_nil_r].
    - cbn [length answers where_is] in *. apply holds_cons in H as [H0 H]. dF. qrd x. qcall.
      replace (first + S (length xs)) with (S first + length xs) by lia. destruct (p h x); cbn [negb].
      + rewrite bool_decide_eq_false_2 // in Hl |- *. apply gives_ret.
        eapply gives_conseq; [apply IH; [done|done|lia|lia]|]. intros r s (->&Hw&->). by rewrite snoc_app.
      + rewrite bool_decide_eq_true_2 // in Hl |- *. cbn [length] in *. apply live_S in Hl as [[z Hz] Hl].
        qrd x. qwr z. apply gives_ret.
        eapply gives_conseq; [apply IH; [apply holds_insert; [done|lia]|by apply live_insert|lia|lia]|].
        intros r s (->&Hw&->). rewrite snoc_app. split_and!; [lia|by eapply written_cons|done].
  Qed.
  Lemma c_replace_if_gives p fuel first xs r v m h : holds m first xs → refers m r v → length xs < fuel →
    gives (c_replace_if p fuel first (first + length xs) r) (m, h) (λ _ s,
      written m first (put_where v (answers p h xs) xs) s.1 ∧ s.2 = h ++ xs).
  Proof.
    unfold c_replace_if. revert fuel first m h. induction xs as [|x xs IH]; intros fuel first m h H Hr Hf; start fuel.
    - cbn [length]. dT. apply gives_ret. split; [apply written_nil|by rewrite app_nil_r].
    - cbn [length answers put_where] in *. apply holds_cons in H as [H0 H]. dF. qrd x. qcall.
      replace (first + S (length xs)) with (S first + length xs) by lia. apply gives_bind. destruct (p h x).
      + qget v. apply gives_qui. apply (gives_awr _ _ x); [done|]. apply gives_ret.
        eapply gives_conseq; [apply IH; [apply holds_insert; [done|lia]|by apply refers_insert_same|lia]|].
        intros [] s [Hw ->]. rewrite snoc_app. split; [by eapply written_cons|done].
      + apply gives_ret, gives_ret. eapply gives_conseq; [apply IH; [done|done|lia]|].
        intros [] s [Hw ->]. rewrite snoc_app. split; [|done]. eapply written_cons; [done|]. by rewrite list_insert_id.
  Qed.
  Lemma c_replace_copy_if_gives p fuel first xs d r v m h : holds m first xs → live m d (length xs) →
    d ≤ first ∨ first + length xs ≤ d → refers m r v → outside r d (length xs) → length xs < fuel →
    gives (c_replace_copy_if p fuel first (first + length xs) d r) (m, h) (λ i s, i = d + length xs ∧
      written m d (put_where v (answers p h xs) xs) s.1 ∧ s.2 = h ++ xs).
  Proof.
    unfold c_replace_copy_if. revert fuel first d m h. induction xs as [|x xs IH]; intros fuel first d m h H Hl Hd Hr Hout2 Hf; start fuel.
    - cbn [length]. dT. apply gives_ret. split_and!; [lia|apply written_nil|by rewrite app_nil_r].
    - cbn [length answers put_where] in *. apply holds_cons in H as [H0 H]. apply live_S in Hl as [[z Hz] Hl]. dF. qrd x. qcall.
      apply gives_bind, gives_qui.
      eapply (gives_conseq _ _ (λ y m', m' = m ∧ y = if p h x then v else x)).
      { destruct (p h x); [by apply (gives_cget _ _ v)|by apply (gives_ard _ _ x)]. }
      intros y m' [-> Hy]. qwr z. apply gives_ret.
      rewrite -Hy. replace (first + S (length xs)) with (S first + length xs) by lia.
      eapply gives_conseq; [apply (IH fuel (S first) (S d))|].
      + apply holds_insert; [done|lia].
      + by apply live_insert.
      + lia.
      + eapply refers_insert; [done|done|lia].
      + eapply outside_le; [done|lia|lia].
      + lia.
      + intros i s (->&Hw&->). rewrite snoc_app. split_and!; [lia|by eapply written_cons|done].
  Qed.
  Lemma c_transform1_gives op fuel first xs d m h : holds m first xs → live m d (length xs) →
    d ≤ first ∨ first + length xs ≤ d → length xs < fuel →
    gives (c_transform1 op fuel first (first + length xs) d) (m, h) (λ r s, r = d + length xs ∧
      written m d (answers op h xs) s.1 ∧ s.2 = h ++ xs).
  Proof.
    unfold c_transform1. revert fuel first d m h. induction xs as [|x xs IH]; intros fuel first d m h H Hl Hd Hf; start fuel.
    - cbn [length]. dT. apply gives_ret. split_and!; [lia|apply written_nil|by rewrite app_nil_r].
    - cbn [length answers] in *. apply holds_cons in H as [H0 H]. apply live_S in Hl as [[z Hz] Hl]. dF.
      qrd x. qcall. qwr z. apply gives_ret. replace (first + S (length xs)) with (S first + length xs) by lia.
      eapply gives_conseq; [apply IH; [apply holds_insert; [done|lia]|by apply live_insert|lia|lia]|].
      intros r s (->&Hw&->). rewrite snoc_app. split_and!; [lia|by eapply written_cons|done].
  Qed.
End unary.

Section removing.
  Context {A B : Type} (moved : A → A) (g : A → B) (p : list B → B → bool).
  Implicit Types (m : amem A) (xs ys : list A).

  Lemma c_compact_gives (test : A → M (cmem A B) bool) fuel w i ys last m h lo n :
    holds m (S i) ys → w ≤ i → last = S i + length ys → live m w (last - w) → length ys < fuel →
    lo ≤ w → last = lo + n →
    (∀ x s h', same_outside m lo n s → test x (s, h') = Ok (p h' (g x), (s, h' ++ [g x]))) →
    gives (loop fuel (λ '(first, i),
      let i := S i in
      if decide (i = last) then ret (inr first) else
      let! x := qui (ard i) in
      let! b := test x in
      if negb b then qui (a_move moved first i) ;! ret (inl (S first, i)) else ret (inl (first, i))) (w, i)) (m, h)
    (λ r s, r = w + length (where_is false (answers p h (g <$> ys)) ys) ∧ holds s.1 w (where_is false (answers p h (g <$> ys)) ys) ∧
      same_outside m w (last - w) s.1 ∧ live s.1 w (last - w) ∧ s.2 = h ++ (g <$> ys)).
  Proof.
    intros H Hw -> Hl Hf Hlo Hn Ht. revert fuel w i m h H Hw Hl Hf Hlo Hn Ht.
    induction ys as [|y ys IH]; intros fuel w i m h H Hw Hl Hf Hlo Hn Ht; start fuel; cbn zeta.
    - cbn [length]. dT. apply gives_ret. split_and!; [simpl; lia|by intros ??|by split|done|by rewrite app_nil_r].
    - rewrite fmap_cons. cbn [length answers where_is] in *. apply holds_cons in H as [H0 H]. dF. qrd y.
      apply gives_bind. eapply gives_eq; [apply Ht; by split|].
      replace (S i + S (length ys)) with (S (S i) + length ys) in * by lia.
      destruct (p h (g y)) eqn:Hp; cbn [negb].
      + rewrite bool_decide_eq_false_2 //. apply gives_ret. eapply gives_conseq; [apply IH; [done|lia|done|lia|lia|lia|done]|].
        intros r s (->&?&?&?&->). rewrite snoc_app. by split_and!.
      + rewrite bool_decide_eq_true_2 //. destruct (Hl 0) as [z Hz]; [lia|]. rewrite Nat.add_0_r in Hz.
        apply gives_bind, gives_qui. unfold a_move. apply gives_bind. apply (gives_ard _ _ y); [done|]. apply gives_bind.
        apply (gives_awr _ _ y); [done|]. apply (gives_awr _ _ z); [rewrite list_lookup_insert_ne; [lia|done]|]. apply gives_ret.
        set (m1 := <[w:=Some y]> (<[S i:=Some (moved y)]> m)).
        assert (w < length m) by by eapply lookup_lt_Some.
        assert (S i < length m) by by eapply lookup_lt_Some.
        assert (same_outside m w (S (S i) + length ys - w) m1) as Hs1.
        { split; [by rewrite !insert_length|]. intros j Hj. unfold m1. rewrite !list_lookup_insert_ne; [lia..|done]. }
        eapply gives_conseq; [apply (IH fuel (S w) (S i) m1)|].
        * apply holds_insert; [apply holds_insert; [done|lia]|lia].
        * lia.
        * apply live_insert, live_insert. intros k Hk. destruct (Hl (S k)) as [z' Hz']; [lia|]. exists z'. by rewrite Nat.add_succ_r in Hz'.
        * lia.
        * lia.
        * lia.
        * intros x s h' [Hs2 Hs3]. apply Ht. destruct Hs1 as [Hs1 Hs1']. split; [congruence|]. intros j Hj. rewrite Hs3; [done|]. apply Hs1'. lia.
        * intros r [m' h'] (->&G1&[G2 G2']&G3&Hh). cbn [fst snd length] in *.
          assert (m' !! w = Some (Some y)) as Hwy.
          { rewrite G2'; [lia|]. unfold m1. apply list_lookup_insert. by rewrite insert_length. }
          split_and!; [lia|by apply holds_cons| | |by rewrite Hh snoc_app].
          -- destruct Hs1 as [Hs1 Hs1']. split; [congruence|]. intros j Hj. rewrite G2'; [lia|]. apply Hs1'. lia.
          -- replace (S (S i) + length ys - w) with (S (S (S i) + length ys - S w)) by lia. apply live_S. split; [by exists y|done].
  Qed.
  Lemma where_first h xs k x : first_answer p h (g <$> xs) true k → xs !! k = Some x →
    where_is false (answers p h (g <$> xs)) xs =
      take k xs ++ where_is false (answers p (h ++ (g <$> take (S k) xs)) (g <$> drop (S k) xs)) (drop (S k) xs).
  Proof.
    revert h k. induction xs as [|y xs IH]; intros h k (Hk1&Hk2&Hk3) Hx; [done|]. rewrite fmap_cons in Hk1, Hk2, Hk3 |- *. cbn [answers where_is].
    destruct k as [|k].
    - specialize (Hk3 ltac:(cbn; lia)). cbn [answers] in Hk3. simplify_eq/=. rewrite Hk3 bool_decide_eq_false_2 // ?take_0 //.
    - destruct (p h (g y)) eqn:E.
      { destruct (Hk2 0 ltac:(lia)). cbn. by rewrite E. }
      rewrite bool_decide_eq_true_2 //. cbn [take drop app]. rewrite fmap_cons. f_equal. rewrite (IH (h ++ [g y]) k); [|done|by rewrite snoc_app].
      split_and!; [cbn in Hk1; lia| |].
      + intros j Hj. specialize (Hk2 (S j) ltac:(lia)). done.
      + intros Hlt. specialize (Hk3 ltac:(cbn; lia)). done.
  Qed.
  Lemma where_all h xs : first_answer p h (g <$> xs) true (length xs) → where_is false (answers p h (g <$> xs)) xs = xs.
  Proof.
    revert h. induction xs as [|y xs IH]; intros h (Hk1&Hk2&Hk3); [done|]. rewrite fmap_cons in Hk2 |- *. cbn [answers where_is].
    destruct (p h (g y)) eqn:E.
    { destruct (Hk2 0 ltac:(cbn; lia)). cbn. by rewrite E. }
    rewrite bool_decide_eq_true_2 // IH //. split_and!; [by rewrite fmap_length| |rewrite fmap_length; lia].
    intros j Hj. specialize (Hk2 (S j) ltac:(cbn; lia)). done.
  Qed.
  Lemma c_remove_post first xs k x m h r (s : cmem A B) : first_answer p h (g <$> xs) true k → xs !! k = Some x → holds m first xs →
    r = first + k + length (where_is false (answers p (h ++ (g <$> take (S k) xs)) (g <$> drop (S k) xs)) (drop (S k) xs)) ∧
      holds s.1 (first + k) (where_is false (answers p (h ++ (g <$> take (S k) xs)) (g <$> drop (S k) xs)) (drop (S k) xs)) ∧
      same_outside m (first + k) (first + length xs - (first + k)) s.1 ∧ live s.1 (first + k) (first + length xs - (first + k)) ∧
      s.2 = (h ++ (g <$> take (S k) xs)) ++ (g <$> drop (S k) xs) →
    r = first + length (where_is false (answers p h (g <$> xs)) xs) ∧ holds s.1 first (where_is false (answers p h (g <$> xs)) xs) ∧
      same_outside m first (length xs) s.1 ∧ live s.1 first (length xs) ∧ s.2 = h ++ (g <$> xs).
  Proof.
    intros Hk Hx H (Hr&G1&[G2 G2']&G3&Hh). rewrite (where_first h xs k x Hk Hx). pose proof (lookup_lt_Some _ _ _ Hx) as Hlt.
    assert (holds s.1 first (take k xs)) as Ht.
    { intros j y [Hy Hj]%lookup_take_Some. rewrite G2'; [lia|]. by apply H. }
    rewrite app_length take_length. split_and!; [lia| | | |].
    - apply holds_app. split; [done|]. rewrite take_length. by replace (k `min` length xs) with k by lia.
    - split; [done|]. intros j Hj. apply G2'. lia.
    - intros j Hj. destruct (decide (j < k)) as [Hjk|].
      + destruct (lookup_lt_is_Some_2 xs j Hj) as [y Hy]. exists y. apply Ht. by rewrite lookup_take.
      + destruct (G3 (j - k)) as [y Hy]; [lia|]. exists y. rewrite -Hy. f_equal. lia.
    - rewrite Hh -app_assoc -fmap_app take_drop. done.
  Qed.
End removing.

Section remove_if.
  Context {A : Type} (moved : A → A).
  Implicit Types (m : amem A) (xs h : list A) (p : list A → A → bool).
  Lemma c_remove_if_gives p fuel first xs m h : holds m first xs → length xs < fuel →
    gives (c_remove_if moved p fuel first (first + length xs)) (m, h) (λ r s,
      r = first + length (where_is false (answers p h xs) xs) ∧ holds s.1 first (where_is false (answers p h xs) xs) ∧
      same_outside m first (length xs) s.1 ∧ live s.1 first (length xs) ∧ s.2 = h ++ xs).
  Proof.
    intros H Hf. unfold c_remove_if. apply gives_bind. eapply gives_conseq; [by apply c_find_if_gives|].
    intros i s (k&->&Hk&->). rewrite -(list_fmap_id xs) in Hk. case_decide as Hd.
    - assert (k = length xs) as -> by lia. apply gives_ret. pose proof (where_all id p h xs Hk) as Hw. rewrite list_fmap_id in Hw. rewrite Hw.
      split_and!; [lia|done|done|by apply holds_live|]. cbn [snd]. by rewrite take_ge; [lia|].
    - assert (k < length xs) as Hlt by (destruct Hk as [Hk _]; rewrite list_fmap_id in Hk; lia).
      destruct (lookup_lt_is_Some_2 xs k Hlt) as [x Hx].
      eapply gives_conseq.
      + eapply gives_ext; [|apply (c_compact_gives moved id p (λ x, call p x) fuel (first + k) (first + k) (drop (S k) xs) (first + length xs) m _ first (length xs))].
        * reflexivity.
        * replace (S (first + k)) with (first + S k) by lia. by apply holds_drop.
        * lia.
        * rewrite drop_length. lia.
        * intros j Hj. destruct (holds_live _ _ _ H (k + j)) as [y Hy]; [lia|]. exists y. rewrite -Hy. f_equal. lia.
        * rewrite drop_length. lia.
        * lia.
        * done.
        * done.
      + intros r s Hpost. pose proof (c_remove_post id p first xs k x m h r s Hk Hx H) as Hc. rewrite !list_fmap_id in Hc, Hpost. by apply Hc.
  Qed.
End remove_if.

Section binary.
  Context {A : Type} (moved : A → A) (imax : Z).
  Implicit Types (m : amem A) (xs ys : list A) (h : list (A * A)) (p : list (A * A) → A * A → bool).

  Lemma against_length (v : A) xs : length (against v xs) = length xs.
  Proof. apply fmap_length. Qed.
  Lemma c_find_gives p fuel first xs r v m h : holds m first xs → refers m r v → length xs < fuel →
    gives (c_find p fuel first (first + length xs) r) (m, h) (λ i s, ∃ k, i = first + k ∧
      first_answer p h (against v xs) true k ∧ s = (m, h ++ take (S k) (against v xs))).
  Proof.
    intros H Hr Hf. unfold c_find.
    eapply gives_conseq; [apply (scan_gives (λ j, first + j) p true (λ j, first + j) (first + length xs) _ (against v xs)); rewrite ?against_length; [done|lia| |]|].
    - intros h'. dT. by apply gives_ret.
    - intros j c h' Hj. pose proof (lookup_lt_Some _ _ _ Hj) as Hlt. rewrite against_length in Hlt. dF.
      unfold against in Hj; apply list_lookup_fmap_inv in Hj as (x&->&Hj). apply H in Hj. qrd x. qget v. qcall.
      destruct (p h' (x, v)); apply gives_ret; [done|]. split; [done|]. cbn. do 2 f_equal. lia.
    - intros i s (k&Hk&->&->). exists k. split_and!; [by case_decide; [subst|]; rewrite ?against_length|done|done].
  Qed.
  Lemma c_count_aux p fuel first xs rv v m h c : holds m first xs → refers m rv v → length xs < fuel → (0 ≤ c)%Z →
    (c + Z.of_nat (length (filter (λ a, a = true) (answers p h (against v xs)))) ≤ imax)%Z →
    gives (loop fuel (λ '(i, c),
      if decide (i = first + length xs) then ret (inr c) else
      let! x := qui (ard i) in
      let! v := qui (cget rv) in
      let! b := call p (x, v) in
      if b : bool then let! c := qui (int_incr imax c) in ret (inl (S i, c)) else ret (inl (S i, c))) (first, c)) (m, h)
     (λ r s, r = (c + Z.of_nat (length (filter (λ a, a = true) (answers p h (against v xs)))))%Z ∧ s = (m, h ++ against v xs)).
  Proof.
    unfold against. intros H Hr. revert fuel first h c H. induction xs as [|x xs IH]; intros fuel first h c H Hf Hc Hl; start fuel.
    - cbn [length]. dT. apply gives_ret. cbn. rewrite app_nil_r. split; [lia|done].
    - rewrite fmap_cons in Hl |- *. cbn [length] in *. apply holds_cons in H as [H0 H]. dF. cbn [answers] in *. qrd x. qget v. qcall.
      replace (first + S (length xs)) with (S first + length xs) by lia. destruct (p h (x, v)).
      + rewrite filter_cons_True // in Hl |- *. cbn [length] in *. apply gives_bind, gives_qui. unfold int_incr.
        destruct (decide _); [|lia]. apply gives_ret. apply gives_ret.
        eapply gives_conseq; [apply IH; [done|lia|lia|lia]|]. intros r s [-> ->]. rewrite snoc_app. split; [lia|done].
      + rewrite filter_cons_False // in Hl |- *. apply gives_ret.
        eapply gives_conseq; [apply IH; [done|lia|lia|lia]|]. intros r s [-> ->]. rewrite snoc_app. split; [lia|done].
  Qed.
  Lemma c_count_gives p fuel first xs rv v m h : holds m first xs → refers m rv v → length xs < fuel →
    (Z.of_nat (length (filter (λ a, a = true) (answers p h (against v xs)))) ≤ imax)%Z →
    gives (c_count imax p fuel first (first + length xs) rv) (m, h) (λ r s,
      r = Z.of_nat (length (filter (λ a, a = true) (answers p h (against v xs)))) ∧ s = (m, h ++ against v xs)).
  Proof. intros. unfold c_count. eapply gives_conseq; [by apply c_count_aux|]. done. Qed.

  Lemma neighbours_length xs : length (neighbours xs) = pred (length xs).
  Proof. unfold neighbours. rewrite zip_with_length. destruct xs as [|x xs]; [done|]. change (tail (x :: xs)) with xs. cbn [length]. lia. Qed.
  Lemma neighbours_back_length xs : length (neighbours_back xs) = pred (length xs).
  Proof. unfold neighbours_back. rewrite zip_with_length. destruct xs as [|x xs]; [done|]. change (tail (x :: xs)) with xs. cbn [length]. lia. Qed.
  Lemma lookup_tail' xs j : tail xs !! j = xs !! S j.
  Proof. by destruct xs. Qed.
  Lemma c_adjacent_find_gives p fuel first xs m h : holds m first xs → length xs < fuel →
    gives (c_adjacent_find p fuel first (first + length xs)) (m, h) (λ i s, ∃ k,
      first_answer p h (neighbours xs) true k ∧ s = (m, h ++ take (S k) (neighbours xs)) ∧
      i = if decide (k = pred (length xs)) then first + length xs else first + k).
  Proof.
    intros H Hf. unfold c_adjacent_find. case_decide as Hd.
    { assert (xs = []) as -> by (apply nil_length_inv; lia). apply gives_ret. exists 0. split_and!; [split_and!; [done|intros; lia|]| |].
      - intros E. cbn in E. lia.
      - cbn. by rewrite app_nil_r.
      - by case_decide. }
    eapply gives_conseq; [apply (scan_gives (λ j, (first + j, S (first + j))) p true (λ j, first + j) (first + length xs) _ (neighbours xs)); rewrite ?neighbours_length; [lia|f_equal; lia| |]|].
    - intros h'. dT. by apply gives_ret.
    - intros j [x y] h' Hj. pose proof (lookup_lt_Some _ _ _ Hj) as Hlt. rewrite neighbours_length in Hlt. dF.
      apply lookup_zip_with_Some in Hj as (x'&y'&E&Hx&Hy). injection E as -> ->. rewrite lookup_tail' in Hy. apply H in Hx, Hy.
      rewrite Nat.add_succ_r in Hy. qrd x'. qrd y'. qcall.
      destruct (p h' (x', y')); apply gives_ret; [done|]. split; [done|]. cbn. do 2 f_equal; lia.
    - intros i s (k&Hk&->&->). exists k. rewrite neighbours_length. done.
  Qed.
  Lemma c_is_sorted_until_gives p fuel first xs m h : holds m first xs → length xs < fuel →
    gives (c_is_sorted_until p fuel first (first + length xs)) (m, h) (λ i s, ∃ k,
      first_answer p h (neighbours_back xs) true k ∧ s = (m, h ++ take (S k) (neighbours_back xs)) ∧
      i = if decide (k = pred (length xs)) then first + length xs else S (first + k)).
  Proof.
    intros H Hf. unfold c_is_sorted_until. case_decide as Hd.
    { assert (xs = []) as -> by (apply nil_length_inv; lia). apply gives_ret. exists 0. split_and!; [split_and!; [done|intros; lia|]| |].
      - intros E. cbn in E. lia.
      - cbn. by rewrite app_nil_r.
      - by case_decide. }
    eapply gives_conseq; [apply (scan_gives (λ j, (first + j, first + j)) p true (λ j, S (first + j)) (first + length xs) _ (neighbours_back xs)); rewrite ?neighbours_back_length; [lia|f_equal; lia| |]|].
    - intros h'. cbn zeta. dT. by apply gives_ret.
    - intros j [y x] h' Hj. pose proof (lookup_lt_Some _ _ _ Hj) as Hlt. rewrite neighbours_back_length in Hlt. cbn zeta. dF.
      apply lookup_zip_with_Some in Hj as (y'&x'&E&Hy&Hx). injection E as -> ->. rewrite lookup_tail' in Hy. apply H in Hx, Hy.
      rewrite Nat.add_succ_r in Hy. qrd y'. qrd x'. qcall.
      destruct (p h' (y', x')); apply gives_ret; [done|]. split; [done|]. cbn. do 2 f_equal; lia.
    - intros i s (k&Hk&->&->). exists k. rewrite neighbours_back_length. done.
  Qed.

  Lemma zip_len xs ys : length (zip xs ys) = length xs `min` length ys.
  Proof. apply zip_with_length. Qed.
  Lemma c_equal3_gives p fuel f1 xs f2 ys m h : holds m f1 xs → holds m f2 ys → length xs ≤ length ys → length xs < fuel →
    gives (c_equal3 p fuel f1 (f1 + length xs) f2) (m, h) (λ b s, (b = true ↔ Forall (λ a, a = true) (answers p h (zip xs ys))) ∧
      ∃ k, first_answer p h (zip xs ys) false k ∧ s = (m, h ++ take (S k) (zip xs ys))).
  Proof.
    intros H1 H2 Hle Hf. unfold c_equal3. assert (length (zip xs ys) = length xs) as Hz by (rewrite zip_len; lia).
    eapply gives_conseq; [apply (scan_gives (λ j, (f1 + j, f2 + j)) p false (λ _, false) true _ (zip xs ys)); rewrite ?Hz; [lia|f_equal; lia| |]|].
    - intros h'. dT. by apply gives_ret.
    - intros j [x y] h' Hj. pose proof (lookup_lt_Some _ _ _ Hj) as Hlt. rewrite Hz in Hlt. dF.
      apply lookup_zip_with_Some in Hj as (x'&y'&E&Hx&Hy). injection E as -> ->. apply H1 in Hx. apply H2 in Hy. qrd x'. qrd y'. qcall.
      destruct (p h' (x', y')); apply gives_ret; [|done]. split; [done|]. cbn. do 2 f_equal; lia.
    - intros b s (k&Hk&->&->). split; [|by exists k]. rewrite -(first_answer_all p h _ false k Hk). by case_decide.
  Qed.
  Lemma c_equal4_gives p fuel f1 xs f2 ys m h : holds m f1 xs → holds m f2 ys → length xs < fuel →
    gives (c_equal4 p fuel f1 (f1 + length xs) f2 (f2 + length ys)) (m, h) (λ b s,
      (b = true ↔ length xs = length ys ∧ Forall (λ a, a = true) (answers p h (zip xs ys))) ∧
      ∃ k, first_answer p h (zip xs ys) false k ∧ s = (m, h ++ take (S k) (zip xs ys))).
  Proof.
    intros H1 H2 Hf. unfold c_equal4. pose proof (zip_len xs ys) as Hz.
    eapply gives_conseq; [apply (scan_gives (λ j, (f1 + j, f2 + j)) p false (λ _, false) (bool_decide (length xs = length ys)) _ (zip xs ys)); rewrite ?Hz; [lia|f_equal; lia| |]|].
    - intros h'. destruct (decide _) as [Hd|]; [lia|]. apply gives_ret. split; [|done]. f_equal.
      apply eq_bool_prop_intro. rewrite Is_true_true Is_true_true. rewrite andb_true_iff !bool_decide_eq_true. lia.
    - intros j [x y] h' Hj. pose proof (lookup_lt_Some _ _ _ Hj) as Hlt. rewrite Hz in Hlt. destruct (decide _) as [_|]; [|lia].
      apply lookup_zip_with_Some in Hj as (x'&y'&E&Hx&Hy). injection E as -> ->. apply H1 in Hx. apply H2 in Hy. qrd x'. qrd y'. qcall.
      destruct (p h' (x', y')); apply gives_ret; [|done]. split; [done|]. cbn. do 2 f_equal; lia.
    - intros b s (k&Hk&->&->). split; [|by exists k]. rewrite -(first_answer_all p h _ false k Hk).
      case_decide as Hd; [rewrite bool_decide_eq_true|]; by intuition.
  Qed.
  Lemma c_mismatch3_gives p fuel f1 xs f2 ys m h : holds m f1 xs → holds m f2 ys → length xs ≤ length ys → length xs < fuel →
    gives (c_mismatch3 p fuel f1 (f1 + length xs) f2) (m, h) (λ r s, ∃ k, r = (f1 + k, f2 + k) ∧
      first_answer p h (zip xs ys) false k ∧ s = (m, h ++ take (S k) (zip xs ys))).
  Proof.
    intros H1 H2 Hle Hf. unfold c_mismatch3. assert (length (zip xs ys) = length xs) as Hz by (rewrite zip_len; lia).
    eapply gives_conseq; [apply (scan_gives (λ j, (f1 + j, f2 + j)) p false (λ j, (f1 + j, f2 + j)) (f1 + length xs, f2 + length xs) _ (zip xs ys)); rewrite ?Hz; [lia|f_equal; lia| |]|].
    - intros h'. dT. by apply gives_ret.
    - intros j [x y] h' Hj. pose proof (lookup_lt_Some _ _ _ Hj) as Hlt. rewrite Hz in Hlt. dF.
      apply lookup_zip_with_Some in Hj as (x'&y'&E&Hx&Hy). injection E as -> ->. apply H1 in Hx. apply H2 in Hy. qrd x'. qrd y'. qcall.
      destruct (p h' (x', y')); apply gives_ret; [|done]. split; [done|]. cbn. do 2 f_equal; lia.
    - intros b s (k&Hk&->&->). exists k. split_and!; [case_decide as E; [by rewrite E Hz|done]|done|done].
  Qed.
  Lemma c_mismatch4_gives p fuel f1 xs f2 ys m h : holds m f1 xs → holds m f2 ys → length xs < fuel →
    gives (c_mismatch4 p fuel f1 (f1 + length xs) f2 (f2 + length ys)) (m, h) (λ r s, ∃ k, r = (f1 + k, f2 + k) ∧
      first_answer p h (zip xs ys) false k ∧ s = (m, h ++ take (S k) (zip xs ys))).
  Proof.
    intros H1 H2 Hf. unfold c_mismatch4. pose proof (zip_len xs ys) as Hz.
    eapply gives_conseq; [apply (scan_gives (λ j, (f1 + j, f2 + j)) p false (λ j, (f1 + j, f2 + j)) (f1 + length (zip xs ys), f2 + length (zip xs ys)) _ (zip xs ys)); [lia|f_equal; lia| |]|].
    - intros h'. case_decide; [by apply gives_ret|]. dT. by apply gives_ret.
    - intros j [x y] h' Hj. pose proof (lookup_lt_Some _ _ _ Hj) as Hlt. rewrite Hz in Hlt. dF. dF.
      apply lookup_zip_with_Some in Hj as (x'&y'&E&Hx&Hy). injection E as -> ->. apply H1 in Hx. apply H2 in Hy. qrd x'. qrd y'. qcall.
      destruct (p h' (x', y')); apply gives_ret; [|done]. split; [done|]. cbn. do 2 f_equal; lia.
    - intros b s (k&Hk&->&->). exists k. split_and!; [case_decide as E; [by rewrite E|done]|done|done].
  Qed.
End binary.
