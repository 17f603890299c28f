(** Proofs about the calls of the modifying, ordering and searching algorithms. *)
From Coq Require Import ssreflect.
From Verif Require Import CallsSpec AlgProofs AlgProofs2 AlgProofs3 CallsProofs.
Local Open Scope general_if_scope.

Section writing.
  Context {A : Type} (moved : A → A).
  Implicit Types (m : amem A) (xs ys : list A) (h : list (A * A)) (p : list (A * A) → A * A → bool).

  Lemma c_replace_gives p fuel first xs ro o r v m h : holds m first xs → refers m ro o → outside ro first (length xs) →
    refers m r v → length xs < fuel →
    gives (c_replace p fuel first (first + length xs) ro r) (m, h) (λ _ s,
      written m first (put_where v (answers p h (against o xs)) xs) s.1 ∧ s.2 = h ++ against o xs).
  Proof.
    unfold c_replace, against. revert fuel first m h. induction xs as [|x xs IH]; intros fuel first m h H Hro Hout Hr Hf; start fuel.
    - cbn [length]. dT. apply gives_ret. split; [apply written_nil|by rewrite app_nil_r].
    - rewrite fmap_cons. cbn [length answers put_where] in *. apply holds_cons in H as [H0 H]. dF. qrd x. qget o. qcall.
      assert (outside ro (S first) (length xs)) by (eapply outside_le; [done|lia|lia]).
      replace (first + S (length xs)) with (S first + length xs) by lia. apply gives_bind. destruct (p h (x, o)).
      + qget v. apply gives_qui. apply (gives_awr _ _ x); [done|]. apply gives_ret.
        eapply gives_conseq; [apply IH; [apply holds_insert; [done|lia]|eapply refers_insert; [done|exact Hout|lia]|done|by apply refers_insert_same|lia]|].
        intros [] s [Hw ->]. rewrite snoc_app. split; [by eapply written_cons|done].
      + apply gives_ret, gives_ret. eapply gives_conseq; [apply IH; [done..|lia]|].
        intros [] s [Hw ->]. rewrite snoc_app. split; [|done]. eapply written_cons; [done|]. by rewrite list_insert_id.
  Qed.
  Lemma c_replace_copy_gives p fuel first xs d ro o r v m h : holds m first xs → live m d (length xs) →
    d ≤ first ∨ first + length xs ≤ d → refers m ro o → outside ro d (length xs) → refers m r v → outside r d (length xs) → length xs < fuel →
    gives (c_replace_copy p fuel first (first + length xs) d ro r) (m, h) (λ i s, i = d + length xs ∧
      written m d (put_where v (answers p h (against o xs)) xs) s.1 ∧ s.2 = h ++ against o xs).
  Proof.
    unfold c_replace_copy, against. revert fuel first d m h. induction xs as [|x xs IH]; intros fuel first d m h H Hl Hd Hro Hout Hr Hout2 Hf; start fuel.
    - cbn [length]. dT. apply gives_ret. split_and!; [lia|apply written_nil|by rewrite app_nil_r].
    - rewrite fmap_cons. cbn [length answers put_where] in *. apply holds_cons in H as [H0 H]. apply live_S in Hl as [[z Hz] Hl]. dF. qrd x. qget o. qcall.
      apply gives_bind, gives_qui.
      eapply (gives_conseq _ _ (λ y m', m' = m ∧ y = if p h (x, o) then v else x)).
      { destruct (p h (x, o)); [by apply (gives_cget _ _ v)|by apply (gives_ard _ _ x)]. }
      intros y m' [-> Hy]. qwr z. apply gives_ret.
      rewrite -Hy. replace (first + S (length xs)) with (S first + length xs) by lia.
      eapply gives_conseq; [apply (IH fuel (S first) (S d))|].
      + apply holds_insert; [done|lia].
      + by apply live_insert.
      + lia.
      + eapply refers_insert; [done|done|lia].
      + eapply outside_le; [done|lia|lia].
      + eapply refers_insert; [done|done|lia].
      + eapply outside_le; [done|lia|lia].
      + lia.
      + intros i s (->&Hw&->). rewrite snoc_app. split_and!; [lia|by eapply written_cons|done].
  Qed.
  Lemma c_remove_copy_gives p fuel first xs d rv v m h : holds m first xs → live m d (length (where_is false (answers p h (against v xs)) xs)) →
    d ≤ first ∨ first + length xs ≤ d → refers m rv v → outside rv d (length (where_is false (answers p h (against v xs)) xs)) → length xs < fuel →
    gives (c_remove_copy p fuel first (first + length xs) d rv) (m, h) (λ r s, r = d + length (where_is false (answers p h (against v xs)) xs) ∧
      written m d (where_is false (answers p h (against v xs)) xs) s.1 ∧ s.2 = h ++ against v xs).
  Proof.
    unfold c_remove_copy, against. revert fuel first d m h. induction xs as [|x xs IH]; intros fuel first d m h H Hl Hd Hr Ho Hf; start fuel.
    - cbn [length]. dT. apply gives_ret. split_and!; [simpl; lia|apply written_nil|by rewrite app_nil_r].
    - rewrite fmap_cons in Hl, Ho |- *. cbn [length answers where_is] in *. apply holds_cons in H as [H0 H]. dF. qrd x. qget v. qcall.
      replace (first + S (length xs)) with (S first + length xs) by lia. destruct (p h (x, v)); cbn [negb].
      + rewrite bool_decide_eq_false_2 // in Hl, Ho |- *. apply gives_ret.
        eapply gives_conseq; [apply IH; [done|done|lia|done|done|lia]|]. intros r s (->&Hw&->). by rewrite snoc_app.
      + rewrite bool_decide_eq_true_2 // in Hl, Ho |- *. cbn [length] in *. apply live_S in Hl as [[z Hz] Hl].
        qrd x. qwr z. apply gives_ret.
        eapply gives_conseq; [apply (IH fuel (S first) (S d))|].
        * apply holds_insert; [done|lia].
        * by apply live_insert.
        * lia.
        * eapply refers_insert; [done|exact Ho|lia].
        * eapply outside_le; [exact Ho|lia|lia].
        * lia.
        * intros r s (->&Hw&->). rewrite snoc_app. split_and!; [lia|by eapply written_cons|done].
  Qed.
  Lemma c_remove_gives p fuel first xs rv v m h : holds m first xs → refers m rv v → outside rv first (length xs) → length xs < fuel →
    gives (c_remove moved p fuel first (first + length xs) rv) (m, h) (λ r s,
      r = first + length (where_is false (answers p h (against v xs)) xs) ∧ holds s.1 first (where_is false (answers p h (against v xs)) xs) ∧
      same_outside m first (length xs) s.1 ∧ live s.1 first (length xs) ∧ s.2 = h ++ against v xs).
  Proof.
    intros H Hr Ho Hf. unfold c_remove. apply gives_bind. eapply gives_conseq; [by apply (c_find_gives _ fuel first xs rv v)|].
    intros i s (k&->&Hk&->). unfold against in *. case_decide as Hd.
    - assert (k = length xs) as -> by lia. apply gives_ret. rewrite (where_all (λ x, (x, v)) p h xs Hk).
      split_and!; [lia|done|done|by apply holds_live|]. cbn [snd]. by rewrite take_ge; [rewrite fmap_length; lia|].
    - assert (k < length xs) as Hlt by (destruct Hk as [Hk _]; rewrite fmap_length in Hk; lia).
      destruct (lookup_lt_is_Some_2 xs k Hlt) as [x Hx].
      eapply gives_conseq.
      + eapply gives_ext; [|apply (c_compact_gives moved (λ x, (x, v)) p (λ x, let! v := qui (cget rv) in call p (x, v)) fuel (first + k) (first + k) (drop (S k) xs) (first + length xs) m _ first (length xs))].
        * apply loop_ext. intros [w j] s. cbn zeta. case_decide; [done|]. unfold bind, qui, call, ret. destruct s as [s h1]. destruct (ard (S j) s) as [[y s1]| |]; [|done..].
          by destruct (cget rv s1) as [[y' s2]| |].
        * replace (S (first + k)) with (first + S k) by lia. by apply holds_drop.
        * lia.
        * rewrite drop_length. lia.
        * intros j Hj. destruct (holds_live _ _ _ H (k + j)) as [y Hy]; [lia|]. exists y. rewrite -Hy. f_equal. lia.
        * rewrite drop_length. lia.
        * lia.
        * done.
        * intros y s h' [Hs1 Hs2]. unfold bind, qui, call. rewrite (refers_cget s rv v); [|done].
          destruct rv as [z|q]; simpl in *; [done|]. by rewrite Hs2.
      + intros r s Hpost. eapply (c_remove_post (λ x, (x, v)) p first xs k x m h r s Hk Hx H). by rewrite fmap_take.
  Qed.
  Lemma c_transform2_gives op fuel f1 xs f2 ys d m h : holds m f1 xs → holds m f2 ys → length xs ≤ length ys → live m d (length xs) →
    d ≤ f1 ∨ f1 + length xs ≤ d → d ≤ f2 ∨ f2 + length xs ≤ d → length xs < fuel →
    gives (c_transform2 op fuel f1 (f1 + length xs) f2 d) (m, h) (λ r s, r = d + length xs ∧
      written m d (answers op h (zip xs ys)) s.1 ∧ s.2 = h ++ zip xs ys).
  Proof.
    unfold c_transform2. revert fuel f1 f2 ys d m h. induction xs as [|x xs IH]; intros fuel f1 f2 ys d m h H H2 Hle Hl Hd Hd2 Hf; start fuel.
    - cbn [length]. dT. apply gives_ret. split_and!; [lia|apply written_nil|by rewrite app_nil_r].
    - destruct ys as [|y ys]; [simpl in *; lia|]. cbn [length] in *. apply holds_cons in H as [H0 H], H2 as [H2 H2']. apply live_S in Hl as [[z Hz] Hl]. dF.
      qrd x. qrd y. qcall. qwr z.
      apply gives_ret. replace (f1 + S (length xs)) with (S f1 + length xs) by lia.
      assert (zip xs ys = zip xs (take (length xs) ys)) as Hzip.
      { clear. revert ys. induction xs as [|x xs IH]; intros [|y ys]; cbn; try done. f_equal. apply IH. }
      cbn [zip_with answers]. rewrite Hzip.
      eapply gives_conseq; [apply (IH fuel (S f1) (S f2) (take (length xs) ys))|].
      + apply holds_insert; [done|lia].
      + apply holds_insert; [by apply holds_take|]. rewrite take_length. lia.
      + rewrite take_length. lia.
      + by apply live_insert.
      + lia.
      + lia.
      + lia.
      + intros r s (->&Hw&->). rewrite snoc_app. split_and!; [lia|by eapply written_cons|done].
  Qed.
End writing.

Section ordering.
  Context {A : Type} (imax : Z).
  Implicit Types (m : amem A) (xs ys : list A) (h cs : list (A * A)) (p : list (A * A) → A * A → bool).

  Lemma elem_drop n (x : A) xs : x ∈ drop n xs → x ∈ xs.
  Proof. intros [i Hi]%elem_of_list_lookup. rewrite lookup_drop in Hi. by eapply elem_of_list_lookup_2. Qed.
  Lemma elem_take n (x : A) xs : x ∈ take n xs → x ∈ xs.
  Proof. intros [i [Hi _]%lookup_take_Some]%elem_of_list_lookup. by eapply elem_of_list_lookup_2. Qed.
  Lemma log2_half n : n ≠ 0 → Nat.log2 (2 * n) = S (Nat.log2 n).
  Proof. intros. rewrite Nat.log2_double; lia. Qed.
  Lemma log2_step n k : n ≠ 0 → k ≤ n / 2 → S (Nat.log2 (2 * k)) ≤ Nat.log2 (2 * n).
  Proof.
    intros Hn Hk. rewrite (log2_half n Hn). apply le_n_S. apply Nat.log2_le_mono.
    pose proof (Nat.div_mod n 2 ltac:(lia)). lia.
  Qed.
  (** the loop of the binary searches, whatever the comparison answers *)
  Lemma c_bsearch_loop (g : A → A * A) (test : A → M (cmem A (A * A)) bool) fuel first xs m h c :
    holds m first xs → (∀ x h', gives (test x) (m, h') (λ _ s, s = (m, h' ++ [g x]))) → c = Z.of_nat (length xs) →
    Nat.log2 (2 * length xs) < fuel →
    gives (loop fuel (λ '(first, count),
      if decide (count > 0)%Z then
        let step := Z.quot count 2 in
        let it := (first + Z.to_nat step)%nat in
        let! x := qui (ard it) in
        let! b := test x in
        if b : bool then ret (inl (S it, count - (step + 1))%Z) else ret (inl (first, step))
      else ret (inr first)) (first, c)) (m, h) (λ r s, first ≤ r ≤ first + length xs ∧
        ∃ ys, s = (m, h ++ (g <$> ys)) ∧ length ys ≤ Nat.log2 (2 * length xs) ∧ ys ⊆ xs).
  Proof.
    intros H Ht. revert first xs h c H. induction fuel as [|fuel IH]; intros first xs h c H -> Hf; [lia|].
    apply gives_unfold. destruct (decide (Z.of_nat (length xs) > 0)%Z) as [Hd|Hd].
    - assert (Z.quot (Z.of_nat (length xs)) 2 = Z.of_nat (length xs / 2)) as Hq.
      { rewrite Z.quot_div_nonneg; [lia|lia|]. by rewrite Nat2Z.inj_div. }
      set (n := length xs) in *. set (hf := n / 2) in *.
      assert (hf < n) as Hh by (apply Nat.div_lt; lia).
      assert (n = 2 * hf ∨ n = 2 * hf + 1) as Hn2.
      { pose proof (Nat.div_mod n 2 ltac:(lia)) as H0. pose proof (Nat.mod_upper_bound n 2 ltac:(lia)). fold hf in H0. lia. }
      cbn zeta. rewrite Hq Nat2Z.id.
      destruct (lookup_lt_is_Some_2 xs hf Hh) as [x Hx]. apply gives_bind, gives_qui. apply (gives_ard _ _ x); [by apply H|].
      apply gives_bind. eapply gives_conseq; [apply Ht|]. intros b s ->. pose proof (elem_of_list_lookup_2 _ _ _ Hx) as Hin. destruct b; apply gives_ret.
      + pose proof (log2_step n (n - S hf) ltac:(lia) ltac:(fold hf; lia)) as Hlog.
        eapply gives_conseq; [apply (IH (S (first + hf)) (drop (S hf) xs) (h ++ [g x]) (Z.of_nat n - (Z.of_nat hf + 1))%Z)|].
        * replace (S (first + hf)) with (first + S hf) by lia. by apply holds_drop.
        * rewrite drop_length. fold n. lia.
        * rewrite drop_length. fold n. lia.
        * rewrite drop_length. fold n. intros r s (Hr&ys&->&Hl&Hsub). split; [lia|]. exists (x :: ys). split_and!.
          -- by rewrite snoc_app fmap_cons.
          -- cbn [length]. lia.
          -- intros y [->|Hy]%elem_of_cons; [done|]. eapply elem_drop. by apply Hsub.
      + pose proof (log2_step n hf ltac:(lia) ltac:(fold hf; lia)) as Hlog.
        eapply gives_conseq; [apply (IH first (take hf xs) (h ++ [g x]) (Z.of_nat hf))|].
        * by apply holds_take.
        * rewrite take_length. fold n. lia.
        * rewrite take_length. fold n. replace (hf `min` n) with hf by lia. lia.
        * rewrite take_length. fold n. replace (hf `min` n) with hf by lia. intros r s (Hr&ys&->&Hl&Hsub). split; [lia|]. exists (x :: ys). split_and!.
          -- by rewrite snoc_app fmap_cons.
          -- cbn [length]. lia.
          -- intros y [->|Hy]%elem_of_cons; [done|]. eapply elem_take. by apply Hsub.
    - apply gives_ret. split; [lia|]. exists []. split_and!; [by rewrite app_nil_r|cbn; lia|]. intros y Hy. by apply elem_of_nil in Hy.
  Qed.
  Lemma c_lower_bound_any p fuel first last xs r v m h : holds m first xs → refers m r v →
    to_int imax (Z.of_nat last - Z.of_nat first) = Z.of_nat (length xs) → Nat.log2 (2 * length xs) < fuel →
    gives (c_lower_bound imax p fuel first last r) (m, h) (λ i s, first ≤ i ≤ first + length xs ∧
      ∃ ys, s = (m, h ++ ((λ x, (x, v)) <$> ys)) ∧ length ys ≤ Nat.log2 (2 * length xs) ∧ ys ⊆ xs).
  Proof.
    intros H Hr Hc Hf. unfold c_lower_bound. rewrite Hc.
    eapply gives_ext; [|apply (c_bsearch_loop (λ x, (x, v)) (λ x, let! v := qui (cget r) in call p (x, v)) fuel first xs m h (Z.of_nat (length xs)) H); [|done|done]].
    - apply loop_ext. intros [f c] [s h']. case_decide; [|done]. cbn zeta. unfold bind, qui, call, ret. destruct (ard _ s) as [[x s1]| |]; [|done..].
      by destruct (cget r s1) as [[y s2]| |].
    - intros x h'. apply gives_bind, gives_qui. apply (gives_cget _ _ v); [done|]. by apply gives_call.
  Qed.
  Lemma c_upper_bound_any p fuel first last xs r v m h : holds m first xs → refers m r v →
    to_int imax (Z.of_nat last - Z.of_nat first) = Z.of_nat (length xs) → Nat.log2 (2 * length xs) < fuel →
    gives (c_upper_bound imax p fuel first last r) (m, h) (λ i s, first ≤ i ≤ first + length xs ∧
      ∃ ys, s = (m, h ++ ((λ x, (v, x)) <$> ys)) ∧ length ys ≤ Nat.log2 (2 * length xs) ∧ ys ⊆ xs).
  Proof.
    intros H Hr Hc Hf. unfold c_upper_bound. rewrite Hc.
    eapply gives_ext; [|apply (c_bsearch_loop (λ x, (v, x)) (λ x, let! v := qui (cget r) in let! b := call p (v, x) in ret (negb b)) fuel first xs m h (Z.of_nat (length xs)) H); [|done|done]].
    - apply loop_ext. intros [f c] [s h']. case_decide; [|done]. cbn zeta. unfold bind, qui, call, ret. destruct (ard _ s) as [[x s1]| |]; [|done..].
      by destruct (cget r s1) as [[y s2]| |].
    - intros x h'. apply gives_bind, gives_qui. apply (gives_cget _ _ v); [done|]. apply gives_bind, gives_call. by apply gives_ret.
  Qed.
  Lemma c_lower_bound_gives p fuel first xs r v m h : holds m first xs → refers m r v →
    (Z.of_nat (length xs) ≤ imax)%Z → Nat.log2 (2 * length xs) < fuel →
    gives (c_lower_bound imax p fuel first (first + length xs) r) (m, h) (λ i s, first ≤ i ≤ first + length xs ∧
      ∃ ys, s = (m, h ++ ((λ x, (x, v)) <$> ys)) ∧ length ys ≤ Nat.log2 (2 * length xs) ∧ ys ⊆ xs).
  Proof. intros. apply c_lower_bound_any; [done..| |done]. rewrite to_int_small; lia. Qed.
  Lemma c_upper_bound_gives p fuel first xs r v m h : holds m first xs → refers m r v →
    (Z.of_nat (length xs) ≤ imax)%Z → Nat.log2 (2 * length xs) < fuel →
    gives (c_upper_bound imax p fuel first (first + length xs) r) (m, h) (λ i s, first ≤ i ≤ first + length xs ∧
      ∃ ys, s = (m, h ++ ((λ x, (v, x)) <$> ys)) ∧ length ys ≤ Nat.log2 (2 * length xs) ∧ ys ⊆ xs).
  Proof. intros. apply c_upper_bound_any; [done..| |done]. rewrite to_int_small; lia. Qed.
  Lemma c_binary_search_gives p fuel first xs r v m h : holds m first xs → refers m r v →
    (Z.of_nat (length xs) ≤ imax)%Z → Nat.log2 (2 * length xs) < fuel →
    gives (c_binary_search imax p fuel first (first + length xs) r) (m, h) (λ _ s, ∃ ys zs,
      s = (m, h ++ ((λ x, (x, v)) <$> ys) ++ ((λ x, (v, x)) <$> zs)) ∧
      length ys ≤ Nat.log2 (2 * length xs) ∧ length zs ≤ 1 ∧ ys ++ zs ⊆ xs).
  Proof.
    intros H Hr Hi Hf. unfold c_binary_search. apply gives_bind. eapply gives_conseq; [by apply (c_lower_bound_gives p fuel first xs r v)|].
    intros i s (Hi2&ys&->&Hl&Hsub). case_decide as Hd.
    - apply gives_ret. exists ys, []. rewrite /= !app_nil_r. split_and!; [done|done|lia|done].
    - destruct (holds_get m first xs i) as (x&Hx&Hm); [done|lia|]. qget v. qrd x. qcall. apply gives_ret. exists ys, [x].
      rewrite -app_assoc. split_and!; [done|done|done|]. intros y [Hy|Hy]%elem_of_app; [by apply Hsub|].
      apply elem_of_list_singleton in Hy as ->. by eapply elem_of_list_lookup_2.
  Qed.
  Lemma c_equal_range_gives p fuel first xs r v m h : holds m first xs → refers m r v →
    (Z.of_nat (length xs) ≤ imax)%Z → Nat.log2 (2 * length xs) < fuel →
    gives (c_equal_range imax p fuel first (first + length xs) r) (m, h) (λ _ s, ∃ ys zs,
      s = (m, h ++ ((λ x, (x, v)) <$> ys) ++ ((λ x, (v, x)) <$> zs)) ∧
      length ys ≤ Nat.log2 (2 * length xs) ∧ length zs ≤ Nat.log2 (2 * length xs) ∧ ys ++ zs ⊆ xs).
  Proof.
    intros H Hr Hi Hf. unfold c_equal_range. apply gives_bind. eapply gives_conseq; [by apply (c_lower_bound_gives p fuel first xs r v)|].
    intros i s (Hi2&ys&->&Hl&Hsub). apply gives_bind.
    assert (Nat.log2 (2 * (length xs - (i - first))) ≤ Nat.log2 (2 * length xs)) as Hle by (apply Nat.log2_le_mono; lia).
    eapply gives_conseq; [apply (c_upper_bound_any p fuel i (first + length xs) (drop (i - first) xs) r v)|].
    - pose proof (holds_drop m first xs (i - first) H) as Hh. by replace (first + (i - first)) with i in Hh by lia.
    - done.
    - rewrite drop_length to_int_small; lia.
    - rewrite drop_length. lia.
    - rewrite drop_length. intros j s (Hj&zs&->&Hl2&Hsub2). apply gives_ret. exists ys, zs. rewrite -app_assoc. split_and!; [done|done|lia|].
      intros y [Hy|Hy]%elem_of_app; [by apply Hsub|]. eapply elem_drop. by apply Hsub2.
  Qed.

  (** merge *)
  Lemma c_merge_gives p fuel f1 xs f2 ys d m h : holds m f1 xs → holds m f2 ys → live m d (length xs + length ys) →
    apart f1 (length xs) d (length xs + length ys) → apart f2 (length ys) d (length xs + length ys) →
    length xs + length ys < fuel →
    gives (c_merge p fuel f1 (f1 + length xs) f2 (f2 + length ys) d) (m, h) (λ r s, r = d + length xs + length ys ∧
      ∃ zs cs, written m d zs s.1 ∧ zs ≡ₚ xs ++ ys ∧ s.2 = h ++ cs ∧
        length cs ≤ length xs + length ys - 1 ∧ (xs = [] ∨ ys = [] → cs = []) ∧ ∀ y x, (y, x) ∈ cs → y ∈ ys ∧ x ∈ xs).
  Proof.
    intros H1 H2 Hl Ha1 Ha2 Hf. unfold c_merge. apply gives_bind.
    assert (∀ fuel' f1 xs f2 ys d m h, holds m f1 xs → holds m f2 ys → live m d (length xs + length ys) →
      apart f1 (length xs) d (length xs + length ys) → apart f2 (length ys) d (length xs + length ys) →
      length xs + length ys < fuel' → length xs + length ys < fuel →
      gives (loop fuel' (λ '(first1, first2, output),
        if decide (first1 = f1 + length xs) then ret (inr (inr (first2, output))) else
        if decide (first2 = f2 + length ys) then let! o := qui (a_copy fuel first1 (f1 + length xs) output) in ret (inr (inl o)) else
        let! y := qui (ard first2) in
        let! x := qui (ard first1) in
        let! b := call p (y, x) in
        if b : bool then
          let! y := qui (ard first2) in
          qui (awr output y) ;! ret (inl (first1, S first2, S output))
        else
          let! x := qui (ard first1) in
          qui (awr output x) ;! ret (inl (S first1, first2, S output))) (f1, f2, d)) (m, h) (λ r s,
        gives (match r with inl o => ret o | inr (first2, output) => qui (a_copy fuel first2 (f2 + length ys) output) end) s
          (λ r s, r = d + length xs + length ys ∧
            ∃ zs cs, written m d zs s.1 ∧ zs ≡ₚ xs ++ ys ∧ s.2 = h ++ cs ∧
              length cs ≤ length xs + length ys - 1 ∧ (xs = [] ∨ ys = [] → cs = []) ∧ ∀ y x, (y, x) ∈ cs → y ∈ ys ∧ x ∈ xs))) as Hloop; [|by apply Hloop].
    clear f1 xs f2 ys d m h H1 H2 Hl Ha1 Ha2 Hf. unfold apart.
    induction fuel' as [|fuel' IH]; intros f1 xs f2 ys d m h H1 H2 Hl Ha1 Ha2 Hf' Hf; [lia|]. apply gives_unfold.
    case_decide as Hd1; [|case_decide as Hd2].
    - apply gives_ret. assert (xs = []) as -> by (apply nil_length_inv; lia). apply gives_qui.
      eapply gives_conseq; [apply (copy_gives fuel f2 ys d m); [done|done| |cbn in Hf; lia]|].
      { cbn [length] in *. lia. }
      intros r m' [-> Hw]. cbn [length]. split; [lia|]. exists ys, []. rewrite app_nil_r. split_and!; [done|done|done|cbn; lia|done|].
      intros y x Hin. by apply elem_of_nil in Hin.
    - assert (ys = []) as -> by (apply nil_length_inv; lia). cbn [length] in *. rewrite !Nat.add_0_r in Hl, Ha1, Hf, Hf'. apply gives_bind, gives_qui.
      eapply gives_conseq; [apply (copy_gives fuel f1 xs d m); [done|done|lia|lia]|].
      intros r m' [-> Hw]. apply gives_ret. apply gives_ret. split; [lia|]. exists xs, []. rewrite !app_nil_r. split_and!; [done|done|done|cbn; lia|done|].
      intros y x Hin. by apply elem_of_nil in Hin.
    - destruct xs as [|x xs]; [cbn in Hd1; lia|]. destruct ys as [|y ys]; [cbn in Hd2; lia|].
      apply holds_cons in H1 as H1c. destruct H1c as [H1x H1']. apply holds_cons in H2 as H2c. destruct H2c as [H2y H2'].
      apply gives_bind, gives_qui, (gives_ard _ _ y); [done|]. apply gives_bind, gives_qui, (gives_ard _ _ x); [done|].
      apply gives_bind, gives_call. destruct (p h (y, x)).
      + apply gives_bind, gives_qui, (gives_ard _ _ y); [done|]. cbn [length] in *.
        replace (S (length xs) + S (length ys)) with (S (S (length xs) + length ys)) in Hl by lia. apply live_S in Hl as [[z Hz] Hl].
        apply gives_bind, gives_qui, (gives_awr _ _ z); [done|]. apply gives_ret.
        replace (f2 + S (length ys)) with (S f2 + length ys) by lia.
        eapply gives_conseq; [apply (IH f1 (x :: xs) (S f2) ys (S d))|]; cbn [length].
        * apply holds_insert; [done|cbn [length]; lia].
        * apply holds_insert; [done|lia].
        * by apply live_insert.
        * lia.
        * lia.
        * lia.
        * lia.
        * intros r s Hg. eapply gives_conseq; [exact Hg|]. cbn [length]. intros r' s' (->&zs&cs&Hw&Hp&Hs&Hc&Hnil&Hin). split; [lia|].
          exists (y :: zs), ((y, x) :: cs). split_and!.
          -- by eapply written_cons.
          -- rewrite Hp. apply Permutation_middle.
          -- by rewrite Hs snoc_app.
          -- cbn [length]. destruct ys; [rewrite (Hnil (or_intror eq_refl)); cbn; lia|cbn [length] in *; lia].
          -- intros [?|?]; done.
          -- intros y' x' [E|Hin']%elem_of_cons; [simplify_eq; split; left|]. apply Hin in Hin' as [??]. split; [by right|done].
      + apply gives_bind, gives_qui, (gives_ard _ _ x); [done|]. cbn [length] in *.
        replace (S (length xs) + S (length ys)) with (S (length xs + S (length ys))) in Hl by lia. apply live_S in Hl as [[z Hz] Hl].
        apply gives_bind, gives_qui, (gives_awr _ _ z); [done|]. apply gives_ret.
        replace (f1 + S (length xs)) with (S f1 + length xs) by lia.
        eapply gives_conseq; [apply (IH (S f1) xs f2 (y :: ys) (S d))|]; cbn [length].
        * apply holds_insert; [done|lia].
        * apply holds_insert; [done|cbn [length]; lia].
        * by apply live_insert.
        * lia.
        * lia.
        * lia.
        * lia.
        * intros r s Hg. eapply gives_conseq; [exact Hg|]. cbn [length]. intros r' s' (->&zs&cs&Hw&Hp&Hs&Hc&Hnil&Hin). split; [lia|].
          exists (x :: zs), ((y, x) :: cs). split_and!.
          -- by eapply written_cons.
          -- by rewrite Hp.
          -- by rewrite Hs snoc_app.
          -- cbn [length]. destruct xs; [rewrite (Hnil (or_introl eq_refl)); cbn; lia|cbn [length] in *; lia].
          -- intros [?|?]; done.
          -- intros y' x' [E|Hin']%elem_of_cons; [simplify_eq; split; left|]. apply Hin in Hin' as [??]. split; [done|by right].
  Qed.
End ordering.
