(** Proofs about the modifying algorithms. *)
From Coq Require Import ssreflect.
From Verif Require Import AlgSpec AlgProofs AlgProofs2.
Local Open Scope general_if_scope.

Section mem2.
  Context {A : Type}.
  Implicit Types (m : amem A) (xs ys : list A).

  Lemma holds_insert m i xs j c : holds m i xs → j < i ∨ i + length xs ≤ j → holds (<[j:=c]> m) i xs.
  Proof.
    intros H Hj k x Hk. rewrite list_lookup_insert_ne; [|by apply H]. apply lookup_lt_Some in Hk. lia.
  Qed.
  Lemma live_insert m i n j y : live m i n → live (<[j:=Some y]> m) i n.
  Proof.
    intros H k Hk. destruct (H k Hk) as [x Hx]. destruct (decide (j = i + k)) as [->|].
    - exists y. rewrite list_lookup_insert; [|done]. by eapply lookup_lt_Some.
    - exists x. by rewrite list_lookup_insert_ne.
  Qed.
  Lemma live_S m i n : live m i (S n) ↔ (∃ x, m !! i = Some (Some x)) ∧ live m (S i) n.
  Proof.
    split.
    - intros H. split; [destruct (H 0) as [x Hx]; [lia|]; rewrite Nat.add_0_r in Hx; eauto|].
      intros k Hk. destruct (H (S k)) as [x Hx]; [lia|]. exists x. by rewrite Nat.add_succ_r in Hx.
    - intros [[x Hx] H] [|k] Hk; [rewrite Nat.add_0_r; eauto|]. rewrite Nat.add_succ_r. apply H. lia.
  Qed.
  Lemma live_le m i n n' : live m i n → n' ≤ n → live m i n'.
  Proof. intros H Hle k Hk. apply H. lia. Qed.
  Lemma holds_live m i xs : holds m i xs → live m i (length xs).
  Proof. intros H k Hk. destruct (lookup_lt_is_Some_2 xs k Hk) as [x Hx]. exists x. by apply H. Qed.
  Lemma refers_insert m r v j c n i : refers m r v → outside r i n → i ≤ j < i + n → refers (<[j:=c]> m) r v.
  Proof. destruct r; simpl; [done|]. intros H Ho Hj. rewrite list_lookup_insert_ne; [|done]. lia. Qed.
  Lemma refers_insert_same m r v j : refers m r v → refers (<[j:=Some v]> m) r v.
  Proof.
    destruct r as [|i]; simpl; [done|]. intros H. destruct (decide (j = i)) as [->|].
    - apply list_lookup_insert. by eapply lookup_lt_Some.
    - by rewrite list_lookup_insert_ne.
  Qed.
  Lemma outside_le (r : cref A) i n i' n' : outside r i n → i ≤ i' → i' + n' ≤ i + n → outside r i' n'.
  Proof. destruct r; simpl; [done|lia]. Qed.

  Lemma written_nil m i : written m i [] m.
  Proof. by split_and!. Qed.
  Lemma written_cons m i y ys m' x0 : m !! i = Some x0 → written (<[i:=Some y]> m) (S i) ys m' → written m i (y :: ys) m'.
  Proof.
    intros Hi (H1&H2&H3). split_and!.
    - apply holds_cons. split; [|done]. rewrite H3; [lia|]. apply list_lookup_insert. by eapply lookup_lt_Some.
    - by rewrite H2 insert_length.
    - intros j Hj. cbn [length] in Hj. rewrite H3; [lia|]. apply list_lookup_insert_ne. lia.
  Qed.
  Lemma written_snoc m i y ys m' x0 : m !! (i + length ys) = Some x0 → written (<[i + length ys:=Some y]> m) i ys m' → written m i (ys ++ [y]) m'.
  Proof.
    intros Hi (H1&H2&H3). split_and!.
    - apply holds_app. split; [done|]. apply holds_cons. split; [|by intros ??]. rewrite H3; [lia|].
      apply list_lookup_insert. by eapply lookup_lt_Some.
    - by rewrite H2 insert_length.
    - intros j Hj. rewrite app_length in Hj. cbn [length] in Hj. rewrite H3; [lia|]. apply list_lookup_insert_ne. lia.
  Qed.
  Lemma written_same m i xs : holds m i xs → written m i xs m.
  Proof. by intros. Qed.
End mem2.

Section writing.
  Context {A : Type}.
  Context (aeq alt : A → A → bool) (moved : A → A) (imax : Z).
  Implicit Types (m : amem A) (xs ys : list A).

  Ltac start fuel := destruct fuel as [|fuel]; [simpl in *; lia|]; apply gives_unfold.

  Lemma swap_gives m a b x y (Q : unit → amem A → Prop) : m !! a = Some (Some x) → m !! b = Some (Some y) →
    Q tt (<[b:=Some x]> (<[a:=Some y]> m)) → gives (a_swap a b) m Q.
  Proof.
    intros Ha Hb HQ. unfold a_swap. apply gives_bind. apply (gives_ard _ _ x); [done|].
    apply gives_bind. apply (gives_ard _ _ y); [done|]. apply gives_bind. apply (gives_awr _ _ x); [done|].
    destruct (decide (a = b)) as [->|].
    - apply (gives_awr _ _ y); [|done]. apply list_lookup_insert. by eapply lookup_lt_Some.
    - apply (gives_awr _ _ y); [|done]. by rewrite list_lookup_insert_ne.
  Qed.

  Lemma for_each_gives {St} (f : St → A → St * A) fuel first xs s m : holds m first xs → length xs < fuel →
    gives (a_for_each f fuel first (first + length xs) s) m (λ s' m', s' = (each f s xs).1 ∧ written m first (each f s xs).2 m').
  Proof.
    unfold a_for_each. revert fuel first s m. induction xs as [|x xs IH]; intros fuel first s m H Hf; start fuel.
    - cbn [length]. dT. apply gives_ret. split; [done|apply written_nil].
    - cbn [length] in *. apply holds_cons in H as [H0 H]. dF. apply gives_bind. apply (gives_ard _ _ x); [done|].
      cbn [each]. destruct (f s x) as [s1 y]. destruct (each f s1 xs) as [s2 ys] eqn:E. apply gives_bind. apply (gives_awr _ _ x); [done|].
      apply gives_ret. replace (first + S (length xs)) with (S first + length xs) by lia.
      eapply gives_conseq; [apply IH; [apply holds_insert; [done|lia]|lia]|]. rewrite E. intros s' m' [-> Hw]. split; [done|].
      by eapply written_cons.
  Qed.

  Lemma swap_ranges_gives fuel f1 xs f2 ys m : holds m f1 xs → holds m f2 ys → length xs = length ys →
    apart f1 (length xs) f2 (length ys) → length xs < fuel →
    gives (a_swap_ranges fuel f1 (f1 + length xs) f2) m (λ r m', r = f2 + length ys ∧
      holds m' f1 ys ∧ holds m' f2 xs ∧ length m' = length m ∧
      ∀ j, (j < f1 ∨ f1 + length xs ≤ j) → (j < f2 ∨ f2 + length ys ≤ j) → m' !! j = m !! j).
  Proof.
    unfold a_swap_ranges, apart. revert fuel f1 f2 ys m. induction xs as [|x xs IH]; intros fuel f1 f2 ys m H1 H2 Hl Ha Hf; start fuel.
    - destruct ys; [|done]. cbn [length]. dT. apply gives_ret. split_and!; [lia|done..].
    - destruct ys as [|y ys]; [done|]. cbn [length] in *. apply holds_cons in H1 as [H1 H1'], H2 as [H2 H2']. dF.
      apply gives_bind. unfold a_iter_swap. apply (swap_gives _ _ _ x y); [done..|]. apply gives_ret.
      replace (f1 + S (length xs)) with (S f1 + length xs) by lia. replace (f2 + S (length ys)) with (S f2 + length ys) by lia.
      eapply gives_conseq; [apply (IH fuel (S f1) (S f2) ys)|].
      + apply holds_insert; [|lia]. apply holds_insert; [done|lia].
      + apply holds_insert; [|lia]. apply holds_insert; [done|lia].
      + lia.
      + lia.
      + lia.
      + intros r m' (->&G1&G2&G3&G4).
        assert (f1 < length m) by by eapply lookup_lt_Some. assert (f2 < length m) by by eapply lookup_lt_Some.
        split_and!; [lia|apply holds_cons; split; [|done]|apply holds_cons; split; [|done]| |].
        * rewrite G4; [lia..|]. rewrite list_lookup_insert_ne; [lia|]. by apply list_lookup_insert.
        * rewrite G4; [lia..|]. apply list_lookup_insert. by rewrite insert_length.
        * by rewrite G3 !insert_length.
        * intros j Hj1 Hj2. rewrite G4; [lia..|]. rewrite !list_lookup_insert_ne; [lia..|done].
  Qed.
  Lemma swap_ranges_self fuel f1 xs m : holds m f1 xs → length xs < fuel →
    gives (a_swap_ranges fuel f1 (f1 + length xs) f1) m (λ r m', r = f1 + length xs ∧ m' = m).
  Proof.
    unfold a_swap_ranges. revert fuel f1. induction xs as [|x xs IH]; intros fuel f1 H1 Hf; start fuel.
    - cbn [length]. dT. apply gives_ret. split_and!; [lia|done..].
    - cbn [length] in *. apply holds_cons in H1 as [H1 H1']. dF.
      apply gives_bind. unfold a_iter_swap. apply (swap_gives _ _ _ x x); [done..|]. apply gives_ret.
      replace (f1 + S (length xs)) with (S f1 + length xs) by lia. rewrite !list_insert_id ?list_insert_id //. by apply IH; [|lia].
  Qed.

  Lemma fill_gives fuel first n r v m : live m first n → refers m r v → n < fuel →
    gives (a_fill fuel first (first + n) r) m (λ _ m', written m first (replicate n v) m').
  Proof.
    unfold a_fill. revert fuel first m. induction n as [|n IH]; intros fuel first m H Hr Hf; start fuel.
    - dT. apply gives_ret. apply written_nil.
    - apply live_S in H as [[x Hx] H]. dF. apply gives_bind. apply (gives_cget _ _ v); [done|].
      apply gives_bind. apply (gives_awr _ _ x); [done|]. apply gives_ret. replace (first + S n) with (S first + n) by lia.
      eapply gives_conseq; [apply IH; [by apply live_insert|by apply refers_insert_same|lia]|].
      intros [] m' Hw. by eapply written_cons.
  Qed.
  Lemma fill_n_gives fuel first n r v m : live m first (Z.to_nat n) → refers m r v → Z.to_nat n < fuel →
    gives (a_fill_n fuel first n r) m (λ i m', i = first + Z.to_nat n ∧ written m first (replicate (Z.to_nat n) v) m').
  Proof.
    unfold a_fill_n. remember (Z.to_nat n) as k eqn:Hk. revert fuel first n m Hk. induction k as [|k IH]; intros fuel first n m Hk H Hr Hf; start fuel.
    - destruct (decide _); [lia|]. apply gives_ret. split; [lia|apply written_nil].
    - apply live_S in H as [[x Hx] H]. destruct (decide _); [|lia]. apply gives_bind. apply (gives_cget _ _ v); [done|].
      apply gives_bind. apply (gives_awr _ _ x); [done|]. apply gives_ret.
      eapply gives_conseq; [apply IH; [lia|by apply live_insert|by apply refers_insert_same|lia]|].
      intros i m' [-> Hw]. split; [lia|]. by eapply written_cons.
  Qed.

  (** copying loops: one element read, one written *)
  Lemma transform1_gives op fuel first xs d m : holds m first xs → live m d (length xs) →
    d ≤ first ∨ first + length xs ≤ d → length xs < fuel →
    gives (a_transform1 op fuel first (first + length xs) d) m (λ r m', r = d + length xs ∧ written m d (op <$> xs) m').
  Proof.
    unfold a_transform1. revert fuel first d m. induction xs as [|x xs IH]; intros fuel first d m H Hl Hd Hf; start fuel.
    - cbn [length]. dT. apply gives_ret. split; [lia|apply written_nil].
    - cbn [length] in *. apply holds_cons in H as [H0 H]. apply live_S in Hl as [[z Hz] Hl]. dF.
      apply gives_bind. apply (gives_ard _ _ x); [done|]. apply gives_bind. apply (gives_awr _ _ z); [done|].
      apply gives_ret. replace (first + S (length xs)) with (S first + length xs) by lia.
      eapply gives_conseq; [apply IH; [apply holds_insert; [done|lia]|by apply live_insert|lia|lia]|].
      intros r m' [-> Hw]. split; [lia|]. by eapply written_cons.
  Qed.
  Lemma copy_gives fuel first xs d m : holds m first xs → live m d (length xs) →
    d ≤ first ∨ first + length xs ≤ d → length xs < fuel →
    gives (a_copy fuel first (first + length xs) d) m (λ r m', r = d + length xs ∧ written m d xs m').
  Proof.
    intros. eapply gives_conseq; [by apply (transform1_gives id fuel first xs d)|]. intros r m'. by rewrite list_fmap_id.
  Qed.
  Lemma transform2_gives op fuel f1 xs f2 ys d m : holds m f1 xs → holds m f2 ys → length xs ≤ length ys → live m d (length xs) →
    d ≤ f1 ∨ f1 + length xs ≤ d → d ≤ f2 ∨ f2 + length xs ≤ d → length xs < fuel →
    gives (a_transform2 op fuel f1 (f1 + length xs) f2 d) m (λ r m', r = d + length xs ∧ written m d (zip_with op xs ys) m').
  Proof.
    unfold a_transform2. revert fuel f1 f2 ys d m. induction xs as [|x xs IH]; intros fuel f1 f2 ys d m H H2 Hle Hl Hd Hd2 Hf; start fuel.
    - cbn [length]. dT. apply gives_ret. split; [lia|apply written_nil].
    - destruct ys as [|y ys]; [simpl in *; lia|]. cbn [length] in *. apply holds_cons in H as [H0 H], H2 as [H2 H2']. apply live_S in Hl as [[z Hz] Hl]. dF.
      apply gives_bind. apply (gives_ard _ _ x); [done|]. apply gives_bind. apply (gives_ard _ _ y); [done|].
      apply gives_bind. apply (gives_awr _ _ z); [done|].
      apply gives_ret. replace (f1 + S (length xs)) with (S f1 + length xs) by lia.
      eapply gives_conseq; [apply (IH fuel (S f1) (S f2) (take (length xs) ys))|].
      + apply holds_insert; [done|lia].
      + apply holds_insert; [by apply holds_take|]. rewrite take_length. lia.
      + rewrite take_length. lia.
      + by apply live_insert.
      + lia.
      + lia.
      + lia.
      + intros r m' [-> Hw]. split; [lia|]. cbn [zip_with]. assert (zip_with op xs ys = zip_with op xs (take (length xs) ys)) as ->; [|by eapply written_cons].
        clear. revert ys. induction xs as [|x xs IH]; intros [|y ys]; simpl; try done. by rewrite -IH.
  Qed.
  Lemma copy_n_gives fuel first xs d n m : holds m first xs → Z.to_nat n = length xs → live m d (length xs) →
    d ≤ first ∨ first + length xs ≤ d → length xs < fuel →
    gives (a_copy_n fuel first n d) m (λ r m', r = d + length xs ∧ written m d xs m').
  Proof.
    unfold a_copy_n. revert fuel first d n m. induction xs as [|x xs IH]; intros fuel first d n m H Hn Hl Hd Hf; start fuel.
    - cbn [length] in *. destruct (decide _); [lia|]. apply gives_ret. split; [lia|apply written_nil].
    - cbn [length] in *. apply holds_cons in H as [H0 H]. apply live_S in Hl as [[z Hz] Hl]. destruct (decide _); [|lia].
      apply gives_bind. apply (gives_ard _ _ x); [done|]. apply gives_bind. apply (gives_awr _ _ z); [done|].
      apply gives_ret.
      eapply gives_conseq; [apply IH; [apply holds_insert; [done|lia]|lia|by apply live_insert|lia|lia]|].
      intros r m' [-> Hw]. split; [lia|]. by eapply written_cons.
  Qed.
  Lemma copy_backward_gives fuel first xs d m : holds m first xs → live m d (length xs) →
    d + length xs ≤ first ∨ first ≤ d → length xs < fuel →
    gives (a_copy_backward fuel first (first + length xs) (d + length xs)) m (λ r m', r = d ∧ written m d xs m').
  Proof.
    unfold a_copy_backward. revert fuel m. induction xs as [|x xs IH] using rev_ind; intros fuel m H Hl Hd Hf; start fuel.
    - cbn [length]. dT. apply gives_ret. split; [lia|apply written_nil].
    - rewrite app_length in Hd, Hf, Hl |- *. cbn [length] in *. apply holds_app in H as [H H0]. apply holds_cons in H0 as [H0 _].
      dF. cbn zeta. replace (first + (length xs + 1) - 1) with (first + length xs) by lia.
      replace (d + (length xs + 1) - 1) with (d + length xs) by lia.
      destruct (Hl (length xs)) as [z Hz]; [lia|].
      apply gives_bind. apply (gives_ard _ _ x); [done|]. apply gives_bind. apply (gives_awr _ _ z); [done|].
      apply gives_ret.
      eapply gives_conseq; [apply IH; [apply holds_insert; [done|lia]|apply live_insert; apply (live_le _ _ _ _ Hl); lia|lia|lia]|].
      intros r m' [-> Hw]. split; [lia|]. by eapply written_snoc.
  Qed.
  Lemma generate_gives {St} (g : St → St * A) fuel first n s m : live m first n → n < fuel →
    gives (a_generate g fuel first (first + n) s) m (λ _ m', written m first (generated g s n) m').
  Proof.
    unfold a_generate. revert fuel first s m. induction n as [|n IH]; intros fuel first s m H Hf; start fuel.
    - dT. apply gives_ret. apply written_nil.
    - apply live_S in H as [[x Hx] H]. dF. cbn [generated]. destruct (g s) as [s1 y].
      apply gives_bind. apply (gives_awr _ _ x); [done|]. apply gives_ret. replace (first + S n) with (S first + n) by lia.
      eapply gives_conseq; [apply IH; [by apply live_insert|lia]|].
      intros [] m' Hw. by eapply written_cons.
  Qed.
  Lemma generate_n_gives {St} (g : St → St * A) fuel first n s m : live m first (Z.to_nat n) → Z.to_nat n < fuel →
    gives (a_generate_n g fuel first n s) m (λ r m', r = first + Z.to_nat n ∧ written m first (generated g s (Z.to_nat n)) m').
  Proof.
    unfold a_generate_n. remember (Z.to_nat n) as k eqn:Hk. revert fuel first s n m Hk. induction k as [|k IH]; intros fuel first s n m Hk H Hf; start fuel.
    - destruct (decide _); [lia|]. apply gives_ret. split; [lia|apply written_nil].
    - apply live_S in H as [[x Hx] H]. destruct (decide _); [|lia]. cbn [generated]. destruct (g s) as [s1 y].
      apply gives_bind. apply (gives_awr _ _ x); [done|]. apply gives_ret.
      eapply gives_conseq; [apply IH; [lia|by apply live_insert|lia]|].
      intros r m' [-> Hw]. split; [lia|]. by eapply written_cons.
  Qed.
  Lemma iota_gives incr fuel first n v m : live m first n → n < fuel →
    gives (a_iota incr fuel first (first + n) v) m (λ _ m', written m first ((λ k, Nat.iter k incr v) <$> seq 0 n) m').
  Proof.
    intros Hl Hf. eapply gives_conseq; [apply (generate_gives (λ v, (incr v, v)) fuel first n v m Hl Hf)|].
    intros [] m' Hw. enough ((λ k, Nat.iter k incr v) <$> seq 0 n = generated (λ v, (incr v, v)) v n) as -> by done.
    clear. revert v. induction n as [|n IH]; intros v; [done|]. cbn [seq generated]. rewrite fmap_cons. f_equal.
    rewrite -IH -fmap_S_seq -list_fmap_compose. apply list_fmap_ext. intros _ k _. simpl. by rewrite -Nat.iter_succ_r.
  Qed.
  Lemma accumulate_gives {B} (add : B → A → B) fuel first xs b m : holds m first xs → length xs < fuel →
    gives (a_accumulate add fuel first (first + length xs) b) m (λ r m', m' = m ∧ r = foldl add b xs).
  Proof.
    unfold a_accumulate. revert fuel first b. induction xs as [|x xs IH]; intros fuel first b H Hf; start fuel.
    - cbn [length]. dT. by apply gives_ret.
    - cbn [length] in *. apply holds_cons in H as [H0 H]. dF. apply gives_bind. apply (gives_ard _ _ x); [done|].
      apply gives_ret. replace (first + S (length xs)) with (S first + length xs) by lia. by apply IH; [|lia].
  Qed.

  (** replacing *)
  Lemma replace_if_gives p fuel first xs r v m : holds m first xs → refers m r v → length xs < fuel →
    gives (a_replace_if p fuel first (first + length xs) r) m (λ _ m', written m first ((λ x, if p x then v else x) <$> xs) m').
  Proof.
    unfold a_replace_if. revert fuel first m. induction xs as [|x xs IH]; intros fuel first m H Hr Hf; start fuel.
    - cbn [length]. dT. apply gives_ret. apply written_nil.
    - cbn [length] in *. apply holds_cons in H as [H0 H]. dF. apply gives_bind. apply (gives_ard _ _ x); [done|].
      rewrite fmap_cons. replace (first + S (length xs)) with (S first + length xs) by lia. apply gives_bind. destruct (p x).
      + apply gives_bind. apply (gives_cget _ _ v); [done|]. apply (gives_awr _ _ x); [done|]. apply gives_ret.
        eapply gives_conseq; [apply IH; [apply holds_insert; [done|lia]|by apply refers_insert_same|lia]|].
        intros [] m' Hw. by eapply written_cons.
      + apply gives_ret, gives_ret. eapply gives_conseq; [apply IH; [done|done|lia]|].
        intros [] m' Hw. eapply written_cons; [done|]. by rewrite list_insert_id.
  Qed.
  Lemma replace_gives fuel first xs ro o r v m : holds m first xs → refers m ro o → outside ro first (length xs) → refers m r v → length xs < fuel →
    gives (a_replace aeq fuel first (first + length xs) ro r) m (λ _ m', written m first ((λ x, if aeq x o then v else x) <$> xs) m').
  Proof.
    unfold a_replace. revert fuel first m. induction xs as [|x xs IH]; intros fuel first m H Hro Hout Hr Hf; start fuel.
    - cbn [length]. dT. apply gives_ret. apply written_nil.
    - cbn [length] in *. apply holds_cons in H as [H0 H]. dF. apply gives_bind. apply (gives_ard _ _ x); [done|].
      apply gives_bind. apply (gives_cget _ _ o); [done|].
      assert (outside ro (S first) (length xs)) by (eapply outside_le; [done|lia|lia]).
      rewrite fmap_cons. replace (first + S (length xs)) with (S first + length xs) by lia. apply gives_bind. destruct (aeq x o).
      + apply gives_bind. apply (gives_cget _ _ v); [done|]. apply (gives_awr _ _ x); [done|]. apply gives_ret.
        eapply gives_conseq; [apply IH; [apply holds_insert; [done|lia]|eapply refers_insert; [done|exact Hout|lia]|done|by apply refers_insert_same|lia]|].
        intros [] m' Hw. by eapply written_cons.
      + apply gives_ret, gives_ret. eapply gives_conseq; [apply IH; [done..|lia]|].
        intros [] m' Hw. eapply written_cons; [done|]. by rewrite list_insert_id.
  Qed.
  Lemma replace_copy_gives fuel first xs d ro o r v m : holds m first xs → live m d (length xs) →
    d ≤ first ∨ first + length xs ≤ d → refers m ro o → outside ro d (length xs) → refers m r v → outside r d (length xs) → length xs < fuel →
    gives (a_replace_copy aeq fuel first (first + length xs) d ro r) m (λ i m', i = d + length xs ∧ written m d ((λ x, if aeq x o then v else x) <$> xs) m').
  Proof.
    unfold a_replace_copy. revert fuel first d m. induction xs as [|x xs IH]; intros fuel first d m H Hl Hd Hro Hout Hr Hout2 Hf; start fuel.
    - cbn [length]. dT. apply gives_ret. split; [lia|apply written_nil].
    - cbn [length] in *. apply holds_cons in H as [H0 H]. apply live_S in Hl as [[z Hz] Hl]. dF. apply gives_bind. apply (gives_ard _ _ x); [done|].
      apply gives_bind. apply (gives_cget _ _ o); [done|]. apply gives_bind.
      eapply (gives_conseq _ _ (λ y m', m' = m ∧ y = if aeq x o then v else x)).
      { destruct (aeq x o); [by apply (gives_cget _ _ v)|by apply (gives_ard _ _ x)]. }
      intros y m' [-> Hy]. apply gives_bind. apply (gives_awr _ _ z); [done|]. apply gives_ret.
      rewrite fmap_cons -Hy. replace (first + S (length xs)) with (S first + length xs) by lia.
      eapply gives_conseq; [apply (IH fuel (S first) (S d))|].
      + apply holds_insert; [done|lia].
      + by apply live_insert.
      + lia.
      + eapply refers_insert; [done|done|lia].
      + eapply outside_le; [done|lia|lia].
      + eapply refers_insert; [done|done|lia].
      + eapply outside_le; [done|lia|lia].
      + lia.
      + intros i m' [-> Hw]. split; [lia|]. by eapply written_cons.
  Qed.
  Lemma replace_copy_if_gives p fuel first xs d r v m : holds m first xs → live m d (length xs) →
    d ≤ first ∨ first + length xs ≤ d → refers m r v → outside r d (length xs) → length xs < fuel →
    gives (a_replace_copy_if p fuel first (first + length xs) d r) m (λ i m', i = d + length xs ∧ written m d ((λ x, if p x then v else x) <$> xs) m').
  Proof.
    unfold a_replace_copy_if. revert fuel first d m. induction xs as [|x xs IH]; intros fuel first d m H Hl Hd Hr Hout2 Hf; start fuel.
    - cbn [length]. dT. apply gives_ret. split; [lia|apply written_nil].
    - cbn [length] in *. apply holds_cons in H as [H0 H]. apply live_S in Hl as [[z Hz] Hl]. dF. apply gives_bind. apply (gives_ard _ _ x); [done|].
      apply gives_bind.
      eapply (gives_conseq _ _ (λ y m', m' = m ∧ y = if p x then v else x)).
      { destruct (p x); [by apply (gives_cget _ _ v)|by apply (gives_ard _ _ x)]. }
      intros y m' [-> Hy]. apply gives_bind. apply (gives_awr _ _ z); [done|]. apply gives_ret.
      rewrite fmap_cons -Hy. replace (first + S (length xs)) with (S first + length xs) by lia.
      eapply gives_conseq; [apply (IH fuel (S first) (S d))|].
      + apply holds_insert; [done|lia].
      + by apply live_insert.
      + lia.
      + eapply refers_insert; [done|done|lia].
      + eapply outside_le; [done|lia|lia].
      + lia.
      + intros i m' [-> Hw]. split; [lia|]. by eapply written_cons.
  Qed.

  (** filtering *)
  Lemma filter_true_cons (p : A → bool) b x xs : filter (λ x, p x = b) (x :: xs) = if bool_decide (p x = b) then x :: filter (λ x, p x = b) xs else filter (λ x, p x = b) xs.
  Proof. rewrite filter_cons. by repeat case_decide. Qed.
  Lemma copy_if_gives p fuel first xs d m : holds m first xs → live m d (length (filter (λ x, p x = true) xs)) →
    d ≤ first ∨ first + length xs ≤ d → length xs < fuel →
    gives (a_copy_if p fuel first (first + length xs) d) m (λ r m', r = d + length (filter (λ x, p x = true) xs) ∧ written m d (filter (λ x, p x = true) xs) m').
  Proof.
    unfold a_copy_if. revert fuel first d m. induction xs as [|x xs IH]; intros fuel first d m H Hl Hd Hf; start fuel.
    - cbn [length]. dT. apply gives_ret. split; [simpl; lia|apply written_nil].
    - cbn [length] in *. apply holds_cons in H as [H0 H]. dF. rewrite filter_true_cons in Hl |- *. apply gives_bind. apply (gives_ard _ _ x); [done|].
      replace (first + S (length xs)) with (S first + length xs) by lia. destruct (p x); cbn [bool_decide decide_rel bool_eq_dec length] in *.
      + rewrite bool_decide_eq_true_2 // in Hl |- *. cbn [length] in *. apply live_S in Hl as [[z Hz] Hl].
        apply gives_bind. apply (gives_ard _ _ x); [done|]. apply gives_bind. apply (gives_awr _ _ z); [done|]. apply gives_ret.
        eapply gives_conseq; [apply IH; [apply holds_insert; [done|lia]|by apply live_insert|lia|lia]|].
        intros r m' [-> Hw]. split; [lia|]. by eapply written_cons.
      + rewrite bool_decide_eq_false_2 // in Hl |- *. apply gives_ret. apply IH; [done|done|lia|lia].
  Qed.
  Lemma remove_copy_if_gives p fuel first xs d m : holds m first xs → live m d (length (filter (λ x, p x = false) xs)) →
    d ≤ first ∨ first + length xs ≤ d → length xs < fuel →
    gives (a_remove_copy_if p fuel first (first + length xs) d) m (λ r m', r = d + length (filter (λ x, p x = false) xs) ∧ written m d (filter (λ x, p x = false) xs) m').
  Proof.
    unfold a_remove_copy_if. revert fuel first d m. induction xs as [|x xs IH]; intros fuel first d m H Hl Hd Hf; start fuel.
    - cbn [length]. dT. apply gives_ret. split; [simpl; lia|apply written_nil].
    - cbn [length] in *. apply holds_cons in H as [H0 H]. dF. rewrite filter_true_cons in Hl |- *. apply gives_bind. apply (gives_ard _ _ x); [done|].
      replace (first + S (length xs)) with (S first + length xs) by lia. destruct (p x); cbn [negb].
      + rewrite bool_decide_eq_false_2 // in Hl |- *. apply gives_ret. apply IH; [done|done|lia|lia].
      + rewrite bool_decide_eq_true_2 // in Hl |- *. cbn [length] in *. apply live_S in Hl as [[z Hz] Hl].
        apply gives_bind. apply (gives_ard _ _ x); [done|]. apply gives_bind. apply (gives_awr _ _ z); [done|]. apply gives_ret.
        eapply gives_conseq; [apply IH; [apply holds_insert; [done|lia]|by apply live_insert|lia|lia]|].
        intros r m' [-> Hw]. split; [lia|]. by eapply written_cons.
  Qed.
  Lemma remove_copy_gives fuel first xs d rv v m : holds m first xs → live m d (length (filter (λ x, aeq x v = false) xs)) →
    d ≤ first ∨ first + length xs ≤ d → refers m rv v → outside rv d (length (filter (λ x, aeq x v = false) xs)) → length xs < fuel →
    gives (a_remove_copy aeq fuel first (first + length xs) d rv) m (λ r m', r = d + length (filter (λ x, aeq x v = false) xs) ∧ written m d (filter (λ x, aeq x v = false) xs) m').
  Proof.
    unfold a_remove_copy. revert fuel first d m. induction xs as [|x xs IH]; intros fuel first d m H Hl Hd Hr Ho Hf; start fuel.
    - cbn [length]. dT. apply gives_ret. split; [simpl; lia|apply written_nil].
    - cbn [length] in *. apply holds_cons in H as [H0 H]. dF. rewrite (filter_true_cons (λ x, aeq x v)) in Hl, Ho |- *. apply gives_bind. apply (gives_ard _ _ x); [done|].
      apply gives_bind. apply (gives_cget _ _ v); [done|].
      replace (first + S (length xs)) with (S first + length xs) by lia. destruct (aeq x v); cbn [negb].
      + rewrite bool_decide_eq_false_2 // in Hl, Ho |- *. apply gives_ret. apply IH; [done|done|lia|done|done|lia].
      + rewrite bool_decide_eq_true_2 // in Hl, Ho |- *. cbn [length] in *. apply live_S in Hl as [[z Hz] Hl].
        apply gives_bind. apply (gives_ard _ _ x); [done|]. apply gives_bind. apply (gives_awr _ _ z); [done|]. apply gives_ret.
        eapply gives_conseq; [apply (IH fuel (S first) (S d))|].
        * apply holds_insert; [done|lia].
        * by apply live_insert.
        * lia.
        * eapply refers_insert; [done|exact Ho|lia].
        * eapply outside_le; [exact Ho|lia|lia].
        * lia.
        * intros r m' [-> Hw]. split; [lia|]. by eapply written_cons.
  Qed.

  (** reversing *)
  Lemma reverse_gives fuel first xs m : holds m first xs → length xs < fuel →
    gives (a_reverse fuel first (first + length xs)) m (λ _ m', written m first (rev xs) m').
  Proof.
    unfold a_reverse. revert fuel first m xs. induction fuel as [|fuel IH]; intros first m xs H Hf; [lia|]. apply gives_unfold.
    destruct xs as [|x xs]; [cbn [length]; dT; apply gives_ret, written_nil|].
    destruct xs as [|y ys _] using rev_ind.
    - cbn [length]. dF. cbn zeta. dT. apply gives_ret. by apply written_same.
    - apply holds_cons in H as [Hx H]. apply holds_app in H as [H Hy]. apply holds_cons in Hy as [Hy _].
      assert (length (x :: ys ++ [y]) = length ys + 2) as Hl by (rewrite /= app_length /=; lia). rewrite Hl. rewrite Hl in Hf.
      dF. cbn zeta. replace (first + (length ys + 2) - 1) with (S first + length ys) by lia. dF.
      apply gives_bind. apply (swap_gives _ _ _ x y); [done..|]. apply gives_ret.
      eapply gives_conseq; [apply (IH (S first) _ ys); [apply holds_insert; [apply holds_insert; [done|lia]|lia]|lia]|].
      intros [] m' Hw. cbn [rev]. rewrite rev_app_distr. cbn [rev app].
      eapply written_cons; [done|]. 
      assert (S first + length (rev ys) = S first + length ys) as Hr by (by rewrite rev_length).
      eapply written_snoc; rewrite Hr; [|done]. rewrite list_lookup_insert_ne; [lia|done].
  Qed.
  Lemma reverse_copy_gives fuel first xs d m : holds m first xs → live m d (length xs) →
    apart first (length xs) d (length xs) → length xs < fuel →
    gives (a_reverse_copy fuel first (first + length xs) d) m (λ r m', r = d + length xs ∧ written m d (rev xs) m').
  Proof.
    unfold a_reverse_copy, apart. revert fuel d m. induction xs as [|x xs IH] using rev_ind; intros fuel d m H Hl Ha Hf; start fuel.
    - cbn [length]. dT. apply gives_ret. split; [lia|apply written_nil].
    - rewrite app_length in Ha, Hf, Hl |- *. cbn [length] in *. apply holds_app in H as [H H0]. apply holds_cons in H0 as [H0 _].
      dF. cbn zeta. replace (first + (length xs + 1) - 1) with (first + length xs) by lia.
      rewrite Nat.add_1_r in Hl. apply live_S in Hl as [[z Hz] Hl].
      apply gives_bind. apply (gives_ard _ _ x); [done|]. apply gives_bind. apply (gives_awr _ _ z); [done|].
      apply gives_ret.
      eapply gives_conseq; [apply IH; [apply holds_insert; [done|lia]|by apply live_insert|lia|lia]|].
      intros r m' [-> Hw]. split; [lia|]. rewrite rev_app_distr. by eapply written_cons.
  Qed.

  (** removing: the compaction loop. [w]: where to write, [i]: the last position read, [ys]: what follows *)
  Lemma compact_gives (p : A → bool) (test : A → M (amem A) bool) fuel w i ys last m lo n :
    holds m (S i) ys → w ≤ i → last = S i + length ys → live m w (last - w) → length ys < fuel →
    lo ≤ w → last = lo + n →
    (∀ x s, same_outside m lo n s → test x s = Ok (p x, s)) →
    gives (loop fuel (λ '(first, i),
      let i := S i in
      if decide (i = last) then ret (inr first) else
      let! x := ard i in
      let! b := test x in
      if negb b then a_move moved first i ;! ret (inl (S first, i)) else ret (inl (first, i))) (w, i)) m
    (λ r m', r = w + length (filter (λ x, p x = false) ys) ∧ holds m' w (filter (λ x, p x = false) ys) ∧
      same_outside m w (last - w) m' ∧ live m' w (last - w)).
  Proof.
    intros H Hw -> Hl Hf Hlo Hn Ht. revert fuel w i m H Hw Hl Hf Hlo Hn Ht.
    induction ys as [|y ys IH]; intros fuel w i m H Hw Hl Hf Hlo Hn Ht; start fuel; cbn zeta.
    - cbn [length]. dT. apply gives_ret. split_and!; [simpl; lia|by intros ??|by split|done].
    - cbn [length] in *. apply holds_cons in H as [H0 H]. dF. apply gives_bind. apply (gives_ard _ _ y); [done|].
      apply gives_bind. eapply gives_eq; [apply Ht; by split|]. rewrite filter_true_cons.
      replace (S i + S (length ys)) with (S (S i) + length ys) in * by lia.
      destruct (p y) eqn:Hp; cbn [negb].
      + rewrite bool_decide_eq_false_2 //. apply gives_ret. apply IH; [done|lia|done|lia|lia|lia|done].
      + rewrite bool_decide_eq_true_2 //. destruct (Hl 0) as [z Hz]; [lia|]. rewrite Nat.add_0_r in Hz.
        apply gives_bind. unfold a_move. apply gives_bind. apply (gives_ard _ _ y); [done|]. apply gives_bind.
        apply (gives_awr _ _ y); [done|]. apply (gives_awr _ _ z); [rewrite list_lookup_insert_ne; [lia|done]|]. apply gives_ret.
        set (m1 := <[w:=Some y]> (<[S i:=Some (moved y)]> m)).
        assert (w < length m) by by eapply lookup_lt_Some.
        assert (S i < length m) by by eapply lookup_lt_Some.
        assert (same_outside m w (S (S i) + length ys - w) m1) as Hs1.
        { split; [by rewrite !insert_length|]. intros j Hj. unfold m1. rewrite !list_lookup_insert_ne; [lia..|done]. }
        eapply gives_conseq; [apply (IH fuel (S w) (S i) m1)|].
        * apply holds_insert; [apply holds_insert; [done|lia]|lia].
        * lia.
        * apply live_insert, live_insert. intros k Hk. destruct (Hl (S k)) as [z' Hz']; [lia|]. exists z'. by rewrite Nat.add_succ_r in Hz'.
        * lia.
        * lia.
        * lia.
        * intros x s [Hs2 Hs3]. apply Ht. destruct Hs1 as [Hs1 Hs1']. split; [congruence|]. intros j Hj. rewrite Hs3; [done|]. apply Hs1'. lia.
        * intros r m' (->&G1&[G2 G2']&G3). cbn [length].
          assert (m' !! w = Some (Some y)) as Hwy.
          { rewrite G2'; [lia|]. unfold m1. apply list_lookup_insert. by rewrite insert_length. }
          split_and!; [lia|by apply holds_cons| |].
          -- destruct Hs1 as [Hs1 Hs1']. split; [congruence|]. intros j Hj. rewrite G2'; [lia|]. apply Hs1'. lia.
          -- replace (S (S i) + length ys - w) with (S (S (S i) + length ys - S w)) by lia. apply live_S. split; [by exists y|done].
  Qed.
  Lemma filter_none (p : A → bool) b xs : (∀ j x, xs !! j = Some x → p x = b) → filter (λ x, p x = b) xs = xs.
  Proof.
    induction xs as [|x xs IH]; intros H; [done|]. rewrite filter_cons_True; [by apply (H 0)|]. f_equal. apply IH. intros j y Hj. by apply (H (S j)).
  Qed.
  Lemma remove_post (p : A → bool) first xs k m r m' : first_such (at_sat p xs) (length xs) k → k < length xs → holds m first xs →
    r = first + k + length (filter (λ x, p x = false) (drop (S k) xs)) ∧ holds m' (first + k) (filter (λ x, p x = false) (drop (S k) xs)) ∧
      same_outside m (first + k) (first + length xs - (first + k)) m' ∧ live m' (first + k) (first + length xs - (first + k)) →
    r = first + length (filter (λ x, p x = false) xs) ∧ holds m' first (filter (λ x, p x = false) xs) ∧
      same_outside m first (length xs) m' ∧ live m' first (length xs).
  Proof.
    intros (Hk1&Hk2&Hk3) Hlt H (Hr&G1&[G2 G2']&G3). specialize (Hk3 Hlt). destruct Hk3 as (x&Hx&Hp).
    assert (filter (λ x, p x = false) xs = take k xs ++ filter (λ x, p x = false) (drop (S k) xs)) as Heq.
    { rewrite -{1}(take_drop_middle xs k x Hx) filter_app. rewrite (filter_none _ _ (take k xs)).
      - intros j y [Hy Hj]%lookup_take_Some. destruct (p y) eqn:E; [|done]. destruct (Hk2 j Hj). by exists y.
      - f_equal. rewrite filter_cons_False //. congruence. }
    assert (holds m' first (take k xs)) as Ht.
    { intros j y [Hy Hj]%lookup_take_Some. rewrite G2'; [lia|]. by apply H. }
    rewrite Heq app_length take_length. split_and!; [lia| | |].
    - apply holds_app. split; [done|]. rewrite take_length. by replace (k `min` length xs) with k by lia.
    - split; [done|]. intros j Hj. apply G2'. lia.
    - intros j Hj. destruct (decide (j < k)) as [Hjk|].
      + destruct (lookup_lt_is_Some_2 xs j Hj) as [y Hy]. exists y. apply Ht. by rewrite lookup_take.
      + destruct (G3 (j - k)) as [y Hy]; [lia|]. exists y. rewrite -Hy. f_equal. lia.
  Qed.
  Lemma all_kept (p : A → bool) xs k : first_such (at_sat p xs) (length xs) k → k = length xs → filter (λ x, p x = false) xs = xs.
  Proof.
    intros (_&Hk&_) ->. apply filter_none. intros j x Hx. destruct (p x) eqn:E; [|done]. destruct (Hk j); [by eapply lookup_lt_Some|]. by exists x.
  Qed.
  Lemma remove_if_gives p fuel first xs m : holds m first xs → length xs < fuel →
    gives (a_remove_if moved p fuel first (first + length xs)) m (λ r m',
      r = first + length (filter (λ x, p x = false) xs) ∧ holds m' first (filter (λ x, p x = false) xs) ∧
      same_outside m first (length xs) m' ∧ live m' first (length xs)).
  Proof.
    intros H Hf. unfold a_remove_if. apply gives_bind. eapply gives_conseq; [by apply find_if_gives|].
    intros i m' (->&k&->&Hk). case_decide as Hd.
    - apply gives_ret. rewrite (all_kept p xs k Hk); [lia|]. split_and!; [lia|done|done|by apply holds_live].
    - assert (k < length xs) as Hlt by (destruct Hk; lia).
      eapply gives_conseq.
      + eapply gives_ext; [|apply (compact_gives p (λ x, ret (p x)) fuel (first + k) (first + k) (drop (S k) xs) (first + length xs) m first (length xs))].
        * apply loop_ext. intros [w j] s. cbn zeta. case_decide; [done|]. unfold bind, ard, ret. destruct (s !! S j) as [[y|]|]; [|done..]. by destruct (p y).
        * replace (S (first + k)) with (first + S k) by lia. by apply holds_drop.
        * lia.
        * rewrite drop_length. lia.
        * intros j Hj. destruct (holds_live _ _ _ H (k + j)) as [y Hy]; [lia|]. exists y. rewrite -Hy. f_equal. lia.
        * rewrite drop_length. lia.
        * lia.
        * done.
        * done.
      + intros r m'. by apply remove_post.
  Qed.
  Lemma remove_gives fuel first xs rv v m : holds m first xs → refers m rv v → outside rv first (length xs) → length xs < fuel →
    gives (a_remove aeq moved fuel first (first + length xs) rv) m (λ r m',
      r = first + length (filter (λ x, aeq x v = false) xs) ∧ holds m' first (filter (λ x, aeq x v = false) xs) ∧
      same_outside m first (length xs) m' ∧ live m' first (length xs)).
  Proof.
    intros H Hr Ho Hf. unfold a_remove. apply gives_bind. eapply gives_conseq; [by apply (find_gives _ fuel first xs rv v)|].
    intros i m' (->&k&->&Hk). case_decide as Hd.
    - apply gives_ret. rewrite (all_kept (λ x, aeq x v) xs k Hk); [lia|]. split_and!; [lia|done|done|by apply holds_live].
    - assert (k < length xs) as Hlt by (destruct Hk; lia).
      eapply gives_conseq.
      + eapply gives_ext; [|apply (compact_gives (λ x, aeq x v) (λ x, let! v := cget rv in ret (aeq x v)) fuel (first + k) (first + k) (drop (S k) xs) (first + length xs) m first (length xs))].
        * apply loop_ext. intros [w j] s. cbn zeta. case_decide; [done|]. unfold bind, ard, ret, cget. destruct (s !! S j) as [[y|]|]; [|done..].
          destruct rv as [z|q]; [done|]. unfold ard. destruct (s !! q) as [[z|]|]; done.
        * replace (S (first + k)) with (first + S k) by lia. by apply holds_drop.
        * lia.
        * rewrite drop_length. lia.
        * intros j Hj. destruct (holds_live _ _ _ H (k + j)) as [y Hy]; [lia|]. exists y. rewrite -Hy. f_equal. lia.
        * rewrite drop_length. lia.
        * lia.
        * done.
        * intros x s [Hs1 Hs2]. unfold bind. rewrite (refers_cget s rv v); [|done]. destruct rv as [|q]; [done|]. simpl in *. rewrite Hs2; [lia|done].
      + intros r m'. by apply (remove_post (λ x, aeq x v)).
  Qed.

  (** merging *)
  Inductive merges : list A → list A → list A → Prop :=
    | merges_nil_l ys : merges [] ys ys
    | merges_nil_r xs : merges xs [] xs
    | merges_l x xs y ys zs : alt y x = false → merges xs (y :: ys) zs → merges (x :: xs) (y :: ys) (x :: zs)
    | merges_r x xs y ys zs : alt y x = true → merges (x :: xs) ys zs → merges (x :: xs) (y :: ys) (y :: zs).
  Lemma merges_length xs ys zs : merges xs ys zs → length zs = length xs + length ys.
  Proof. induction 1; simpl in *; lia. Qed.
  Lemma merges_perm xs ys zs : merges xs ys zs → zs ≡ₚ xs ++ ys.
  Proof.
    induction 1; simpl; [done|by rewrite app_nil_r|by rewrite IHmerges|]. rewrite IHmerges /=.
    rewrite -Permutation_middle. by constructor.
  Qed.
  Lemma in_order_cons (lt : A → A → bool) x xs : in_order lt (x :: xs) ↔ (∀ y, y ∈ xs → lt y x = false) ∧ in_order lt xs.
  Proof.
    split.
    - intros H. split.
      + intros y [j Hy]%elem_of_list_lookup. apply (H 0 (S j)); [lia|done..].
      + intros i j a b Hij. apply (H (S i) (S j)). lia.
    - intros [H1 H2] [|i] [|j] a b Hij Ha Hb; simplify_eq/=; [lia|apply H1; by eapply elem_of_list_lookup_2|lia|].
      apply (H2 i j); [lia|done..].
  Qed.
  Lemma merges_stable xs ys zs : weak_order alt → in_order alt xs → in_order alt ys → merges xs ys zs → stable_merge alt xs ys zs.
  Proof.
    intros HW Hx Hy Hm. split; [by apply merges_perm|]. revert Hx Hy.
    induction Hm as [ys|xs|x xs y ys zs E Hm IH|x xs y ys zs E Hm IH]; intros Hx Hy.
    - split; [done|]. intros z. done.
    - split; [done|]. intros z. by rewrite app_nil_r.
    - apply in_order_cons in Hx as [Hx1 Hx2]. destruct (IH Hx2 Hy) as [IH1 IH2]. split.
      + apply in_order_cons. split; [|done]. intros z. rewrite (merges_perm _ _ _ Hm) elem_of_app. intros [Hz|Hz]; [by apply Hx1|].
        apply elem_of_cons in Hz as [->|Hz]; [done|]. apply in_order_cons in Hy as [Hy1 _].
        apply (wo_ntrans alt x y z HW); [done|by apply Hy1].
      + intros z. rewrite !filter_cons. case_decide; by rewrite IH2.
    - pose proof Hx as Hx0. apply in_order_cons in Hy as [Hy1 Hy2]. destruct (IH Hx Hy2) as [IH1 IH2].
      assert (∀ x', x' ∈ x :: xs → alt y x' = true) as Hlt.
      { intros x' [->|Hx']%elem_of_cons; [done|]. apply in_order_cons in Hx as [Hx1 _]. by apply (wo_trans_l alt y x x' HW E), Hx1. }
      split.
      + apply in_order_cons. split; [|done]. intros z. rewrite (merges_perm _ _ _ Hm) elem_of_app. intros [Hz|Hz]; [|by apply Hy1].
        destruct (alt z y) eqn:E2; [|done]. pose proof (wo_trans alt HW _ _ _ E2 (Hlt z Hz)) as F. by rewrite (wo_irrefl alt HW) in F.
      + intros z. rewrite (filter_cons _ y). rewrite (filter_cons _ y). case_decide as Hz; [|done]. rewrite IH2.
        assert (filter (equivalent alt z) (x :: xs) = []) as ->.
        { clear -HW Hlt Hz. destruct Hz as [Hz1 Hz2]. generalize dependent Hlt. generalize (x :: xs) as l. induction l as [|a l IHl]; intros Hl; [done|].
          rewrite filter_cons_False; [|apply IHl; intros; apply Hl; by right]. intros [Ha1 Ha2].
          rewrite (wo_trans_r alt y a z HW) in Ha1; [apply Hl; by left|done|done]. }
        done.
  Qed.
  Lemma written_app m i xs ys m1 m2 : written m i xs m1 → written m1 (i + length xs) ys m2 → written m i (xs ++ ys) m2.
  Proof.
    intros (H1&H2&H3) (G1&G2&G3). split_and!.
    - apply holds_app. split; [|done]. intros k x Hk. rewrite G3; [apply lookup_lt_Some in Hk; lia|by apply H1].
    - congruence.
    - intros j Hj. rewrite app_length in Hj. rewrite G3; [lia|]. apply H3. lia.
  Qed.
  Lemma live_written m i xs m' d n : written m i xs m' → live m d n → live m' d n.
  Proof.
    intros (H1&H2&H3) Hl k Hk. destruct (decide (d + k < i ∨ i + length xs ≤ d + k)) as [|Hn]; [rewrite H3; [done|by apply Hl]|].
    destruct (lookup_lt_is_Some_2 xs (d + k - i)) as [x Hx]; [lia|]. exists x. rewrite -(H1 _ _ Hx). f_equal. lia.
  Qed.
  Lemma merge_gives fuel f1 xs f2 ys o m : holds m f1 xs → holds m f2 ys → live m o (length xs + length ys) →
    apart f1 (length xs) o (length xs + length ys) → apart f2 (length ys) o (length xs + length ys) →
    length xs + length ys < fuel →
    gives (a_merge alt fuel f1 (f1 + length xs) f2 (f2 + length ys) o) m (λ r m',
      r = o + (length xs + length ys) ∧ ∃ zs, merges xs ys zs ∧ written m o zs m').
  Proof.
    intros H1 H2 Hl Ha1 Ha2 Hf. unfold a_merge.
    assert (∃ cf, cf = fuel) as (cf&Ecf) by eauto. replace (@a_copy A fuel) with (@a_copy A cf) by congruence.
    assert (length xs + length ys < cf) as Hcf by lia. clear Ecf. apply gives_bind.
    eapply (gives_conseq _ _ (λ r m', ∃ ws, match r with
      | inl o' => o' = o + (length xs + length ys) ∧ merges xs ys ws ∧ written m o ws m'
      | inr (f2', o') => ∃ ys', f2' = f2 + (length ys - length ys') ∧ length ys' ≤ length ys ∧ o' = o + length ws ∧ length ws = length xs + (length ys - length ys') ∧
           merges xs ys (ws ++ ys') ∧ written m o ws m' ∧ holds m' f2' ys'
      end)).
    - clear -Hf Hcf H1 H2 Hl Ha1 Ha2. revert f1 f2 o xs ys m H1 H2 Hl Ha1 Ha2 Hf Hcf.
      induction fuel as [|fuel IH]; intros f1 f2 o xs ys m H1 H2 Hl Ha1 Ha2 Hf Hcf; [lia|]. apply gives_unfold.
      destruct xs as [|x xs].
      { cbn [length]. dT. apply gives_ret. exists [], ys. split_and!; [simpl; lia|lia|simpl; lia|simpl; lia|constructor|apply written_nil|].
        replace (f2 + (length ys - length ys)) with f2 by lia. done. }
      destruct ys as [|y ys].
      { cbn [length] in *. dF. dT. apply gives_bind. unfold apart in *.
        eapply gives_conseq; [apply (copy_gives cf f1 (x :: xs) o m H1); [cbn [length]; by rewrite Nat.add_0_r in Hl|cbn [length]; lia|cbn [length]; lia]|].
        intros r m' [-> Hw]. apply gives_ret. exists (x :: xs). split_and!; [simpl; lia|constructor|done]. }
      cbn [length] in *. unfold apart in *. pose proof H1 as H1c. pose proof H2 as H2c. apply holds_cons in H1 as [H1 H1'], H2 as [H2 H2'].
      dF. dF. apply gives_bind. apply (gives_ard _ _ y); [done|]. apply gives_bind. apply (gives_ard _ _ x); [done|].
      destruct (Hl 0) as [z Hz]; [lia|]. rewrite Nat.add_0_r in Hz. destruct (alt y x) eqn:E.
      + apply gives_bind. apply (gives_ard _ _ y); [done|]. apply gives_bind. apply (gives_awr _ _ z); [done|]. apply gives_ret.
        specialize (IH f1 (S f2) (S o) (x :: xs) ys (<[o:=Some y]> m)).
        replace (f2 + S (length ys)) with (S f2 + length ys) by lia. cbn [length] in IH.
        eapply gives_conseq; [apply IH|].
        * apply holds_insert; [done|cbn [length]; lia].
        * apply holds_insert; [done|lia].
        * apply live_insert. intros k Hk. destruct (Hl (S k)) as [w Hw]; [lia|]. exists w. by rewrite Nat.add_succ_r in Hw.
        * lia.
        * lia.
        * lia.
        * lia.
        * intros [o'|[f2' o']] m'.
          -- intros (ws&->&Hm&Hw). exists (y :: ws). split_and!; [lia|by constructor|by eapply written_cons].
          -- intros (ws&ys'&->&Hle&->&Hlw&Hm&Hw&Hh). exists (y :: ws), ys'. cbn [length].
             split_and!; [lia|lia|lia|lia|by constructor|by eapply written_cons|done].
      + apply gives_bind. apply (gives_ard _ _ x); [done|]. apply gives_bind. apply (gives_awr _ _ z); [done|]. apply gives_ret.
        specialize (IH (S f1) f2 (S o) xs (y :: ys) (<[o:=Some x]> m)).
        replace (f1 + S (length xs)) with (S f1 + length xs) by lia. cbn [length] in IH.
        eapply gives_conseq; [apply IH|].
        * apply holds_insert; [done|lia].
        * apply holds_insert; [done|cbn [length]; lia].
        * apply live_insert. intros k Hk. destruct (Hl (S k)) as [w Hw]; [lia|]. exists w. by rewrite Nat.add_succ_r in Hw.
        * lia.
        * lia.
        * lia.
        * lia.
        * intros [o'|[f2' o']] m'.
          -- intros (ws&->&Hm&Hw). exists (x :: ws). split_and!; [lia|by constructor|by eapply written_cons].
          -- intros (ws&ys'&->&Hle&->&Hlw&Hm&Hw&Hh). exists (x :: ws), ys'. cbn [length].
             split_and!; [lia|lia|lia|lia|by constructor|by eapply written_cons|done].
    - intros [o'|[f2' o']] m' (ws&Hr).
      + destruct Hr as (->&Hm&Hw). apply gives_ret. split; [done|]. by exists ws.
      + destruct Hr as (ys'&->&Hle&->&Hlw&Hm&Hw&Hh). unfold apart in *.
        replace (f2 + length ys) with (f2 + (length ys - length ys') + length ys') by lia.
        eapply gives_conseq; [apply (copy_gives cf _ ys' _ m' Hh)|].
        * eapply live_written; [done|]. intros k Hk. destruct (Hl (length ws + k)) as [w Hwk]; [lia|]. exists w. rewrite -Hwk. f_equal. lia.
        * lia.
        * lia.
        * intros r m2 [-> Hw2]. split; [lia|]. exists (ws ++ ys'). split; [done|]. by eapply written_app.
  Qed.
End writing.
