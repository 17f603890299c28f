(** Facts about ascending sequences of entries. Proof file. *)
From Coq Require Import ssreflect.
From Verif Require Export SvmSpec.

Section pure.
  Context {K T : Type} (keq comp : K → K → bool) (dfltT : T).
  Notation E := (K * T)%type.
  Implicit Types (k l : K) (x : T) (xs ys : list E) (e f : E).
  Notation asc := (ascending (T:=T) comp).

  Lemma asc_cons e xs : asc (e :: xs) ↔ (∀ f, f ∈ xs → comp e.1 f.1 = true) ∧ asc xs.
  Proof.
    split.
    - intros Ha. split.
      + intros f [i Hi]%elem_of_list_lookup. apply (Ha 0 (S i)); [done|done|lia].
      + intros i j a b Hi Hj Hij. apply (Ha (S i) (S j)); [done|done|lia].
    - intros [Hf Ha] [|i] [|j] a b Hi Hj Hij; simpl in *; try lia; simplify_eq.
      + apply Hf. by eapply elem_of_list_lookup_2.
      + eapply Ha; [done..|lia].
  Qed.
  Lemma asc_nil : asc [].
  Proof. intros i j e f Hi. done. Qed.
  Lemma asc_app xs ys :
    asc (xs ++ ys) ↔ asc xs ∧ asc ys ∧ ∀ e f, e ∈ xs → f ∈ ys → comp e.1 f.1 = true.
  Proof.
    induction xs as [|e xs IH]; simpl.
    - split; [|by intros (_&?&_)]. intros Ha. split; [apply asc_nil|]. split; [done|]. intros ?? []%elem_of_nil.
    - rewrite !asc_cons IH. split.
      + intros (Hf&Hx&Hy&Hxy). split_and!; [|done|done|].
        * intros f Hf'. apply Hf, elem_of_app. by left.
        * intros a b [->|Ha]%elem_of_cons Hb; [|by apply Hxy]. apply Hf, elem_of_app. by right.
      + intros ((Hf&Hx)&Hy&Hxy). split_and!; [|done|done|].
        * intros f [Hf'|Hf']%elem_of_app; [by apply Hf|]. apply Hxy; [by left|done].
        * intros a b Ha Hb. apply Hxy; [by right|done].
  Qed.
  Lemma asc_keys xs ys : xs.*1 = ys.*1 → asc xs → asc ys.
  Proof.
    revert ys. induction xs as [|e xs IH]; intros [|f ys] Hk; simplify_eq/=; [done|].
    rewrite !asc_cons. intros [Hf Ha]. split; [|by apply IH]. intros g Hg.
    assert (g.1 ∈ ys.*1) as Hg1 by (by apply elem_of_list_fmap_1).
    rewrite -H0 in Hg1. apply elem_of_list_fmap in Hg1 as (g'&->&Hg'). rewrite -H. by apply Hf.
  Qed.

  Lemma filter_all' (P : E → Prop) `{!∀ e, Decision (P e)} xs : (∀ e, e ∈ xs → P e) → filter P xs = xs.
  Proof.
    induction xs as [|e xs IH]; intros HP; [done|]. rewrite filter_cons decide_True; [apply HP; by left|].
    f_equal. apply IH. intros ??. apply HP. by right.
  Qed.
  Lemma filter_none' (P : E → Prop) `{!∀ e, Decision (P e)} xs : (∀ e, e ∈ xs → ¬ P e) → filter P xs = [].
  Proof.
    induction xs as [|e xs IH]; intros HP; [done|]. rewrite filter_cons decide_False; [apply HP; by left|].
    apply IH. intros ??. apply HP. by right.
  Qed.
  (** *** Splitting at a key *)
  Definition cut k xs p : Prop :=
    p ≤ length xs ∧ (∀ e, e ∈ take p xs → comp e.1 k = true) ∧ (∀ e, e ∈ drop p xs → comp e.1 k = false).
  Lemma cut_below k xs p : cut k xs p →
    below comp k xs = take p xs ∧ not_below comp k xs = drop p xs ∧ length (below comp k xs) = p.
  Proof.
    intros (Hp&H1&H2).
    assert (below comp k xs = take p xs) as Hb.
    { unfold below. rewrite -{1}(take_drop p xs) filter_app filter_all'; [done|].
      rewrite filter_none'; [intros f Hf; by rewrite H2|]. by rewrite app_nil_r. }
    split; [done|]. split.
    - unfold not_below. rewrite -{1}(take_drop p xs) filter_app filter_none'; [intros f Hf; by rewrite H1|].
      by rewrite filter_all'.
    - rewrite Hb take_length. lia.
  Qed.

  Context (Hko : key_order keq comp).
  Lemma keq_comp_l k l : keq k l = true → comp k l = false.
  Proof. by intros [? ?]%(ko_eq _ _ Hko). Qed.
  Lemma keq_comp_r k l : keq k l = true → comp l k = false.
  Proof. by intros [? ?]%(ko_eq _ _ Hko). Qed.
  Lemma keq_refl k : keq k k = true.
  Proof. apply (ko_eq _ _ Hko). by rewrite (ko_irrefl _ _ Hko). Qed.
  Lemma keq_sym k l : keq k l = true → keq l k = true.
  Proof. intros [??]%(ko_eq _ _ Hko). by apply (ko_eq _ _ Hko). Qed.
  Lemma keq_sym_eq k l : keq k l = keq l k.
  Proof. destruct (keq k l) eqn:E1, (keq l k) eqn:E2; try done; apply keq_sym in E1 || apply keq_sym in E2; congruence. Qed.
  Lemma keq_lt k l m : keq k l = true → comp k m = comp l m.
  Proof.
    intros [H1 H2]%(ko_eq _ _ Hko). destruct (comp k m) eqn:E1, (comp l m) eqn:E2; try done.
    - destruct (ko_weak _ _ Hko k m l E1); congruence.
    - destruct (ko_weak _ _ Hko l m k E2); congruence.
  Qed.
  Lemma keq_gt k l m : keq k l = true → comp m k = comp m l.
  Proof.
    intros [H1 H2]%(ko_eq _ _ Hko). destruct (comp m k) eqn:E1, (comp m l) eqn:E2; try done.
    - destruct (ko_weak _ _ Hko m k l E1); congruence.
    - destruct (ko_weak _ _ Hko m l k E2); congruence.
  Qed.
  Lemma keq_trans k l m : keq k l = true → keq l m = true → keq k m = true.
  Proof.
    intros H1 [H2 H3]%(ko_eq _ _ Hko). apply (ko_eq _ _ Hko). by rewrite (keq_lt k l m) // (keq_gt k l m).
  Qed.
  Lemma comp_asym k l : comp k l = true → comp l k = false.
  Proof.
    intros H. destruct (comp l k) eqn:E; [|done].
    pose proof (ko_trans _ _ Hko _ _ _ H E) as H2. by rewrite (ko_irrefl _ _ Hko) in H2.
  Qed.
  Lemma keq_false k l : keq k l = false → comp k l = false → comp l k = true.
  Proof.
    intros H1 H2. destruct (comp l k) eqn:E; [done|].
    assert (keq k l = true) by (by apply (ko_eq _ _ Hko)). congruence.
  Qed.

  Lemma asc_cut k xs : asc xs → cut k xs (length (below comp k xs)).
  Proof.
    induction xs as [|e xs IH].
    - intros _. split; [done|]. split; intros ? []%elem_of_nil.
    - rewrite asc_cons. intros [Hf Ha]. unfold below. rewrite filter_cons.
      destruct (IH Ha) as (H1&H2&H3). destruct (decide _) as [Hc|Hc].
      + unfold cut. simpl. split; [unfold below in H1; lia|]. split; [|done].
        intros f [->|Hf']%elem_of_cons; [done|]. by apply H2.
      + apply not_true_is_false in Hc.
        rewrite filter_none'.
        * intros f Hf' E. rewrite (ko_trans _ _ Hko e.1 f.1 k) // in Hc. by apply Hf.
        * simpl. split; [simpl; lia|]. split; [intros ? []%elem_of_nil|].
          intros f [->|Hf']%elem_of_cons; [done|].
          destruct (comp f.1 k) eqn:E; [|done].
          rewrite (ko_trans _ _ Hko e.1 f.1 k) // in Hc. by apply Hf.
  Qed.
  Lemma present_spec k xs : present keq k xs = true ↔ ∃ e, e ∈ xs ∧ keq e.1 k = true.
  Proof.
    unfold present. rewrite existsb_exists. split; intros (e&He&Hk); exists e; split; try done.
    - by apply elem_of_list_In.
    - by apply elem_of_list_In.
  Qed.
  Lemma present_false k xs : present keq k xs = false ↔ ∀ e, e ∈ xs → keq e.1 k = false.
  Proof.
    split.
    - intros Hp e He. destruct (keq e.1 k) eqn:E; [|done].
      assert (present keq k xs = true) by (apply present_spec; eauto). congruence.
    - intros Hf. destruct (present keq k xs) eqn:E; [|done]. apply present_spec in E as (e&He&Hk).
      by rewrite Hf in Hk.
  Qed.
  (** an entry with the key is at the cut *)
  Lemma keq_at_cut k xs i e : asc xs → xs !! i = Some e → keq e.1 k = true → i = length (below comp k xs).
  Proof.
    intros Ha Hi Hk. destruct (asc_cut k xs Ha) as (H1&H2&H3). set (p := length _) in *.
    destruct (decide (i < p)) as [Hlt|Hge].
    - assert (comp e.1 k = true) as Hc; [|by rewrite (keq_comp_l _ _ Hk) in Hc].
      apply H2. eapply (elem_of_list_lookup_2 _ i). by rewrite lookup_take.
    - destruct (decide (i = p)) as [->|Hne]; [done|].
      destruct (lookup_lt_is_Some_2 xs p) as [f Hf]; [apply lookup_lt_Some in Hi; lia|].
      assert (comp f.1 e.1 = true) as Hc by (apply (Ha p i); [done|done|lia]).
      rewrite (keq_gt e.1 k f.1 Hk) H3 // in Hc.
      eapply (elem_of_list_lookup_2 _ 0). by rewrite lookup_drop Nat.add_0_r.
  Qed.
  Lemma present_lookup k xs : asc xs →
    present keq k xs = match xs !! length (below comp k xs) with Some e => keq e.1 k | None => false end.
  Proof.
    intros Ha. destruct (present keq k xs) eqn:Hp.
    - apply present_spec in Hp as (e&He&Hk). apply elem_of_list_lookup in He as [i Hi].
      rewrite -(keq_at_cut k xs i e) // Hi //.
    - destruct (xs !! _) eqn:E; [|done]. rewrite present_false in Hp. symmetry. apply Hp. by eapply elem_of_list_lookup_2.
  Qed.
  Lemma value_of_lookup k xs : asc xs →
    value_of keq k xs = match xs !! length (below comp k xs) with
                        | Some e => if keq e.1 k then Some e.2 else None | None => None end.
  Proof.
    intros Ha.
    assert (∀ i e, xs !! i = Some e → keq e.1 k = true → value_of keq k xs = Some e.2) as H1.
    { clear -Ha Hko. induction xs as [|f xs IH]; intros i e Hi Hk; [done|]. apply asc_cons in Ha as [Hf Ha]. simpl.
      destruct (keq f.1 k) eqn:Hfk.
      - destruct i as [|i]; simpl in Hi; [by simplify_eq|]. exfalso.
        pose proof (Hf e ltac:(by eapply elem_of_list_lookup_2)) as Hc.
        rewrite (keq_gt e.1 k) // (keq_comp_l f.1 k) // in Hc.
      - destruct i as [|i]; simpl in Hi; [simplify_eq; congruence|]. by eapply IH. }
    destruct (xs !! _) as [e|] eqn:E.
    - destruct (keq e.1 k) eqn:Hk; [by eapply H1|].
      assert (present keq k xs = false) as Hp by (rewrite present_lookup // E //).
      clear -Hp. induction xs as [|f xs IH]; [done|]. simpl in *.
      destruct (keq f.1 k); [done|]. simpl in *. by apply IH.
    - assert (present keq k xs = false) as Hp by (rewrite present_lookup // E //).
      clear -Hp. induction xs as [|f xs IH]; [done|]. simpl in *.
      destruct (keq f.1 k); [done|]. simpl in *. by apply IH.
  Qed.
  Lemma value_of_present k xs : present keq k xs = bool_decide (is_Some (value_of keq k xs)).
  Proof.
    induction xs as [|e xs IH]; simpl; [done|]. destruct (keq e.1 k); simpl; [done|apply IH].
  Qed.
  Lemma not_above_length k xs : asc xs →
    length (not_above comp k xs) = length (below comp k xs) + (if present keq k xs then 1 else 0).
  Proof.
    induction xs as [|e xs IH]; [done|]. rewrite asc_cons. intros [Hf Ha].
    unfold not_above, below. rewrite !filter_cons. simpl. 
    destruct (keq e.1 k) eqn:Hk.
    - rewrite decide_True; [by apply keq_comp_r|]. rewrite decide_False; [by rewrite (keq_comp_l _ _ Hk)|].
      simpl. rewrite !filter_none'; [| |done].
      + intros f Hf'. rewrite -(keq_lt e.1 k) // Hf //.
      + intros f Hf'. rewrite -(keq_gt e.1 k) // comp_asym //. by apply Hf.
    - destruct (comp e.1 k) eqn:Hc.
      + rewrite decide_True; [by apply comp_asym|]. destruct (decide (true = true)); [|done]. simpl. f_equal. by apply IH.
      + rewrite decide_False; [by rewrite (keq_false e.1 k)|]. destruct (decide (false = true)); [done|]. by apply IH.
  Qed.
  Lemma cut_unique k xs p : cut k xs p → p = length (below comp k xs).
  Proof. intros Hc. by destruct (cut_below _ _ _ Hc) as (_&_&->). Qed.

  (** *** Insertion and assignment *)
  Lemma asc_add k x (s : sv_state) : asc s.1 → asc (sv_add keq comp k x s).1.
  Proof.
    intros Ha. unfold sv_add. destruct (present keq k s.1) eqn:Hp; [done|]. simpl.
    pose proof (asc_cut k s.1 Ha) as Hcut. revert Hcut. generalize (length (below comp k s.1)).
    intros p Hcut. destruct (cut_below _ _ _ Hcut) as (->&->&_).
    destruct Hcut as (_&H1&H2).
    rewrite -{1}(take_drop p s.1) in Ha. apply asc_app in Ha as (Ha1&Ha2&Ha3).
    rewrite present_false in Hp.
    assert (∀ f, f ∈ drop p s.1 → comp k f.1 = true) as Hd.
    { intros f Hf. apply keq_false; [|by apply H2]. apply Hp.
      rewrite -(take_drop p s.1). apply elem_of_app. by right. }
    apply asc_app. split; [done|]. split; [by apply asc_cons; split; [exact Hd|]|].
    intros e f He [->|Hf]%elem_of_cons; [by apply H1|by apply Ha3].
  Qed.
  Lemma sv_set_keys k x xs : (sv_set keq k x xs).*1 = xs.*1.
  Proof.
    unfold sv_set. induction xs as [|e xs IH]; [done|]. rewrite !fmap_cons IH. by destruct (keq _ _).
  Qed.
  Lemma value_set k l x xs :
    value_of keq k (sv_set keq l x xs) = if keq l k then (if present keq l xs then Some x else None) else value_of keq k xs.
  Proof.
    unfold sv_set. induction xs as [|e xs IH]; simpl; [by destruct (keq l k)|].
    destruct (keq e.1 l) eqn:Hel; simpl.
    - destruct (keq e.1 k) eqn:Hek.
      + rewrite (keq_trans l e.1 k) //. by apply keq_sym.
      + destruct (keq l k) eqn:Hlk; [|by rewrite IH].
        by rewrite (keq_trans e.1 l k) in Hek.
    - destruct (keq e.1 k) eqn:Hek; [|done].
      destruct (keq l k) eqn:Hlk; [|done].
      rewrite (keq_trans e.1 k l) // in Hel. by apply keq_sym.
  Qed.
  Lemma value_of_app k xs ys :
    value_of keq k (xs ++ ys) = match value_of keq k xs with Some x => Some x | None => value_of keq k ys end.
  Proof. induction xs as [|e xs IH]; simpl; [done|]. destruct (keq e.1 k); [done|apply IH]. Qed.
  Lemma value_none k xs : present keq k xs = false ↔ value_of keq k xs = None.
  Proof.
    rewrite value_of_present bool_decide_eq_false. destruct (value_of keq k xs); split; try done.
    intros []; eauto.
  Qed.
  Lemma value_add k l x (s : sv_state) : asc s.1 →
    value_of keq k (sv_add keq comp l x s).1 =
      if keq l k then Some (default x (value_of keq k s.1)) else value_of keq k s.1.
  Proof.
    intros Ha. unfold sv_add. destruct (present keq l s.1) eqn:Hp.
    - destruct (keq l k) eqn:Hk; [|done].
      apply present_spec in Hp as (e&He&Hel).
      assert (present keq k s.1 = true) as Hp.
      { apply present_spec. exists e. split; [done|]. by eapply keq_trans. }
      rewrite value_of_present in Hp. apply bool_decide_eq_true in Hp as [y ->]. done.
    - simpl. pose proof (asc_cut l s.1 Ha) as Hcut. revert Hcut. generalize (length (below comp l s.1)).
      intros p Hcut. destruct (cut_below _ _ _ Hcut) as (->&->&_). rewrite value_of_app. simpl.
      assert (value_of keq k s.1 = match value_of keq k (take p s.1) with Some x => Some x | None => value_of keq k (drop p s.1) end) as Hs.
      { rewrite -value_of_app take_drop //. }
      destruct (keq l k) eqn:Hk; [|by rewrite Hs].
      assert (present keq k s.1 = false) as Hpk.
      { rewrite present_false in Hp. apply present_false. intros e He. destruct (keq e.1 k) eqn:Hek; [|done].
        rewrite -(Hp e He). symmetry. eapply keq_trans; [done|]. by apply keq_sym. }
      apply value_none in Hpk. rewrite Hpk. rewrite Hpk in Hs.
      by destruct (value_of keq k (take p s.1)).
  Qed.
End pure.
