(** vector_map: the property lemmas, in the vocabulary of Triple.v, VmapSpec.v and
    HistoryV.v only. *)
From Verif Require Import VmapProofs.
From iris.proofmode Require Import tactics.
(*@HEADER
From Verif Require Import VmapSpec VmapRuns.

Section vector_map.
  Context {K T : Type} `{Allocator (list (option (K * T)))}
    (keq : K → K → bool) (dfltK : K) (dfltT : T) (eqb : K * T → K * T → bool).
@*)
(*@FOOTER
End vector_map.
@*)

Section vector_map.
  Context {K T : Type} `{Allocator (list (option (K * T)))}
    (keq : K → K → bool) (dfltK : K) (dfltT : T) (eqb : K * T → K * T → bool).
  Notation E := (K * T)%type.
  Implicit Types (k l : K) (x : T) (xs : list E).

  (*@ C36,C37_partial Whole programs on two vector_maps: every history of insert, operator[], find, at, count
     of absent keys and all calls inherited from vector (within [ve_ok]) observes what the
     abstract sequence of entries prescribes; nothing goes wrong, no memory is left. *)
  Lemma vmap_history ops :
    v_correct v_new v_destroy (vm_step keq dfltK dfltT eqb) ([], 0) (vm_spec keq dfltK dfltT eqb) (λ _, True) ops.
  Proof.
    apply (v_program_correct _ _ _ _ _ vecR vneed).
    - apply vec_new_R.
    - intros fuel a s _ Hf. iIntros "H". iApply (wp_v_destroy with "H"). unfold vneed in Hf. lia.
    - intros. by eapply wp_vm_step.
  Qed.
  (*@ C36 ... and what is in memory after it. *)
  Lemma vmap_reaches ops :
    v_reaches v_new (vm_step keq dfltK dfltT eqb) ([], 0) (vm_spec keq dfltK dfltT eqb)
      (λ v s h, v_capacity v = s.2 ∧ is_vec v s.1 h) ops.
  Proof.
    apply (v_prefix_reaches _ _ _ _ vecR vneed).
    - apply vec_new_R.
    - intros. by eapply wp_vm_step.
    - intros v s. iIntros "H". iDestruct (vecP_last with "H") as %(_&He&_).
      unfold vecR. rewrite -He -vec_holds. iSplit; [done|]. done.
  Qed.

  (** *** From sequences to maps *)
  Lemma kpos_spec k xs :
    match xs !! kpos keq k xs with
    | Some e => keq k e.1 = true
    | None => kpos keq k xs = length xs ∧ ∀ e, e ∈ xs → keq k e.1 = false
    end.
  Proof.
    induction xs as [|e xs IH]; simpl; [split; [done|]; intros ? []%elem_of_nil|].
    destruct (keq k e.1) eqn:Hk; [done|]. simpl. destruct (xs !! kpos keq k xs); [done|].
    destruct IH as [-> IH]. split; [done|]. intros f [->|Hf]%elem_of_cons; auto.
  Qed.
  Definition kval k xs : option T := snd <$> xs !! kpos keq k xs.
  Lemma kpos_app k xs ys :
    kpos keq k (xs ++ ys) = if decide (kpos keq k xs < length xs) then kpos keq k xs else length xs + kpos keq k ys.
  Proof.
    induction xs as [|e xs IH]; simpl; [done|]. destruct (keq k e.1).
    - destruct (decide (0 < S (length xs))); [done|lia].
    - rewrite IH. destruct (decide (kpos keq k xs < length xs)), (decide (S (kpos keq k xs) < S (length xs))); simpl; lia.
  Qed.
  Lemma kpos_le' k xs : kpos keq k xs ≤ length xs.
  Proof. apply kpos_le. Qed.
  Lemma kpos_ext k l xs : key_equiv keq → keq k l = true → kpos keq k xs = kpos keq l xs.
  Proof.
    intros [Hr Hs Ht] Hkl. induction xs as [|e xs IH]; simpl; [done|].
    destruct (keq k e.1) eqn:H1, (keq l e.1) eqn:H2; try done.
    - rewrite (Ht l k e.1) // in H2. by apply Hs.
    - by rewrite (Ht k l e.1) // in H1.
    - by rewrite IH.
  Qed.
  Lemma kval_add k l x (s : ve_state E) : key_equiv keq →
    kval k (vm_add keq l x s).1 = if keq k l then Some (default x (kval k s.1)) else kval k s.1.
  Proof.
    intros He. destruct s as [xs c]. unfold vm_add. simpl. destruct (decide _) as [Hlt|Hge].
    - destruct (keq k l) eqn:Hkl; [|done]. unfold kval. simpl. rewrite (kpos_ext k l) //.
      by destruct (lookup_lt_is_Some_2 xs _ Hlt) as [? ->].
    - simpl. unfold kval. rewrite kpos_app. pose proof (kpos_le' k xs). destruct (keq k l) eqn:Hkl.
      + rewrite (kpos_ext k l xs) //. destruct (decide _); [done|]. simpl. rewrite Hkl.
        rewrite lookup_app_r; [|lia]. rewrite Nat.add_0_r Nat.sub_diag /=.
        rewrite lookup_ge_None_2; [done|lia].
      + destruct (decide _) as [Hlt|]; [by rewrite lookup_app_l|]. simpl. rewrite Hkl.
        rewrite lookup_app_r; [|lia]. rewrite (_ : length xs + 1 - length xs = 1); [|lia]. simpl.
        rewrite lookup_ge_None_2; [done|lia].
  Qed.
  Lemma keys_add l x (s : ve_state E) :
    (vm_add keq l x s).1.*1 = if existsb (λ k, keq l k) s.1.*1 then s.1.*1 else s.1.*1 ++ [l].
  Proof.
    destruct s as [xs c]. unfold vm_add. simpl.
    assert (existsb (λ k, keq l k) xs.*1 = bool_decide (kpos keq l xs < length xs)) as ->.
    { induction xs as [|e xs IH]; simpl; [done|]. rewrite IH. destruct (keq l e.1); simpl.
      - done.
      - apply bool_decide_ext. lia. }
    destruct (decide _); [rewrite bool_decide_eq_true_2 //|rewrite bool_decide_eq_false_2 //].
    simpl. by rewrite fmap_app.
  Qed.
  Lemma distinct_add l x (s : ve_state E) : key_equiv keq →
    distinct_keys keq s.1 → distinct_keys keq (vm_add keq l x s).1.
  Proof.
    intros [Hr Hs Ht] Hd. destruct s as [xs c]. unfold vm_add. simpl in *. destruct (decide _) as [|Hge]; [done|]. simpl.
    pose proof (kpos_spec l xs) as Hsp. pose proof (kpos_le' l xs).
    rewrite lookup_ge_None_2 in Hsp; [|lia]. destruct Hsp as [_ Hsp].
    intros i j e f Hi Hj Hef.
    apply lookup_app_Some in Hi as [Hi|[Hi1 Hi]]; apply lookup_app_Some in Hj as [Hj|[Hj1 Hj]].
    - eauto.
    - apply list_lookup_singleton_Some in Hj as [Hj <-]. simpl in Hef.
      apply Hs in Hef. rewrite (Hsp e) in Hef; [done|by eapply elem_of_list_lookup_2].
    - apply list_lookup_singleton_Some in Hi as [Hi <-]. simpl in Hef.
      rewrite (Hsp f) in Hef; [done|by eapply elem_of_list_lookup_2].
    - apply list_lookup_singleton_Some in Hi as [Hi ?], Hj as [Hj ?]. lia.
  Qed.
  Lemma set_val_keys i x xs : (set_val i x xs).*1 = xs.*1.
  Proof.
    unfold set_val. revert i. induction xs as [|e xs IH]; intros [|i]; simpl; [done..|]. f_equal. apply IH.
  Qed.
  Lemma kpos_keys k (xs ys : list (K * T)) : xs.*1 = ys.*1 → kpos keq k xs = kpos keq k ys.
  Proof.
    revert ys. induction xs as [|e xs IH]; intros [|f ys]; intros; simplify_eq/=; [done|].
    rewrite H0. destruct (keq _ _); [done|]. f_equal. by apply IH.
  Qed.
  Lemma distinct_by_keys (xs ys : list (K * T)) : xs.*1 = ys.*1 → distinct_keys keq xs → distinct_keys keq ys.
  Proof.
    intros Hk Hd i j e f Hi Hj Hef.
    assert (∀ i e, ys !! i = Some e → ∃ e', xs !! i = Some e' ∧ e'.1 = e.1) as Hl.
    { intros a b Hab. assert (ys.*1 !! a = Some b.1) as Hy by (by rewrite list_lookup_fmap Hab).
      rewrite -Hk list_lookup_fmap in Hy. apply fmap_Some in Hy as (e'&?&?). eauto. }
    destruct (Hl _ _ Hi) as (e'&?&He'), (Hl _ _ Hj) as (f'&?&Hf'). eapply Hd; [done..|]. by rewrite He' Hf'.
  Qed.
  Lemma existsb_kpos l xs : kpos keq l xs < length xs → ∃ e, xs !! kpos keq l xs = Some e ∧ keq l e.1 = true.
  Proof.
    intros Hlt. pose proof (kpos_spec l xs). destruct (lookup_lt_is_Some_2 xs _ Hlt) as [e He].
    rewrite He in H0. eauto.
  Qed.
  Lemma holds_kval k x xs : key_equiv keq → distinct_keys keq xs →
    holds_key keq xs k x ↔ kval k xs = Some x.
  Proof.
    intros [Hr Hs Ht] Hd. unfold kval. pose proof (kpos_spec k xs) as Hsp. split.
    - intros (e&He&Hk&<-). destruct (xs !! kpos keq k xs) as [f|] eqn:Hf.
      + simpl. f_equal. apply elem_of_list_lookup in He as [i Hi].
        assert (i = kpos keq k xs) as ->; [|by simplify_eq].
        eapply Hd; [exact Hi|exact Hf|]. eapply Ht; [|exact Hsp]. by apply Hs.
      + destruct Hsp as [_ Hsp]. by rewrite Hsp in Hk.
    - intros (e&He&->)%fmap_Some. rewrite He in Hsp. exists e. split_and!; [|done..].
      by eapply elem_of_list_lookup_2.
  Qed.
  (** effect of a call on the container it is called on *)
  Definition eff (op : vm_op K T) (s : ve_state E) : ve_state E :=
    match op with
    | MInsert k x => vm_add keq k x s
    | MIndex k => vm_add keq k dfltT s
    | MPut k x => (set_val (kpos keq k s.1) x (vm_add keq k dfltT s).1, (vm_add keq k dfltT s).2)
    | _ => s
    end.
  Lemma map_call_eff s o op s' o' out : key_equiv keq → map_call op →
    vm_spec keq dfltK dfltT eqb s o op = Some (s', o', out) → s'.1 = (eff op s).1 ∧ o' = o.
  Proof.
    intros [Hr _ _] Hop Hs. destruct s as [xs c], o as [ys d].
    destruct op as [op|k x|j|k|k x|k|k|k]; simpl in *; simplify_eq/=; try done.
    - apply bind_Some in Hs as ([[s1 o1] r1]&Hs&?). simplify_eq. unfold ve_spec_ok in Hs.
      destruct (decide _); [|done]. unfold ve_spec in Hs.
      destruct op; simpl in *; try done; simplify_eq/=; try done;
        apply bind_Some in Hs as ([??]&Hs&?); simplify_eq;
        apply bind_Some in Hs as (?&?&?); by simplify_eq.
    - apply bind_Some in Hs as (e&He&Hs). simplify_eq. unfold vm_add. simpl.
      destruct (decide _) as [|Hn]; [done|]. exfalso. apply Hn. pose proof (kpos_spec e.1 xs) as Hsp.
      destruct (xs !! kpos keq e.1 xs) eqn:Hx; [by eapply lookup_lt_Some|].
      destruct Hsp as [_ Hsp]. apply elem_of_list_lookup_2 in He. specialize (Hr e.1). by rewrite Hsp in Hr.
    - apply bind_Some in Hs as (e&He&Hs). by simplify_eq.
    - apply bind_Some in Hs as (e&He&Hs). by simplify_eq.
    - case_decide; by simplify_eq.
  Qed.
  Lemma eff_1 op (s s2 : ve_state E) : s.1 = s2.1 → (eff op s).1 = (eff op s2).1.
  Proof.
    destruct s as [xs c], s2 as [ys d]. simpl. intros ->.
    destruct op; simpl; try done; unfold vm_add; simpl; by destruct (decide _).
  Qed.
  Definition vstep (k : K) (cur : option T) (op : vm_op K T) : option T :=
    match op with
    | MInsert l x => if keq k l then Some (default x cur) else cur
    | MIndex l => if keq k l then Some (default dfltT cur) else cur
    | MPut l x => if keq k l then Some x else cur
    | _ => cur
    end.
  Lemma kval_eff k op (s : ve_state E) : key_equiv keq → kval k (eff op s).1 = vstep k (kval k s.1) op.
  Proof.
    intros He. destruct op; simpl; try done; try by apply kval_add.
    unfold kval. rewrite (kpos_keys _ _ (vm_add keq k0 dfltT s).1); [|by rewrite set_val_keys].
    unfold set_val. pose proof (kval_add k k0 dfltT s He) as Ha. unfold kval in Ha.
    destruct (keq k k0) eqn:Hk.
    - rewrite (kpos_ext k k0) // in Ha |- *. destruct s as [xs c].
      assert (kpos keq k0 (vm_add keq k0 dfltT (xs,c)).1 = kpos keq k0 xs) as Hp.
      { unfold vm_add. simpl. destruct (decide _) as [|Hn]; [done|]. simpl. rewrite kpos_app.
        destruct (decide _); [done|]. simpl. destruct He as [-> _ _]. pose proof (kpos_le' k0 xs). lia. }
      rewrite Hp in Ha |- *. simpl. rewrite list_lookup_alter. by destruct (_ !! _).
    - rewrite list_lookup_alter_ne; [done|]. intros Heq.
      (* positions of inequivalent keys differ *)
      pose proof (kpos_spec k (vm_add keq k0 dfltT s).1) as H1.
      rewrite -Heq in H1. destruct (vm_add_lookup keq k0 dfltT s.1 s.2) as [e Hl].
      assert (s = (s.1, s.2)) as Es by (by destruct s). rewrite -Es in Hl. rewrite Hl in H1.
      destruct He as [Hr Hs Ht].
      assert (keq k0 e.1 = true) as H2.
      { pose proof (kpos_spec k0 s.1) as H2. unfold vm_add in Hl. destruct (decide _) as [Hlt|Hn].
        - by rewrite Hl in H2.
        - simpl in Hl. pose proof (kpos_le' k0 s.1). rewrite lookup_app_r in Hl; [|lia].
          apply list_lookup_singleton_Some in Hl as [_ <-]. apply Hr. }
      rewrite (Ht k e.1 k0) in Hk; [done|done|by apply Hs].
  Qed.
  Lemma keys_eff op (s : ve_state E) :
    (eff op s).1.*1 = match op with
      | MInsert k _ | MIndex k | MPut k _ => if existsb (λ l, keq k l) s.1.*1 then s.1.*1 else s.1.*1 ++ [k]
      | _ => s.1.*1 end.
  Proof. destruct op; simpl; try done; rewrite ?set_val_keys; apply keys_add. Qed.
  Lemma distinct_eff op (s : ve_state E) : key_equiv keq → distinct_keys keq s.1 → distinct_keys keq (eff op s).1.
  Proof.
    intros He Hd. destruct op; simpl; try done; try by apply distinct_add.
    eapply distinct_by_keys; [symmetry; apply set_val_keys|]. by apply distinct_add.
  Qed.

  Lemma vmap_ind ops (s o s' o' : ve_state E) outs :
    key_equiv keq → Forall (λ c, map_call c.2) ops →
    h_spec (vm_spec keq dfltK dfltT eqb) s o ops = Some (s', o', outs) →
    distinct_keys keq s.1 → distinct_keys keq o.1 →
    ∀ t, distinct_keys keq (if t : bool then o' else s').1 ∧
      (if t then o' else s').1.*1 = first_keys keq (if t then o else s).1.*1 (inserted t ops) ∧
      ∀ k, kval k (if t then o' else s').1 =
        foldl (λ cur c, if Bool.eqb c.1 t then vstep k cur c.2 else cur) (kval k (if t then o else s).1) ops.
  Proof.
    intros He Hops. revert s o s' o' outs. induction ops as [|[t' op] ops IH]; intros s o s' o' outs Hs Hds Hdo t;
      simpl in Hs; [simplify_eq; by destruct t|].
    apply Forall_cons in Hops as [Hop Hops]. simpl in Hop. destruct t'.
    - apply bind_Some in Hs as ([[o1 s1] r]&Hr&Hs). apply bind_Some in Hs as ([[??] rs]&Hs&?). simplify_eq.
      apply map_call_eff in Hr as [Ho1 ->]; [|done..].
      destruct (IH Hops _ _ _ _ _ Hs Hds) with t as (H1&H2&H3); [rewrite Ho1; by apply distinct_eff|].
      split; [done|]. split.
      + rewrite H2. destruct t; [|done]. rewrite Ho1 keys_eff. destruct op; try done; simpl; by destruct (existsb _ _).
      + intros k. rewrite H3. destruct t; [|done]. simpl. by rewrite Ho1 kval_eff.
    - apply bind_Some in Hs as ([[s1 o1] r]&Hr&Hs). apply bind_Some in Hs as ([[??] rs]&Hs&?). simplify_eq.
      apply map_call_eff in Hr as [Hs1 ->]; [|done..].
      destruct (IH Hops _ _ _ _ _ Hs) with t as (H1&H2&H3); [rewrite Hs1; by apply distinct_eff|done|].
      split; [done|]. split.
      + rewrite H2. destruct t; [done|]. rewrite Hs1 keys_eff. destruct op; try done; simpl; by destruct (existsb _ _).
      + intros k. rewrite H3. destruct t; [done|]. simpl. by rewrite Hs1 kval_eff.
  Qed.
  (*@ C36 What the sequences of [vmap_history] mean for histories of map calls: every key is there
     once, in order of first insertion, with the value it was created with or last
     assigned through operator[]. *)
  Lemma vmap_is_map ops (s o : ve_state (K * T)) outs :
    key_equiv keq → Forall (λ c, map_call c.2) ops →
    h_spec (vm_spec keq dfltK dfltT eqb) ([], 0) ([], 0) ops = Some (s, o, outs) →
    ∀ t : bool, let xs := (if t then o else s).1 in
      distinct_keys keq xs ∧
      xs.*1 = first_keys keq [] (inserted t ops) ∧
      ∀ k x, holds_key keq xs k x ↔ value_after keq dfltT t k ops = Some x.
  Proof.
    intros He Hops Hs t xs. destruct (vmap_ind _ _ _ _ _ _ He Hops Hs) with t as (H1&H2&H3).
    { intros i j e f Hi. done. }
    { intros i j e f Hi. done. }
    split; [done|]. split; [by rewrite H2; destruct t|].
    intros k x. rewrite holds_kval //. unfold xs. rewrite H3. unfold value_after, vstep. by destruct t.
  Qed.
  (*@ C36 kpos, the position reported by find and insert, is that of the only entry with an equal
     key, or the end. *)
  Lemma vmap_kpos k (xs : list (K * T)) :
    match xs !! kpos keq k xs with
    | Some e => keq k e.1 = true
    | None => kpos keq k xs = length xs ∧ ∀ e, e ∈ xs → keq k e.1 = false
    end.
  Proof. apply kpos_spec. Qed.

  (** *** Single calls *)
  (*@ C36 find *)
  Lemma vmap_find fuel v (xs : list (K * T)) k :
    length xs < fuel →
    runs (is_vec v xs) (vm_find keq fuel v k) (λ i h, i = kpos keq k xs ∧ is_vec v xs h).
  Proof.
    intros Hf. eapply runs_from; [by rewrite vec_holds|by apply wp_vm_find|].
    intros i. iIntros "[-> H]". iSplit; [done|]. change (λ h, is_vec v xs h) with (is_vec v xs). by rewrite vec_holds.
  Qed.
  (*@ C37_partial count of an absent key is 0. *)
  Lemma vmap_count_absent fuel v (xs : list (K * T)) k :
    length xs < fuel → (∀ e, e ∈ xs → keq k e.1 = false) →
    runs (is_vec v xs) (vm_count keq fuel v k) (λ n h, n = 0 ∧ is_vec v xs h).
  Proof.
    intros Hf Hk. assert (kpos keq k xs = length xs) as Hp.
    { pose proof (kpos_spec k xs) as Hs. destruct (xs !! kpos keq k xs) as [e|] eqn:He; [|by destruct Hs].
      rewrite Hk in Hs; [done|]. by eapply elem_of_list_lookup_2. }
    eapply runs_from; [by rewrite vec_holds|by apply wp_vm_count|].
    intros i. iIntros "[-> H]". iSplit; [done|]. change (λ h, is_vec v xs h) with (is_vec v xs). by rewrite vec_holds.
  Qed.
  (*@ C37_refuted count of a present key never returns. *)
  Lemma vmap_count_present fuel v (xs : list (K * T)) k e :
    length xs < fuel → e ∈ xs → keq k e.1 = true →
    hangs (is_vec v xs) (vm_count keq fuel v k).
  Proof.
    intros Hf He Hk h hf Hh Hd. unfold vm_count.
    match goal with |- context [loop fuel ?body _] => set (bd := body) end.
    pose proof (kpos_spec k xs) as Hs. destruct (xs !! kpos keq k xs) as [f|] eqn:Hx.
    2:{ destruct Hs as [_ Hs]. by rewrite Hs in Hk. }
    pose proof (lookup_lt_Some _ _ _ Hx) as Hlt.
    assert (∀ f0 i n h, i ≤ kpos keq k xs → is_vec v xs h → h ##ₘ hf → loop f0 bd (i, n) (h ∪ hf) = NoFuel) as Hg.
    { clear h Hh Hd. intros f0. induction f0 as [|f0 IH]; intros i n h Hi Hh Hd; [done|].
      cbn [loop]. unfold bind at 1, bd at 1. unfold bind at 1.
      assert (runs (is_vec v xs) (vm_find_key keq fuel v i k) (λ r h, r = kpos keq k xs ∧ is_vec v xs h)) as Hr.
      { eapply runs_from; [by rewrite vec_holds|apply wp_vm_find_key; lia|].
        intros r. iIntros "[-> H]". iSplit; [iPureIntro|change (λ h, is_vec v xs h) with (is_vec v xs); by rewrite vec_holds].
        rewrite -{2}(take_drop i xs). rewrite kpos_app.
        assert (kpos keq k (take i xs) = length (take i xs)) as Ht.
        { clear -Hi. revert i Hi. induction xs as [|e xs IH]; intros [|i] Hi; simpl in *; try done.
          destruct (keq k e.1); [lia|]. f_equal. apply IH. lia. }
        rewrite Ht take_length. destruct (decide _); lia. }
      destruct (Hr h hf Hh Hd) as (r&h'&->&Hd'&->&Hh'). 
      destruct (decide _) as [_|Hn]; [|destruct Hn; destruct Hh as [-> _]; lia].
      unfold ret at 1. by apply IH. }
    apply Hg; [lia|done|done].
  Qed.
End vector_map.
