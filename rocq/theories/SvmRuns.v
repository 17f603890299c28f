(** sorted_vector_map: the property lemmas, in the vocabulary of Triple.v, SvmSpec.v and
    HistoryV.v only. *)
From Verif Require Import SvmHistory.
From iris.proofmode Require Import tactics.
(*@HEADER
From Verif Require Import SvmSpec SvmRuns.

Section sorted_vector_map.
  Context {K T : Type} `{Allocator (svcell K T)}
    (keq comp : K → K → bool) (dfltT : T) (ulim : nat).
@*)
(*@FOOTER
End sorted_vector_map.
@*)

Section bridge.
  Context {K T : Type}.
  Notation E := (K * T)%type.
  Notation heap := (gmap loc (svcell K T)).
  Implicit Types (les : list (loc * E)).
  Lemma ent_heap_lookup les l : l ∉ les.*1 → ent_heap les !! l = None.
  Proof.
    intros Hl. unfold ent_heap. apply not_elem_of_list_to_map_1.
    rewrite -list_fmap_compose. done.
  Qed.
  Lemma ent_heap_inv les l : ent_heap les !! l = None → l ∉ les.*1.
  Proof.
    intros Hl. unfold ent_heap in Hl. apply not_elem_of_list_to_map_2 in Hl.
    rewrite -list_fmap_compose in Hl. done.
  Qed.
  Lemma ents_holds les (h : heap) : hholds (ents les) h ↔ NoDup les.*1 ∧ h = ent_heap les.
  Proof.
    revert h. induction les as [|[l e] les IH]; intros h.
    - unfold ents. simpl. rewrite NoDup_nil. unfold ent_heap. simpl.
      rewrite -hemp_unfold. split; [by intros ?; split|by intros [??]].
    - change (hholds (ents ((l, e) :: les)) h) with (hholds (l ↦ CEnt e ∗ ents les)%I h).
      rewrite hsep_unfold. simpl. rewrite NoDup_cons.
      change (ent_heap ((l, e) :: les)) with (<[l := CEnt e]> (ent_heap les)). split.
      + intros (h1&h2&->&Hd&H1&H2). apply hpto_unfold in H1 as ->. apply IH in H2 as [Hn ->].
        apply map_disjoint_singleton_l in Hd. split; [split; [by apply ent_heap_inv|done]|].
        by rewrite insert_union_singleton_l.
      + intros ((Hl&Hn)&->). exists {[l := CEnt e]}, (ent_heap les). split_and!.
        * by rewrite insert_union_singleton_l.
        * apply map_disjoint_singleton_l. by apply ent_heap_lookup.
        * by apply hpto_unfold.
        * by apply IH.
  Qed.
  Lemma svm_holds v les : Sep.plain (is_svm v les) ⊣⊢ svmP v les.
  Proof.
    apply bi.equiv_entails. split; apply hentails_intro; intros h.
    - intros (Hl&Hle&Hn&Hm)%plain_holds. unfold svmP. apply hexist_unfold. destruct (sv_arr v) as [a|] eqn:Ha.
      + destruct Hm as (Hal&rest&He&->). exists rest. apply hand_unfold. split; [by apply hpure_unfold|].
        apply hsep_unfold. exists {[a := CArr (pl les ++ rest)]}, (ent_heap les). split_and!.
        * by rewrite insert_union_singleton_l.
        * apply map_disjoint_singleton_l. by apply ent_heap_lookup.
        * simpl. by apply hpto_unfold.
        * by apply ents_holds.
      + destruct Hm as [He ->]. assert (les = []) as -> by (destruct les; [done|simpl in *; lia]).
        exists []. apply hand_unfold. split; [apply hpure_unfold; simpl in *; lia|].
        apply hsep_unfold. exists ∅, ∅. split_and!.
        * by rewrite left_id_L.
        * apply map_disjoint_empty_l.
        * simpl. apply hand_unfold. split; [by apply hpure_unfold|by apply hemp_unfold].
        * by apply ents_holds.
    - intros Hh. apply plain_holds. unfold svmP in Hh. apply hexist_unfold in Hh as [rest Hh].
      apply hand_unfold in Hh as [[Hl He]%hpure_unfold Hh]. apply hsep_unfold in Hh as (h1&h2&->&Hd&H1&H2).
      apply ents_holds in H2 as [Hn ->]. split; [done|]. split; [lia|]. split; [done|].
      destruct (sv_arr v) as [a|]; simpl in H1.
      + pose proof (proj1 (hpto_unfold _ _ _) H1) as ->. apply map_disjoint_singleton_l in Hd.
        split; [by apply ent_heap_inv|]. exists rest. split; [done|]. by rewrite insert_union_singleton_l.
      + apply hand_unfold in H1 as [H1 H2]. apply hpure_unfold in H1. pose proof (proj1 (hemp_unfold _) H2) as ->.
        apply app_nil in H1 as [H1 ->]. apply fmap_nil_inv in H1 as ->. simpl in *. split; [lia|].
        by rewrite left_id_L.
  Qed.
End bridge.

Section sorted_vector_map.
  Context {K T : Type} `{Allocator (svcell K T)}
    (keq comp : K → K → bool) (dfltT : T) (ulim : nat).
  Notation E := (K * T)%type.
  Notation iProp := (bi_car (hpropI (svcell K T))).
  Notation heap := (gmap loc (svcell K T)).

  (*@ C38,C39_partial,C61_partial Whole programs on two sorted_vector_maps: every history observes what the abstract
     ordered map prescribes (within [sv_spec]: fewer entries than [ulim], no insertion of a new
     key into a full array of capacity 1); no access leaves the arrays, nothing else goes wrong
     and no memory is left. *)
  Lemma svm_history ops : key_order keq comp →
    v_correct sv_new sv_destroy (sv_step keq comp dfltT ulim) ([], 0) (sv_spec keq comp dfltT ulim) (λ _, True) ops.
  Proof.
    intros Hko. apply (v_program_correct _ _ _ _ _ (svR comp) sneed).
    - apply svR_new.
    - intros fuel a s _ Hf. by apply svR_destroy.
    - intros. by eapply svR_step.
  Qed.
  (*@ C38,C39_partial,C41 ... and what is in memory after it. *)
  Lemma svm_reaches ops : key_order keq comp →
    v_reaches sv_new (sv_step keq comp dfltT ulim) ([], 0) (sv_spec keq comp dfltT ulim)
      (λ v s h, ∃ les : list (loc * (K * T)), les.*2 = s.1 ∧ sv_end v = s.2 ∧ ascending comp s.1 ∧ is_svm v les h) ops.
  Proof.
    intros Hko. apply (v_prefix_reaches _ _ _ _ (svR comp) sneed).
    - apply svR_new.
    - intros. by eapply svR_step.
    - intros v s. iIntros "H". iDestruct "H" as (les [<- Ha]) "H". iExists les.
      iSplit; [done|]. iSplit; [done|]. iSplit; [done|].
      change (λ h, is_svm v les h) with (is_svm v les). by rewrite svm_holds.
  Qed.

  (** *** The meaning of the abstract states *)
  Lemma sv_spec_value (Hko : key_order keq comp) s o op s' o' out k :
    sv_spec keq comp dfltT ulim s o op = Some (s', o', out) → ascending comp s.1 →
    value_of keq k s'.1 = value_step keq dfltT k (value_of keq k s.1) (value_of keq k o.1) op.
  Proof.
    intros Hs Ha. destruct op; simpl in Hs |- *;
      repeat first [case_decide | progress simplify_eq/= | progress simplify_option_eq]; try done.
    - by apply value_add.
    - by apply value_add.
    - rewrite (value_set keq comp Hko). destruct (keq k0 k) eqn:Hk.
      + assert (present keq k0 (sv_add keq comp k0 dfltT s).1 = true) as ->; [|done].
        rewrite value_of_present value_add // (keq_refl keq comp Hko) //.
      + rewrite value_add // Hk //.
    - destruct (present keq k0 s.1) eqn:Hp; simplify_eq/=. rewrite (value_set keq comp Hko) Hp. done.
  Qed.
  Lemma svm_ind (Hko : key_order keq comp) ops s o s' o' outs :
    h_spec (sv_spec keq comp dfltT ulim) s o ops = Some (s', o', outs) →
    ascending comp s.1 → ascending comp o.1 →
    ascending comp s'.1 ∧ ascending comp o'.1 ∧
    ∀ k, (value_of keq k s'.1, value_of keq k o'.1) =
      values_after keq dfltT k (value_of keq k s.1) (value_of keq k o.1) ops.
  Proof.
    revert s o s' o' outs. induction ops as [|[t op] ops IH]; intros s o s' o' outs Hs Ha Hao; simpl in Hs.
    { by simplify_eq. }
    destruct t.
    - apply bind_Some in Hs as ([[o1 s1] r]&Hr&Hs). apply bind_Some in Hs as ([[??] rs]&Hs&?). simplify_eq.
      pose proof (spec_asc keq comp dfltT ulim Hko _ _ _ _ _ _ Hr Hao Ha) as [Ha1 ->].
      destruct (IH _ _ _ _ _ Hs Ha Ha1) as (H1&H2&H3). split; [done|]. split; [done|].
      intros k. rewrite H3 /=. f_equal. by eapply sv_spec_value.
    - apply bind_Some in Hs as ([[s1 o1] r]&Hr&Hs). apply bind_Some in Hs as ([[??] rs]&Hs&?). simplify_eq.
      pose proof (spec_asc keq comp dfltT ulim Hko _ _ _ _ _ _ Hr Ha Hao) as [Ha1 ->].
      destruct (IH _ _ _ _ _ Hs Ha1 Hao) as (H1&H2&H3). split; [done|]. split; [done|].
      intros k. rewrite H3 /=. f_equal. by eapply sv_spec_value.
  Qed.
  (*@ C38 What the sequences of [svm_history] mean: keys strictly ascending, and each key has the
     value the history gives it. *)
  Lemma svm_is_map ops (s o : sv_state (K:=K) (T:=T)) outs : key_order keq comp →
    h_spec (sv_spec keq comp dfltT ulim) ([], 0) ([], 0) ops = Some (s, o, outs) →
    ascending comp s.1 ∧ ascending comp o.1 ∧
    ∀ k, (value_of keq k s.1, value_of keq k o.1) = values_after keq dfltT k None None ops.
  Proof.
    intros Hko Hs. apply (svm_ind Hko) in Hs as (H1&H2&H3); [done|apply asc_nil..].
  Qed.
  (*@ C38 The positions reported by find, lower_bound and upper_bound in an ascending sequence: all
     entries before the lower bound are less than the key and none from it on; all entries from
     the upper bound on are greater and none before it; find is the entry with the key or end(). *)
  Lemma svm_positions k (xs : list (K * T)) i e : key_order keq comp → ascending comp xs → xs !! i = Some e →
    (i < length (below comp k xs) ↔ comp e.1 k = true) ∧
    (length (not_above comp k xs) ≤ i ↔ comp k e.1 = true) ∧
    (i = pos_of keq comp k xs ↔ keq e.1 k = true).
  Proof.
    intros Hko Ha Hi. pose proof (asc_cut keq comp Hko k xs Ha) as (Hp&H1&H2).
    pose proof (not_above_length keq comp Hko k xs Ha) as Hn.
    pose proof (present_lookup keq comp Hko k xs Ha) as Hpr.
    set (p := length (below comp k xs)) in *.
    assert (i < p ↔ comp e.1 k = true) as Hlb.
    { split.
      - intros Hlt. apply H1. apply (elem_of_list_lookup_2 _ i). by rewrite lookup_take.
      - intros Hc. destruct (decide (i < p)) as [|Hge]; [done|]. rewrite H2 // in Hc.
        apply (elem_of_list_lookup_2 _ (i - p)). rewrite lookup_drop -Hi. f_equal. lia. }
    assert (keq e.1 k = true ↔ i = p ∧ present keq k xs = true) as Hk.
    { split.
      - intros Hk. split; [by eapply (keq_at_cut keq comp Hko)|]. apply present_spec. exists e. split; [|done].
        by eapply elem_of_list_lookup_2.
      - intros [-> Hpp]. rewrite Hpr Hi in Hpp. done. }
    split; [done|]. split.
    - rewrite Hn. split.
      + intros Hge. destruct (comp k e.1) eqn:Hc; [done|]. exfalso.
        destruct (comp e.1 k) eqn:Hc2; [assert (i < p) by (by apply Hlb); lia|].
        assert (keq e.1 k = true) as Hkk by (by apply (ko_eq _ _ Hko)). apply Hk in Hkk as [-> Hkk]. rewrite Hkk in Hge. lia.
      + intros Hc. assert (¬ i < p) as Hge. { intros Hlt%Hlb. by rewrite (comp_asym keq comp Hko) in Hc. }
        destruct (present keq k xs) eqn:Hpp; [|lia].
        destruct (decide (i = p)) as [->|]; [|lia]. rewrite Hi in Hpr.
        rewrite (keq_comp_r keq comp Hko) // in Hc.
    - unfold pos_of. fold p. rewrite Hk. destruct (present keq k xs); [naive_solver|].
      apply lookup_lt_Some in Hi. split; [lia|naive_solver].
  Qed.
  (*@ C38 The binary search needs at most log2 n + 2 evaluations of its loop condition, so it
     looks at no more than log2 n + 1 entries (n > 0). *)
  Lemma svm_probes v (les : list (loc * (K * T))) k : key_order keq comp → ascending comp les.*2 →
    length les < ulim → les ≠ [] →
    runs (is_svm v les) (sv_bsearch keq comp ulim (Nat.log2 (length les) + 2) v k)
      (λ r h, r = (length (below comp k les.*2), present keq k les.*2) ∧ is_svm v les h).
  Proof.
    intros Hko Ha Hlim Hne. eapply runs_from; [by rewrite svm_holds| |].
    - apply wp_sv_bsearch; [done..|]. unfold probes. destruct (decide _) as [He|]; [by destruct les|lia].
    - intros r. iIntros "[-> H]". iSplit; [done|]. change (λ h, is_svm v les h) with (is_svm v les). by rewrite svm_holds.
  Qed.
  (*@ C38 an empty map: no entry is looked at *)
  Lemma svm_probes_empty v k :
    runs (is_svm v []) (sv_bsearch (T:=T) keq comp ulim 1 v k) (λ r h, r = (0, false) ∧ is_svm v [] h).
  Proof.
    intros h hf Hh Hd. exists (0, false), h. split; [|done]. unfold sv_bsearch, sv_size. cbn [loop].
    destruct Hh as [-> _]. cbn [length]. rewrite decide_False; [done|]. destruct ulim; simpl; [lia|].
    rewrite Nat.sub_diag. lia.
  Qed.

  (** *** Growth *)
  Lemma sv_spec_cap s o op s' o' out :
    sv_spec keq comp dfltT ulim s o op = Some (s', o', out) → op ≠ QRecreate 1 → s.2 ≠ 1 → o.2 ≠ 1 → s'.2 ≠ 1 ∧ o'.2 ≠ 1.
  Proof.
    assert (∀ k x s, s.2 ≠ 1 → (sv_add (T:=T) keq comp k x s).2 ≠ 1) as Hadd.
    { intros k x [xs c] Hc. unfold sv_add. simpl in *. destruct (present _ _ _); [done|]. simpl.
      destruct (decide _); [|done]. unfold enlarged. destruct (decide _); [done|]. lia. }
    intros Hs Hop Hc Hco. destruct op; simpl in Hs |- *;
      repeat first [case_decide | progress simplify_eq/= | progress simplify_option_eq]; try (split; [auto; congruence|done]).
    destruct (present keq k s.1); by simplify_eq/=.
  Qed.
  (*@ C39_partial In every state reached without constructing a map with preallocation 1 (and below
     [ulim] entries) the precondition of inserting holds: [svm_history] then says that no insertion
     leaves the array. *)
  Lemma svm_room ops (s o : sv_state (K:=K) (T:=T)) outs :
    h_spec (sv_spec keq comp dfltT ulim) ([], 0) ([], 0) ops = Some (s, o, outs) →
    Forall (λ c, c.2 ≠ QRecreate 1) ops →
    ∀ k, (sv_fits ulim s → sv_room keq ulim k s) ∧ (sv_fits ulim o → sv_room keq ulim k o).
  Proof.
    intros Hs Hops. assert (s.2 ≠ 1 ∧ o.2 ≠ 1) as [H1 H2].
    { assert (∀ s0 o0 : sv_state (K:=K) (T:=T), s0.2 ≠ 1 → o0.2 ≠ 1 →
        h_spec (sv_spec keq comp dfltT ulim) s0 o0 ops = Some (s, o, outs) → s.2 ≠ 1 ∧ o.2 ≠ 1) as Hg; [|apply (Hg ([], 0) ([], 0)); [simpl; lia|simpl; lia|exact Hs]].
      clear Hs. revert outs. induction ops as [|[t op] ops IH]; intros outs s0 o0 H1 H2 Hs; simpl in Hs; [by simplify_eq|].
      apply Forall_cons in Hops as [Hop Hops]. destruct t.
      - apply bind_Some in Hs as ([[o1 s1] r]&Hr&Hs). apply bind_Some in Hs as ([[??] rs]&Hs&?). simplify_eq.
        apply sv_spec_cap in Hr as [??]; [|done..]. by apply (IH Hops rs s1 o1).
      - apply bind_Some in Hs as ([[s1 o1] r]&Hr&Hs). apply bind_Some in Hs as ([[??] rs]&Hs&?). simplify_eq.
        apply sv_spec_cap in Hr as [??]; [|done..]. by apply (IH Hops rs s1 o1). }
    intros k. unfold sv_room. split; intros ?; (split; [done|]); right; naive_solver.
  Qed.
  Lemma ifails_wp {A B} (P : iProp) (m : M heap A) (kk : A → M heap B) (F : iProp) a u :
    (∀ Q, P -∗ (F -∗ Q a) -∗ wp m Q) → ifails F (kk a) u → ifails P (bind m kk) u.
  Proof.
    intros Hm Hk. eapply (ifails_bind _ _ _ (λ b, ⌜b = a⌝ ∧ F)%I).
    - iIntros "H". iApply (Hm with "H"). iIntros "H". by iSplit.
    - intros b. apply ifails_pure. intros ->. done.
  Qed.
  Lemma ifails_slot_wr p b (F : iProp) i q : p ≠ None → length b ≤ i →
    ifails (arrP p b ∗ F) (slot_wr p i q) OutOfBounds.
  Proof.
    intros Hp Hi. destruct p as [l|]; [|done]. simpl. unfold slot_wr.
    eapply (ifails_wp _ _ _ (l ↦ CArr b ∗ F) l).
    { intros Q. iIntros "[H F] HQ". wstep. iApply "HQ". iFrame. }
    eapply (ifails_wp _ _ _ (l ↦ CArr b ∗ F) (CArr b)).
    { intros Q. iIntros "[H F] HQ". iApply (wp_load with "H"). iIntros "H". iApply "HQ". iFrame. }
    rewrite decide_False; [|lia]. apply ifails_fail.
  Qed.
  (*@ C39_refuted Inserting any absent key into a map of capacity 1 that holds one entry writes past
     its array. *)
  Lemma svm_capacity_1 fuel v l e k x : key_order keq comp → sv_end v = 1 → 1 < ulim → 2 < fuel →
    keq e.1 k = false →
    fails (is_svm v [(l, e)]) (sv_insert keq comp ulim fuel v (EVal (k, x))) OutOfBounds.
  Proof.
    intros Hko Hend Hlim Hf Hk. eapply fails_of; [by rewrite svm_holds|].
    set (les := [(l, e)]).
    assert (ascending comp les.*2) as Ha. { apply asc_cons. split; [|apply asc_nil]. intros f Hf'. by apply elem_of_nil in Hf'. }
    assert (present keq k les.*2 = false) as Hp by (simpl; by rewrite Hk).
    unfold sv_insert. eapply (ifails_wp _ _ _ (svmP v les) (k, x)).
    { intros Q. iIntros "H HQ". simpl. wstep. by iApply "HQ". }
    cbn beta. cbn [fst].
    eapply (ifails_wp _ _ _ (svmP v les) (length (below comp k les.*2))).
    { intros Q. iIntros "H HQ". iApply (wp_wand with "[H]"); [iApply (wp_sv_pos keq comp ulim Hko fuel v les k with "H"); [done|done|]|].
      - pose proof (probes_le (length les)). simpl in *. lia.
      - iIntros (i) "[-> H]". by iApply "HQ". }
    eapply (ifails_wp _ _ _ (svmP v les) false).
    { intros Q. iIntros "H HQ". iApply (wp_wand with "[H]"); [iApply (wp_key_at keq v les with "H"); apply lb_le|].
      iIntros (b) "[%Hb H]". rewrite -(has_lookup keq comp Hko) // Hp in Hb. subst b. by iApply "HQ". }
    apply ifails_bind_l. unfold sv_insert_before.
    eapply (ifails_conseq _ (⌜sv_last v = 1⌝ ∧ arrP (sv_arr v) [Some (Some l)] ∗ l ↦ CEnt e)%I).
    { iIntros "H". iDestruct "H" as (rest [Hl He]) "[Ha H]". simpl in Hl, He.
      assert (rest = []) as -> by (destruct rest; [done|simpl in *; lia]). iSplit; [done|]. rewrite /= ents_cons ents_nil.
      iDestruct "H" as "[H _]". iFrame. }
    apply ifails_pure. intros Hl. rewrite decide_True; [|lia]. rewrite Hend. simpl (if decide _ then _ else _).
    eapply (ifails_bind _ _ _ (λ q, ⌜q ≠ None⌝ ∧ arrP (sv_arr v) [Some (Some l)] ∗ l ↦ CEnt e ∗ arrP q [None])%I).
    { iIntros "[H He]". unfold new_arr. wstep. iApply wp_allocate. iIntros (q) "Hq". wstep. iSplit; [done|]. iFrame. }
    intros q. apply ifails_pure. intros Hq.
    assert (length (below comp k les.*2) = 0 ∨ length (below comp k les.*2) = 1) as [Hlb|Hlb].
    { pose proof (lb_le comp k les). simpl in *. lia. }
    - (* the new entry goes first: the old pointer is written to slot 1 *)
      rewrite Hlb.
      eapply (ifails_wp _ _ _ (arrP (sv_arr v) [Some (Some l)] ∗ l ↦ CEnt e ∗ arrP q [None])%I (0, 0)).
      { intros Q. iIntros "H HQ". unfold copy_slots. destruct fuel; [lia|]. cbn [loop]. wstep.
        dF. wsteps. by iApply "HQ". }
      eapply (ifails_wp _ _ _ (arrP (sv_arr v) [Some (Some l)] ∗ l ↦ CEnt e ∗ arrP q [None])%I (k, x)).
      { intros Q. iIntros "H HQ". simpl. wstep. by iApply "HQ". }
      eapply (ifails_bind _ _ _ (λ n, arrP (sv_arr v) [Some (Some l)] ∗ l ↦ CEnt e ∗ arrP q [None] ∗ ∃ l', l' ↦ CEnt (k, x))%I).
      { iIntros "(H&He&Hq)". iApply wp_new_ent. iIntros (l') "Hl'". iFrame. by iExists l'. }
      intros n.
      eapply (ifails_wp _ _ _ (arrP (sv_arr v) [Some (Some l)] ∗ l ↦ CEnt e ∗ arrP q [Some n] ∗ ∃ l', l' ↦ CEnt (k, x))%I tt).
      { intros Q. iIntros "(H&He&Hq&Hl) HQ". iApply (wp_slot_wr with "Hq"); [simpl; lia|]. simpl. iIntros "Hq". iApply "HQ". iFrame. }
      apply ifails_bind_l. unfold copy_slots. rewrite Hl. destruct fuel as [|fuel]; [lia|]. cbn [loop]. apply ifails_bind_l.
      dT.
      eapply (ifails_wp _ _ _ (arrP q [Some n] ∗ arrP (sv_arr v) [Some (Some l)] ∗ l ↦ CEnt e ∗ ∃ l', l' ↦ CEnt (k, x))%I (Some l)).
      { intros Q. iIntros "(H&He&Hq&Hl) HQ". iApply (wp_slot_rd with "H"); [done|]. iIntros "H". iApply "HQ". iFrame. }
      apply ifails_bind_l. apply ifails_slot_wr; [done|simpl; lia].
    - (* the new entry goes last: to slot 1 *)
      rewrite Hlb.
      eapply (ifails_wp _ _ _ (arrP q [Some (Some l)] ∗ arrP (sv_arr v) [Some (Some l)] ∗ l ↦ CEnt e)%I (1, 1)).
      { intros Q. iIntros "(H&He&Hq) HQ". iApply (wp_wand with "[H Hq]").
        - iApply (wp_copy_slots fuel (sv_arr v) [] [(l, e)] [] q [] [None] 0 1 0 with "[$H $Hq]"); simpl; done || lia.
        - iIntros (r) "[-> [H Hq]]". iApply "HQ". iFrame. }
      eapply (ifails_wp _ _ _ (arrP q [Some (Some l)] ∗ arrP (sv_arr v) [Some (Some l)] ∗ l ↦ CEnt e)%I (k, x)).
      { intros Q. iIntros "H HQ". simpl. wstep. by iApply "HQ". }
      eapply (ifails_bind _ _ _ (λ n, arrP q [Some (Some l)] ∗ arrP (sv_arr v) [Some (Some l)] ∗ l ↦ CEnt e ∗ ∃ l', l' ↦ CEnt (k, x))%I).
      { iIntros "(H&He&Hq)". iApply wp_new_ent. iIntros (l') "Hl'". iFrame. by iExists l'. }
      intros n. apply ifails_bind_l. apply ifails_slot_wr; [done|simpl; lia].
  Qed.

  (** *** Single calls *)
  (*@ C40_refuted count is inverted in every state and for every key: 0 if the key is there, 1 if
     not. *)
  Lemma svm_count fuel v (les : list (loc * (K * T))) k : key_order keq comp → ascending comp les.*2 →
    length les < ulim → length les + 2 ≤ fuel →
    runs (is_svm v les) (sv_count keq comp ulim fuel v k)
      (λ n h, n = (if present keq k les.*2 then 0 else 1) ∧ is_svm v les h).
  Proof.
    intros Hko Ha Hlim Hf. eapply (runs_from _ _ _ _ (λ n, ⌜n = (if present keq k les.*2 then 0 else 1)⌝ ∧ svmP v les)%I); [by rewrite svm_holds| |].
    - iIntros "H". iDestruct (svmP_last with "H") as %[Hl He]. pose proof (probes_le (length les)).
      unfold sv_count. wstep. iApply (wp_wand with "[H]"); [iApply (wp_sv_find keq comp ulim Hko fuel v les k with "H"); [done|done|lia]|].
      iIntros (i) "[-> H]". wstep. iSplit; [|done]. iPureIntro. unfold pos_of. rewrite fmap_length.
      pose proof (has_lookup keq comp Hko k les Ha) as Hh. destruct (present keq k les.*2) eqn:Hp.
      + rewrite decide_False; [done|]. destruct (les !! length (below comp k les.*2)) eqn:Hle; [|done]. apply lookup_lt_Some in Hle. lia.
      + by rewrite decide_True.
    - intros n. iIntros "[-> H]". iSplit; [done|]. change (λ h, is_svm v les h) with (is_svm v les). by rewrite svm_holds.
  Qed.
  (*@ C61_partial equal_range of a present key is [lower_bound, upper_bound), of an absent one
     [end, end). *)
  Lemma svm_equal_range fuel v (les : list (loc * (K * T))) k : key_order keq comp → ascending comp les.*2 →
    length les < ulim → length les + 2 ≤ fuel →
    runs (is_svm v les) (sv_equal_range keq comp ulim fuel v k)
      (λ r h, r = (if present keq k les.*2 then (length (below comp k les.*2), length (not_above comp k les.*2))
                   else (length les, length les)) ∧ is_svm v les h).
  Proof.
    intros Hko Ha Hlim Hf.
    eapply (runs_from _ _ _ _ (λ r, ⌜r = (if present keq k les.*2 then (length (below comp k les.*2), length (not_above comp k les.*2))
                   else (length les, length les))⌝ ∧ svmP v les)%I); [by rewrite svm_holds| |].
    - iIntros "H". iDestruct (svmP_last with "H") as %[Hl He]. pose proof (probes_le (length les)).
      unfold sv_equal_range. wstep. iApply (wp_wand with "[H]"); [iApply (wp_sv_find keq comp ulim Hko fuel v les k with "H"); [done|done|lia]|].
      iIntros (i) "[-> H]". wstep. iSplit; [|done]. iPureIntro. unfold pos_of.
      rewrite fmap_length (not_above_length keq comp Hko) //.
      pose proof (has_lookup keq comp Hko k les Ha) as Hh. destruct (present keq k les.*2) eqn:Hp.
      + rewrite decide_True; [by rewrite Nat.add_1_r|]. destruct (les !! length (below comp k les.*2)) eqn:Hle; [|done]. apply lookup_lt_Some in Hle. lia.
      + by rewrite decide_False; [|lia].
    - intros n. iIntros "[-> H]". iSplit; [done|]. change (λ h, is_svm v les h) with (is_svm v les). by rewrite svm_holds.
  Qed.
  (*@ C62_refuted With a positive multiple of [ulim] entries (2^32 of them) no key is ever found. *)
  Lemma svm_find_overflow fuel v (les : list (loc * (K * T))) k :
    ulim ≠ 0 → length les mod ulim = 0 → 0 < fuel →
    runs (is_svm v les) (sv_find keq comp ulim fuel v k) (λ i h, i = length les ∧ is_svm v les h).
  Proof.
    intros Hu Hm Hf h hf Hh Hd. exists (length les), h. split; [|done]. unfold sv_find, sv_bsearch, sv_size.
    destruct Hh as [-> _]. rewrite Hm. destruct fuel as [|fuel]; [lia|]. cbn [loop]. unfold bind. done.
  Qed.
  (*@ C41,C38 insert, with addresses: a present key changes nothing; a new entry gets a cell of its
     own, and all others stay where they are. *)
  Lemma svm_insert fuel v (les : list (loc * (K * T))) k x : key_order keq comp → ascending comp les.*2 →
    sv_room keq ulim k (les.*2, sv_end v) → sv_end v + 2 < fuel →
    runs (is_svm v les) (sv_insert keq comp ulim fuel v (EVal (k, x))) (λ '(v', i, fresh) h,
      i = length (below comp k les.*2) ∧ fresh = negb (present keq k les.*2) ∧
      if present keq k les.*2 then v' = v ∧ is_svm v les h
      else ∃ l, is_svm v' (take i les ++ (l, (k, x)) :: drop i les) h).
  Proof.
    intros Hko Ha [Hfit Hcap] Hf. unfold sv_fits in Hfit. simpl in Hfit, Hcap. rewrite fmap_length in Hfit, Hcap.
    eapply runs_from; [by rewrite svm_holds|by apply (wp_sv_insert keq comp ulim Hko fuel v les (EVal (k, x)) (k, x))|].
    intros [[v' i] b]. iIntros "H". iDestruct "H" as (les' (->&->&Hadd&Hcase)) "H". simpl in *.
    iSplit; [done|]. iSplit; [done|]. destruct (present keq k les.*2).
    - destruct Hcase as [-> ->]. iSplit; [done|]. change (λ h, is_svm v les h) with (is_svm v les). by rewrite svm_holds.
    - destruct Hcase as [l ->]. iExists l.
      change (λ h, is_svm v' (take (length (below comp k les.*2)) les ++ (l, (k, x)) :: drop (length (below comp k les.*2)) les) h)
        with (is_svm v' (take (length (below comp k les.*2)) les ++ (l, (k, x)) :: drop (length (below comp k les.*2)) les)).
      by rewrite svm_holds.
  Qed.
  (*@ C41 Any number of calls that remove nothing: every element stays at its address with its key. *)
  Lemma svm_stable ops fuel v w (les los : list (loc * (K * T))) s o outs :
    key_order keq comp → ascending comp les.*2 → ascending comp los.*2 →
    Forall (λ c, keeps_elements c.2) ops →
    h_spec (sv_spec keq comp dfltT ulim) (les.*2, sv_end v) (los.*2, sv_end w) ops = Some (s, o, outs) →
    2 * (length s.1 + length o.1 + s.2 + o.2) + 3 < fuel →
    runs (both (is_svm v les) (is_svm w los)) (v_run (sv_step keq comp dfltT ulim) fuel v w ops)
      (λ '(v', w', outs') h, outs' = outs ∧ ∃ les' los',
         les'.*2 = s.1 ∧ los'.*2 = o.1 ∧ still_there les les' ∧ still_there los los' ∧
         both (is_svm v' les') (is_svm w' los') h).
  Proof.
    intros Hko Ha Hao Hops Hs Hf.
    eapply (runs_from _ _ _ _ (λ '(v', w', outs'), ∃ les' los', ⌜outs' = outs ∧ les'.*2 = s.1 ∧ los'.*2 = o.1 ∧
      still_there les les' ∧ still_there los los'⌝ ∧ svmP v' les' ∗ svmP w' los')%I); [by rewrite plain_both !svm_holds| |].
    - assert (∀ (s0 o0 s1 o1 : sv_state (K:=K) (T:=T)) op r, sv_spec keq comp dfltT ulim s0 o0 op = Some (s1, o1, r) →
        keeps_elements op → length s0.1 ≤ length s1.1 ∧ s0.2 ≤ s1.2 ∧ o1 = o0) as Hmono1.
      { assert (∀ k x s, length s.1 ≤ length (sv_add (T:=T) keq comp k x s).1 ∧ s.2 ≤ (sv_add keq comp k x s).2) as Hadd.
        { intros k x [xs c]. unfold sv_add. simpl in *. destruct (present _ _ _); [done|]. simpl. split.
          - rewrite app_length /= /below /not_below. clear. induction xs as [|f xs IH]; simpl; [lia|]. rewrite !filter_cons.
            destruct (decide (comp f.1 k = true)), (decide (comp f.1 k = false)); simpl in *; try lia.
            destruct (comp f.1 k); done.
          - destruct (decide _); [|done]. unfold enlarged. destruct (decide _); lia. }
        intros s0 o0 s1 o1 op r Hs0 Hop.
        destruct op; simpl in Hs0, Hop |- *;
          repeat first [case_decide | progress simplify_eq/= | progress simplify_option_eq]; try done.
        - split_and!; [apply Hadd..|done].
        - split_and!; [apply Hadd..|done].
        - unfold sv_set. rewrite fmap_length. split_and!; [apply Hadd..|done].
        - destruct (present keq k s0.1); simplify_eq/=. unfold sv_set. rewrite fmap_length. done. }
      assert (∀ ops (s0 o0 s1 o1 : sv_state (K:=K) (T:=T)) rs, h_spec (sv_spec keq comp dfltT ulim) s0 o0 ops = Some (s1, o1, rs) →
        Forall (λ c, keeps_elements c.2) ops →
        length s0.1 ≤ length s1.1 ∧ s0.2 ≤ s1.2 ∧ length o0.1 ≤ length o1.1 ∧ o0.2 ≤ o1.2) as Hmono.
      { clear -Hmono1. induction ops as [|[t op] ops IH]; intros s0 o0 s1 o1 rs Hs Hops; simpl in Hs; [by simplify_eq|].
        apply Forall_cons in Hops as [Hop Hops]. destruct t.
        - apply bind_Some in Hs as ([[o2 s2] r]&Hr&Hs). apply bind_Some in Hs as ([[??] rs']&Hs&?). simplify_eq.
          apply Hmono1 in Hr as (?&?&->); [|done]. apply IH in Hs; [|done]. lia.
        - apply bind_Some in Hs as ([[s2 o2] r]&Hr&Hs). apply bind_Some in Hs as ([[??] rs']&Hs&?). simplify_eq.
          apply Hmono1 in Hr as (?&?&->); [|done]. apply IH in Hs; [|done]. lia. }
      revert v w les los outs Ha Hao Hops Hs. induction ops as [|[t op] ops IH]; intros v w les los outs Ha Hao Hops Hs; simpl in Hs.
      { simplify_eq. iIntros "[H Ho]". cbn [v_run]. wstep. iExists les, los. iFrame. iPureIntro.
        split_and!; try done; apply stays_refl. }
      pose proof (Hmono ((t, op) :: ops) _ _ _ _ _ Hs Hops) as Hm0. simpl in Hm0. rewrite !fmap_length in Hm0.
      apply Forall_cons in Hops as [Hop Hops]. simpl in Hop. destruct t.
      + apply bind_Some in Hs as ([[o2 s2] r]&Hr&Hs). apply bind_Some in Hs as ([[??] rs']&Hs&?). simplify_eq.
        pose proof (spec_asc keq comp dfltT ulim Hko _ _ _ _ _ _ Hr Hao Ha) as [Ha2 ->].
        iIntros "[H Ho]". cbn [v_run]. wstep.
        iApply (wp_wand with "[H Ho]"); [iApply (wp_sv_step keq comp dfltT ulim Hko fuel w v los les with "[$H $Ho]"); [done|done|done|lia]|].
        iIntros ([[w' v'] r']) "H". iDestruct "H" as (los' (Hr'&Hs'&Hv&Hst)) "[Ho H]". simpl in *. subst r' v' o2. wstep.
        iApply (wp_wand with "[H Ho]"); [iApply (IH v w' les los' with "[$H $Ho]"); [done|done|done|done]|].
        iIntros ([[v2 w2] outs2]) "H". iDestruct "H" as (les2 los2 (->&?&?&?&?)) "H". wsteps.
        iExists les2, los2. iFrame. iPureIntro. split_and!; try done. eapply stays_trans; [by apply Hst|done].
      + apply bind_Some in Hs as ([[s2 o2] r]&Hr&Hs). apply bind_Some in Hs as ([[??] rs']&Hs&?). simplify_eq.
        pose proof (spec_asc keq comp dfltT ulim Hko _ _ _ _ _ _ Hr Ha Hao) as [Ha2 ->].
        iIntros "[H Ho]". cbn [v_run]. wstep.
        iApply (wp_wand with "[H Ho]"); [iApply (wp_sv_step keq comp dfltT ulim Hko fuel v w les los with "[$H $Ho]"); [done|done|done|lia]|].
        iIntros ([[v' w'] r']) "H". iDestruct "H" as (les' (Hr'&Hs'&Hv&Hst)) "[H Ho]". simpl in *. subst r' w' s2. wstep.
        iApply (wp_wand with "[H Ho]"); [iApply (IH v' w les' los with "[$H $Ho]"); [done|done|done|done]|].
        iIntros ([[v2 w2] outs2]) "H". iDestruct "H" as (les2 los2 (->&?&?&?&?)) "H". wsteps.
        iExists les2, los2. iFrame. iPureIntro. split_and!; try done. eapply stays_trans; [by apply Hst|done].
    - intros [[v' w'] outs']. iIntros "H". iDestruct "H" as (les' los' (->&?&?&?&?)) "[H Ho]".
      iSplit; [done|]. iExists les', los'. do 4 (iSplit; [done|]).
      change (λ h, both (is_svm v' les') (is_svm w' los') h) with (both (is_svm v' les') (is_svm w' los')).
      rewrite plain_both !svm_holds. iFrame.
  Qed.
  (*@ C41 A copy has the same entries and the same capacity in cells of its own. *)
  Lemma svm_copy fuel v (les : list (loc * (K * T))) : length les < fuel →
    runs (is_svm v les) (sv_copy fuel v) (λ v' h, ∃ les', les'.*2 = les.*2 ∧ sv_end v' = sv_end v ∧
      both (is_svm v les) (is_svm v' les') h).
  Proof.
    intros Hf. eapply runs_from; [by rewrite svm_holds|by apply wp_sv_copy|].
    intros v'. iIntros "H". iDestruct "H" as (les' [??]) "[H Ho]". iExists les'. do 2 (iSplit; [done|]).
    change (λ h, both (is_svm v les) (is_svm v' les') h) with (both (is_svm v les) (is_svm v' les')).
    rewrite plain_both !svm_holds. iFrame.
  Qed.
  (*@ C41 The destructor frees the array and every entry (each once: a second time would be
     undefined behaviour). *)
  Lemma svm_destroy fuel v (les : list (loc * (K * T))) : length les < fuel →
    runs (is_svm v les) (sv_destroy fuel v) (λ _ h, nothing h).
  Proof.
    intros Hf. eapply runs_from; [by rewrite svm_holds|by apply wp_sv_destroy|].
    intros []. change (λ h, nothing h) with (nothing (C:=svcell K T)). by rewrite plain_nothing.
  Qed.
  (*@ C38 operator[] on any key: the referenced value belongs to the entry with that key. *)
  Lemma svm_index fuel v (les : list (loc * (K * T))) k : key_order keq comp → ascending comp les.*2 →
    sv_room keq ulim k (les.*2, sv_end v) → sv_end v + 2 < fuel →
    runs (is_svm v les) (sv_index keq comp dfltT ulim fuel v k) (λ '(v', q) h, ∃ les' l e,
      q = Some l ∧ (l, e) ∈ les' ∧ keq e.1 k = true ∧ e.2 = default dfltT (value_of keq k les.*2) ∧
      still_there les les' ∧ is_svm v' les' h).
  Proof.
    intros Hko Ha [Hfit Hcap] Hf. unfold sv_fits in Hfit. simpl in Hfit, Hcap. rewrite fmap_length in Hfit, Hcap.
    eapply runs_from; [by rewrite svm_holds|by apply (wp_sv_index keq comp dfltT ulim Hko fuel v les k)|].
    intros [v' q]. iIntros "H". iDestruct "H" as (les' l e (->&Hle&Hk&Hv&Hadd&Hcase)) "H".
    iExists les', l, e. iSplit; [done|]. iSplit; [iPureIntro; by eapply elem_of_list_lookup_2|]. do 2 (iSplit; [done|]). iSplit.
    - iPureIntro. destruct (present keq k les.*2); [destruct Hcase as [_ ->]; apply stays_refl|].
      destruct Hcase as [l' ->]. apply stays_new.
    - change (λ h, is_svm v' les' h) with (is_svm v' les'). by rewrite svm_holds.
  Qed.
End sorted_vector_map.
