(** Access counts of recursive destruction and copying of trees, and the growth of vector. Proof file. *)
From Coq Require Import ssreflect.
From Verif Require Import MapRuns VecRuns RbIter ThreadMap.
From Verif Require Import MapSpec VecSpec RbSpec CostNet CostSpec.
Local Open Scope general_if_scope.

Section tree.
  Context {V : Type}.
  Implicit Types (t : tree V).
  Lemma size_tree_heap par t : NoDup (elems t).*1 → size (tree_heap par t) = length (elems t).
  Proof.
    revert par. induction t as [|c l IHl n v r IHr]; intros par Hd; [apply map_size_empty|].
    cbn [elems tree_heap] in *. rewrite fmap_app fmap_cons in Hd. cbn [fst] in Hd.
    apply NoDup_app in Hd as (Hl&Hx&Hr). apply NoDup_cons in Hr as [Hn Hr].
    rewrite map_size_insert_None; last first.
    { apply lookup_union_None. split; apply tree_heap_dom; [|done].
      intros Hin. apply (Hx _ Hin). left. }
    rewrite map_size_disj_union; last first.
    { apply map_disjoint_spec. intros i x y H1 H2.
      destruct (decide (i ∈ (elems l).*1)) as [Hi|Hi].
      - apply (Hx _ Hi). right. destruct (decide (i ∈ (elems r).*1)) as [Hj|Hj]; [done|].
        by rewrite (tree_heap_dom _ _ _ Hj) in H2.
      - by rewrite (tree_heap_dom _ _ _ Hi) in H1. }
    rewrite IHl // IHr // app_length. cbn [length]. lia.
  Qed.
  Lemma size_rbtree this (xs : list (loc * V)) h : is_rbtree this xs h → size h = S (length xs).
  Proof.
    intros (t&<-&_&_&Hd&->). apply NoDup_cons in Hd as [Hn Hd].
    rewrite map_size_insert_None; [|by apply tree_heap_dom]. by rewrite size_tree_heap.
  Qed.

  Lemma nt_destroy fuel n : Nt (C:=rbcell V) 4 0 (λ al, postorder_destroy fuel n).
  Proof.
    revert n. induction fuel as [|fuel IH]; intros n.
    { exists PNoFuel. split; [apply perf_nofuel|done]. }
    cbn [postorder_destroy]. destruct n as [n|]; [|apply nt_ret].
    eapply nt_le; [|shelve].
    eapply (nt_bind _ _ _ (λ al, getf left (Some n))); [nt|intros l].
    eapply (nt_bind _ _ _ (λ al, if nonnull l then postorder_destroy fuel l else ret tt));
      [instantiate (1 := 0%Z); destruct (nonnull l); [apply IH|apply nt_ret]|intros _].
    eapply (nt_bind _ _ _ (λ al, getf right (Some n))); [nt|intros r].
    eapply (nt_bind _ _ _ (λ al, if nonnull r then postorder_destroy fuel r else ret tt));
      [instantiate (1 := 0%Z); destruct (nonnull r); [apply IH|apply nt_ret]|intros _].
    nt. Unshelve. simpl. lia.
  Qed.
  Lemma nt_copy fuel n : Nt (C:=rbcell V) (-12) 0 (λ al, preorder_copy fuel n).
  Proof.
    revert n. induction fuel as [|fuel IH]; intros n.
    { exists PNoFuel. split; [apply perf_nofuel|done]. }
    cbn [preorder_copy]. destruct n as [n|]; [|apply nt_ret].
    eapply nt_le; [|shelve].
    eapply (nt_bind _ _ _ (λ al, node_data (Some n))); [nt|intros v].
    eapply (nt_bind _ _ _ (λ al, new_rbnode v)); [nt|intros nc].
    eapply (nt_bind _ _ _ (λ al, getf RbModel.red (Some n))); [nt|intros c].
    eapply (nt_bind _ _ _ (λ al, setf (set_red c) (Some nc))); [nt|intros _].
    eapply (nt_bind _ _ _ (λ al, getf left (Some n))); [nt|intros l].
    eapply (nt_bind _ _ _ (λ al, if nonnull l then _ else _)).
    { refine (_ : Nt _ (_ `max` _)%Z _). destruct (nonnull l); [apply nt_max_l|apply nt_max_r; nt].
      eapply (nt_bind _ _ _ (λ al, preorder_copy fuel l)); [apply IH|intros l']. nt. }
    intros _.
    eapply (nt_bind _ _ _ (λ al, getf right (Some n))); [nt|intros r].
    eapply (nt_bind _ _ _ (λ al, if nonnull r then _ else _)).
    { refine (_ : Nt _ (_ `max` _)%Z _). destruct (nonnull r); [apply nt_max_l|apply nt_max_r; nt].
      eapply (nt_bind _ _ _ (λ al, preorder_copy fuel r)); [apply IH|intros r']. nt. }
    intros _. nt. Unshelve. simpl. lia.
  Qed.
  Ltac nt_hint h ::=
    lazymatch h with
    | @postorder_destroy => eapply nt_destroy
    | @preorder_copy => eapply nt_copy
    end.
  Lemma nt_clear fuel this : Nt (C:=rbcell V) 4 2 (λ al, rb_clear fuel this).
  Proof. eapply nt_le; [nt|]. simpl. lia. Qed.
  Lemma nt_rb_destroy fuel this : Nt (C:=rbcell V) 4 (-1) (λ al, rb_destroy fuel this).
  Proof. eapply nt_le; [nt|]. simpl. lia. Qed.
  (** rb_assign to an empty tree *)
  Definition assign_rest fuel (hdr other : loc) (al : Allocator (rbcell V)) : M (gmap loc (rbcell V)) unit :=
    let! oroot := getf parent (Some other) in
    if nonnull oroot then
      let! p := preorder_copy fuel oroot in
      setf (set_parent p) (Some hdr) ;!
      setf (set_parent (Some hdr)) p
    else ret tt.
  Lemma nt_assign_rest fuel hdr other : Nt (-12) 3 (assign_rest fuel hdr other).
  Proof. unfold assign_rest. eapply nt_le; [nt|]. simpl. lia. Qed.
  Lemma assign_prog fuel hdr other : {p | performs (λ al : Allocator (rbcell V), rb_assign fuel hdr other) p ∧
    ∀ al (h : gmap loc (rbcell V)) c r h', h !! hdr = Some c → parent c = None → interp al p h = Ok (r, h') →
      (Z.of_nat (accesses al p h) - 12 * (Z.of_nat (size h') - Z.of_nat (size h)) ≤ 4)%Z}.
  Proof.
    destruct (nt_assign_rest fuel hdr other) as [pr [Hpr Hnr]]. destruct (nt_clear fuel hdr) as [pc [Hpc _]].
    exists (PLoad hdr (λ c, pbind (if nonnull (parent c) then pc else PRet tt) (λ _, pr))). split.
    - unfold rb_assign.
      apply (perf_bind _ _ (λ al, getf parent (Some hdr))
        (λ al root, (if nonnull root then rb_clear fuel hdr else ret tt) ;! assign_rest fuel hdr other al)
        (PLoad hdr (λ c, PRet (parent c))) (λ root, pbind (if nonnull root then pc else PRet tt) (λ _, pr))).
      + apply (perf_bind _ _ (λ al, loadp (Some hdr)) (λ al c, ret (parent c)) (PLoad hdr PRet) (λ c, PRet (parent c)));
          [|intros; apply perf_ret].
        apply (perf_bind _ _ (λ al, addr (Some hdr)) (λ al l, load l) (PRet hdr) (λ l, PLoad l PRet));
          [apply perf_ret|intros; apply perf_load].
      + intros root.
        apply (perf_bind _ _ (λ al, if nonnull root then rb_clear fuel hdr else ret tt) (λ al _, assign_rest fuel hdr other al)
          (if nonnull root then pc else PRet tt) (λ _, pr)); [|intros _; exact Hpr].
        destruct (nonnull root); [exact Hpc|apply perf_ret].
    - intros al h c r h' Hc Hp Hi. cbn [interp accesses] in *. rewrite Hc in Hi |- *.
      rewrite Hp in Hi |- *. cbn [nonnull pbind] in *.
      pose proof (net_accesses al _ _ _ _ _ _ _ Hnr Hi). lia.
  Qed.
  Lemma rbtree_empty_header this (h : gmap loc (rbcell V)) : is_rbtree this [] h → ∃ c, h !! this = Some c ∧ parent c = None.
  Proof.
    intros (t&Ht&_&_&_&->). destruct t as [|c l n v r]; [|by apply app_eq_nil in Ht as [_ ?]].
    rewrite lookup_insert. eexists. split; [done|done].
  Qed.
End tree.

Section copy.
  Context {K V : Type} (keyof : V → K) (lt : K → K → bool).
  Lemma map_clear_takes fuel this (xs : list (loc * V)) : log_steps (length xs) < fuel →
    takes_at_most (4 * length xs + 2) (is_map keyof lt this xs) (λ al : Allocator (rbcell V), m_clear fuel this).
  Proof.
    intros Hf. eapply takes_net; [apply nt_clear|intros al; by apply (clear_ok keyof lt)|].
    intros h a h' [_ H1%size_rbtree] [_ H2%size_rbtree]. rewrite H1 H2. cbn [length]. lia.
  Qed.
  Lemma map_destroy_takes fuel this (xs : list (loc * V)) : log_steps (length xs) < fuel →
    takes_at_most (4 * length xs + 3) (is_map keyof lt this xs) (λ al : Allocator (rbcell V), rb_destroy fuel this).
  Proof.
    intros Hf. eapply takes_net; [apply nt_rb_destroy|intros al; by apply (destroy_ok keyof lt)|].
    intros h a h' [_ H1%size_rbtree] ->. rewrite H1 map_size_empty. lia.
  Qed.
  Lemma map_copy_takes fuel other (xs : list (loc * V)) : log_steps (length xs) < fuel →
    takes_at_most (12 * length xs + 5) (is_map keyof lt other xs) (λ al : Allocator (rbcell V), m_copy fuel other).
  Proof.
    intros Hf.
    set (pp := λ this, proj1_sig (assign_prog (V:=V) fuel this other)).
    assert (performs (λ al : Allocator (rbcell V), m_copy fuel other)
      (pbind (PAlloc (Rb None None None true None) PRet) (λ this, pbind (pp this) (λ _, PRet this)))) as Hperf.
    { apply (perf_bind _ _ (λ al, @rb_new V al) (λ al this, rb_assign fuel this other ;! ret this)); [apply perf_alloc|].
      intros this. apply (perf_bind _ _ (λ al, rb_assign fuel this other) (λ al _, ret this)); [|intros; apply perf_ret].
      apply (proj2_sig (assign_prog fuel this other)). }
    eexists. split; [exact Hperf|]. intros al h hf Hh Hd.
    destruct (copy_ok (H:=al) keyof lt fuel other xs Hf h hf Hh Hd) as (this&h'&Hm&Hd'&ys&Hys&h1&h2&->&Hd12&[_ H1]&[_ H2]).
    eexists _, _. split; [exact Hm|].
    rewrite (performs_interp _ _ Hperf) in Hm. destruct Hh as [_ Hh].
    cbn [pbind interp accesses] in *. set (l := @alloc_addr _ al (h ∪ hf)) in *. set (c := Rb None None None true None) in *.
    rewrite interp_bind in Hm. unfold bind in Hm.
    destruct (interp al (pp l) (<[l:=c]> (h ∪ hf))) as [[u h3]| |] eqn:E; [|done|done].
    rewrite (accesses_bind al _ _ _ _ _ E). cbn [interp accesses] in *. injection Hm as _ Eh. rewrite Eh in E. clear Eh h3.
    destruct (proj2_sig (assign_prog (V:=V) fuel l other)) as [_ Hc].
    specialize (Hc al _ c _ _ (lookup_insert _ _ _) eq_refl E). fold (pp l) in Hc.
    rewrite map_size_insert_None in Hc; [|apply alloc_addr_fresh].
    rewrite !map_size_disj_union // in Hc. rewrite (size_rbtree _ _ _ H1) (size_rbtree _ _ _ H2) (size_rbtree _ _ _ Hh) in Hc.
    apply (f_equal length) in Hys. rewrite !fmap_length in Hys. lia.
  Qed.
  Lemma map_assign_takes fuel this other (xs ys : list (loc * V)) : log_steps (length xs) < fuel → log_steps (length ys) < fuel →
    takes_at_most (4 * length xs + 12 * length ys + 6) (both (is_map keyof lt this xs) (is_map keyof lt other ys))
      (λ al : Allocator (rbcell V), m_assign fuel this other).
  Proof.
    intros Hf1 Hf2. destruct (assign_prog (V:=V) fuel this other) as [pa [Hpa Hca]].
    destruct (nt_clear (V:=V) fuel this) as [pc [Hpc Hnc]].
    assert (performs (λ al : Allocator (rbcell V), m_assign fuel this other) (pbind pc (λ _, pa))) as Hperf.
    { apply (perf_bind _ _ (λ al, rb_clear fuel this) (λ al _, rb_assign fuel this other)); [done|]. by intros _. }
    eexists. split; [exact Hperf|]. intros al h hf Hh Hd.
    destruct (MapRuns.assign_ok (H:=al) keyof lt fuel this other xs ys Hf1 Hf2 h hf Hh Hd) as (r&h'&Hm&Hd'&zs&Hzs&h1&h2&->&Hd12&[_ H1]&[_ H2]).
    eexists _, _. split; [exact Hm|]. rewrite (performs_interp _ _ Hperf) in Hm. rewrite interp_bind in Hm. unfold bind in Hm.
    destruct Hh as (k1&k2&->&Hk12&Hk1&[_ Hk2]).
    apply map_disjoint_union_l in Hd as [Hd1 Hd2].
    destruct (MapRuns.clear_ok keyof lt fuel this xs Hf1 k1 (k2 ∪ hf) Hk1) as (u&k3&Hcl&Hd3&[_ Hk3]).
    { by apply map_disjoint_union_r. }
    apply map_disjoint_union_r in Hd3 as [Hd3 Hd3'].
    unfold m_clear in Hcl. rewrite map_union_assoc (performs_interp _ _ Hpc) in Hcl.
    rewrite Hcl in Hm. rewrite (accesses_bind al _ _ _ _ _ Hcl).
    pose proof (net_accesses al _ _ _ _ _ _ _ Hnc Hcl) as Hn.
    destruct (rbtree_empty_header _ _ Hk3) as (c&Hc&Hcp).
    assert ((k3 ∪ (k2 ∪ hf)) !! this = Some c) as Hc' by by apply lookup_union_Some_l.
    specialize (Hca al _ c _ _ Hc' Hcp Hm).
    destruct Hk1 as [_ Hk1].
    rewrite !map_size_disj_union // in Hca, Hn; try (apply map_disjoint_union_l; done); try (apply map_disjoint_union_r; done).
    rewrite (size_rbtree _ _ _ H1) (size_rbtree _ _ _ H2) (size_rbtree _ _ _ Hk3) (size_rbtree _ _ _ Hk2) in Hca.
    rewrite (size_rbtree _ _ _ Hk1) (size_rbtree _ _ _ Hk3) (size_rbtree _ _ _ Hk2) in Hn.
    apply (f_equal length) in Hzs. rewrite !fmap_length in Hzs. cbn [length] in *. lia.
  Qed.
End copy.

Section growth.
  Context {V : Type}.
  Notation C := (list (option V)).
  Lemma lc_copy_up (b : Prop) fuel p i e q o : Lc (C:=C) (b ∧ i ≤ e) (e - i) (λ _, True) (λ al, copy_up fuel p i e q o).
  Proof.
    unfold copy_up. match goal with |- Lc _ _ _ (λ al, loop _ ?bd _) => set (body := bd) end.
    revert i o. induction fuel as [|fuel IH]; intros i o; [apply lc_nofuel|]. cbn [loop].
    eapply lc_le; [eapply (lc_bind (b ∧ i ≤ e) (if decide (i = e) then 0 else 1) (e - S i) (λ r, r = if decide (i = e) then inr (i, o) else inl (S i, S o)) _
      (λ al, body (i, o)) (λ al r, match r with inl a => loop fuel body a | inr z => ret z end))| | |].
    - unfold body. destruct (decide (i = e)) as [->|Hne].
      + destruct (decide (e ≠ e)) as [?|_]; [done|]. by apply lc_ret.
      + destruct (decide (i ≠ e)) as [_|?]; [|done].
        eapply lc_le; [eapply (lc_bind _ 1 0 (λ _, True) _ (λ al, rd p i) (λ al x, construct q o x ;! ret (inl (S i, S o))))|done|done|exact (λ _ H, H)].
        * eapply lc_le; [lk|by intros H; exact H| |done]. intros _. cbn. lia.
        * intros x. eapply lc_le; [eapply (lc_bind _ 0 0 (λ _, True) _ (λ al, construct q o x)); [|intros []; apply lc_ret]|done|done|done].
          -- eapply (lc_0 _ 0 0 _ (λ _ al, construct q o x)). tk.
          -- intros _. done.
    - intros [[i' o']|z]; cbv beta iota.
      + eapply lc_le; [apply (IH i' o')|..|done].
        * intros [[Hb Hie] Hr]. split; [done|]. destruct (decide (i = e)); [done|]. injection Hr as -> ->. lia.
        * intros [[Hb Hie] Hr]. destruct (decide (i = e)); [done|]. injection Hr as -> ->. lia.
      + eapply lc_le; [apply (lc_ret (b ∧ i ≤ e) (λ _, True))|..]; [done|by intros [? _]| |done].
        intros [[Hb Hie] Hr]. destruct (decide (i = e)) as [->|]; [lia|done].
    - done.
    - intros [Hb Hie]. destruct (decide (i = e)); lia.
    - done.
  Qed.
  Lemma lc_copy_up0 (b : Prop) fuel p e q : Lc (C:=C) b e (λ _, True) (λ al, copy_up fuel p 0 e q 0).
  Proof. eapply lc_le; [apply (lc_copy_up b)|..]; [|lia|done]. intros ?. split; [done|lia]. Qed.
  Lemma lc_copy_up_any (b : Prop) fuel p i e q o : Lc (C:=C) b 0 (λ _, True) (λ al, copy_up fuel p i e q o).
  Proof. eapply (lc_0 _ 0 fuel _ (λ fuel al, _)); tk. Qed.
  Lemma lc_vc_loop (b : Prop) fuel p o n a : Lc (C:=C) b 0 (λ _, True) (λ al, vc_loop fuel p o n a).
  Proof. eapply (lc_0 _ 0 fuel _ (λ fuel al, _)); tk. Qed.
  Lemma lc_destroy_down (b : Prop) fuel p i : Lc (C:=C) b 0 (λ _, True) (λ al, destroy_down fuel p i).
  Proof. eapply (lc_0 _ 0 fuel _ (λ fuel al, _)); tk. Qed.
  Ltac lk_hint h ::=
    lazymatch h with
    | @copy_up => first [apply lc_copy_up0|apply lc_copy_up_any]
    | @vc_loop => apply lc_vc_loop
    | @destroy_down => apply lc_destroy_down
    end.
  Lemma push_full_lower fuel v r : Lc (C:=C) (v_end v ≤ v_last v) (S (v_last v)) (λ _, True) (λ al, v_push_back fuel v r).
  Proof.
    unfold v_push_back. destruct (decide (v_last v < v_end v)) as [Hlt|_].
    { eapply lc_le; [eapply (lc_0 True 0 0 _ (λ _ al, _)); tk|done|lia|done]. }
    unfold v_insert_n, v_insert_values.
    destruct (decide (0 < 1)) as [_|]; [|lia]. destruct (decide (v_end v - v_last v < 1)) as [_|Hn]; last first.
    { eapply lc_le; [eapply (lc_0 True 0 fuel _ (λ fuel al, _)); tk|done|lia|done]. }
    cbv zeta. eapply lc_le; [lk|intros H; exact H| |done]. intros _. cbn [Nat.add]. lia.
  Qed.

  Definition full (v : tvec) (xs : list V) (h : gmap loc C) : Prop := v_end v = v_last v ∧ is_vec v xs h.
  Lemma push_one al fuel v (xs : list V) r x h hf : vrefers v xs r x → length xs + 1 < fuel → full v xs h → h ##ₘ hf →
    ∃ v' h', v_push_back (H:=al) fuel v r (h ∪ hf) = Ok (v', h' ∪ hf) ∧ h' ##ₘ hf ∧ full v' (xs ++ [x]) h'.
  Proof.
    intros Hr Hf [He Hv] Hd. destruct (vec_push_back_ok (H:=al) fuel v xs r x Hr Hf h hf Hv Hd) as (v'&h'&Hm&Hd'&Hc&_&Hv').
    exists v', h'. split_and!; [done..|]. split; [|done].
    destruct Hv as [Hl _]. destruct Hv' as [Hl' _]. unfold v_capacity, grown in Hc. rewrite Hl' app_length. cbn [length].
    rewrite Hc. case_decide; lia.
  Qed.
  Lemma push_backs_lower fuel (ys : list V) : ∀ v, {p | performs (λ al : Allocator C, push_backs fuel v ys) p ∧
    ∀ al (xs : list V) h hf, length xs + length ys < fuel → full v xs h → h ##ₘ hf →
      (∃ r h', push_backs (H:=al) fuel v ys (h ∪ hf) = Ok (r, h' ∪ hf)) ∧
      length ys * (2 * length xs + S (length ys)) ≤ 2 * accesses al p (h ∪ hf)}.
  Proof.
    induction ys as [|y ys IH]; intros v; cbn [push_backs].
    { exists (PRet v). split; [apply perf_ret|]. intros. split; [by eexists _, _|]. simpl. lia. }
    destruct (push_full_lower fuel v (VExt y)) as [p [Hp Hl]].
    exists (pbind p (λ v', proj1_sig (IH v'))). split.
    { apply (perf_bind _ _ (λ al, v_push_back fuel v (VExt y)) (λ al v', push_backs fuel v' ys)); [done|].
      intros v'. apply (proj2_sig (IH v')). }
    intros al xs h hf Hf Hfull Hd. cbn [length] in *.
    destruct (push_one al fuel v xs (VExt y) y h hf) as (v'&h'&Hm&Hd'&Hfull'); [done|lia|done..|].
    destruct (proj2_sig (IH v')) as [_ Hrec]. destruct (Hrec al (xs ++ [y]) h' hf) as [(r&h2&Hm2) Hle]; [|done..|].
    { rewrite app_length. cbn [length]. lia. }
    split.
    { exists r, h2. unfold bind. by rewrite Hm. }
    rewrite (performs_interp _ _ Hp) in Hm. rewrite (accesses_bind al _ _ _ _ _ Hm).
    destruct Hfull as [He Hv]. assert (v_end v ≤ v_last v) as Hle2 by lia.
    pose proof (lowb_accesses al _ _ _ _ _ _ (Hl Hle2) Hm) as Hlow.
    rewrite (proj1 Hv) in Hlow. rewrite app_length in Hle. cbn [length] in Hle. nia.
  Qed.
  Lemma v_push_back_full_takes fuel v (xs : list V) r x : vrefers v xs r x → v_capacity v = length xs → length xs + 1 < fuel →
    takes_at_least (S (length xs)) (is_vec v xs) (λ al : Allocator C, v_push_back fuel v r) ∧
    ∀ al : Allocator C, runs (is_vec v xs) (v_push_back fuel v r)
      (λ v' h, v_capacity v' = S (length xs) ∧ is_vec v' (xs ++ [x]) h).
  Proof.
    intros Hr Hc Hf. split.
    - destruct (push_full_lower fuel v r) as [p [Hp Hl]]. exists p. split; [done|]. intros al h hf Hv Hd.
      destruct (vec_push_back_ok (H:=al) fuel v xs r x Hr Hf h hf Hv Hd) as (v'&h'&Hm&_).
      rewrite (performs_interp _ _ Hp) in Hm. destruct Hv as [Hlen _].
      assert (v_end v ≤ v_last v) as Hle by (unfold v_capacity in Hc; lia).
      pose proof (lowb_accesses al _ _ _ _ _ _ (Hl Hle) Hm) as Hlow. by rewrite Hlen in Hlow.
    - intros al h hf Hv Hd.
      destruct (vec_push_back_ok (H:=al) fuel v xs r x Hr Hf h hf Hv Hd) as (v'&h'&Hm&Hd'&Hcap&_&Hv').
      exists v', h'. split; [done|]. split; [done|]. split; [|done]. rewrite Hcap. unfold grown. case_decide; lia.
  Qed.
  Lemma push_backs_quadratic fuel (xs : list V) : length xs < fuel →
    takes_at_least (length xs * S (length xs) / 2) nothing (λ al : Allocator C, let! v := v_new in push_backs fuel v xs).
  Proof.
    intros Hf. exists (pbind (PRet (Vec None 0 0)) (λ v, proj1_sig (push_backs_lower fuel xs v))). split.
    - apply (perf_bind _ _ (λ al, v_new) (λ al v, push_backs fuel v xs)); [apply perf_ret|].
      intros v. apply (proj2_sig (push_backs_lower fuel xs v)).
    - intros al h hf -> Hd. cbn [pbind].
      destruct (proj2_sig (push_backs_lower fuel xs (Vec None 0 0))) as [_ H].
      destruct (H al [] ∅ hf) as [_ Hle]; [cbn [length]; lia|split_and!; [done..|simpl; done]|done|]. cbn [length] in Hle.
      apply Nat.div_le_upper_bound; [lia|]. lia.
  Qed.
  Lemma v_push_back_room_prog fuel v r : {p | performs (λ al : Allocator C, v_push_back fuel v r) p ∧
    (v_last v < v_end v → bounded 0 (λ _, Some 3) p)}.
  Proof.
    unfold v_push_back. destruct (decide (v_last v < v_end v)) as [Hlt|Hge].
    - assert (Tk 0 0 3 (λ _ (al : Allocator C), let! x := deref r in construct (v_buf v) (v_last v) x ;! ret (v_set_last v (S (v_last v))))) as Ht.
      { eapply tk_le; [tk|]. cost_le. }
      destruct Ht as [[p q] (H1&H2&H3&H4)]. by exists p.
    - assert {n & Tk 0 fuel n (λ fuel (al : Allocator C), let! (v, _) := v_insert_n fuel v (v_last v) 1 r in ret v)} as [n Ht].
      { eexists. tk. }
      destruct Ht as [[p q] (H1&H2&H3&H4)]. by exists q.
  Qed.
  Lemma v_push_back_room_takes fuel v (xs : list V) r x : vrefers v xs r x → length xs < v_capacity v → length xs + 1 < fuel →
    takes_at_most 3 (is_vec v xs) (λ al : Allocator C, v_push_back fuel v r).
  Proof.
    intros Hr Hc Hf. destruct (v_push_back_room_prog fuel v r) as [p [Hp Hb]]. exists p. split; [done|]. intros al h hf Hv Hd.
    destruct (vec_push_back_ok (H:=al) fuel v xs r x Hr Hf h hf Hv Hd) as (v'&h'&Hm&_). eexists _, _. split; [done|].
    rewrite (performs_interp _ _ Hp) in Hm. destruct Hv as [Hlen _]. unfold v_capacity in Hc.
    assert (v_last v < v_end v) as Hlt by lia.
    pose proof (bounded_accesses al 0 _ _ _ _ _ (Hb Hlt) Hm) as Hle. simpl in Hle. lia.
  Qed.
  Lemma push_backs_upper fuel (ys : list V) : ∀ v, {p | performs (λ al : Allocator C, push_backs fuel v ys) p ∧
    ∀ al (xs : list V) h hf, length xs + length ys ≤ v_capacity v → length xs + length ys < fuel → is_vec v xs h → h ##ₘ hf →
      (∃ r h', push_backs (H:=al) fuel v ys (h ∪ hf) = Ok (r, h')) ∧ accesses al p (h ∪ hf) ≤ 3 * length ys}.
  Proof.
    induction ys as [|y ys IH]; intros v; cbn [push_backs].
    { exists (PRet v). split; [apply perf_ret|]. intros. split; [by eexists _, _|]. simpl. lia. }
    destruct (v_push_back_room_prog fuel v (VExt y)) as [p [Hp Hb]].
    exists (pbind p (λ v', proj1_sig (IH v'))). split.
    { apply (perf_bind _ _ (λ al, v_push_back fuel v (VExt y)) (λ al v', push_backs fuel v' ys)); [done|].
      intros v'. apply (proj2_sig (IH v')). }
    intros al xs h hf Hc Hf Hv Hd. cbn [length] in *.
    assert (length xs + 1 < fuel) as Hfuel by lia.
    assert (vrefers v xs (VExt y) y) as Hr by done.
    destruct (vec_push_back_ok (H:=al) fuel v xs (VExt y) y Hr Hfuel h hf Hv Hd) as (v'&h'&Hm&Hd'&Hcap&_&Hv').
    destruct (proj2_sig (IH v')) as [_ Hrec]. destruct (Hrec al (xs ++ [y]) h' hf) as [(r&h2&Hm2) Hle]; [| |done..|].
    { rewrite app_length. cbn [length]. rewrite Hcap. unfold grown. case_decide; lia. }
    { rewrite app_length. cbn [length]. lia. }
    split.
    { exists r, h2. unfold bind. by rewrite Hm. }
    rewrite (performs_interp _ _ Hp) in Hm. rewrite (accesses_bind al _ _ _ _ _ Hm).
    destruct Hv as [Hlen _]. unfold v_capacity in Hc.
    assert (v_last v < v_end v) as Hlt by lia.
    pose proof (bounded_accesses al 0 _ _ _ _ _ (Hb Hlt) Hm) as Hle2. simpl in Hle2. lia.
  Qed.
  Lemma push_backs_reserved fuel v (xs ys : list V) : length xs + length ys ≤ v_capacity v → length xs + length ys < fuel →
    takes_at_most (3 * length ys) (is_vec v xs) (λ al : Allocator C, push_backs fuel v ys).
  Proof.
    intros Hc Hf. destruct (push_backs_upper fuel ys v) as [p [Hp H]]. exists p. split; [done|]. intros al h hf Hv Hd.
    destruct (H al xs h hf Hc Hf Hv Hd) as [(r&h'&Hm) Hle]. eauto.
  Qed.
End growth.
