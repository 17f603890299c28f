(** set and map whose Compare or == may throw: the property lemmas, in the vocabulary of Triple.v,
    MapSpec.v and CmpSpec.v (C95). *)
From Verif Require Import CmpSim CmpDel RbMap MapHistory MapRuns.
(*@HEADER
From Verif Require Import CmpSpec CmpRuns.

Section cmp.
  Context {K V : Type} `{Allocator (rbcell V)}.
  Context (keyof : V → K) (lt eqb : K → K → bool) (ltf eqf : nat → K → K → option bool).
@*)
(*@FOOTER
End cmp.
@*)

Section throws.
  Context {S : Type}.
  Definition no_throw {A} (p : T S A) : Prop := ∀ c s s', p c s ≠ Ok (None, s').
  Lemma nt_tdo {A} (m : M S A) : no_throw (tdo m).
  Proof. intros c s s'. unfold tdo, bind. by destruct (m s) as [[? ?]| |]. Qed.
  Lemma nt_ret {A} (a : A) : no_throw (tret (S:=S) a).
  Proof. by intros c s s'. Qed.
  Lemma nt_bind {A B} (p : T S A) (k : A → T S B) : no_throw p → (∀ a, no_throw (k a)) → no_throw (tbind p k).
  Proof.
    intros Hp Hk c s s'. unfold tbind, bind. destruct (p c s) as [[[[a c1]|] s1]| |] eqn:E; [|by apply Hp in E|done|done].
    apply Hk.
  Qed.
End throws.

Section cmp.
  Context {K V : Type} `{Allocator (rbcell V)}.
  Context (keyof : V → K) (lt eqb : K → K → bool) (ltf eqf : nat → K → K → option bool).
  Notation C := (rbcell V).
  Notation heap := (gmap loc C).
  Notation iProp := (bi_car (hpropI C)).

  Lemma height_elems (t : tree V) : height t ≤ length (elems t).
  Proof. induction t; simpl; [lia|]. rewrite app_length /=. lia. Qed.
  Lemma plain_loose this (xs : list (loc * V)) :
    plain (is_loose_map keyof lt this xs) ⊣⊢ ⌜ascending keyof lt xs.*2⌝ ∧ ∃ t : tree V, ⌜elems t = xs⌝ ∧ rzip this [] t.
  Proof.
    apply bi.equiv_entails; split; apply hentails_intro; intros σ.
    - intros (Ha&t&He&Hnd&->)%plain_holds. apply hand_unfold. split; [by apply hpure_unfold|].
      apply hexist_unfold. exists t. apply hand_unfold. split; [by apply hpure_unfold|].
      apply rzip_holds. by subst xs.
    - intros [Ha%hpure_unfold (t&[He%hpure_unfold [Hnd ->]%rzip_holds]%hand_unfold)%hexist_unfold]%hand_unfold.
      apply plain_holds. split; [done|]. exists t. by subst xs.
  Qed.
  Lemma plain_loose' this (xs : list (loc * V)) :
    plain (λ h, is_loose_map keyof lt this xs h) ⊣⊢ ⌜ascending keyof lt xs.*2⌝ ∧ ∃ t : tree V, ⌜elems t = xs⌝ ∧ rzip this [] t.
  Proof. apply plain_loose. Qed.

  (*@ C95 find: at an exception memory is unchanged; otherwise the call is that of C01. *)
  Lemma find_throws fuel this key :
    answers_like ltf lt → answers_like eqf eqb →
    all_or_nothing (may_throw ltf eqf) (xm_find keyof ltf eqf fuel this key) (m_find keyof lt eqb fuel this key).
  Proof. intros. by apply aon_find. Qed.
  (*@ C95 the same for count. *)
  Lemma count_throws fuel this key :
    answers_like ltf lt → answers_like eqf eqb →
    all_or_nothing (may_throw ltf eqf) (xm_count keyof ltf eqf fuel this key) (m_count keyof lt eqb fuel this key).
  Proof. intros. by apply aon_count. Qed.
  (*@ C95 ... lower_bound. *)
  Lemma lower_bound_throws fuel this key :
    answers_like ltf lt →
    all_or_nothing (may_throw ltf eqf) (xm_lower_bound keyof ltf fuel this key) (m_lower_bound keyof lt fuel this key).
  Proof. intros. by apply aon_lower_bound. Qed.
  (*@ C95 ... upper_bound. *)
  Lemma upper_bound_throws fuel this key :
    answers_like ltf lt →
    all_or_nothing (may_throw ltf eqf) (xm_upper_bound keyof ltf fuel this key) (m_upper_bound keyof lt fuel this key).
  Proof. intros. by apply aon_upper_bound. Qed.
  (*@ C95 ... equal_range. *)
  Lemma equal_range_throws fuel this key :
    answers_like ltf lt →
    all_or_nothing (may_throw ltf eqf) (xm_equal_range keyof ltf fuel this key) (m_equal_range keyof lt fuel this key).
  Proof. intros. by apply aon_equal_range. Qed.
  (*@ C95 insert(value): at an exception the container and all other memory is as it was before. *)
  Lemma insert_throws fuel this (v : V) :
    answers_like ltf lt → answers_like eqf eqb →
    all_or_nothing (may_throw ltf eqf) (xm_insert keyof ltf eqf fuel this v) (m_insert keyof lt eqb fuel this v).
  Proof. intros. by apply aon_insert. Qed.
  (*@ C95 range insertion: at an exception memory is as after the insertion of a prefix of the range. *)
  Lemma insert_range_throws fuel this (vs : list V) c (h : gmap loc (rbcell V)) :
    answers_like ltf lt → answers_like eqf eqb →
    (may_throw ltf eqf ∧ ∃ vs1 vs2 h', vs = vs1 ++ vs2 ∧ m_insert_range keyof lt eqb fuel this vs1 h = Ok (tt, h') ∧
       xm_insert_range keyof ltf eqf fuel this vs c h = Ok (None, h')) ∨
    as_plain (xm_insert_range keyof ltf eqf fuel this vs c h) (m_insert_range keyof lt eqb fuel this vs h).
  Proof. intros. by apply insert_range_sim. Qed.
  (*@ C95 operator[] of map, like insert. *)
  Lemma index_throws {T0 : Type} `{Allocator (rbcell (K * T0))} (dflt : T0) fuel this (key : K) :
    answers_like ltf lt → answers_like eqf eqb →
    all_or_nothing (may_throw ltf eqf) (xm_index ltf eqf dflt fuel this key) (m_index lt eqb dflt fuel this key).
  Proof. intros. by apply aon_index. Qed.

  (*@ C95_partial erase(key): without an exception it is the call of C01; after one the tree still holds
     every element, at its old address and in ascending order, but its nodes may no longer be
     coloured and balanced as erase needs them. *)
  Lemma erase_throws fuel this (xs : list (loc * V)) (key : K) c :
    key_order lt eqb → log_steps (length xs) < fuel → answers_like ltf lt → answers_like eqf eqb →
    runs (is_map keyof lt this xs) (xm_erase keyof ltf eqf fuel this key c)
      (λ q h,
         match q with
         | None => may_throw ltf eqf ∧ is_loose_map keyof lt this xs h
         | Some (r, _) =>
             if has keyof eqb key xs.*2
             then r = 1 ∧ ∃ i x w, xs !! i = Some (x, w) ∧ eqb key (keyof w) = true ∧
                    is_map keyof lt this (take i xs ++ drop (S i) xs) h
             else r = 0 ∧ is_map keyof lt this xs h
         end).
  Proof.
    intros Hord Hf Hlt Heq h hf Hh Hd.
    destruct (weakly_erase keyof lt eqb ltf eqf Hlt Heq fuel this key c (h ∪ hf)) as [(Ht&s'&Hx)|Ha].
    2:{ destruct (erase_ok keyof lt eqb fuel this xs key Hord Hf h hf Hh Hd) as (r&h'&Hr&Hd'&Hq).
        rewrite Hr in Ha. destruct Ha as [c' Ha]. exists (Some (r, c')), h'. done. }
    destruct Hh as [Ha (t&He&Hr&[m Hb]&Hnd&->)].
    destruct (rem_root _ _ Hb Hr) as (c0&m0&Hr0&Hm0).
    assert (meas (recolor c0 t) m0 < fuel) as Hmu.
    { pose proof (balanced_size _ _ Hb) as Hs. apply Nat.log2_le_mono in Hs.
      rewrite Nat.log2_pow2 in Hs; [|lia]. unfold log_steps in Hf. subst xs. lia. }
    pose proof (wp_xremove_loop keyof lt eqb Hord ltf eqf Hlt Heq this key t (meas (recolor c0 t) m0) fuel c
      ltac:(rewrite He; by apply (asc_lone _ _ _ Hord), asc_values) ltac:(left; exists c0, m0; done) Hmu) as Hw.
    destruct (wp_run _ _ _ Hw (<[this := Rb (rootp t) None None true None]> (tree_heap this t)) hf) as (a&σ'&Hl&Hd'&Hq);
      [by apply rzip_holds|done|].
    pose proof Hx as Hx'.
    unfold xm_erase, xrb_remove, tbind at 1 2, bind at 1 2 in Hx. rewrite Hl in Hx.
    destruct a as [[[par del] c']|].
    - exfalso. revert Hx.
      destruct ((tdo (climb_fixup fuel this par);@
          let@ root := tdo (getf parent (Some this)) in
          tdo (if nonnull root then setf (set_red false) root else ret tt);@ tret del) c' (σ' ∪ hf)) as [[[[n c2]|] s2]| |] eqn:E.
      + intros Hx. eapply nt_bind in Hx; [done|apply nt_tdo|intros []; apply nt_ret].
      + eapply nt_bind in E; [done|apply nt_tdo|]. intros []. apply nt_bind; [apply nt_tdo|]. intros root.
        apply nt_bind; [apply nt_tdo|]. intros []. apply nt_ret.
      + done.
      + done.
    - exists None, σ'. split_and!; [|done|done|].
      + rewrite Hx'. unfold ret in Hx. cbn beta iota in Hx. congruence.
      + simpl in Hq. apply hexist_unfold in Hq as (t'&[He'%hpure_unfold [Hnd' ->]%rzip_holds]%hand_unfold).
        split; [done|]. exists t'. subst xs. rewrite -He'. done.
  Qed.

  (*@ C95_partial After such an exception find is still right. *)
  Lemma erase_torn_find fuel this (xs : list (loc * V)) (key : K) :
    key_order lt eqb → length xs < fuel →
    runs (is_loose_map keyof lt this xs) (m_find keyof lt eqb fuel this key)
      (λ p h,
         is_loose_map keyof lt this xs h ∧
         if has keyof eqb key xs.*2
         then ∃ i x w, xs !! i = Some (x, w) ∧ eqb key (keyof w) = true ∧ p = Some x
         else p = m_end this).
  Proof.
    intros Hord Hf. apply runs_of_wp. rewrite plain_loose. iIntros "[%Hs H]". iDestruct "H" as (t) "[%He H]".
    pose proof (proj2 (asc_values _ _ _) Hs) as Hs'. pose proof (asc_nondesc _ _ _ Hord _ Hs') as Hnd.
    pose proof (height_elems t) as Hh. rewrite He in Hh.
    iApply (wp_find _ _ _ Hord with "H"); [by rewrite He|lia|]. rewrite He. iSplit.
    - iIntros (E1 x w E2) "%Hx H". destruct Hx as (->&Hxe).
      rewrite fmap_mid (present_has _ _ _ _ _ _ Hxe). iSplit.
      { rewrite plain_loose'. iSplit; [done|]. iExists t. by iSplit. }
      iPureIntro. exists (length E1), x, w. split; [by apply list_lookup_middle|done].
    - iIntros (E1 E2) "%Hx H". destruct Hx as (->&HL&HR).
      apply all_lt_values in HL. apply all_gt_values in HR.
      rewrite fmap_app (absent_has _ _ _ Hord); [|done|done]. iSplit; [|done].
      rewrite plain_loose'. iSplit; [done|]. iExists t. by iSplit.
  Qed.
  (*@ C95_partial ... begin() *)
  Lemma erase_torn_begin fuel this (xs : list (loc * V)) :
    length xs < fuel →
    runs (is_loose_map keyof lt this xs) (m_begin fuel this)
      (λ p h, is_loose_map keyof lt this xs h ∧ p = iter_at this xs 0).
  Proof.
    intros Hf. apply runs_of_wp. rewrite plain_loose. iIntros "[%Hs H]". iDestruct "H" as (t) "[%He H]".
    pose proof (height_elems t) as Hh. rewrite He in Hh. unfold m_begin. iDestruct "H" as "[Hc Ht]". simpl.
    wstep. iApply (wp_getf with "Hc"). iIntros "Hc". cbn [parent].
    iAssert (rzip this [] t) with "[Hc Ht]" as "H"; [unfold rzip; simpl; iFrame|].
    rewrite iter_first drop_0.
    destruct t as [|c l x v r].
    - simpl in He. subst xs. simpl. wstep. iSplit; [|done]. rewrite plain_loose'. iSplit; [done|]. iExists Leaf. by iSplit.
    - change (nonnull (rootp (Node c l x v r))) with true. cbn iota.
      iApply (wp_min_node with "H"); [done|lia|]. iIntros "H". rewrite He. iSplit; [|done].
      rewrite plain_loose'. iSplit; [done|]. iExists _. by iSplit.
  Qed.
  (*@ C95_partial ... and ++ on the iterator to element i still visit exactly the elements. *)
  Lemma erase_torn_incr fuel this (xs : list (loc * V)) i :
    i < length xs → length xs < fuel →
    runs (is_loose_map keyof lt this xs) (m_incr fuel (iter_at this xs i))
      (λ p h, is_loose_map keyof lt this xs h ∧ p = iter_at this xs (Datatypes.S i)).
  Proof.
    intros Hi Hf. apply runs_of_wp. rewrite plain_loose. iIntros "[%Hs H]". iDestruct "H" as (t) "[%He H]".
    pose proof (height_elems t) as Hh. rewrite He in Hh.
    destruct (iter_split xs i Hi) as (x&v&Hxs). rewrite (iter_first _ _ (Datatypes.S i)).
    assert (iter_at this xs i = Some x) as ->.
    { rewrite iter_first. rewrite {1}Hxs. rewrite drop_app_alt; [done|]. rewrite take_length; lia. }
    iApply (wp_next_node with "H"); [by rewrite He|lia|]. iIntros "H". iSplit; [|done].
    rewrite plain_loose'. iSplit; [done|]. iExists t. by iSplit.
  Qed.
  (*@ C95_partial ... and clear() makes it an empty, usable container *)
  Lemma erase_torn_clear fuel this (xs : list (loc * V)) :
    length xs < fuel →
    runs (is_loose_map keyof lt this xs) (m_clear fuel this) (λ _ h, is_map keyof lt this [] h).
  Proof.
    intros Hf. apply runs_of_wp. rewrite plain_loose. iIntros "[%Hs H]". iDestruct "H" as (t) "[%He H]".
    pose proof (height_elems t) as Hh. rewrite He in Hh.
    iApply (wp_clear with "H"); [lia|]. iIntros "H". rewrite plain_map'. iSplit; [iPureIntro; constructor|].
    iApply (rbt_close _ Leaf 0 with "H"); done.
  Qed.
  (*@ C95_partial ... and the destructor leaves nothing. *)
  Lemma erase_torn_destroy fuel this (xs : list (loc * V)) :
    length xs < fuel →
    runs (is_loose_map keyof lt this xs) (rb_destroy fuel this) (λ _ h, nothing h).
  Proof.
    intros Hf. apply runs_of_wp. rewrite plain_loose. iIntros "[%Hs H]". iDestruct "H" as (t) "[%He H]".
    pose proof (height_elems t) as Hh. rewrite He in Hh.
    iApply (wp_destroy with "H"); [lia|]. change (λ h, nothing h) with (@nothing C). by rewrite plain_nothing.
  Qed.
End cmp.

(*@ C95_refuted erase, a genuine defect: set<int> s; insert 4, 2, 3, 1; erase(4) whose third call of
   Compare or == throws; the client catches the exception and calls erase(2): it returns 1, but
   element 4 is gone as well, and its node is never freed. *)
Lemma erase_torn_loses :
  let al := bump_allocator in
  let never := λ (c x y : nat), Some (Nat.eqb x y) in
  let third := λ (c x y : nat), if Nat.eqb c 2 then None else Some (Nat.ltb x y) in
  outcome ((
    let! s := rb_new in
    m_insert_range id Nat.ltb Nat.eqb 100 s [4; 2; 3; 1] ;!
    let! q := xm_erase id third never 100 s 4 0 in
    let! xs := m_forward 100 s in
    let! n := m_erase id Nat.ltb Nat.eqb 100 s 2 in
    let! ys := m_forward 100 s in
    rb_destroy 100 s ;!
    ret (q, xs, n, ys)) ∅) = Ok (None, [1; 2; 3; 4], 1, [1; 3], 1).
  Proof. vm_compute. reflexivity. Qed.
