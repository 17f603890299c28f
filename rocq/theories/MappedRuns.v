(** map: operator[] and whole programs with element access: the property lemmas. *)
From Verif Require Import MapRuns MapHistory RbFind.
(*@HEADER
From Verif Require Import MapSpec MappedRuns.

Section mapped.
  Context {K T : Type} (lt eqb : K → K → bool) (dflt : T).
  Context `{Allocator (rbcell (K * T))}.
  Implicit Types (xs : list (loc * (K * T))).
@*)
(*@FOOTER
End mapped.
@*)
Section mapped.
  Context {K T : Type} (lt eqb : K → K → bool) (dflt : T).
  Context `{Allocator (rbcell (K * T))}.
  Implicit Types (xs : list (loc * (K * T))).

  (*@ C01,C02,C05,C06,C08,C12 Whole programs on two maps, with operator[], m[k] = v and at as well. *)
  Lemma map_history (veqb : K * T → K * T → bool) ops :
    key_order lt eqb → map_correct lt eqb veqb dflt ops.
  Proof. intros. by apply map_history_correct. Qed.
  (*@ C01,C02,C03,C04,C05,C06,C08,C12,C13_partial The state after every history on two maps. *)
  Lemma map_reaches (veqb : K * T → K * T → bool) ops :
    key_order lt eqb →
    h_reaches rb_new (map_step lt eqb veqb dflt) [] (map_spec lt eqb veqb dflt)
      (λ a vs h, ∃ xs, xs.*2 = vs ∧ is_map fst lt a xs h) ops.
  Proof. intros. by apply map_history_reaches. Qed.

  (*@ C01,C03,C04,C05 operator[](key): the reference is to the mapped value of the
     element with that key if there is one (and nothing changes), else of one new
     element (key, T()) put at its place in the order; every other element keeps its
     address and value. *)
  Lemma index_ok fuel this xs (key : K) :
    key_order lt eqb → log_steps (length xs) < fuel →
    runs (is_map fst lt this xs) (m_index lt eqb dflt fuel this key)
      (λ p h,
         if has fst eqb key xs.*2
         then ∃ i x w, xs !! i = Some (x, w) ∧ eqb key w.1 = true ∧
                    p = Some x ∧ is_map fst lt this xs h
         else ∃ i n, p = Some n ∧ i ≤ length xs ∧
                    is_map fst lt this (take i xs ++ (n, (key, dflt)) :: drop i xs) h).
  Proof.
    intros Hord Hf. apply runs_of_wp. rewrite plain_map. iIntros "H". iDestruct "H" as "[%Hs H]".
    pose proof (proj2 (asc_values _ _ _) Hs) as Hs'. pose proof (asc_nondesc _ _ _ Hord _ Hs') as Hnd.
    iDestruct (rbt_nodup with "H") as %Hdup.
    unfold m_index. wstep. iApply (wp_m_find _ _ _ Hord with "H"); [done|done|]. iSplit.
    - iIntros (E1 x w E2) "%Hx H". destruct Hx as (->&He).
      rewrite fmap_mid (present_has _ _ _ _ _ _ He).
      destruct (decide _) as [Heq|_].
      { exfalso. simplify_eq. inversion_clear Hdup as [|?? Hni _]. apply Hni. rewrite fmap_app fmap_cons. set_solver. }
      wstep. iExists (length E1), x, w. iSplit; [iPureIntro; by apply list_lookup_middle|].
      iSplit; [done|]. iSplit; [done|]. rewrite plain_map'. by iSplit.
    - iIntros (E1 E2) "%Hx H". destruct Hx as (->&HL&HR).
      apply all_lt_values in HL. apply all_gt_values in HR.
      destruct (decide _) as [_|?]; [|done]. wstep.
      assert (has fst eqb key (E1 ++ E2).*2 = false) as Hno.
      { by rewrite fmap_app (absent_has _ _ _ Hord). }
      rewrite Hno.
      iApply (wp_m_insert _ _ _ Hord with "H"); [done|done|]. iSplit.
      + iIntros (F1 x w F2) "%Hx H". exfalso. destruct Hx as (Hx&He). rewrite Hx fmap_mid in Hno.
        simpl in He. by rewrite (present_has _ _ _ _ _ _ He) in Hno.
      + iIntros (F1 n F2) "%Hx H". wstep. destruct Hx as (Hx&HL'&HR'). rewrite Hx. rewrite Hx in Hs.
        apply all_lt_values in HL'. apply all_gt_values in HR'.
        iExists (length F1), n. iSplit; [done|]. iSplit; [iPureIntro; rewrite app_length; lia|].
        rewrite plain_map' take_app drop_app. iSplit; [|done]. iPureIntro.
        rewrite fmap_mid. apply ascending_insert_mid; [by rewrite -fmap_app|done|done].
  Qed.
End mapped.
