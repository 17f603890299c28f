(** forward_list: the property lemmas, in the vocabulary of Triple.v,
    SlistSpec.v and ForwardSpec.v only. *)
From Verif Require Import ForwardSplice ForwardHistory ForwardLost SepHangs.
(*@HEADER
From Verif Require Import ForwardSpec ForwardRuns.

Section forward.
  Context {V : Type} `{Allocator (cell V)}.
@*)
(*@FOOTER
End forward.
@*)

Ltac fpre := first [rewrite plain_nothing | rewrite plain_both !flist_holds | rewrite flist_holds]; reflexivity.
Ltac fpost := repeat first
  [ done | rewrite plain_nothing | rewrite flist_holds
  | match goal with |- envs_entails _ (plain (both _ _)) => iSplitL "H" end ].

Section forward.
  Context {V : Type} `{Allocator (cell V)}.
  Notation iProp := (bi_car (hpropI (cell V))).

  Lemma plain_flist this (xs : list (loc * V)) : plain (λ h, is_flist this xs h) ⊣⊢ flist this xs.
  Proof. apply flist_holds. Qed.
  Lemma plain_flist2 a b (xs ys : list (loc * V)) :
    plain (λ h, both (is_flist a xs) (is_flist b ys) h) ⊣⊢ flist a xs ∗ flist b ys.
  Proof. rewrite plain_both !flist_holds. done. Qed.

  (*@ C22,C23_partial Whole programs: for every history of calls on two forward_lists that
     respects the preconditions of [fl_spec], every observation (returned
     iterators, front, empty, contents, ==) is the one made on plain sequences,
     nothing goes wrong, and after both destructors no memory is left over. *)
  Lemma fl_history (eqb : V → V → bool) ops xs ys outs :
    fl_spec_run eqb [] [] ops = Some (xs, ys, outs) →
    ∃ F, ∀ fuel, F ≤ fuel →
      runs nothing (fl_program eqb fuel ops) (λ outs' h, outs' = outs ∧ nothing h).
  Proof. apply fl_program_runs. Qed.

  (*@ C22 push_front adds one new node at the front; every other node stays
     where it is. [r] may refer to an element of the list itself. *)
  Lemma fl_push_front_ok this (xs : list (loc * V)) r v :
    refers xs r v →
    runs (is_flist this xs) (fl_push_front this r)
      (λ _ h, ∃ l, is_flist this ((l, v) :: xs) h).
  Proof.
    intros Hr. eapply runs_from; [fpre|by apply wp_fl_push_front|].
    intros ?. iIntros "H". iDestruct "H" as (l) "H". iExists l. by rewrite plain_flist.
  Qed.
  (*@ C22 pop_front frees exactly the first node. *)
  Lemma fl_pop_front_ok this l v (xs : list (loc * V)) :
    runs (is_flist this ((l, v) :: xs)) (fl_pop_front this) (λ _ h, is_flist this xs h).
  Proof.
    eapply runs_from; [fpre|apply wp_fl_pop_front|]. intros ?. by rewrite plain_flist.
  Qed.
  (*@ C22 insert_after returns an iterator to the one new node. *)
  Lemma fl_insert_after_ok this (xs : list (loc * V)) i r v :
    i ≤ length xs → refers xs r v →
    runs (is_flist this xs) (fl_insert_after (pos_at this xs i) r)
      (λ p h, ∃ l, p = Some l ∧ is_flist this (take i xs ++ (l, v) :: drop i xs) h).
  Proof.
    intros Hi Hr. eapply runs_from; [fpre|by apply wp_fl_insert_after|].
    intros p. iIntros "H". iDestruct "H" as (l ->) "H". iExists l. iSplit; [done|].
    by rewrite plain_flist.
  Qed.
  (*@ C22 insert_after(pos, n, value). *)
  Lemma fl_insert_after_n_ok this (xs : list (loc * V)) i n r v :
    i ≤ length xs → refers xs r v →
    runs (is_flist this xs) (fl_insert_after_n (pos_at this xs i) n r)
      (λ _ h, ∃ ys, ys.*2 = replicate n v ∧ is_flist this (take i xs ++ ys ++ drop i xs) h).
  Proof.
    intros Hi Hr. eapply runs_from; [fpre|by apply wp_fl_insert_after_n|].
    intros p. iIntros "H". iDestruct "H" as (ys Hys _) "H". iExists ys. iSplit; [done|].
    by rewrite plain_flist.
  Qed.
  (*@ C22 insert_after(pos, first, last). *)
  Lemma fl_insert_after_range_ok this (xs : list (loc * V)) i vs :
    i ≤ length xs →
    runs (is_flist this xs) (fl_insert_after_ext (pos_at this xs i) vs)
      (λ _ h, ∃ ys, ys.*2 = vs ∧ is_flist this (take i xs ++ ys ++ drop i xs) h).
  Proof.
    intros Hi. eapply runs_from; [fpre|by apply wp_fl_insert_after_ext|].
    intros p. iIntros "H". iDestruct "H" as (ys Hys) "H". iExists ys. iSplit; [done|].
    by rewrite plain_flist.
  Qed.
  (*@ C22 erase_after frees exactly the node after pos and returns the
     iterator to the one that follows it. *)
  Lemma fl_erase_after_ok this (xs : list (loc * V)) i :
    i < length xs →
    runs (is_flist this xs) (fl_erase_after (pos_at this xs i))
      (λ p h, p = pos_at this xs (S (S i)) ∧ is_flist this (take i xs ++ drop (S i) xs) h).
  Proof.
    intros Hi. destruct (lookup_lt_is_Some_2 xs i Hi) as [[l v] Hl].
    eapply runs_from; [fpre|by eapply wp_fl_erase_after|].
    intros p. iIntros "[-> H]". iSplit; [done|]. by rewrite plain_flist.
  Qed.
  (*@ C22 erase_after(pos, last) frees exactly the nodes strictly between. *)
  Lemma fl_erase_after_range_ok fuel this (xs : list (loc * V)) i j :
    i < j ≤ S (length xs) → length xs < fuel →
    runs (is_flist this xs) (fl_erase_after_range fuel (pos_at this xs i) (pos_at this xs j))
      (λ p h, p = pos_at this xs j ∧ is_flist this (take i xs ++ drop (j - 1) xs) h).
  Proof.
    intros Hi Hf. eapply runs_from; [fpre|by eapply wp_fl_erase_after_range|].
    intros p. iIntros "[-> H]". iSplit; [done|]. by rewrite plain_flist.
  Qed.
  (*@ C22 clear frees every node and keeps the object usable. *)
  Lemma fl_clear_ok fuel this (xs : list (loc * V)) :
    length xs < fuel →
    runs (is_flist this xs) (fl_clear fuel this) (λ _ h, is_flist this [] h).
  Proof.
    intros Hf. eapply runs_from; [fpre|by eapply wp_fl_clear|]. intros p. by rewrite plain_flist.
  Qed.
  (*@ C22 the destructor releases every node and the object: nothing is left. *)
  Lemma fl_destroy_ok fuel this (xs : list (loc * V)) :
    length xs < fuel →
    runs (is_flist this xs) (fl_destroy fuel this) (λ _ h, nothing h).
  Proof.
    intros Hf. eapply runs_from; [fpre|by eapply wp_fl_destroy|].
    intros p. change (λ h, nothing h) with (@nothing (cell V)). by rewrite plain_nothing.
  Qed.
  (*@ C22 reverse relinks the same nodes. *)
  Lemma fl_reverse_ok fuel this (xs : list (loc * V)) :
    length xs < fuel →
    runs (is_flist this xs) (fl_reverse fuel this) (λ _ h, is_flist this (reverse xs) h).
  Proof.
    intros Hf. eapply runs_from; [fpre|by eapply wp_fl_reverse|]. intros p. by rewrite plain_flist.
  Qed.
  (*@ C22 swap exchanges the node chains, moving no element. *)
  Lemma fl_swap_ok a b (xs ys : list (loc * V)) :
    runs (both (is_flist a xs) (is_flist b ys)) (fl_swap a b)
      (λ _ h, both (is_flist a ys) (is_flist b xs) h).
  Proof.
    eapply runs_from; [fpre|by eapply wp_fl_swap|]. intros p. by rewrite plain_flist2.
  Qed.
  (*@ C22 swapping a list with itself changes nothing. *)
  Lemma fl_swap_self_ok a (xs : list (loc * V)) :
    runs (is_flist a xs) (fl_swap a a) (λ _ h, is_flist a xs h).
  Proof.
    eapply runs_from; [fpre|by eapply wp_fl_swap_self|]. intros p. by rewrite plain_flist.
  Qed.
  (*@ C22 copy construction: equal values in new nodes, source untouched. *)
  Lemma fl_copy_ok fuel other (xs : list (loc * V)) :
    length xs < fuel →
    runs (is_flist other xs) (fl_copy fuel other)
      (λ this h, ∃ ys, ys.*2 = xs.*2 ∧ both (is_flist this ys) (is_flist other xs) h).
  Proof.
    intros Hf. eapply runs_from; [fpre|by eapply wp_fl_copy|].
    intros p. iIntros "H". iDestruct "H" as (ys Hys) "H". iExists ys. iSplit; [done|].
    by rewrite plain_flist2.
  Qed.
  (*@ C22 assignment from another list: all old nodes freed, equal values in
     new nodes, source untouched. *)
  Lemma fl_assign_from_ok fuel this other (xs ys : list (loc * V)) :
    length xs < fuel → length ys < fuel →
    runs (both (is_flist this xs) (is_flist other ys)) (fl_assign_from fuel this other)
      (λ _ h, ∃ zs, zs.*2 = ys.*2 ∧ both (is_flist this zs) (is_flist other ys) h).
  Proof.
    intros Hf1 Hf2. eapply runs_from; [fpre|by eapply wp_fl_assign_from|].
    intros p. iIntros "H". iDestruct "H" as (zs Hzs) "H". iExists zs. iSplit; [done|].
    by rewrite plain_flist2.
  Qed.
  (*@ C22 == compares the two sequences element by element. *)
  Lemma fl_eq_ok (eqb : V → V → bool) fuel a b (xs ys : list (loc * V)) :
    length xs < fuel →
    runs (both (is_flist a xs) (is_flist b ys)) (fl_eq eqb fuel a b)
      (λ r h, (r = true ↔ Forall2 (λ x y, eqb x y = true) xs.*2 ys.*2) ∧
              both (is_flist a xs) (is_flist b ys) h).
  Proof.
    intros Hf. eapply runs_from; [fpre|by eapply wp_fl_eq|].
    intros p. iIntros "[%Hr H]". iSplit; [done|]. by rewrite plain_flist2.
  Qed.

  (*@ C23_partial splice_after(pos, other) for a non-empty other: all its nodes
     move behind pos, none is copied. (An empty other breaks the list:
     C23_fl_splice_all_empty_refuted.) *)
  Lemma fl_splice_all_ok fuel this other (xs ys : list (loc * V)) i :
    i ≤ length xs → ys ≠ [] → length ys < fuel →
    runs (both (is_flist this xs) (is_flist other ys))
      (fl_splice_all fuel (pos_at this xs i) other)
      (λ _ h, both (is_flist this (take i xs ++ ys ++ drop i xs)) (is_flist other []) h).
  Proof.
    intros Hi Hne Hf. eapply runs_from; [fpre|by eapply wp_fl_splice_all|].
    intros p. by rewrite plain_flist2.
  Qed.
  (*@ C23_partial splice_after(pos, other, it): the node after it moves behind pos. *)
  Lemma fl_splice_one_ok this other (xs ys : list (loc * V)) i j l v :
    i ≤ length xs → ys !! j = Some (l, v) →
    runs (both (is_flist this xs) (is_flist other ys))
      (fl_splice_one (pos_at this xs i) (pos_at other ys j))
      (λ _ h, both (is_flist this (take i xs ++ (l, v) :: drop i xs))
                   (is_flist other (take j ys ++ drop (S j) ys)) h).
  Proof.
    intros Hi Hj. eapply runs_from; [fpre|by eapply wp_fl_splice_one|].
    intros p. by rewrite plain_flist2.
  Qed.
  (*@ C23_partial splice_after(pos, other, first, last) for a non-empty open range. *)
  Lemma fl_splice_range_ok fuel this other (xs ys : list (loc * V)) i j k :
    i ≤ length xs → S j < k ≤ S (length ys) → length ys < fuel →
    runs (both (is_flist this xs) (is_flist other ys))
      (fl_splice_range fuel (pos_at this xs i) (pos_at other ys j) (pos_at other ys k))
      (λ _ h, both (is_flist this (take i xs ++ take (k - 1 - j) (drop j ys) ++ drop i xs))
                   (is_flist other (take j ys ++ drop (k - 1) ys)) h).
  Proof.
    intros Hi Hj Hf. eapply runs_from; [fpre|by eapply wp_fl_splice_range|].
    intros p. by rewrite plain_flist2.
  Qed.
  (*@ C23_partial within one list, the moved element lying behind pos. *)
  Lemma fl_splice_one_fwd_ok this (xs1 xs2 : list (loc * V)) l v xs3 :
    xs2 ≠ [] →
    runs (is_flist this (xs1 ++ xs2 ++ (l, v) :: xs3))
      (fl_splice_one (pos_at this (xs1 ++ xs2 ++ (l, v) :: xs3) (length xs1))
         (pos_at this (xs1 ++ xs2 ++ (l, v) :: xs3) (length xs1 + length xs2)))
      (λ _ h, is_flist this (xs1 ++ (l, v) :: xs2 ++ xs3) h).
  Proof.
    intros Hne. eapply runs_from; [fpre|by eapply wp_fl_splice_one_fwd|].
    intros p. by rewrite plain_flist.
  Qed.
  (*@ C23_partial within one list, the moved element lying before pos (pos not
     being that element itself). *)
  Lemma fl_splice_one_bwd_ok this (xs1 xs2 : list (loc * V)) l v xs3 :
    xs2 ≠ [] →
    runs (is_flist this (xs1 ++ (l, v) :: xs2 ++ xs3))
      (fl_splice_one (pos_at this (xs1 ++ (l, v) :: xs2 ++ xs3) (length xs1 + 1 + length xs2))
         (pos_at this (xs1 ++ (l, v) :: xs2 ++ xs3) (length xs1)))
      (λ _ h, is_flist this (xs1 ++ xs2 ++ (l, v) :: xs3) h).
  Proof.
    intros Hne. eapply runs_from; [fpre|by eapply wp_fl_splice_one_bwd|].
    intros p. by rewrite plain_flist.
  Qed.
  (*@ C23_partial it == pos is a no-op. *)
  Lemma fl_splice_one_same_ok this (xs : list (loc * V)) i :
    runs (is_flist this xs) (fl_splice_one (pos_at this xs i) (pos_at this xs i))
      (λ _ h, is_flist this xs h).
  Proof.
    rewrite fl_splice_one_same.
    eapply (runs_from _ _ _ _ (λ _, flist this xs)); [fpre|iIntros "H"; by iApply wp_ret|].
    intros p. by rewrite plain_flist.
  Qed.
  (*@ C23_partial within one list, splice_after(pos, *this, first, last): the elements strictly between
     first and last (at least one) move behind pos, which lies before first, or at or behind last;
     everything else keeps its order. *)
  Lemma fl_splice_own_range_ok fuel this (xs : list (loc * V)) i j k :
    S j < k ≤ S (length xs) → i < j ∨ k ≤ i ≤ length xs → length xs < fuel →
    runs (is_flist this xs)
      (fl_splice_range fuel (pos_at this xs i) (pos_at this xs j) (pos_at this xs k))
      (λ _ h, is_flist this
        (if decide (i < j)
         then take i xs ++ take (k - 1 - j) (drop j xs) ++ take (j - i) (drop i xs) ++ drop (k - 1) xs
         else take j xs ++ take (i - (k - 1)) (drop (k - 1) xs) ++ take (k - 1 - j) (drop j xs) ++ drop i xs) h).
  Proof.
    intros Hjk Hi Hf. eapply (runs_from _ _ _ (flist this xs)); [fpre|eapply (wp_fl_move_range fuel this xs i j k); [lia..|left; lia|done]|].
    intros p. rewrite plain_flist. unfold fmove.
    destruct (decide (i < j)); [rewrite decide_True; [done|lia]|rewrite decide_False; [done|lia]].
  Qed.
  (*@ C23_partial within one list, the empty range just behind pos: nothing happens. *)
  Lemma fl_splice_own_nothing_ok fuel this (xs : list (loc * V)) i :
    i ≤ length xs → length xs < fuel →
    runs (is_flist this xs)
      (fl_splice_range fuel (pos_at this xs i) (pos_at this xs i) (pos_at this xs (S i)))
      (λ _ h, is_flist this xs h).
  Proof.
    intros Hi Hf. eapply (runs_from _ _ _ (flist this xs)); [fpre|eapply (wp_fl_move_range fuel this xs i i (S i)); [lia..|right; lia|done]|].
    intros p. rewrite plain_flist. unfold fmove. rewrite decide_True; [|lia]. simpl.
    by rewrite Nat.sub_0_r Nat.sub_diag take_0 /= take_drop.
  Qed.
  (*@ C23_refuted every splice_after of an empty list cuts the destination at
     pos: only the elements up to pos remain, the nodes of the others are
     lost (still allocated, reachable from neither list). *)
  Lemma fl_splice_all_empty fuel this other (xs : list (loc * V)) i :
    i ≤ length xs → 0 < fuel →
    runs (both (is_flist this xs) (is_flist other []))
      (fl_splice_all fuel (pos_at this xs i) other)
      (λ _ h, both (is_flist this (take i xs))
                (both (is_flist other [])
                      (λ h, NoDup (drop i xs).*1 ∧ h = list_heap (live (drop i xs)) None)) h).
  Proof.
    intros Hi Hf. eapply runs_from; [fpre|by eapply wp_fl_splice_all_empty|].
    intros p. iIntros "(H&Ho&Hl)". iSplitL "H"; [by rewrite plain_flist|].
    iSplitL "Ho"; [by rewrite flist_holds|]. iStopProof. apply hentails_intro.
    intros σ Hσ. apply plain_holds. apply cells_holds in Hσ. by rewrite live_locs in Hσ.
  Qed.
  (*@ C23_refuted splice_after(pos, *this, it) with pos == ++it, the element that is already in place:
     it is unlinked, points to itself and belongs to no list any more. *)
  Lemma fl_splice_one_in_place this (xs : list (loc * V)) j l v :
    xs !! j = Some (l, v) →
    runs (is_flist this xs) (fl_splice_one (pos_at this xs (S j)) (pos_at this xs j))
      (λ _ h, both (is_flist this (take j xs ++ drop (S j) xs))
                (λ h', h' = {[ l := Cell (Some l) (Live v) ]}) h).
  Proof.
    intros Hx. eapply runs_from; [fpre|by eapply wp_fl_one_in_place|].
    intros p. set (P := λ h', h' = {[ l := Cell (Some l) (Live v) ]}).
    change (λ h, both (is_flist this (take j xs ++ drop (S j) xs)) P h) with
      (both (is_flist this (take j xs ++ drop (S j) xs)) P).
    rewrite plain_both flist_holds. iIntros "[$ Hl]".
    iApply (hentails_intro with "Hl"). intros σ Hσ. apply plain_holds. by apply hpto_unfold in Hσ.
  Qed.
  (*@ C23_refuted splice_after(pos, *this, pos, last) of a non-empty range, which is already in place:
     the range is unlinked; its nodes are still allocated and belong to no list. *)
  Lemma fl_splice_range_in_place fuel this (xs : list (loc * V)) j k :
    S j < k ≤ S (length xs) → length xs < fuel →
    runs (is_flist this xs)
      (fl_splice_range fuel (pos_at this xs j) (pos_at this xs j) (pos_at this xs k))
      (λ _ h, both (is_flist this (take j xs ++ drop (k - 1) xs))
                (λ h', dom h' = list_to_set ((take (k - 1 - j) (drop j xs)).*1)) h).
  Proof.
    intros Hjk Hf. eapply runs_from; [fpre|by eapply wp_fl_range_in_place|].
    intros p. set (P := λ h' : gmap loc (cell V), dom h' = list_to_set ((take (k - 1 - j) (drop j xs)).*1)).
    change (λ h, both (is_flist this (take j xs ++ drop (k - 1) xs)) P h) with
      (both (is_flist this (take j xs ++ drop (k - 1) xs)) P).
    rewrite plain_both flist_holds. done.
  Qed.
  (*@ C23_refuted splice_after(pos, *this, it, ++it), an empty range, with pos before it: the elements
     behind pos up to it are unlinked; their nodes are still allocated and belong to no list. *)
  Lemma fl_splice_own_empty_behind fuel this (xs : list (loc * V)) i j :
    i < j ≤ length xs → 0 < fuel →
    runs (is_flist this xs)
      (fl_splice_range fuel (pos_at this xs i) (pos_at this xs j) (pos_at this xs (S j)))
      (λ _ h, both (is_flist this (take i xs ++ drop j xs))
                (λ h', dom h' = list_to_set ((take (j - i) (drop i xs)).*1)) h).
  Proof.
    intros Hij Hf. eapply runs_from; [fpre|by eapply wp_fl_none_behind|].
    intros p. set (P := λ h' : gmap loc (cell V), dom h' = list_to_set ((take (j - i) (drop i xs)).*1)).
    change (λ h, both (is_flist this (take i xs ++ drop j xs)) P h) with
      (both (is_flist this (take i xs ++ drop j xs)) P).
    rewrite plain_both flist_holds. done.
  Qed.
  (*@ C23_refuted splice_after(pos, *this, it, ++it) with it before pos: iterating the list afterwards
     never ends. *)
  Lemma fl_splice_own_empty_before fuel fuel' this (xs : list (loc * V)) i j :
    j < i ≤ length xs → 0 < fuel →
    hangs (is_flist this xs)
      (fl_splice_range fuel (pos_at this xs i) (pos_at this xs j) (pos_at this xs (S j)) ;!
       fl_contents fuel' this).
  Proof.
    intros Hij Hf. eapply (hangs_of _ _ (flist this xs)); [by rewrite flist_holds|]. by apply ihangs_fl_none_before.
  Qed.
  (*@ C23_refuted splice_after(pos, other, it, ++it), an empty range of another list: the elements
     behind pos are gone from the list, and in their place it shows everything other has
     behind it, while other keeps all of it. *)
  Lemma fl_splice_range_empty fuel this other (xs ys : list (loc * V)) i j :
    i ≤ length xs → j ≤ length ys → length xs + length ys < fuel →
    runs (both (is_flist this xs) (is_flist other ys))
      (fl_splice_range fuel (pos_at this xs i) (pos_at other ys j) (pos_at other ys (S j)) ;!
       let! cs := fl_contents fuel this in let! ds := fl_contents fuel other in ret (cs, ds))
      (λ r _, r = ((take i xs).*2 ++ (drop j ys).*2, ys.*2)).
  Proof.
    intros Hi Hj Hf. eapply runs_from; [fpre|by eapply wp_fl_none_other|].
    intros r. apply hentails_intro. intros σ Hσ. apply hand_unfold in Hσ as [Hr%hpure_unfold _].
    by apply plain_holds.
  Qed.
  (*@ C07_refuted assigning a forward_list to itself empties it. *)
  Lemma fl_self_assign fuel this (xs : list (loc * V)) :
    length xs < fuel →
    runs (is_flist this xs) (fl_assign_from fuel this this) (λ _ h, is_flist this [] h).
  Proof.
    intros Hf. eapply runs_from; [fpre|by eapply wp_fl_assign_self|].
    intros p. by rewrite plain_flist.
  Qed.
End forward.
