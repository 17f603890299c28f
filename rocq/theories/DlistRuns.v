(** list: the property lemmas, in the vocabulary of Triple.v, DlistSpec.v and History.v only. *)
From Verif Require Import DlistHistory DlistAlias DlistSplice DlistLost SepHangs.
From iris.proofmode Require Import tactics.
(*@HEADER
From Verif Require Import DlistSpec DlistRuns.

Section list.
  Context {V : Type} `{Allocator (dcell V)} (eqb : V → V → bool) (rfirst : bool).
@*)
(*@FOOTER
End list.
@*)

Section list.
  Context {V : Type} `{Allocator (dcell V)} (eqb : V → V → bool) (rfirst : bool).
  Notation C := (dcell V).
  Notation heap := (gmap loc C).
  Notation iProp := (bi_car (hpropI C)).

  Lemma plain_dl this (xs : list (loc * V)) : Sep.plain (λ h, is_dlist this xs h) ⊣⊢ dlist this xs.
  Proof. apply dlist_holds. Qed.
  Lemma plain_dl2 a b (xs ys : list (loc * V)) :
    Sep.plain (λ h, both (is_dlist a xs) (is_dlist b ys) h) ⊣⊢ dlist a xs ∗ dlist b ys.
  Proof.
    change (λ h, both (is_dlist a xs) (is_dlist b ys) h) with (both (is_dlist a xs) (is_dlist b ys)).
    by rewrite plain_both !dlist_holds.
  Qed.
  Lemma plain_cleared this d : d ≠ this →
    this ↦ DCell (Some d) (Some this) DHdr ⊢ Sep.plain (λ h : heap, is_cleared this d h).
  Proof.
    intros Hd. apply hentails_intro. intros σ Hσ. apply plain_holds. split; [done|]. by apply hpto_unfold in Hσ.
  Qed.
  Lemma cleared_plain this d :
    Sep.plain (λ h : heap, is_cleared this d h) ⊢ flst (V:=V) this (Some d) [].
  Proof.
    unfold flst. simpl. rewrite right_id. apply hentails_intro. intros σ [? ->]%plain_holds. by apply hpto_unfold.
  Qed.

  (*@ C29 Whole programs on two lists, for every history of push_front, push_back, pop_front,
     pop_back, insert (one, n, own element, range, range of the other list), erase(pos),
     remove, remove_if, unique, reverse, resize (not to 0), copy / count / range
     construction, assignment through iterators and all observers, forward and backward
     traversal: every observation is the one std::list's sequence semantics prescribes,
     nothing goes wrong and no memory is left. *)
  Lemma list_basic_history ops :
    h_correct dl_new dl_destroy (dl_step eqb rfirst) [] (dl_basic_spec eqb) ops.
  Proof. apply dl_basic_history. Qed.
  (*@ C29 After every such history both lists are rings of pairwise distinct nodes holding
     exactly the prescribed values, and they own nothing else. *)
  Lemma list_basic_reaches ops :
    h_reaches dl_new (dl_step eqb rfirst) [] (dl_basic_spec eqb)
      (λ this vs h, ∃ xs, xs.*2 = vs ∧ is_dlist this xs h) ops.
  Proof. apply dl_basic_reaches. Qed.
  (*@ C29,C30_partial,C31_partial,C32_partial,C33,C34_partial,C35_partial Whole programs that also use clear,
     assignment, swap, splice and merge, for every history whose calls stay within [dl_ok]:
     after clear() of a non-empty list it may be iterated, measured, searched, cleared,
     swapped with a non-empty list and destroyed (but not inserted into). *)
  Lemma list_history ops :
    h_correct dl_new dl_destroy (dl_step eqb rfirst) ([], false) (dl_spec eqb) ops.
  Proof. apply dl_history. Qed.
  (*@ C29,C30_partial,C32_partial,C33,C34_partial,C35_partial ... and the memory after every such
     history. *)
  Lemma list_reaches ops :
    h_reaches dl_new (dl_step eqb rfirst) ([], false) (dl_spec eqb) dl_holds ops.
  Proof. apply dl_history_reaches. Qed.

  (** *** Single calls, with node addresses *)
  (*@ C29 insert(pos, x), also for a reference to an own element: one new node; all others
     keep address and value. *)
  Lemma list_insert this (xs : list (loc * V)) i r v :
    i ≤ length xs → drefers xs r v →
    runs (is_dlist this xs) (dl_insert (dpos this xs i) r)
      (λ p h, ∃ l, p = Some l ∧ is_dlist this (take i xs ++ (l, v) :: drop i xs) h).
  Proof.
    intros Hi Hr. apply runs_of_wp. rewrite dlist_holds. iIntros "H".
    iApply (wp_dl_insert with "H"); [done..|]. iIntros (l) "H". iExists l. iSplit; [done|]. by rewrite plain_dl.
  Qed.
  (*@ C29 erase(pos): exactly that node is freed; the successor is returned. *)
  Lemma list_erase this (xs : list (loc * V)) i :
    i < length xs →
    runs (is_dlist this xs) (dl_erase (dpos this xs i))
      (λ p h, p = dpos this xs (S i) ∧ is_dlist this (take i xs ++ drop (S i) xs) h).
  Proof.
    intros Hi. destruct (lookup_lt_is_Some_2 xs i Hi) as [[l v] Hl].
    apply runs_of_wp. rewrite dlist_holds. iIntros "H". rewrite (dpos_elem _ _ _ _ _ Hl) (dpos_drop _ _ (S i)); [|lia].
    pose proof (elem_of_list_split_length _ _ _ Hl) as (ks&rs&->&->).
    assert (drop (S (length ks)) (ks ++ (l,v) :: rs) = rs) as ->.
    { rewrite (cons_middle _ ks) app_assoc drop_app_alt //. rewrite app_length /=. lia. }
    iApply (wp_dl_erase with "H"). iIntros "H". iSplit; [done|]. rewrite plain_dl take_app. done.
  Qed.
  (*@ C29 remove(x), x outside the list: exactly the equal elements go, the others keep
     their addresses. *)
  Lemma list_remove fuel this (xs : list (loc * V)) v :
    length xs < fuel →
    runs (is_dlist this xs) (dl_remove eqb fuel this (DExt v))
      (λ _ h, is_dlist this (filter (λ x, eqb x.2 v = false) xs) h).
  Proof.
    intros Hf. apply runs_of_wp. rewrite dlist_holds. iIntros "H".
    iApply (wp_dl_remove_by _ _ _ _ (λ x, eqb x v) with "H"); [done| |iIntros "H"; by rewrite plain_dl].
    iIntros (ks rs pv x Q _ _) "H HQ". wstep. simpl. wstep. wstep. by iApply "HQ".
  Qed.
  (*@ C29 remove_if(f) *)
  Lemma list_remove_if fuel this (xs : list (loc * V)) f :
    length xs < fuel →
    runs (is_dlist this xs) (dl_remove_if fuel this f)
      (λ _ h, is_dlist this (filter (λ x, f x.2 = false) xs) h).
  Proof.
    intros Hf. apply runs_of_wp. rewrite dlist_holds. iIntros "H".
    iApply (wp_dl_remove_by _ _ _ _ f with "H"); [done| |iIntros "H"; by rewrite plain_dl].
    iIntros (ks rs pv x Q _ _) "H HQ". wstep. by iApply "HQ".
  Qed.
  (*@ C29 unique(f): exactly the elements x with f(x, last kept element) go. *)
  Lemma list_unique fuel this (xs : list (loc * V)) f :
    length xs < fuel →
    runs (is_dlist this xs) (dl_unique fuel this f)
      (λ _ h, is_dlist this (uniq (λ x y, f x.2 y.2) xs) h).
  Proof.
    intros Hf. apply runs_of_wp. rewrite dlist_holds. iIntros "H". destruct xs as [|[l v] xs].
    - rewrite dlist_flst. iApply (wp_dl_unique_nil with "H"); [simpl in Hf; lia|]. iIntros "H".
      rewrite plain_dl dlist_flst. done.
    - iApply (wp_dl_unique with "H"); [simpl in Hf; lia|]. iIntros "H". by rewrite plain_dl.
  Qed.
  (*@ C29 reverse relinks the same nodes. *)
  Lemma list_reverse fuel this (xs : list (loc * V)) :
    length xs < fuel →
    runs (is_dlist this xs) (dl_reverse fuel this) (λ _ h, is_dlist this (reverse xs) h).
  Proof.
    intros Hf. apply runs_of_wp. rewrite dlist_holds. iIntros "H".
    iApply (wp_dl_reverse with "H"); [done|]. iIntros "H". by rewrite plain_dl.
  Qed.
  (*@ C29 copy construction: equal values in new nodes; the source is untouched. *)
  Lemma list_copy fuel other (xs : list (loc * V)) :
    length xs < fuel →
    runs (is_dlist other xs) (dl_copy fuel other)
      (λ this h, ∃ ys, ys.*2 = xs.*2 ∧ both (is_dlist this ys) (is_dlist other xs) h).
  Proof.
    intros Hf. apply runs_of_wp. rewrite dlist_holds dlist_flst. iIntros "H".
    iApply (wp_dl_copy with "H"); [done|]. iIntros (l zs Hzs) "H Ho". iExists zs. iSplit; [done|].
    rewrite plain_dl2 (dlist_flst other). iFrame.
  Qed.
  (*@ C29 the destructor frees every node and the header. *)
  Lemma list_destroy fuel this (xs : list (loc * V)) :
    length xs < fuel → runs (is_dlist this xs) (dl_destroy fuel this) (λ _ h, nothing h).
  Proof.
    intros Hf. apply runs_of_wp. rewrite dlist_holds dlist_flst. iIntros "H".
    iApply (wp_dl_destroy with "H"); [done|].
    change (λ h, nothing h) with (@nothing C). by rewrite plain_nothing.
  Qed.

  (*@ C30_partial clear() frees every node; only a list that was already empty is like new: of a
     non-empty one the header keeps pointing back at its (deleted) last node. *)
  Lemma list_clear fuel this (xs : list (loc * V)) :
    length xs < fuel →
    runs (is_dlist this xs) (dl_clear fuel this)
      (λ _ h, match last xs with None => is_dlist this [] h | Some x => is_cleared this x.1 h end).
  Proof.
    intros Hf. apply runs_of_wp. rewrite dlist_holds dlist_flst. iIntros "H".
    iDestruct (flst_nodup with "H") as %Hnd.
    iApply (wp_f_clear with "H"); [done|]. iIntros "H".
    destruct xs as [|[l v] xs _] using rev_ind.
    - simpl. rewrite plain_dl dlist_flst. unfold flst. simpl. iFrame.
    - rewrite last_snoc dlast_snoc /=. iApply (plain_cleared with "H").
      intros ->. apply NoDup_cons in Hnd as [Hn _]. apply Hn. rewrite fmap_app. apply elem_of_app. right. left.
  Qed.
  (*@ C30_partial A cleared list can be cleared, and destroyed without leak. *)
  Lemma list_cleared_destroy fuel this d :
    0 < fuel → runs (is_cleared (V:=V) this d) (dl_destroy fuel this) (λ _ h, nothing h).
  Proof.
    intros Hf. apply runs_of_wp. change (is_cleared this d) with (λ h : heap, is_cleared this d h).
    rewrite cleared_plain. iIntros "H". iApply (wp_dl_destroy with "H"); [done|].
    change (λ h, nothing h) with (@nothing C). by rewrite plain_nothing.
  Qed.
  (*@ C30_refuted push_back on a list that was cleared, in any memory in which the deleted node
     is not (again) allocated: either undefined behaviour, or - when the allocator hands
     out the deleted node's address again - the list stays empty and the new element is
     lost. *)
  Lemma list_push_after_clear this d v (h : gmap loc (dcell V)) :
    d ≠ this → h !! d = None → h !! this = Some (DCell (Some d) (Some this) DHdr) →
    dl_push_back this (DExt v) h = UB Dangling ∨
    ∃ h', dl_push_back this (DExt v) h = Ok (tt, h') ∧ size h' = S (size h) ∧
      ∀ fuel, 0 < fuel → dl_contents fuel this h' = Ok ([], h').
  Proof.
    intros Hd Hh Ht. unfold dl_push_back, new_node, insert_before, set_next, set_prev, get_prev, get_next, modifyp, loadp, addr, d_deref.
    unfold bind, ret, allocate, load, modify. pose proof (alloc_addr_fresh h) as Ha.
    set (l := alloc_addr h) in *. assert (l ≠ this) as Hlt by congruence.
    rewrite lookup_insert_ne // Ht /=.
    destruct (decide (l = d)) as [->|Hne]; [right|left].
    - repeat first [rewrite lookup_insert | rewrite lookup_insert_ne; [|done] | rewrite Ht | rewrite insert_insert]; simpl.
      repeat first [rewrite lookup_insert | rewrite lookup_insert_ne; [|done] | rewrite Ht | rewrite insert_insert]; simpl.
      repeat first [rewrite lookup_insert | rewrite lookup_insert_ne; [|done] | rewrite Ht | rewrite insert_insert]; simpl.
      repeat first [rewrite lookup_insert | rewrite lookup_insert_ne; [|done] | rewrite Ht | rewrite insert_insert]; simpl.
      repeat first [rewrite lookup_insert | rewrite lookup_insert_ne; [|done] | rewrite Ht | rewrite insert_insert]; simpl.
      eexists. split; [done|]. split.
      + rewrite map_size_insert_Some; [|rewrite lookup_insert_ne //; eauto].
        rewrite map_size_insert_None //.
      + intros fuel Hf. destruct fuel as [|fuel]; [lia|]. unfold dl_contents, dl_begin, get_next, dl_end, loadp, addr.
        unfold bind, ret, load. rewrite lookup_insert /=. unfold bind, ret. destruct (decide _); [done|]. done.
    - rewrite lookup_insert_ne // Hh. done.
  Qed.
  (*@ C07_refuted self-assignment empties the list (and leaves it in the state of C30). *)
  Lemma list_self_assign fuel this (xs : list (loc * V)) :
    length xs < fuel →
    runs (is_dlist this xs) (dl_assign_from fuel this this)
      (λ _ h, match last xs with None => is_dlist this [] h | Some x => is_cleared this x.1 h end).
  Proof.
    intros Hf. apply runs_of_wp. rewrite dlist_holds dlist_flst. iIntros "H".
    iDestruct (flst_nodup with "H") as %Hnd. unfold dl_assign_from, dl_begin, dl_end. wstep.
    iApply (wp_f_clear with "H"); [done|]. iIntros "H". wstep. iApply (wp_get_next with "H"). iIntros "H". wstep.
    iApply (wp_get_next with "H"). iIntros "H". simpl. unfold dl_insert_its.
    destruct fuel as [|fuel]; [lia|]. cbn [loop]. wstep. destruct (decide _); [done|]. wstep. wstep.
    destruct xs as [|[l v] xs _] using rev_ind.
    - simpl. rewrite plain_dl dlist_flst. unfold flst. simpl. iFrame.
    - rewrite last_snoc dlast_snoc /=. iApply (plain_cleared with "H").
      intros ->. apply NoDup_cons in Hnd as [Hn _]. apply Hn. rewrite fmap_app. apply elem_of_app. right. left.
  Qed.

  (*@ C31_partial,C31_refuted erase(first, last) of a non-empty range [i, j): it frees all of the range but
     its last element, which stays in the list; last is returned. *)
  Lemma list_erase_range fuel this (xs : list (loc * V)) i j :
    i < j ≤ length xs → length xs < fuel →
    runs (is_dlist this xs) (dl_erase_range fuel (dpos this xs i) (dpos this xs j))
      (λ p h, p = dpos this xs j ∧ is_dlist this (take i xs ++ drop (j - 1) xs) h).
  Proof.
    intros Hij Hf. destruct (lookup_lt_is_Some_2 xs (j - 1)) as [[k w] Hk]; [lia|].
    apply runs_of_wp. rewrite dlist_holds. iIntros "H". rewrite !dpos_drop; [|lia..].
    assert (drop (j - 1) xs = (k,w) :: drop j xs) as Hd.
    { rewrite (drop_S _ _ _ Hk). do 2 f_equal. lia. }
    assert (drop i xs = dslice i (j - 1) xs ++ (k,w) :: drop j xs) as Hd'.
    { rewrite -Hd. unfold dslice. replace (drop (j - 1) xs) with (drop (j - 1 - i) (drop i xs)); [by rewrite take_drop|].
      rewrite drop_drop. f_equal. lia. }
    rewrite Hd'. iApply (wp_dl_erase_range _ _ (take i xs) with "[H]").
    { unfold dslice. rewrite take_length drop_length. lia. }
    { rewrite -Hd'. by rewrite take_drop. }
    iIntros "H". iSplit; [done|]. rewrite plain_dl Hd. done.
  Qed.
  (*@ C31_refuted erase(p, p) on a non-empty list deletes everything from p to the end and then
     the header itself, as if it were a node. *)
  Lemma list_erase_empty_range fuel this (xs : list (loc * V)) i :
    i ≤ length xs → xs ≠ [] → length xs < fuel →
    fails (is_dlist this xs) (dl_erase_range fuel (dpos this xs i) (dpos this xs i)) BadCast.
  Proof.
    intros Hi Hne Hf. eapply (fails_of _ _ _ (dlist this xs)); [by rewrite dlist_holds|].
    by apply ifails_erase_same.
  Qed.

  (** *** splice *)
  (*@ C32_partial splice(pos, other) with a non-empty other: all of its nodes move, in order, before
     pos; other is a well-formed empty list. *)
  Lemma list_splice_all this other (xs ys : list (loc * V)) i :
    i ≤ length xs → ys ≠ [] →
    runs (both (is_dlist this xs) (is_dlist other ys)) (dl_splice_all (dpos this xs i) other)
      (λ _ h, both (is_dlist this (take i xs ++ ys ++ drop i xs)) (is_dlist other []) h).
  Proof.
    intros Hi Hy. apply runs_of_wp. rewrite plain_dl2. iIntros "[H Ho]".
    iApply (wp_dl_splice_all with "H Ho"); [done..|]. iIntros "H Ho". rewrite plain_dl2. iFrame.
  Qed.
  (*@ C32_partial splice(pos, other, it) *)
  Lemma list_splice_one this other (xs ys : list (loc * V)) i j x :
    i ≤ length xs → ys !! j = Some x →
    runs (both (is_dlist this xs) (is_dlist other ys)) (dl_splice_one (dpos this xs i) (dpos other ys j))
      (λ _ h, both (is_dlist this (take i xs ++ [x] ++ drop i xs))
                   (is_dlist other (take j ys ++ drop (S j) ys)) h).
  Proof.
    intros Hi Hy. apply runs_of_wp. rewrite plain_dl2. iIntros "[H Ho]".
    iApply (wp_dl_splice_one with "H Ho"); [done..|]. iIntros "H Ho". rewrite plain_dl2. iFrame.
  Qed.
  (*@ C32_partial splice(pos, other, first, last) of a non-empty range *)
  Lemma list_splice_range this other (xs ys : list (loc * V)) i j k :
    i ≤ length xs → j < k ≤ length ys →
    runs (both (is_dlist this xs) (is_dlist other ys))
      (dl_splice_range (dpos this xs i) (dpos other ys j) (dpos other ys k))
      (λ _ h, both (is_dlist this (take i xs ++ take (k - j) (drop j ys) ++ drop i xs))
                   (is_dlist other (take j ys ++ drop k ys)) h).
  Proof.
    intros Hi Hy. apply runs_of_wp. rewrite plain_dl2. iIntros "[H Ho]".
    iApply (wp_dl_splice_range with "H Ho"); [done..|]. iIntros "H Ho". rewrite plain_dl2. iFrame.
  Qed.
  (*@ C32_partial splice(pos, *this, it) within one list, unless the element already precedes pos *)
  Lemma list_splice_own this (xs : list (loc * V)) i j x :
    i ≤ length xs → xs !! j = Some x → i ≠ S j →
    runs (is_dlist this xs) (dl_splice_one (dpos this xs i) (dpos this xs j))
      (λ _ h, is_dlist this
        (if decide (i ≤ j) then take i xs ++ [x] ++ take (j - i) (drop i xs) ++ drop (S j) xs
         else take j xs ++ take (i - S j) (drop (S j) xs) ++ [x] ++ drop i xs) h).
  Proof.
    intros Hi Hx Hij. apply runs_of_wp. rewrite dlist_holds. iIntros "H".
    pose proof (lookup_lt_Some _ _ _ Hx) as Hj.
    iApply (wp_dl_move with "H"); [done..|]. iIntros "H". rewrite plain_dl. unfold dmove.
    destruct (decide (i ≤ j)) as [Hle|Hle].
    - unfold dins, dcut. rewrite take_app_le; [|rewrite take_length; lia]. rewrite take_take min_l; [|done].
      rewrite drop_app_le; [|rewrite take_length; lia]. rewrite skipn_firstn_comm. done.
    - unfold dins, dcut. rewrite take_app_ge; [|rewrite take_length; lia].
      rewrite drop_app_ge; [|rewrite take_length; lia]. rewrite take_length min_l; [|lia].
      rewrite drop_drop. replace (i - 1 - j) with (i - S j) by lia. replace (S j + (i - S j)) with i by lia.
      rewrite -app_assoc. done.
  Qed.
  (*@ C32_partial splice(pos, *this, first, last) of a non-empty range to a position before it, or
     more than its own end behind it: exactly the range moves, nothing else changes its order. *)
  Lemma list_splice_own_range this (xs : list (loc * V)) i j k :
    j < k ≤ length xs → i < j ∨ k < i ≤ length xs →
    runs (is_dlist this xs)
      (dl_splice_range (dpos this xs i) (dpos this xs j) (dpos this xs k))
      (λ _ h, is_dlist this
        (if decide (i < j)
         then take i xs ++ take (k - j) (drop j xs) ++ take (j - i) (drop i xs) ++ drop k xs
         else take j xs ++ take (i - k) (drop k xs) ++ take (k - j) (drop j xs) ++ drop i xs) h).
  Proof.
    intros Hjk Hi. apply runs_of_wp. rewrite dlist_holds. iIntros "H".
    iApply (wp_dl_splice_own with "H"); [done..|]. iIntros "H". rewrite plain_dl. iExact "H".
  Qed.
  (*@ C32_partial splice(pos, *this, pos, pos): nothing happens. *)
  Lemma list_splice_own_nothing this (xs : list (loc * V)) i :
    i ≤ length xs →
    runs (is_dlist this xs)
      (dl_splice_range (dpos this xs i) (dpos this xs i) (dpos this xs i))
      (λ _ h, is_dlist this xs h).
  Proof.
    intros Hi. apply runs_of_wp. iIntros "H". iDestruct (plain_dl with "H") as "H".
    iApply (wp_dl_splice_own_nop with "H"); [done|]. iIntros "H". rewrite plain_dl. iExact "H".
  Qed.
  (*@ C32_refuted splice(pos, other) with an empty other, and any splice of the empty range at
     other's end: the position's list then ends at other's header; iterating it reads that
     header as a node. *)
  Lemma list_splice_empty fuel this other (xs : list (loc * V)) i :
    i ≤ length xs → length xs < fuel →
    fails (both (is_dlist this xs) (is_dlist (V:=V) other []))
      (dl_splice_all (dpos this xs i) other ;! dl_contents fuel this) BadCast.
  Proof.
    intros Hi Hf. eapply (fails_of _ _ _ (dlist this xs ∗ dlist other [])).
    { by rewrite plain_both !dlist_holds. }
    by apply ifails_splice_empty.
  Qed.

  (*@ C32_refuted splice(pos, *this, it) where the element already precedes pos: it is unlinked
     and leaked. *)
  Lemma list_splice_in_place this (xs : list (loc * V)) j l v :
    xs !! j = Some (l, v) →
    runs (is_dlist this xs) (dl_splice_one (dpos this xs (S j)) (dpos this xs j))
      (λ _ h, both (is_dlist this (take j xs ++ drop (S j) xs))
        (λ h', h' = {[ l := DCell (Some l) (Some l) (DLive v) ]}) h).
  Proof.
    intros Hx. apply runs_of_wp. rewrite dlist_holds. iIntros "H".
    iApply (wp_dl_move_in_place with "H"); [done|]. iIntros "H Hl".
    set (P := λ h', h' = {[ l := DCell (Some l) (Some l) (DLive v) ]}).
    change (λ h, both (is_dlist this (take j xs ++ drop (S j) xs)) P h) with
      (both (is_dlist this (take j xs ++ drop (S j) xs)) P).
    rewrite plain_both dlist_holds. iFrame "H".
    iApply (hentails_intro with "Hl"). intros σ Hσ. apply plain_holds. by apply hpto_unfold in Hσ.
  Qed.

  (*@ C32_refuted splice(pos, *this, first, pos), a non-empty range that is already in place: the
     whole range is unlinked; its nodes are still allocated and belong to no list. *)
  Lemma list_splice_range_in_place this (xs : list (loc * V)) j k :
    j < k ≤ length xs →
    runs (is_dlist this xs)
      (dl_splice_range (dpos this xs k) (dpos this xs j) (dpos this xs k))
      (λ _ h, both (is_dlist this (take j xs ++ drop k xs))
        (λ h', dom h' = list_to_set ((take (k - j) (drop j xs)).*1)) h).
  Proof.
    intros Hjk. apply runs_of_wp. rewrite dlist_holds. iIntros "H".
    iApply (wp_dl_splice_own_end with "H"); [done|]. iIntros "H Hz".
    set (P := λ h' : heap, dom h' = list_to_set ((take (k - j) (drop j xs)).*1)).
    change (λ h, both (is_dlist this (take j xs ++ drop k xs)) P h) with
      (both (is_dlist this (take j xs ++ drop k xs)) P).
    rewrite plain_both dlist_holds. iFrame "H".
    iApply (seg_dom_plain with "Hz").
  Qed.
  (*@ C32_refuted splice(pos, *this, it, it), an empty range, with pos before it: the elements from
     pos up to it are unlinked; their nodes are still allocated and belong to no list. *)
  Lemma list_splice_own_empty_behind this (xs : list (loc * V)) i j :
    i < j ≤ length xs →
    runs (is_dlist this xs)
      (dl_splice_range (dpos this xs i) (dpos this xs j) (dpos this xs j))
      (λ _ h, both (is_dlist this (take i xs ++ drop j xs))
        (λ h', dom h' = list_to_set ((take (j - i) (drop i xs)).*1)) h).
  Proof.
    intros Hij. apply runs_of_wp. rewrite dlist_holds. iIntros "H".
    iApply (wp_dl_splice_own_none with "H"); [done|]. iIntros "H Hz".
    set (P := λ h' : heap, dom h' = list_to_set ((take (j - i) (drop i xs)).*1)).
    change (λ h, both (is_dlist this (take i xs ++ drop j xs)) P h) with
      (both (is_dlist this (take i xs ++ drop j xs)) P).
    rewrite plain_both dlist_holds. iFrame "H".
    iApply (seg_dom_plain with "Hz").
  Qed.
  (*@ C32_refuted splice(pos, *this, it, it) with it before pos: iterating the list afterwards never
     reaches end(). *)
  Lemma list_splice_own_empty_before fuel this (xs : list (loc * V)) i j :
    j < i ≤ length xs →
    hangs (is_dlist this xs)
      (dl_splice_range (dpos this xs i) (dpos this xs j) (dpos this xs j) ;! dl_contents fuel this).
  Proof.
    intros Hij. eapply (hangs_of _ _ (dlist this xs)); [by rewrite dlist_holds|]. by apply ihangs_splice_none.
  Qed.
  (*@ C32_refuted splice(pos, other, it, it), an empty range anywhere in another list: iterating the
     list afterwards runs on into other and reads other's header as a node. *)
  Lemma list_splice_empty_range fuel this other (xs ys : list (loc * V)) i k :
    i ≤ length xs → k ≤ length ys → length xs + length ys < fuel →
    fails (both (is_dlist this xs) (is_dlist other ys))
      (dl_splice_range (dpos this xs i) (dpos other ys k) (dpos other ys k) ;! dl_contents fuel this) BadCast.
  Proof.
    intros Hi Hk Hf. eapply (fails_of _ _ _ (dlist this xs ∗ dlist other ys)).
    { by rewrite plain_both !dlist_holds. }
    by apply ifails_splice_none.
  Qed.

  (** *** merge *)
  (*@ C33 merge of two sorted lists: the destination holds the nodes of both (same addresses,
     same values), in the order of the specification's [merge_into]; the source is a
     well-formed empty list. *)
  Lemma list_merge cmp fuel this other (xs ys : list (loc * V)) :
    length xs + 2 * length ys < fuel → dsorted cmp ys.*2 →
    runs (both (is_dlist this xs) (is_dlist other ys)) (dl_merge cmp fuel this other)
      (λ _ h, both (is_dlist this (merge_into (λ z1 z2, cmp z1.2 z2.2) xs ys)) (is_dlist other []) h).
  Proof.
    intros Hf Hs. apply runs_of_wp. rewrite plain_dl2. iIntros "[H Ho]". rewrite (dlist_flst other).
    iApply (wp_dl_merge with "H Ho"); [done| |done|].
    { clear Hf. unfold dsorted in *. induction ys as [|y ys IH]; [constructor|]. simpl in Hs.
      apply StronglySorted_inv in Hs as [Hs Hy]. constructor; [by apply IH|].
      by rewrite Forall_fmap in Hy. }
    iIntros "H Ho". rewrite plain_dl2 (dlist_flst other []). iFrame "H". simpl. by destruct (decide _); subst.
  Qed.
  (*@ C33 and for a strict weak order that is the sorted, stable merge: all nodes of both lists,
     no element before a smaller one, equivalent ones in their old order with those of
     the destination first. *)
  Lemma list_merge_stable cmp fuel this other (xs ys : list (loc * V)) :
    weak_order cmp → dsorted cmp xs.*2 → dsorted cmp ys.*2 → length xs + 2 * length ys < fuel →
    runs (both (is_dlist this xs) (is_dlist other ys)) (dl_merge cmp fuel this other)
      (λ _ h, ∃ rs, stable_merge (λ z1 z2, cmp z1.2 z2.2) xs ys rs ∧
        stable_merge cmp xs.*2 ys.*2 rs.*2 ∧ both (is_dlist this rs) (is_dlist other []) h).
  Proof.
    intros Hw Hx Hy Hf. eapply runs_conseq; [by apply list_merge|].
    intros u h Hh. eexists. split; [|split; [|exact Hh]].
    - apply merge_into_stable; [|by apply dsorted_fmap..].
      destruct Hw as [H1 H2 H3]. split; eauto.
    - rewrite DlistHistory.fmap_merge. by apply merge_into_stable.
  Qed.

  (** *** swap *)
  (*@ C34_partial swap of two lists that are not both empty *)
  Lemma list_swap a b (xs ys : list (loc * V)) :
    xs ≠ [] ∨ ys ≠ [] →
    runs (both (is_dlist a xs) (is_dlist b ys)) (dl_swap rfirst a b)
      (λ _ h, both (is_dlist a ys) (is_dlist b xs) h).
  Proof.
    intros Hne. apply runs_of_wp. rewrite plain_dl2. iIntros "[Ha Hb]".
    destruct (decide (xs = [])) as [->|Hx]; [|destruct (decide (ys = [])) as [->|Hy]].
    - destruct Hne as [|Hy]; [done|]. rewrite (dlist_flst a). unfold flst. simpl. iDestruct "Ha" as "[Ha _]".
      iApply (wp_dl_swap_l with "Ha Hb"); [done|]. iIntros "Ha Hb". rewrite plain_dl2. iFrame.
    - rewrite (dlist_flst b []). unfold flst. simpl. iDestruct "Hb" as "[Hb _]".
      iApply (wp_dl_swap_r with "Ha Hb"); [done|]. iIntros "Ha Hb". rewrite plain_dl2. iFrame.
    - iApply (wp_dl_swap_both with "Ha Hb"); [done..|]. iIntros "Ha Hb". rewrite plain_dl2. iFrame.
  Qed.
  (*@ C34_refuted swap of two empty lists, in both orders of evaluation: the first one's header
     ends up linked to the second one's, so that what is pushed to it appears in the other
     list, reading which then reads a header as a node. *)
  Lemma list_swap_empty a b fuel v :
    1 < fuel →
    fails (both (is_dlist (V:=V) a []) (is_dlist (V:=V) b []))
      (dl_swap rfirst a b ;! dl_push_back a (DExt v) ;! dl_contents fuel b) BadCast.
  Proof.
    intros Hf. eapply (fails_of _ _ _ (dlist a [] ∗ dlist b [])).
    { by rewrite plain_both !dlist_holds. }
    by apply ifails_swap_empty.
  Qed.

  (** *** resize *)
  (*@ C35_partial resize(n, x), n not 0: surviving nodes keep their addresses; x may be an
     element of the list. *)
  Lemma list_resize fuel this (xs : list (loc * V)) n r v :
    n ≠ 0 → length xs < fuel → n < fuel → drefers xs r v →
    runs (is_dlist this xs) (dl_resize fuel this n r)
      (λ _ h, ∃ zs, zs.*2 = replicate (n - length xs) v ∧ is_dlist this (take n xs ++ zs) h).
  Proof.
    intros Hn Hf Hf' Hr. apply runs_of_wp. rewrite dlist_holds. iIntros "H".
    iApply (wp_dl_resize with "H"); [done..|]. iIntros (zs Hzs) "H". iExists zs. iSplit; [done|].
    by rewrite plain_dl.
  Qed.
  (*@ C35_refuted resize(0) changes nothing. *)
  Lemma list_resize_0 fuel this (xs : list (loc * V)) r :
    length xs < fuel →
    runs (is_dlist this xs) (dl_resize fuel this 0 r) (λ _ h, is_dlist this xs h).
  Proof.
    intros Hf. apply runs_of_wp. iIntros "H". iDestruct (dlist_holds with "H") as "H". iDestruct (dlist_flst with "H") as "H".
    iApply (wp_dl_resize_0 with "H"); [done|]. iIntros "H". rewrite plain_dl. iApply dlist_flst. done.
  Qed.

  (*@ C60_refuted remove(x) with x an element of the list that is not the last one: x is deleted
     and then read. *)
  Lemma list_remove_own fuel this (xs : list (loc * V)) i l v :
    xs !! i = Some (l, v) → S i < length xs → length xs < fuel → eqb v v = true →
    fails (is_dlist this xs) (dl_remove eqb fuel this (DNode l)) Dangling.
  Proof.
    intros Hl Hi Hf Hv h hf Hh Hd.
    pose proof (elem_of_list_split_length _ _ _ Hl) as (js&ms&->&->). rewrite app_length /= in Hi, Hf.
    apply (ffails_remove_own eqb hf fuel this js l v ms); [| |exact Hv| | |exact Hd].
    - destruct ms; [simpl in Hi; lia|done].
    - lia.
    - destruct Hh as [Hnd Hhe]; subst h.
      assert (is_Some (ring_heap ((this, DHdr) :: dlive (js ++ (l,v) :: ms)) !! l)) as [c Hc].
      { apply seg_heap_dom_Some. rewrite fmap_cons dlive_locs fmap_app. simpl. set_solver. }
      by eapply map_disjoint_Some_l.
    - eapply hentails; [|apply plain_holds; exact Hh]. by rewrite dlist_holds.
  Qed.
  (*@ C60_partial ... the last element may be given; then exactly the elements equal to it go. *)
  Lemma list_remove_own_last fuel this (xs : list (loc * V)) l v :
    last xs = Some (l, v) → length xs < fuel →
    runs (is_dlist this xs) (dl_remove eqb fuel this (DNode l))
      (λ _ h, is_dlist this (filter (λ x, eqb x.2 v = false) xs) h).
  Proof.
    intros Hl Hf. apply runs_of_wp. rewrite dlist_holds. iIntros "H".
    iApply (wp_dl_remove_by _ _ _ _ (λ x, eqb x v) with "H"); [done| |iIntros "H"; by rewrite plain_dl].
    iIntros (ks rs pv x Q Hrs [js ->]) "H HQ". destruct rs as [|[l' v'] rs _] using rev_ind; [done|].
    rewrite app_assoc last_snoc in Hl. simplify_eq. wstep. simpl. rewrite app_assoc.
    iApply (flst_mid_value with "H"). iIntros "H". wstep. by iApply "HQ".
  Qed.
End list.
