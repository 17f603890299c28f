(** vector: the property lemmas, in the vocabulary of Triple.v, VecSpec.v and HistoryV.v
    only. *)
From Verif Require Import VecHistory ForwardRuns.
From iris.proofmode Require Import tactics.
(*@HEADER
From Verif Require Import VecSpec VecRuns.

Section vector.
  Context {V : Type} `{Allocator (list (option V))} (dflt : V) (eqb : V → V → bool).
@*)
(*@FOOTER
End vector.
@*)

Section vector.
  Context {V : Type} `{Allocator (list (option V))} (dflt : V) (eqb : V → V → bool).
  Notation block := (list (option V)).
  Notation iProp := (bi_car (hpropI block)).

  Lemma plain_vec v (xs : list V) : Sep.plain (λ h, is_vec v xs h) ⊣⊢ vecP v xs (v_end v).
  Proof. apply vec_holds. Qed.
  Lemma plain_vec_of v (xs : list V) c : vecP v xs c ⊢ Sep.plain (λ h, is_vec v xs h).
  Proof. iIntros "H". iDestruct (vecP_last with "H") as %(_&<-&_). by rewrite plain_vec. Qed.
  Lemma vecP_end v (xs : list V) c : vecP v xs c ⊢ ⌜v_end v = c⌝.
  Proof. iIntros "(_&%&_)". done. Qed.

  (*@ C14,C15,C16_partial,C17_partial,C18 Whole programs on two vectors: every history whose calls stay within
     [ve_ok] (erase(p,p) only at the end; insert(pos, n, v[j]) with j >= pos only if it
     reallocates) observes exactly what the abstract sequences and capacities prescribe,
     has no undefined behaviour - so constructors run only on raw slots, destructors only
     on live objects, buffers are released only when empty - and leaves no memory.
     Missing: the calls excluded by [ve_ok], on which the code is wrong (see _refuted). *)
  Lemma vec_history ops :
    v_correct v_new v_destroy (ve_step dflt eqb) ([], 0) (ve_spec_ok dflt eqb) (λ _, True) ops.
  Proof. apply vec_history_correct. Qed.
  (*@ C14,C15,C18 After every such history, each vector owns one buffer of the prescribed
     capacity in which exactly the first size() slots hold live objects, with the
     values of the abstract sequence; there is no other memory. *)
  Lemma vec_reaches ops :
    v_reaches v_new (ve_step dflt eqb) ([], 0) (ve_spec_ok dflt eqb)
      (λ v (s : ve_state V) h, v_capacity v = s.2 ∧ is_vec v s.1 h) ops.
  Proof. apply vec_history_reaches. Qed.
  (*@ C14,C15,C18 The same for the full specification, for histories without erase of an empty
     range and without insert of an own element. *)
  Lemma vec_history_all ops :
    Forall (λ o, match o.2 with EEraseRange i j => i < j | EInsertOwn _ _ _ => False | _ => True end) ops →
    v_correct v_new v_destroy (ve_step dflt eqb) ([], 0) (ve_spec dflt eqb) (λ _, True) ops.
  Proof.
    intros Hops xs ys outs Hs. eapply (vec_history_correct dflt eqb).
    revert Hs. generalize (@nil V, 0) at 1 3. generalize (@nil V, 0). revert xs ys outs.
    induction ops as [|[t op] ops IH]; intros xs ys outs s o Hr; [done|].
    apply Forall_cons in Hops as [Hop Hops]. simpl in *. unfold ve_spec_ok.
    destruct t; (destruct (decide _) as [_|Hn]; [|by destruct Hn; destruct op; simpl; auto]);
      apply bind_Some in Hr as ([[s' o'] u]&Hs&Hr); rewrite Hs; simpl;
      apply bind_Some in Hr as ([[??] rs]&Hr&?); by rewrite (IH Hops _ _ _ _ _ Hr).
  Qed.

  (*@ C14,C17,C18 push_back appends; the argument may refer to an element of the vector
     itself, also when the call reallocates. Below capacity the buffer stays. *)
  Lemma vec_push_back_ok fuel v (xs : list V) r x :
    vrefers v xs r x → length xs + 1 < fuel →
    runs (is_vec v xs) (v_push_back fuel v r)
      (λ v' h, v_capacity v' = grown xs (v_capacity v) 1 ∧
         (length xs < v_capacity v → v_buf v' = v_buf v) ∧ is_vec v' (xs ++ [x]) h).
  Proof.
    intros Hr Hf. eapply runs_from; [by rewrite vec_holds|by eapply wp_v_push_back_ref|].
    intros v'. iIntros "[% H]". iDestruct (vecP_end with "H") as %He. iSplit; [done|]. iSplit; [done|].
    iApply (plain_vec_of with "H").
  Qed.
  (*@ C14 pop_back destroys the last element. *)
  Lemma vec_pop_back_ok v (xs : list V) x :
    runs (is_vec v (xs ++ [x])) (v_pop_back v)
      (λ v' h, v_capacity v' = v_capacity v ∧ v_buf v' = v_buf v ∧ is_vec v' xs h).
  Proof.
    eapply runs_from; [by rewrite vec_holds|by eapply wp_v_pop_back|].
    intros v'. iIntros "[% H]". iDestruct (vecP_end with "H") as %He. iSplit; [done|]. iSplit; [done|].
    iApply (plain_vec_of with "H").
  Qed.
  (*@ C14,C17_partial,C18 insert(pos, n, x) inserts n copies of x before pos and returns pos. [r] may
     refer to an own element unless that element is shifted in place. Within the
     capacity the buffer stays. Missing: own elements at or after pos when the call does
     not reallocate (refuted below). *)
  Lemma vec_insert_n_ok fuel v (xs : list V) pos n r x :
    pos ≤ length xs → vrefers v xs r x → length xs + n < fuel →
    match r with VExt _ => True | VSlot _ j => n = 0 ∨ j < pos ∨ v_capacity v < length xs + n end →
    runs (is_vec v xs) (v_insert_n fuel v pos n r)
      (λ '(v', i) h, i = pos ∧ v_capacity v' = grown xs (v_capacity v) n ∧
         (length xs + n ≤ v_capacity v → v_buf v' = v_buf v) ∧
         is_vec v' (take pos xs ++ replicate n x ++ drop pos xs) h).
  Proof.
    intros Hp Hr Hf Hal. eapply runs_from; [by rewrite vec_holds|by eapply wp_v_insert_n|].
    intros [v' i]. iIntros "(%&%&H)". iDestruct (vecP_end with "H") as %He. do 3 (iSplit; [done|]).
    iApply (plain_vec_of with "H").
  Qed.
  (*@ C14,C18 insert(pos, first, last). *)
  Lemma vec_insert_range_ok fuel v (xs : list V) pos vs :
    pos ≤ length xs → length xs + length vs < fuel →
    runs (is_vec v xs) (v_insert_range fuel v pos (RVals vs))
      (λ '(v', i) h, i = pos ∧ v_capacity v' = grown xs (v_capacity v) (length vs) ∧
         (length xs + length vs ≤ v_capacity v → v_buf v' = v_buf v) ∧
         is_vec v' (take pos xs ++ vs ++ drop pos xs) h).
  Proof.
    intros Hp Hf. eapply runs_from; [by rewrite vec_holds|by eapply wp_v_insert_range|].
    intros [v' i]. iIntros "(%&%&H)". iDestruct (vecP_end with "H") as %He. do 3 (iSplit; [done|]).
    iApply (plain_vec_of with "H").
  Qed.
  (*@ C14,C16_partial erase(first, last) of a non-empty range (or at the end) removes exactly these
     elements, returns first and stays in the buffer. *)
  Lemma vec_erase_range_ok fuel v (xs : list V) i j :
    i ≤ j ≤ length xs → i < j ∨ i = length xs → length xs < fuel →
    runs (is_vec v xs) (v_erase_range fuel v i j)
      (λ '(v', k) h, k = i ∧ v_capacity v' = v_capacity v ∧ v_buf v' = v_buf v ∧
         is_vec v' (take i xs ++ drop j xs) h).
  Proof.
    intros Hp Hr Hf. eapply runs_from; [by rewrite vec_holds|by eapply wp_v_erase_range|].
    intros [v' k]. iIntros "(%&%&H)". iDestruct (vecP_end with "H") as %He. do 3 (iSplit; [done|]).
    iApply (plain_vec_of with "H").
  Qed.
  (*@ C14,C18 resize(n, x), x possibly an own element. *)
  Lemma vec_resize_ok fuel v (xs : list V) n r x :
    vrefers v xs r x → length xs + n < fuel →
    runs (is_vec v xs) (v_resize_to dflt fuel v n r)
      (λ v' h, v_size v' = n ∧ (n ≤ v_capacity v → v_buf v' = v_buf v) ∧
         v_capacity v' = grown xs (v_capacity v) (n - length xs) ∧
         is_vec v' (take n xs ++ replicate (n - length xs) x) h).
  Proof.
    intros Hr Hf. eapply runs_from; [by rewrite vec_holds|by eapply wp_v_resize_to|].
    intros v'. iIntros "[% H]". iDestruct (vecP_last with "H") as %(Hl&He&_).
    iSplit.
    { iPureIntro. unfold v_size. rewrite Hl app_length take_length replicate_length. lia. }
    iSplit; [done|]. iSplit; [done|].
    iApply (plain_vec_of with "H").
  Qed.
  (*@ C18 reserve(n): capacity() becomes max(capacity(), n), the contents stay; below the
     capacity nothing happens at all. *)
  Lemma vec_reserve_ok fuel v (xs : list V) n :
    length xs < fuel →
    runs (is_vec v xs) (v_reserve fuel v n)
      (λ v' h, v_capacity v' = v_capacity v `max` n ∧ (n < v_capacity v → v' = v) ∧
         is_vec v' xs h).
  Proof.
    intros Hf. eapply runs_from; [by rewrite vec_holds|by eapply wp_v_reserve|].
    intros v'. iIntros "[% H]". iDestruct (vecP_end with "H") as %He. do 2 (iSplit; [done|]).
    iApply (plain_vec_of with "H").
  Qed.
  (*@ C18 size() <= capacity() for every vector object. *)
  Lemma vec_size_capacity v (xs : list V) h : is_vec v xs h → v_size v = length xs ∧ v_size v ≤ v_capacity v.
  Proof. intros (Hl&Hc&_). unfold v_size, v_capacity. rewrite Hl. done. Qed.
  (*@ C14,C15 assignment copies the elements and leaves the source unchanged. *)
  Lemma vec_assign_ok fuel v (xs : list V) w ys :
    length xs + length ys < fuel →
    runs (both (is_vec v xs) (is_vec w ys)) (v_assign fuel v w)
      (λ v' h, v_capacity v' = v_capacity v `max` v_capacity w ∧
         both (is_vec v' ys) (is_vec w ys) h).
  Proof.
    intros Hf. eapply runs_from; [by rewrite plain_both !vec_holds|by eapply wp_v_assign|].
    intros v'. iIntros "(%&H&Hw)". iDestruct (vecP_end with "H") as %He. iSplit; [done|].
    change (λ h, both (is_vec v' ys) (is_vec w ys) h) with (both (is_vec v' ys) (is_vec w ys)).
    rewrite plain_both. iSplitL "H"; by iApply plain_vec_of.
  Qed.
  (*@ C14,C15 copy construction allocates exactly size() slots. *)
  Lemma vec_copy_ok fuel v (xs : list V) :
    length xs < fuel →
    runs (is_vec v xs) (v_copy fuel v)
      (λ v' h, v_capacity v' = length xs ∧ both (is_vec v xs) (is_vec v' xs) h).
  Proof.
    intros Hf. eapply runs_from; [by rewrite vec_holds|by eapply wp_v_copy|].
    intros v'. iIntros "(H&Hw)". iDestruct (vecP_end with "Hw") as %He. iSplit; [done|].
    change (λ h, both (is_vec v xs) (is_vec v' xs) h) with (both (is_vec v xs) (is_vec v' xs)).
    rewrite plain_both. iSplitL "H"; by iApply plain_vec_of.
  Qed.
  (*@ C15 the destructor destroys every element and releases the buffer. *)
  Lemma vec_destroy_ok fuel v (xs : list V) :
    length xs < fuel → runs (is_vec v xs) (v_destroy fuel v) (λ _ h, nothing h).
  Proof.
    intros Hf. eapply runs_from; [by rewrite vec_holds|by eapply wp_v_destroy|].
    intros p. change (λ h, nothing h) with (@nothing block). by rewrite plain_nothing.
  Qed.
  (*@ C15 clear destroys every element and keeps the buffer. *)
  Lemma vec_clear_ok fuel v (xs : list V) :
    length xs < fuel →
    runs (is_vec v xs) (v_clear fuel v)
      (λ v' h, v_capacity v' = v_capacity v ∧ v_buf v' = v_buf v ∧ is_vec v' [] h).
  Proof.
    intros Hf. eapply runs_from; [by rewrite vec_holds|by eapply wp_v_clear|].
    intros v'. iIntros "[% H]". iDestruct (vecP_end with "H") as %He. do 2 (iSplit; [done|]).
    iApply (plain_vec_of with "H").
  Qed.
  (*@ C14 operator[] reads and operator[] = writes exactly the i-th element. *)
  Lemma vec_at_ok v (xs : list V) i x :
    xs !! i = Some x → runs (is_vec v xs) (v_at v i) (λ y h, y = x ∧ is_vec v xs h).
  Proof.
    intros Hi. eapply runs_from; [by rewrite vec_holds|by eapply wp_v_at|].
    intros y. iIntros "[% H]". iSplit; [done|]. iApply (plain_vec_of with "H").
  Qed.

  (*@ C16_refuted erase(p, p) in front of the end: the loop that closes the gap constructs
     every following element on top of itself. *)
  Lemma vec_erase_empty_fails fuel v (xs : list V) i :
    i < length xs → 1 < fuel → fails (is_vec v xs) (v_erase_range fuel v i i) LiveOverwrite.
  Proof.
    intros Hi Hf. eapply fails_of; [by rewrite vec_holds|].
    apply ifails_pure. intros Hl. apply ifails_pure. intros _. apply ifails_pure. intros Hc.
    destruct fuel as [|fuel]; [lia|]. unfold v_erase_range.
    destruct (lookup_lt_is_Some_2 xs i Hi) as [x Hx].
    set (b := lv xs ++ _). assert (b !! i = Some (Some x)) as Hb.
    { unfold b. rewrite lookup_app_l; [by apply lv_lookup|]. by rewrite lv_length. }
    clearbody b.
    eapply (ifails_bind _ _ _ (λ _, blk (v_buf v) b)).
    { iIntros "H". unfold destroy_range. cbn [loop]. wstep. dF. wstep. wstep. done. }
    intros _. apply ifails_bind_l. unfold shift_down. cbn [loop]. rewrite Hl.
    apply ifails_bind_l. destruct (decide _) as [_|Hn]; [|exfalso; lia].
    eapply (ifails_bind _ _ _ (λ _, blk (v_buf v) b)).
    { iIntros "H". iApply (wp_rd with "H"); [done|]. iIntros "H". done. }
    intros y. apply ifails_bind_l. unfold construct.
    eapply (ifails_bind _ _ _ (λ s, ⌜s = Some x⌝ ∧ blk (v_buf v) b)%I).
    { iIntros "H". iApply (wp_slot_at with "H"); [done|]. iIntros "H". by iSplit. }
    intros s. apply ifails_pure. intros ->. apply ifails_fail.
  Qed.
  (*@ C17_refuted insert(pos, n, v[j]) without reallocation, pos <= j < pos + n: the referenced
     element has been moved away and its slot is raw when it is copied. *)
  Lemma vec_insert_own_fails fuel v (xs : list V) pos n j :
    pos ≤ j < length xs → j < pos + n → length xs + n ≤ v_capacity v → length xs < fuel →
    fails (is_vec v xs) (v_insert_n fuel v pos n (VSlot (v_buf v) j)) NoObject.
  Proof.
    intros Hj Hn Hcap Hf. eapply fails_of; [by rewrite vec_holds|].
    apply ifails_pure. intros Hl. apply ifails_pure. intros _. apply ifails_pure. intros Hc.
    unfold v_insert_n, v_insert_values. unfold v_capacity in Hcap. rewrite Hl.
    assert (lv xs = lv (take pos xs) ++ lv (drop pos xs)) as Hsp by rewrite -lv_app take_drop //.
    dT. dF. dT.
    assert (raw (V:=V) (v_end v - length xs) = raw n ++ raw (v_end v - length xs - n)) as Hraw.
    { rewrite -raw_add. f_equal. lia. }
    rewrite Hraw Hsp -app_assoc.
    eapply (ifails_bind _ _ _ (λ _, blk (v_buf v) _)).
    { iIntros "H". iApply (wp_shift_up with "H"); rewrite ?lv_length ?take_length ?drop_length; lia. }
    intros _. apply ifails_bind_l.
    destruct fuel as [|fuel]; [lia|]. unfold vc_loop. cbn [loop].
    destruct n as [|n]; [lia|]. do 2 apply ifails_bind_l. simpl. apply ifails_bind_l.
    unfold rd. set (b := _ ++ _). assert (b !! j = Some None) as Hb.
    { unfold b. rewrite lookup_app_r lv_length take_length; [|lia].
      rewrite lookup_app_l; [|rewrite raw_length; lia].
      rewrite raw_eq. apply lookup_replicate. split; [done|]. lia. }
    clearbody b.
    eapply (ifails_bind _ _ _ (λ s, ⌜s = None⌝ ∧ blk (v_buf v) b)%I).
    { iIntros "H". iApply (wp_slot_at with "H"); [done|]. iIntros "H". by iSplit. }
    intros s. apply ifails_pure. intros ->. apply ifails_fail.
  Qed.
  (*@ C17_refuted insert(pos, n, v[j]) without reallocation, j >= pos + n: the copies inserted
     are of the element n places before v[j]. *)
  Lemma vec_insert_own_wrong fuel v (xs : list V) pos n j y :
    0 < n → pos + n ≤ j < length xs → length xs + n ≤ v_capacity v → length xs + n < fuel →
    xs !! (j - n) = Some y →
    runs (is_vec v xs) (v_insert_n fuel v pos n (VSlot (v_buf v) j))
      (λ '(v', i) h, i = pos ∧ is_vec v' (take pos xs ++ replicate n y ++ drop pos xs) h).
  Proof.
    intros Hn Hj Hcap Hf Hy. unfold v_capacity in Hcap.
    eapply runs_from; [by rewrite vec_holds| |].
    - iIntros "H". unfold v_insert_n.
      iApply (wp_v_insert_values fuel v xs (v_end v) pos (replicate n y) _ emp%I
        (good_of (VSlot (v_buf v) j) y) n with "[$H]"); rewrite ?replicate_length //; try lia.
      + apply good_stable.
      + intros _. split.
        * apply src_counter, rok_own. done.
        * intros _. simpl. rewrite lookup_app_r lv_length take_length; [|lia].
          rewrite lookup_app_r raw_length; [|lia].
          rewrite lookup_app_l; [|rewrite lv_length drop_length; lia].
          apply lv_lookup. rewrite lookup_drop -Hy. f_equal. lia.
    - intros [v' i]. iIntros "(%&_&H&_)". iSplit; [done|]. iApply (plain_vec_of with "H").
  Qed.
  (*@ C07_refuted assigning a vector to itself empties it. *)
  Lemma vec_self_assign fuel v (xs : list V) :
    length xs < fuel →
    runs (is_vec v xs) (v_assign_self fuel v) (λ v' h, is_vec v' [] h).
  Proof.
    intros Hf. eapply runs_from; [by rewrite vec_holds|by eapply wp_v_assign_self|].
    intros v'. iIntros "H". iApply (plain_vec_of with "H").
  Qed.
End vector.
