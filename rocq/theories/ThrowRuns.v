(** Element copies that throw: the property lemmas, in the vocabulary of Triple.v, VecSpec.v,
    FixedSpec.v and ThrowSpec.v only. *)
From Verif Require Import ThrowFixed ThrowSame VecRuns FixedRuns.
From iris.proofmode Require Import tactics.
(*@HEADER
From Verif Require Import VecSpec FixedSpec ThrowSpec ThrowRuns.

Section throwing.
  Context {V : Type} `{Allocator (list (option V))} (dflt : V) (N : nat).
@*)
(*@FOOTER
End throwing.
@*)

Section throwing.
  Context {V : Type} `{Allocator (list (option V))} (dflt : V) (N : nat).
  Notation block := (list (option V)).
  Notation iProp := (bi_car (hpropI block)).

  Lemma plain_lost (ys : list V) n : spilt ys n ⊢ Sep.plain (lost_buffer ys n).
  Proof.
    iIntros "H". iDestruct "H" as (q) "[%Hq H]". destruct q as [l|]; [|done]. unfold lost_buffer.
    rewrite lv_eq raw_eq. iStopProof. apply hentails_intro. intros σ Hh. apply hpto_unfold in Hh. apply plain_holds. by exists l.
  Qed.
  (** every copy fails from some point on: the members and what is left in memory *)
  Lemma runs_kept {A} (p : X V tvec A) v xs f ys n :
    (vecP v xs (v_end v) ⊢ xwp p v f (λ _ _ _, False) (λ v', ⌜v' = v⌝ ∧ vecP v xs (v_end v) ∗ spilt ys n)) →
    runs (is_vec v xs) (p v f) (λ r h, r = XThrew v ∧ both (is_vec v xs) (lost_buffer ys n) h).
  Proof.
    intros Hp. eapply (runs_from _ _ _ (vecP v xs (v_end v))); [by rewrite vec_holds|exact Hp|]. intros [m f' a|m].
    - iIntros "[]".
    - iIntros "[-> [H Hs]]". iSplit; [done|]. rewrite plain_both. iSplitL "H"; [by rewrite vec_holds|by iApply plain_lost].
  Qed.
  Lemma runs_leak {A} (p : X V tvec A) v xs f ys n fuel :
    length xs < fuel →
    (vecP v xs (v_end v) ⊢ xwp p v f (λ _ _ _, False) (λ v', ⌜v' = v⌝ ∧ vecP v xs (v_end v) ∗ spilt ys n)) →
    runs (is_vec v xs) (let! v' := caught p v f in v_destroy fuel v') (λ _ h, lost_buffer ys n h).
  Proof.
    intros Hf Hp. eapply (runs_from _ _ _ (vecP v xs (v_end v))); [by rewrite vec_holds| |intros u; apply plain_lost].
    iIntros "H". wstep. iApply wp_caught. iApply (xwp_wand with "[H]"); [by iApply Hp|]. iSplit; [iIntros (m f' a) "[]"|].
    iIntros (m) "[-> [H Hs]]". iApply (wp_wand with "[H]"); [by iApply (wp_v_destroy with "H")|]. iIntros (?) "_". done.
  Qed.
  Lemma grow_n fuel v (xs : list V) pos n r x k :
    pos ≤ length xs → vrefers v xs r x → length xs + n < fuel →
    v_capacity v < length xs + n → k < length xs + n →
    vecP v xs (v_end v) ⊢ xwp (xv_insert_n fuel pos n r) v (Some k) (λ _ _ _, False)
      (λ v', ⌜v' = v⌝ ∧ vecP v xs (v_end v) ∗
         spilt (take k (take pos xs ++ replicate n x ++ drop pos xs)) (length xs + n - k)).
  Proof.
    iIntros (Hp Hr Hf Hc Hk) "H". unfold xv_insert_n. iApply (xwp_wand with "[H]").
    { iApply (xwp_insert_values_kept fuel v xs (v_end v) pos (replicate n x) _ emp%I n k with "[$H]"); rewrite ?replicate_length //.
      intros q. apply src_counter. by eapply rok_refers_other. }
    iSplit; [iIntros (m f' a) "[]"|]. rewrite replicate_length. iIntros (m) "[-> [[H _] Hs]]". iSplit; [done|]. iFrame.
  Qed.
  Lemma grow_range fuel v (xs : list V) pos vs k :
    pos ≤ length xs → length xs + length vs < fuel →
    v_capacity v < length xs + length vs → k < length xs + length vs →
    vecP v xs (v_end v) ⊢ xwp (xv_insert_range fuel pos (RVals vs)) v (Some k) (λ _ _ _, False)
      (λ v', ⌜v' = v⌝ ∧ vecP v xs (v_end v) ∗
         spilt (take k (take pos xs ++ vs ++ drop pos xs)) (length xs + length vs - k)).
  Proof.
    iIntros (Hp Hf Hc Hk) "H". unfold xv_insert_range. iApply (xwp_wand with "[H]").
    { iApply (xwp_insert_values_kept fuel v xs (v_end v) pos vs _ emp%I (length vs) k with "[$H]"); try done.
      intros q. apply src_vals. }
    iSplit; [iIntros (m f' a) "[]"|]. iIntros (m) "[-> [[H _] Hs]]". iSplit; [done|]. iFrame.
  Qed.
  Lemma grow_push fuel v (xs : list V) r x k :
    vrefers v xs r x → length xs + 1 < fuel → v_capacity v = length xs → k ≤ length xs →
    vecP v xs (v_end v) ⊢ xwp (xv_push_back fuel r) v (Some k) (λ _ _ _, False)
      (λ v', ⌜v' = v⌝ ∧ vecP v xs (v_end v) ∗ spilt (take k (xs ++ [x])) (length xs + 1 - k)).
  Proof.
    iIntros (Hr Hf Hc Hk) "H". unfold v_capacity in Hc. unfold xv_push_back. iDestruct (vecP_last with "H") as %(Hl&_&_). xstep. xstep.
    rewrite Hl. dF. xstep. iApply (xwp_wand with "[H]").
    { iApply (grow_n with "H"); [lia|done|lia|unfold v_capacity; lia|lia]. }
    iSplit; [iIntros (m f' a) "[]"|]. rewrite (take_ge xs) // drop_ge // app_nil_r. iIntros (m) "H". done.
  Qed.

  (*@ C92_partial push_back at full capacity, when copy number k + 1 throws: the exception leaves the
     vector as it was - members, contents, capacity - but the new buffer and the k elements
     copied into it stay in memory. Missing: without that buffer. *)
  Lemma vec_push_back_grow_throws fuel v (xs : list V) r x k :
    vrefers v xs r x → length xs + 1 < fuel → v_capacity v = length xs → k ≤ length xs →
    runs (is_vec v xs) (xv_push_back fuel r v (Some k))
      (λ q h, q = XThrew v ∧ both (is_vec v xs) (lost_buffer (take k (xs ++ [x])) (length xs + 1 - k)) h).
  Proof. intros. apply runs_kept. by apply grow_push. Qed.
  (*@ C92_partial insert of n values beyond the capacity. *)
  Lemma vec_insert_n_grow_throws fuel v (xs : list V) pos n r x k :
    pos ≤ length xs → vrefers v xs r x → length xs + n < fuel →
    v_capacity v < length xs + n → k < length xs + n →
    runs (is_vec v xs) (xv_insert_n fuel pos n r v (Some k))
      (λ q h, q = XThrew v ∧
         both (is_vec v xs) (lost_buffer (take k (take pos xs ++ replicate n x ++ drop pos xs)) (length xs + n - k)) h).
  Proof. intros. apply runs_kept. by apply grow_n. Qed.
  (*@ C92_partial insert of a range beyond the capacity. *)
  Lemma vec_insert_range_grow_throws fuel v (xs : list V) pos vs k :
    pos ≤ length xs → length xs + length vs < fuel →
    v_capacity v < length xs + length vs → k < length xs + length vs →
    runs (is_vec v xs) (xv_insert_range fuel pos (RVals vs) v (Some k))
      (λ q h, q = XThrew v ∧
         both (is_vec v xs) (lost_buffer (take k (take pos xs ++ vs ++ drop pos xs)) (length xs + length vs - k)) h).
  Proof. intros. apply runs_kept. by apply grow_range. Qed.
  (*@ C92_partial reserve. *)
  Lemma vec_reserve_throws fuel v (xs : list V) n k :
    length xs < fuel → v_capacity v ≤ n → k < length xs →
    runs (is_vec v xs) (xv_reserve fuel n v (Some k))
      (λ q h, q = XThrew v ∧ both (is_vec v xs) (lost_buffer (take k xs) (n - k)) h).
  Proof. intros. apply runs_kept. by apply xwp_reserve_kept. Qed.
  (*@ C92_refuted so even after the destructor of the vector that buffer, with live objects in it, is
     left over: push_back. *)
  Lemma vec_push_back_leaks fuel v (xs : list V) r x k :
    vrefers v xs r x → length xs + 1 < fuel → v_capacity v = length xs → k ≤ length xs →
    runs (is_vec v xs) (let! v' := caught (xv_push_back fuel r) v (Some k) in v_destroy fuel v')
      (λ _ h, lost_buffer (take k (xs ++ [x])) (length xs + 1 - k) h).
  Proof. intros. apply runs_leak; [lia|]. by apply grow_push. Qed.
  (*@ C92_refuted reserve. *)
  Lemma vec_reserve_leaks fuel v (xs : list V) n k :
    length xs < fuel → v_capacity v ≤ n → k < length xs →
    runs (is_vec v xs) (let! v' := caught (xv_reserve fuel n) v (Some k) in v_destroy fuel v')
      (λ _ h, lost_buffer (take k xs) (n - k) h).
  Proof. intros. apply runs_leak; [lia|]. by apply xwp_reserve_kept. Qed.

  (*@ C92_refuted push_back below the capacity, when the copy throws: last_ has been incremented, so
     the destructor of the vector destroys an object that was never constructed. *)
  Lemma vec_push_back_torn fuel v (xs : list V) r x :
    vrefers v xs r x → length xs < v_capacity v → length xs + 1 < fuel →
    fails (is_vec v xs) (let! v' := caught (xv_push_back fuel r) v (Some 0) in v_destroy fuel v') NoObject.
  Proof.
    intros Hr Hc Hf. eapply fails_of; [by rewrite vec_holds|]. eapply (ifails_caught _ _ _ _ _ (S (length xs))); [lia|].
    rewrite xwp_push_back_torn; [|done..]. iIntros "H". iApply (xwp_wand with "H").
    iSplit; [iIntros (m f' a) "[]"|]. iIntros (m) "[% [H _]]". iSplit; [done|]. by iFrame.
  Qed.
  (*@ C92_refuted insert of n values within the capacity, whichever of its copies throws (those that
     move the elements behind the position, or those of the value). *)
  Lemma vec_insert_n_torn fuel v (xs : list V) pos n r x k :
    pos ≤ length xs → 0 < n → vrefers v xs r x → length xs + n < fuel → length xs + n ≤ v_capacity v →
    match r with VExt _ => True | VSlot _ j => j < pos end →
    k < length xs - pos + n →
    fails (is_vec v xs) (let! v' := caught (xv_insert_n fuel pos n r) v (Some k) in v_destroy fuel v') NoObject.
  Proof.
    intros Hp Hn Hr Hf Hc Hal Hk. eapply fails_of; [by rewrite vec_holds|].
    eapply (ifails_caught _ _ _ _ _ (length xs + n)); [lia|]. iIntros "H". unfold xv_insert_n.
    iApply (xwp_wand with "[H]").
    { iApply (xwp_insert_values_torn fuel v xs (v_end v) pos (replicate n x) _ emp%I (good_of r x) n k with "[$H]");
        rewrite ?replicate_length //.
      - apply good_stable.
      - destruct n; [lia|done].
      - apply src_counter. by eapply rok_refers.
      - destruct r as [y|p j]; [done|]. simpl in *. destruct Hr as [-> Hj].
        rewrite lookup_app_l; [|rewrite lv_length take_length; lia].
        apply lv_lookup. by rewrite lookup_take. }
    iSplit; [iIntros (m f' a) "[]"|]. rewrite replicate_length. iIntros (m) "[% [H _]]". iSplit; [done|]. by iFrame.
  Qed.
  (*@ C92_refuted insert of a range within the capacity. *)
  Lemma vec_insert_range_torn fuel v (xs : list V) pos vs k :
    pos ≤ length xs → vs ≠ [] → length xs + length vs < fuel → length xs + length vs ≤ v_capacity v →
    k < length xs - pos + length vs →
    fails (is_vec v xs) (let! v' := caught (xv_insert_range fuel pos (RVals vs)) v (Some k) in v_destroy fuel v') NoObject.
  Proof.
    intros Hp Hn Hf Hc Hk. eapply fails_of; [by rewrite vec_holds|].
    eapply (ifails_caught _ _ _ _ _ (length xs + length vs)); [lia|]. iIntros "H". unfold xv_insert_range.
    iApply (xwp_wand with "[H]").
    { iApply (xwp_insert_values_torn fuel v xs (v_end v) pos vs _ emp%I (λ _, True%type) (length vs) k with "[$H]"); try done.
      apply src_vals. }
    iSplit; [iIntros (m f' a) "[]"|]. iIntros (m) "[% [H _]]". iSplit; [done|]. by iFrame.
  Qed.
  (*@ C92_refuted erase of a range that does not reach the end. *)
  Lemma vec_erase_torn fuel v (xs : list V) i j k :
    i < j ≤ length xs → k < length xs - j → length xs < fuel →
    fails (is_vec v xs) (let! v' := caught (xv_erase_range fuel i j) v (Some k) in v_destroy fuel v') NoObject.
  Proof.
    intros Hij Hk Hf. eapply fails_of; [by rewrite vec_holds|]. eapply (ifails_caught _ _ _ _ _ (length xs)); [lia|].
    rewrite xwp_erase_torn; [|done..]. iIntros "H". iApply (xwp_wand with "H").
    iSplit; [iIntros (m f' a) "[]"|]. iIntros (m) "[% [H _]]". iSplit; [done|]. by iFrame.
  Qed.
  (*@ C92_refuted assign(n, x). *)
  Lemma vec_assign_n_torn fuel v (xs : list V) n x k :
    k < n → length xs + n < fuel →
    fails (is_vec v xs) (let! v' := caught (xv_assign_n fuel n (VExt x)) v (Some k) in v_destroy fuel v') NoObject.
  Proof.
    intros Hk Hf. eapply fails_of; [by rewrite vec_holds|]. eapply (ifails_caught _ _ _ _ _ n); [lia|].
    rewrite xwp_assign_n_torn; [|done..]. iIntros "H". iApply (xwp_wand with "H").
    iSplit; [iIntros (m f' a) "[]"|]. iIntros (m) "[% [H _]]". iSplit; [done|]. by iFrame.
  Qed.
  (*@ C92_refuted operator=. *)
  Lemma vec_assign_torn fuel v (xs : list V) other ys k :
    k < length ys → length xs + length ys < fuel →
    fails (both (is_vec v xs) (is_vec other ys))
      (let! v' := caught (xv_assign fuel other) v (Some k) in v_destroy fuel v') NoObject.
  Proof.
    intros Hk Hf. eapply fails_of; [by rewrite plain_both !vec_holds|]. eapply (ifails_caught _ _ _ _ _ (length ys)); [lia|].
    rewrite xwp_assign_torn; [|done..]. iIntros "H". iApply (xwp_wand with "H").
    iSplit; [iIntros (m f' a) "[]"|]. iIntros (m) "[% [H _]]". iSplit; [done|]. by iFrame.
  Qed.
  (*@ C92_refuted resize within the capacity. *)
  Lemma vec_resize_torn fuel v (xs : list V) n k :
    n ≤ v_capacity v → k < n - length xs → n < fuel →
    fails (is_vec v xs) (let! v' := caught (xv_resize dflt fuel n) v (Some k) in v_destroy fuel v') NoObject.
  Proof.
    intros Hc Hk Hf. eapply fails_of; [by rewrite vec_holds|]. eapply (ifails_caught _ _ _ _ _ n); [lia|].
    iIntros "H". iDestruct (vecP_last with "H") as %(Hl&_&_). unfold xv_resize, v_size. xstep. xstep. rewrite Hl. dF. xstep.
    iApply (xwp_wand with "[H]").
    { unfold xv_insert_n. iApply (xwp_insert_values_torn fuel v xs (v_end v) (length xs) (replicate (n - length xs) dflt) _ emp%I
        (λ _, True%type) _ k with "[$H]"); rewrite ?replicate_length //; unfold v_capacity in *; try lia.
      - destruct (n - length xs) eqn:?; [lia|done].
      - apply src_counter, rok_ext. }
    iSplit; [iIntros (m f' a) "[]"|]. rewrite replicate_length. iIntros (m) "[%Hm [H _]]". iSplit; [iPureIntro; lia|]. by iFrame.
  Qed.
  (*@ C92_refuted a constructor that throws leaves its buffer and the elements it has made behind - no
     destructor runs for an object whose constructor threw: vector(n, x). *)
  Lemma vec_new_n_leaks fuel v0 n x k :
    k < n → n < fuel →
    runs nothing (xv_new_n fuel n (VExt x) v0 (Some k))
      (λ q h, (∃ v, q = XThrew v) ∧ lost_buffer (replicate k x) (n - k) h).
  Proof.
    intros Hk Hf. eapply (runs_from _ _ _ emp%I); [by rewrite plain_nothing|by apply xwp_new_n_lost|].
    intros [m f' a|m]; [iIntros "[]"|]. iIntros "H". iSplit; [eauto|]. by iApply plain_lost.
  Qed.
  (*@ C92_refuted the copy constructor. *)
  Lemma vec_copy_leaks fuel v0 v (xs : list V) k :
    k < length xs → length xs < fuel →
    runs (is_vec v xs) (xv_copy fuel v v0 (Some k))
      (λ q h, (∃ w, q = XThrew w) ∧ both (is_vec v xs) (lost_buffer (take k xs) (length xs - k)) h).
  Proof.
    intros Hk Hf. eapply runs_from; [by rewrite vec_holds|by apply xwp_copy_lost|].
    intros [m f' a|m]; [iIntros "[]"|]. iIntros "[H Hs]". iSplit; [eauto|]. rewrite plain_both.
    iSplitL "H"; [by rewrite vec_holds|by iApply plain_lost].
  Qed.

  (*@ C92_refuted fixed_vector: push_back when it is not full. *)
  Lemma fvec_push_back_torn fuel v (xs : list V) r x :
    frefers v xs r x → length xs < N → N < fuel →
    fails (is_fvec N v xs) (let! v' := caught (xf_push_back N r) v (Some 0) in fv_destroy fuel v') NoObject.
  Proof.
    intros Hr Hc Hf. eapply fails_of; [by rewrite fvec_holds|]. eapply ifails_fcaught; [done|]. by eapply xwp_f_push_back_torn.
  Qed.
  (*@ C92_refuted fixed_vector: insert of n values; the elements behind the position that still fit
     are copied, then as many values as fit. *)
  Lemma fvec_insert_n_torn fuel v (xs : list V) pos n r x k :
    pos ≤ length xs → 0 < n → frefers v xs r x → N < fuel →
    match r with VExt _ => True | VSlot _ j => j < pos ∨ pos = length xs end →
    k < (N - pos - n) `min` (length xs - pos) + n `min` (N - pos) →
    fails (is_fvec N v xs) (let! v' := caught (xf_insert_n N fuel pos n r) v (Some k) in fv_destroy fuel v') NoObject.
  Proof.
    intros Hp Hn Hr Hf Hal Hk. eapply fails_of; [by rewrite fvec_holds|]. eapply ifails_fcaught; [done|].
    eapply xwp_f_insert_n_torn; try done. unfold moved, gap. by rewrite take_length drop_length.
  Qed.
  (*@ C92_refuted fixed_vector: insert of a range. *)
  Lemma fvec_insert_range_torn fuel v (xs : list V) pos vs k :
    pos ≤ length xs → vs ≠ [] → N < fuel →
    k < (N - pos - length vs) `min` (length xs - pos) + length vs `min` (N - pos) →
    fails (is_fvec N v xs) (let! v' := caught (xf_insert_range N fuel pos (RVals vs)) v (Some k) in fv_destroy fuel v') NoObject.
  Proof.
    intros Hp Hn Hf Hk. eapply fails_of; [by rewrite fvec_holds|]. eapply ifails_fcaught; [done|].
    iIntros "H". iApply (xwp_f_insert_range_torn N fuel v xs pos (RVals vs) vs emp%I k with "[$H]"); try done.
    - apply rng_vals.
    - unfold moved, gap. by rewrite take_length drop_length.
  Qed.
  (*@ C92_refuted fixed_vector: erase of a range that does not reach the end. *)
  Lemma fvec_erase_torn fuel v (xs : list V) i j k :
    i < j ≤ length xs → k < length xs - j → N < fuel →
    fails (is_fvec N v xs) (let! v' := caught (xf_erase_range fuel i j) v (Some k) in fv_destroy fuel v') NoObject.
  Proof.
    intros Hij Hk Hf. eapply fails_of; [by rewrite fvec_holds|]. eapply ifails_fcaught; [done|]. by eapply xwp_f_erase_torn.
  Qed.
  (*@ C92_refuted fixed_vector: assign(n, x). *)
  Lemma fvec_assign_n_torn fuel v (xs : list V) n x k :
    k < n `min` N → N < fuel →
    fails (is_fvec N v xs) (let! v' := caught (xf_assign_n N fuel n (VExt x)) v (Some k) in fv_destroy fuel v') NoObject.
  Proof.
    intros Hk Hf. eapply fails_of; [by rewrite fvec_holds|]. eapply ifails_fcaught; [done|]. by eapply xwp_f_assign_n_torn.
  Qed.
  (*@ C92_refuted fixed_vector: assign(first, last). *)
  Lemma fvec_assign_range_torn fuel v (xs : list V) vs k :
    k < length vs `min` N → N < fuel →
    fails (is_fvec N v xs) (let! v' := caught (xf_assign_range N fuel (RVals vs)) v (Some k) in fv_destroy fuel v') NoObject.
  Proof.
    intros Hk Hf. eapply fails_of; [by rewrite fvec_holds|]. eapply ifails_fcaught; [done|].
    iIntros "H". iApply (xwp_f_assign_range_torn N fuel v xs (RVals vs) vs emp%I k with "[$H]"); try done. apply rng_vals.
  Qed.
  (*@ C92_refuted fixed_vector: operator=. *)
  Lemma fvec_assign_torn fuel v (xs : list V) other ys k :
    k < length ys → N < fuel →
    fails (both (is_fvec N v xs) (is_fvec N other ys))
      (let! v' := caught (xf_assign fuel other) v (Some k) in fv_destroy fuel v') NoObject.
  Proof.
    intros Hk Hf. eapply fails_of; [by rewrite plain_both !fvec_holds|]. eapply ifails_fcaught; [done|]. by eapply xwp_f_assign_torn.
  Qed.
  (*@ C92_refuted fixed_vector: resize. *)
  Lemma fvec_resize_torn fuel v (xs : list V) n k :
    k < n `min` N - length xs → N < fuel →
    fails (is_fvec N v xs) (let! v' := caught (xf_resize N dflt fuel n) v (Some k) in fv_destroy fuel v') NoObject.
  Proof.
    intros Hk Hf. eapply fails_of; [by rewrite fvec_holds|]. eapply ifails_fcaught; [done|]. by eapply xwp_f_resize_torn.
  Qed.
  (*@ C92_partial When no copy throws, these functions are exactly those of the other claims, so the
     failures above come from the exceptions: vector. *)
  Lemma vec_no_throw fuel v :
    (∀ r : vref V, same (xv_push_back fuel r) v (v_push_back fuel v r) (λ v', (v', tt))) ∧
    (∀ pos n (r : vref V), same (xv_insert_n fuel pos n r) v (v_insert_n fuel v pos n r) (λ q, q)) ∧
    (∀ pos (g : vrange V), same (xv_insert_range fuel pos g) v (v_insert_range fuel v pos g) (λ q, q)) ∧
    (∀ n, same (V:=V) (xv_reserve fuel n) v (v_reserve fuel v n) (λ v', (v', tt))) ∧
    (∀ n, same (xv_resize dflt fuel n) v (v_resize dflt fuel v n) (λ v', (v', tt))) ∧
    (∀ n (r : vref V), same (xv_resize_to dflt fuel n r) v (v_resize_to dflt fuel v n r) (λ v', (v', tt))) ∧
    (∀ n (r : vref V), same (xv_assign_n fuel n r) v (v_assign_n fuel v n r) (λ v', (v', tt))) ∧
    (∀ g : vrange V, same (xv_assign_range fuel g) v (v_assign_range fuel v g) (λ v', (v', tt))) ∧
    (∀ w, same (V:=V) (xv_assign fuel w) v (v_assign fuel v w) (λ v', (v', tt))) ∧
    (∀ i j, same (V:=V) (xv_erase_range fuel i j) v (v_erase_range fuel v i j) (λ q, q)) ∧
    (∀ n (r : vref V), same (xv_new_n fuel n r) v (v_new_n fuel n r) (λ v', (v', tt))) ∧
    (∀ w, same (V:=V) (xv_copy fuel w) v (v_copy fuel w) (λ v', (v', tt))) ∧
    (∀ g : vrange V, same (xv_new_range fuel g) v (v_new_range fuel g) (λ v', (v', tt))).
  Proof.
    split_and!; intros.
    - apply same_push_back.
    - apply same_insert_n.
    - apply same_insert_range.
    - apply same_reserve.
    - apply same_resize.
    - apply same_resize_to.
    - apply same_assign_n.
    - apply same_assign_range.
    - apply same_assign.
    - apply same_erase_range.
    - apply same_new_n.
    - apply same_copy_ctor.
    - apply same_new_range.
  Qed.
  (*@ C92_partial fixed_vector. *)
  Lemma fvec_no_throw fuel v :
    (∀ r : vref V, same (xf_push_back N r) v (fv_push_back N v r) (λ v', (v', tt))) ∧
    (∀ pos n (r : vref V), same (xf_insert_n N fuel pos n r) v (fv_insert_n N fuel v pos n r) (λ q, q)) ∧
    (∀ pos (g : vrange V), same (xf_insert_range N fuel pos g) v (fv_insert_range N fuel v pos g) (λ q, q)) ∧
    (∀ n, same (xf_resize N dflt fuel n) v (fv_resize N dflt fuel v n) (λ v', (v', tt))) ∧
    (∀ n (r : vref V), same (xf_assign_n N fuel n r) v (fv_assign_n N fuel v n r) (λ v', (v', tt))) ∧
    (∀ g : vrange V, same (xf_assign_range N fuel g) v (fv_assign_range N fuel v g) (λ v', (v', tt))) ∧
    (∀ w, same (V:=V) (xf_assign fuel w) v (fv_assign fuel v w) (λ v', (v', tt))) ∧
    (∀ i j, same (V:=V) (xf_erase_range fuel i j) v (fv_erase_range fuel v i j) (λ q, q)) ∧
    (∀ n (r : vref V), same (xf_new_n N fuel n r) v (fv_new_n N fuel n r) (λ v', (v', tt))) ∧
    (∀ w, same (V:=V) (xf_copy N fuel w) v (fv_copy N fuel w) (λ v', (v', tt))).
  Proof.
    split_and!; intros.
    - apply same_f_push_back.
    - apply same_f_insert_n.
    - apply same_f_insert_range.
    - apply same_f_resize.
    - apply same_f_assign_n.
    - apply same_f_assign_range.
    - apply same_f_assign.
    - apply same_f_erase_range.
    - apply same_f_new_n.
    - apply same_f_copy.
  Qed.
End throwing.
