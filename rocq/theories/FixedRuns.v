(** fixed_vector: the property lemmas, in the vocabulary of Triple.v, FixedSpec.v, HistoryV.v
    and HistoryX.v only. *)
From Verif Require Import FixedHistory ForwardRuns.
From iris.proofmode Require Import tactics.
(*@HEADER
From Verif Require Import FixedSpec FixedRuns.

Section fixed.
  Context {V : Type} `{Allocator (list (option V))} (N : nat) (dflt : V) (eqb : V → V → bool).
@*)
(*@FOOTER
End fixed.
@*)

Section fixed.
  Context {V : Type} `{Allocator (list (option V))} (N : nat) (dflt : V) (eqb : V → V → bool).
  Notation block := (list (option V)).
  Notation iProp := (bi_car (hpropI block)).

  Lemma plain_fvec v (xs : list V) : Sep.plain (λ h, is_fvec N v xs h) ⊣⊢ fvecP N v xs.
  Proof. apply fvec_holds. Qed.
  Lemma plain_fvecs v w (xs ys : list V) :
    Sep.plain (λ h, both (is_fvec N v xs) (is_fvec N w ys) h) ⊣⊢ fvecP N v xs ∗ fvecP N w ys.
  Proof.
    change (λ h, both (is_fvec N v xs) (is_fvec N w ys) h) with (both (is_fvec N v xs) (is_fvec N w ys)).
    by rewrite plain_both !fvec_holds.
  Qed.

  (*@ C19 Whole programs on two fixed_vectors of N slots, every history of calls within the
     documented preconditions: the program either completes, with the prescribed
     observations and no memory left behind, or stops at the first call that goes wrong
     with exactly the undefined behaviour given by [fx_code]. *)
  Lemma fixed_history ops :
    x_exact (fv_new N) fv_destroy (fx_step N dflt eqb) [] (fx_code N dflt eqb) ops.
  Proof. apply fx_exact. Qed.
  (*@ C19 ... and whichever it is, no slot outside the N slots of the storage is touched, and
     no freed memory. *)
  Lemma fixed_in_bounds ops r :
    x_spec (fx_code N dflt eqb) [] [] ops = Some r →
    ∃ F, ∀ fuel, F ≤ fuel → ∀ h u,
      v_program (fv_new N) fv_destroy (fx_step N dflt eqb) fuel ops h = UB u →
      u = NoObject ∨ u = LiveOverwrite.
  Proof.
    intros Hr. destruct (fx_exact N dflt eqb ops r Hr) as [F HF]. exists F. intros fuel Hf h u Hu.
    specialize (HF fuel Hf). destruct r as [[[xs ys] outs]|e|].
    - destruct (HF ∅ h eq_refl (map_disjoint_empty_l h)) as (a&h'&Hr'&_).
      rewrite left_id in Hr'. congruence.
    - specialize (HF ∅ h eq_refl (map_disjoint_empty_l h)). rewrite left_id in HF.
      rewrite Hu in HF. injection HF as <-. by eapply fx_spec_ubs.
    - by rewrite HF in Hu.
  Qed.
  (*@ C19 After every history that completes, each object has size() <= N and owns exactly its
     N slots, the first size() of them live. *)
  Lemma fixed_reaches ops :
    v_reaches (fv_new N) (fx_step N dflt eqb) [] (fx_does N dflt eqb) (is_fvec N) ops.
  Proof. apply fx_reaches_does. Qed.
  (*@ C19 size() is the number of live elements, at most N; full() iff it is N. *)
  Lemma fixed_size v (xs : list V) h :
    is_fvec N v xs h → fv_size v = length xs ∧ fv_size v ≤ N ∧ (fv_full N v = true ↔ length xs = N).
  Proof.
    intros (Hl&Hc&_). unfold fv_size, fv_full. rewrite Hl bool_decide_eq_true. done.
  Qed.

  (*@ C20_partial,C21_partial Whole programs whose calls stay within [fx_ok]: after every call
     the vector holds the first N elements of what vector would hold. Missing: the calls
     excluded by [fx_ok] - erase(p,p) before the end, insert of an own element at or
     behind pos, swap with a shorter vector - on which the code is wrong. *)
  Lemma fixed_history_ok ops :
    v_correct (fv_new N) fv_destroy (fx_step N dflt eqb) [] (fx_spec_ok N dflt eqb) (λ _, True) ops.
  Proof. apply fx_history_ok. Qed.

  (*@ C20 push_back, of any value or own element. *)
  Lemma fixed_push_back_ok v (xs : list V) r x :
    frefers v xs r x →
    runs (is_fvec N v xs) (fv_push_back N v r)
      (λ v' h, fv_buf v' = fv_buf v ∧ is_fvec N v' (take N (xs ++ [x])) h).
  Proof.
    intros Hr. eapply runs_from; [by rewrite fvec_holds|by eapply wp_fv_push_back|].
    intros v'. iIntros "[% H]". iSplit; [done|]. by rewrite plain_fvec.
  Qed.
  (*@ C20_partial insert(pos, n, x). Missing: own elements at or behind pos. *)
  Lemma fixed_insert_n_ok fuel v (xs : list V) pos n r x :
    pos ≤ length xs → frefers v xs r x → N < fuel →
    match r with VExt _ => True | VSlot _ j => n = 0 ∨ j < pos ∨ pos = length xs end →
    runs (is_fvec N v xs) (fv_insert_n N fuel v pos n r)
      (λ '(v', i) h, i = pos ∧ fv_buf v' = fv_buf v ∧
         is_fvec N v' (take N (take pos xs ++ replicate n x ++ drop pos xs)) h).
  Proof.
    intros Hp Hr Hf Hal. eapply runs_from; [by rewrite fvec_holds|by eapply wp_fv_insert_n|].
    intros [v' i]. iIntros "(%&%&H)". do 2 (iSplit; [done|]). by rewrite plain_fvec.
  Qed.
  (*@ C20 insert(pos, x) of a value that is not an element of the vector. *)
  Lemma fixed_insert_ok fuel v (xs : list V) pos x :
    pos ≤ length xs → N < fuel →
    runs (is_fvec N v xs) (fv_insert N fuel v pos (VExt x))
      (λ '(v', i) h, i = pos ∧ fv_buf v' = fv_buf v ∧
         is_fvec N v' (take N (take pos xs ++ x :: drop pos xs)) h).
  Proof. intros Hp Hf. by apply (fixed_insert_n_ok fuel v xs pos 1 (VExt x) x). Qed.
  (*@ C20 insert(pos, first, last). *)
  Lemma fixed_insert_range_ok fuel v (xs : list V) pos vs :
    pos ≤ length xs → N < fuel →
    runs (is_fvec N v xs) (fv_insert_range N fuel v pos (RVals vs))
      (λ '(v', i) h, i = pos ∧ fv_buf v' = fv_buf v ∧
         is_fvec N v' (take N (take pos xs ++ vs ++ drop pos xs)) h).
  Proof.
    intros Hp Hf. eapply runs_from; [by rewrite fvec_holds| |].
    - iIntros "H". iApply (wp_fv_insert_range N fuel v xs pos (RVals vs) vs emp%I with "[$H]"); [done..|].
      apply rng_vals.
    - intros [v' i]. iIntros "(%&%&H&_)". do 2 (iSplit; [done|]). by rewrite plain_fvec.
  Qed.
  (*@ C20 resize(n). *)
  Lemma fixed_resize_ok fuel v (xs : list V) n :
    N < fuel →
    runs (is_fvec N v xs) (fv_resize N dflt fuel v n)
      (λ v' h, fv_size v' = N `min` n ∧ is_fvec N v' (take N (take n xs ++ replicate (n - length xs) dflt)) h).
  Proof.
    intros Hf. eapply runs_from; [by rewrite fvec_holds|by eapply wp_fv_resize|].
    intros v'. iIntros "[% H]". iDestruct (fvecP_last with "H") as %[Hl _]. iSplit.
    { iPureIntro. unfold fv_size. rewrite Hl take_length app_length take_length replicate_length. lia. }
    by rewrite plain_fvec.
  Qed.
  (*@ C20 resize(n, x), x any value or own element. *)
  Lemma fixed_resize_to_ok fuel v (xs : list V) n r x :
    frefers v xs r x → N < fuel →
    runs (is_fvec N v xs) (fv_resize_to N dflt fuel v n r)
      (λ v' h, fv_size v' = N `min` n ∧ is_fvec N v' (take N (take n xs ++ replicate (n - length xs) x)) h).
  Proof.
    intros Hr Hf. eapply runs_from; [by rewrite fvec_holds|by eapply wp_fv_resize_to|].
    intros v'. iIntros "[% H]". iDestruct (fvecP_last with "H") as %[Hl _]. iSplit.
    { iPureIntro. unfold fv_size. rewrite Hl take_length app_length take_length replicate_length. lia. }
    by rewrite plain_fvec.
  Qed.
  (*@ C20 assign(n, x) and assign(first, last). *)
  Lemma fixed_assign_n_ok fuel v (xs : list V) n x :
    N < fuel →
    runs (is_fvec N v xs) (fv_assign_n N fuel v n (VExt x))
      (λ v' h, is_fvec N v' (take N (replicate n x)) h).
  Proof.
    intros Hf. eapply runs_from; [by rewrite fvec_holds|by eapply wp_fv_assign_n|].
    intros v'. by rewrite plain_fvec.
  Qed.
  (*@ C20 ... *)
  Lemma fixed_assign_range_ok fuel v (xs : list V) vs :
    N < fuel →
    runs (is_fvec N v xs) (fv_assign_range N fuel v (RVals vs))
      (λ v' h, is_fvec N v' (take N vs) h).
  Proof.
    intros Hf. eapply runs_from; [by rewrite fvec_holds| |].
    - iIntros "H". iApply (wp_fv_assign_range N fuel v xs (RVals vs) vs emp%I with "[$H]"); [done|apply rng_vals].
    - intros v'. iIntros "[H _]". by rewrite plain_fvec.
  Qed.
  (*@ C20 the constructors. *)
  Lemma fixed_new_range_ok fuel vs :
    N < fuel → runs nothing (fv_new_range N fuel (RVals vs)) (λ v h, is_fvec N v (take N vs) h).
  Proof.
    intros Hf. eapply runs_from; [by rewrite plain_nothing| |].
    - iIntros "_". iApply (wp_fv_new_range N fuel (RVals vs) vs emp%I); [done|apply rng_vals|done].
    - intros v'. iIntros "[H _]". by rewrite plain_fvec.
  Qed.
  (*@ C20 ... *)
  Lemma fixed_new_n_ok fuel n x :
    N < fuel → runs nothing (fv_new_n N fuel n (VExt x)) (λ v h, is_fvec N v (take N (replicate n x)) h).
  Proof.
    intros Hf. eapply runs_from; [by rewrite plain_nothing| |].
    - iIntros "_". by iApply wp_fv_new_n.
    - intros v'. by rewrite plain_fvec.
  Qed.
  (*@ C20 copy construction and assignment copy everything and leave the source alone. *)
  Lemma fixed_copy_ok fuel v (xs : list V) :
    N < fuel →
    runs (is_fvec N v xs) (fv_copy N fuel v) (λ v' h, both (is_fvec N v' xs) (is_fvec N v xs) h).
  Proof.
    intros Hf. eapply runs_from; [by rewrite fvec_holds|by eapply wp_fv_copy|].
    intros v'. by rewrite plain_fvecs.
  Qed.
  (*@ C20 ... *)
  Lemma fixed_assign_ok fuel v (xs : list V) w ys :
    N < fuel →
    runs (both (is_fvec N v xs) (is_fvec N w ys)) (fv_assign fuel v w)
      (λ v' h, fv_buf v' = fv_buf v ∧ both (is_fvec N v' ys) (is_fvec N w ys) h).
  Proof.
    intros Hf. eapply runs_from; [by rewrite plain_both !fvec_holds|by eapply wp_fv_assign|].
    intros v'. iIntros "[% H]". iSplit; [done|]. by rewrite plain_fvecs.
  Qed.
  (*@ C20_partial erase of a non-empty range. Missing: erase(p, p) (refuted). *)
  Lemma fixed_erase_range_ok fuel v (xs : list V) i j :
    i ≤ j ≤ length xs → i < j ∨ i = length xs → N < fuel →
    runs (is_fvec N v xs) (fv_erase_range fuel v i j)
      (λ '(v', k) h, k = i ∧ fv_buf v' = fv_buf v ∧ is_fvec N v' (take i xs ++ drop j xs) h).
  Proof.
    intros Hp Hr Hf. eapply runs_from; [by rewrite fvec_holds|by eapply wp_fv_erase_range|].
    intros [v' k]. iIntros "(%&%&H)". do 2 (iSplit; [done|]). by rewrite plain_fvec.
  Qed.
  (*@ C19,C20 the destructor ends the life of every element and of the storage. *)
  Lemma fixed_destroy_ok fuel v (xs : list V) :
    N < fuel → runs (is_fvec N v xs) (fv_destroy fuel v) (λ _ h, nothing h).
  Proof.
    intros Hf. eapply runs_from; [by rewrite fvec_holds| |].
    - iIntros "H". iDestruct (fvecP_last with "H") as %[? ?]. iApply (wp_fv_destroy with "H"). lia.
    - intros p. change (λ h, nothing h) with (@nothing block). by rewrite plain_nothing.
  Qed.
  (*@ C20 equality of the sequences. *)
  Lemma fixed_eq_ok fuel v (xs : list V) w ys :
    N + N < fuel →
    runs (both (is_fvec N v xs) (is_fvec N w ys)) (fv_eq eqb fuel v w)
      (λ r h, (r = true ↔ Forall2 (λ x y, eqb x y = true) xs ys) ∧
         both (is_fvec N v xs) (is_fvec N w ys) h).
  Proof.
    intros Hf. eapply runs_from; [by rewrite plain_both !fvec_holds| |].
    - iIntros "[H Ho]". iDestruct (fvecP_last with "H") as %[_ ?].
      iDestruct (fvecP_last with "Ho") as %[_ ?].
      iApply (wp_v_eq eqb fuel (asv N v) _ _ (asv N w) with "[$H $Ho]"). lia.
    - intros r. iIntros "[-> H]". iSplit; [iPureIntro; apply bool_decide_eq_true|]. by rewrite plain_fvecs.
  Qed.
  (*@ C20_refuted insert(pos, n, v[j]) with pos <= j < pos + n: the element has been moved away. *)
  Lemma fixed_insert_own_fails fuel v (xs : list V) pos n j :
    pos ≤ j < length xs → j < pos + n → N < fuel →
    fails (is_fvec N v xs) (fv_insert_n N fuel v pos n (VSlot (Some (fv_buf v)) j)) NoObject.
  Proof.
    intros Hj Hn Hf. eapply (fails_of _ _ _ (fvecP N v xs ∗ emp)%I); [rewrite fvec_holds; by iIntros "$"|].
    apply (ifails_insert_own N fuel v xs pos n j emp%I); lia.
  Qed.
  (*@ C20_refuted erase(p, p) before the end. *)
  Lemma fixed_erase_empty_fails fuel v (xs : list V) i :
    i < length xs → 1 < fuel → fails (is_fvec N v xs) (fv_erase_range fuel v i i) LiveOverwrite.
  Proof.
    intros Hi Hf. eapply (fails_of _ _ _ (fvecP N v xs ∗ emp)%I); [rewrite fvec_holds; by iIntros "$"|].
    by apply ifails_erase_empty.
  Qed.
  (*@ C21_partial a.swap(b) exchanges the contents if a.size() <= b.size(). Missing: the other
     case (refuted). *)
  Lemma fixed_swap_ok fuel v (xs : list V) w ys :
    length xs ≤ length ys → N < fuel →
    runs (both (is_fvec N v xs) (is_fvec N w ys)) (fv_swap fuel v w)
      (λ '(v', w') h, fv_buf v' = fv_buf v ∧ fv_buf w' = fv_buf w ∧
         both (is_fvec N v' ys) (is_fvec N w' xs) h).
  Proof.
    intros Hl Hf. eapply runs_from; [by rewrite plain_both !fvec_holds|by eapply wp_fv_swap|].
    intros [v' w']. iIntros "(%&%&H)". do 2 (iSplit; [done|]). by rewrite plain_fvecs.
  Qed.
  (*@ C21_refuted a.swap(b) with a.size() > b.size() reads an element that does not exist. *)
  Lemma fixed_swap_fails fuel v (xs : list V) w ys :
    length ys < length xs → N < fuel →
    fails (both (is_fvec N v xs) (is_fvec N w ys)) (fv_swap fuel v w) NoObject.
  Proof.
    intros Hl Hf. eapply fails_of; [by rewrite plain_both !fvec_holds|]. by apply ifails_swap.
  Qed.
  (*@ C07_refuted assigning a fixed_vector to itself empties it. *)
  Lemma fixed_self_assign fuel v (xs : list V) :
    N < fuel → runs (is_fvec N v xs) (fv_assign_self fuel v) (λ v' h, is_fvec N v' [] h).
  Proof.
    intros Hf. eapply runs_from; [by rewrite fvec_holds|by eapply wp_fv_assign_self|].
    intros v'. by rewrite plain_fvec.
  Qed.
End fixed.
