(** Bytes, alignment, size_t arithmetic and initialisation (C76, C77, C78). *)
From Verif Require Import LayoutModel DlistRuns VecRuns FixedRuns State.
From Verif Require Import VecProofs FixedProofs.
From iris.proofmode Require Import tactics.
(*@HEADER
From Verif Require Import LayoutModel LayoutRuns State.
@*)
(*@FOOTER
@*)

Lemma round_up_le x a : 0 < a → x ≤ round_up x a.
Proof.
  intros Ha. unfold round_up.
  pose proof (Nat.div_mod (x + a - 1) a ltac:(lia)). pose proof (Nat.mod_upper_bound (x + a - 1) a ltac:(lia)). lia.
Qed.
Lemma round_up_divide x a : Nat.divide a (round_up x a).
Proof. unfold round_up. apply Nat.divide_factor_r. Qed.

(*@ C19 The N elements of a fixed_vector, and end_of_elements(), lie inside the object, before
   last_, and different elements do not overlap. *)
Lemma fixed_storage (sz palign psize n base i j : nat) :
  0 < palign → i < n → j < n → i ≠ j →
  base ≤ elem_addr sz base i ∧
  elem_addr sz base i + sz ≤ end_addr sz n base ∧
  end_addr sz n base ≤ base + last_off sz palign n ∧
  base + last_off sz palign n + psize ≤ base + fv_sizeof sz palign psize n ∧
  (elem_addr sz base i + sz ≤ elem_addr sz base j ∨ elem_addr sz base j + sz ≤ elem_addr sz base i) ∧
  end_addr sz n base = elem_addr sz base n.
Proof.
  intros Hp Hi Hj Hij. unfold elem_addr, end_addr, fv_sizeof, last_off, bytes_off, union_size, fv_align, union_align.
  pose proof (round_up_le (0 + n * sz) palign Hp).
  pose proof (round_up_le (round_up (0 + n * sz) palign + psize) (1 `max` palign) ltac:(lia)).
  assert (S i * sz ≤ n * sz) by (apply Nat.mul_le_mono_r; lia).
  assert (i < j ∨ j < i) as [Hlt|Hlt] by lia.
  - assert (S i * sz ≤ j * sz) by (apply Nat.mul_le_mono_r; lia). split_and!; lia.
  - assert (S j * sz ≤ i * sz) by (apply Nat.mul_le_mono_r; lia). split_and!; lia.
Qed.
(*@ C77_partial If the alignment of T divides that of a pointer, every element of every
   properly placed fixed_vector is properly aligned. (sizeof(T) is a multiple of alignof(T).)
   Missing: the other types, for which it is false. *)
Lemma fixed_aligned (sz al palign base i : nat) :
  Nat.divide al sz → Nat.divide al palign → Nat.divide (fv_align palign) base → 0 < palign →
  Nat.divide al (elem_addr sz base i).
Proof.
  intros Hsz Hp Hb H0. unfold elem_addr, fv_align, union_align, bytes_off in *.
  replace (1 `max` palign) with palign in Hb by lia.
  apply Nat.divide_add_r; [apply Nat.divide_add_r|].
  - by etrans.
  - apply Nat.divide_0_r.
  - by apply Nat.divide_mul_r.
Qed.
(*@ C77_refuted For every other alignment there is a proper place for the fixed_vector at which no
   element is properly aligned. *)
Lemma fixed_misaligned (sz al palign : nat) :
  Nat.divide al sz → ¬ Nat.divide al palign → 0 < palign →
  ∃ base, Nat.divide (fv_align palign) base ∧ ∀ i, ¬ Nat.divide al (elem_addr sz base i).
Proof.
  intros Hsz Hp H0. exists palign. unfold elem_addr, fv_align, union_align, bytes_off. split.
  - by replace (1 `max` palign) with palign by lia.
  - intros i Hi. apply Hp. rewrite Nat.add_0_r in Hi.
    replace palign with (palign + i * sz - i * sz) by lia. apply Nat.divide_sub_r; [done|].
    by apply Nat.divide_mul_r.
Qed.

(*@ C78_partial vector(n) and vector(n, x) construct n objects inside the buffer, if n * sizeof(T) is a
   size_t. Missing: other n, for which it is false. *)
Lemma vector_request_fits (B sz n fuel : nat) :
  n * sz < 2 ^ B → n < fuel → vec_new_bytes B sz fuel n () = Ok (n * sz, ()).
Proof.
  intros Hn Hf. unfold vec_new_bytes, request. rewrite (Nat.mod_small _ _ Hn).
  enough (∀ k last fuel, k < fuel → last + k * sz ≤ n * sz →
    loop fuel (λ '(n0, last), match n0 with
      | 0 => ret (inr last)
      | S n0 => if decide (last + sz ≤ n * sz) then ret (inl (n0, last + sz)) else fail OutOfBounds
      end) (k, last) () = Ok (last + k * sz, ())) as Hl by (rewrite Hl; [done|done|lia]).
  clear Hf fuel. intros k. induction k as [|k IH]; intros last fuel Hk Hle; (destruct fuel as [|fuel]; [lia|]).
  - cbn. by rewrite Nat.add_0_r.
  - cbn [loop]. unfold bind at 1. rewrite decide_True; [|lia]. cbn [ret]. unfold ret at 1. cbn beta iota.
    rewrite IH; [|lia|lia]. do 2 f_equal. lia.
Qed.
(*@ C78_refuted For every size_t n for which it is not, the multiplication wraps around and
   vector(n) constructs objects outside the buffer. *)
Lemma vector_request_wraps (B sz n fuel : nat) :
  2 ^ B ≤ n * sz → n < 2 ^ B → n < fuel → goes_wrong (vec_new_bytes B sz fuel n) () OutOfBounds.
Proof.
  intros Hn Hlt Hf. unfold goes_wrong, vec_new_bytes, request.
  assert ((n * sz) `mod` 2 ^ B < 2 ^ B) as Hb by (apply Nat.mod_upper_bound; lia).
  set (b := (n * sz) `mod` 2 ^ B) in *.
  enough (∀ k last fuel, k < fuel → last ≤ b → b < last + k * sz →
    loop fuel (λ '(n0, last), match n0 with
      | 0 => ret (inr last)
      | S n0 => if decide (last + sz ≤ b) then ret (inl (n0, last + sz)) else fail OutOfBounds
      end) (k, last) () = UB OutOfBounds) as Hl by (apply Hl; lia).
  clear Hf fuel. intros k. induction k as [|k IH]; intros last fuel Hk Hle Hgt; [lia|].
  destruct fuel as [|fuel]; [lia|]. cbn [loop]. unfold bind at 1.
  destruct (decide (last + sz ≤ b)) as [Hc|Hc]; [|done].
  unfold ret at 1. cbn beta iota. apply IH; lia.
Qed.

(*@ C78_partial insert(pos, n, x) inserts n elements if n is a ptrdiff_t. *)
Lemma vector_insert_size_fits {V : Type} `{Allocator (list (option V))} (B n fuel pos : nat) v (r : vref V) h :
  n < 2 ^ (B - 1) → v_insert_size B fuel v pos n r h = v_insert_n fuel v pos n r h.
Proof. intros Hn. unfold v_insert_size, to_diff. rewrite decide_True; [|done]. by rewrite Nat2Z.id. Qed.
(*@ C78_refuted insert(pos, n, x), and so resize(n, x), silently does nothing if n is a size_t but no
   ptrdiff_t. *)
Lemma vector_insert_size_ignored {V : Type} `{Allocator (list (option V))} (B n fuel pos : nat) v (r : vref V) (xs : list V) :
  2 ^ (B - 1) ≤ n → n < 2 ^ B →
  runs (is_vec v xs) (v_insert_size B fuel v pos n r) (λ '(v', i) h, v' = v ∧ i = pos ∧ is_vec v xs h).
Proof.
  intros Hn Hlt h hf Hh Hd. exists (v, pos), h. split; [|done].
  unfold v_insert_size, to_diff. rewrite decide_False; [|lia].
  assert (Z.to_nat (Z.of_nat n - 2 ^ Z.of_nat B) = 0) as ->.
  { apply (inj_lt) in Hlt. rewrite Nat2Z.inj_pow in Hlt. lia. }
  done.
Qed.

(*@ C76 vector::resize(n): the new elements have the value T(). *)
Lemma vector_resize_values {V : Type} `{Allocator (list (option (option V)))} (zero : V) fuel v (xs : list (option V)) n :
  length xs + n < fuel →
  runs (is_vec v xs) (v_resize (value_init zero) fuel v n)
    (λ v' h, is_vec v' (take n xs ++ replicate (n - length xs) (Some zero)) h).
Proof.
  intros Hf. eapply runs_from; [by rewrite vec_holds|by eapply wp_v_resize|].
  intros v'. iIntros "[% H]". iApply (plain_vec_of with "H").
Qed.
(*@ C76 fixed_vector::resize(n): likewise (up to the capacity). *)
Lemma fixed_resize_values {V : Type} `{Allocator (list (option (option V)))} (zero : V) N fuel v (xs : list (option V)) n :
  N < fuel →
  runs (is_fvec N v xs) (fv_resize N (value_init zero) fuel v n)
    (λ v' h, is_fvec N v' (take N (take n xs ++ replicate (n - length xs) (Some zero))) h).
Proof.
  intros Hf h hf Hh Hd. destruct (fixed_resize_ok N (value_init zero) fuel v xs n Hf h hf Hh Hd) as (r&h'&?&?&_&?).
  by exists r, h'.
Qed.
(*@ C76_partial list::resize(n), n not 0, of a class type: likewise. Missing: scalar types, for which it is
   false (and n = 0, see C35). *)
Lemma list_resize_values {V : Type} `{Allocator (dcell (option V))} (scalar : bool) (zero : V) fuel this (xs : list (loc * option V)) n :
  scalar = false → n ≠ 0 → length xs < fuel → n < fuel →
  runs (is_dlist this xs) (dl_resize_n scalar zero fuel this n)
    (λ _ h, ∃ zs, zs.*2 = replicate (n - length xs) (Some zero) ∧ is_dlist this (take n xs ++ zs) h).
Proof. intros Hs ???. unfold dl_resize_n, default_init. rewrite Hs. by apply list_resize. Qed.
(*@ C76_refuted list::resize(n) of a scalar type: the values of all new elements are
   indeterminate. *)
Lemma list_resize_indeterminate {V : Type} `{Allocator (dcell (option V))} (scalar : bool) (zero : V) fuel this (xs : list (loc * option V)) n :
  scalar = true → n ≠ 0 → length xs < fuel → n < fuel →
  runs (is_dlist this xs) (dl_resize_n scalar zero fuel this n)
    (λ _ h, ∃ zs, zs.*2 = replicate (n - length xs) None ∧ is_dlist this (take n xs ++ zs) h).
Proof. intros Hs ???. unfold dl_resize_n, default_init. rewrite Hs. by apply list_resize. Qed.
