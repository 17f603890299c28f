(** GENERATED by tools/genprops.py from BackwardRuns.v: property theorems only.
    Every proof is the lemma of the same statement proved there. *)
From Verif Require Import BackwardSpec BackwardRuns.

Section backward.
  Context {V : Type} `{Allocator (cell V)}.

  (** Whole programs on two backward_lists: every history that stays
     within [bl_ok] (pop_front not on a one-element list, no range insertion at
     the last position, no copy from a non-empty list, no swap involving an empty
     list, no reverse of an empty list) observes exactly what the abstract
     sequences prescribe, has no undefined behaviour and leaves no memory. Missing:
     the calls excluded by [bl_ok], on which the code is wrong (see _refuted). *)
  Theorem C24_bl_history_partial :
    ∀ (eqb : V → V → bool) ops,
    v_correct bl_new bl_destroy (bl_step eqb) [] (bl_spec_ok eqb) (λ _, True) ops.
  Proof. first [exact bl_history | apply bl_history | intros; eapply bl_history; eassumption]. Qed.

  (** Whole programs on two backward_lists: every history that stays
     within [bl_ok] (pop_front not on a one-element list, no range insertion at
     the last position, no copy from a non-empty list, no swap involving an empty
     list, no reverse of an empty list) observes exactly what the abstract
     sequences prescribe, has no undefined behaviour and leaves no memory. Missing:
     the calls excluded by [bl_ok], on which the code is wrong (see _refuted). *)
  Theorem C28_bl_history_partial :
    ∀ (eqb : V → V → bool) ops,
    v_correct bl_new bl_destroy (bl_step eqb) [] (bl_spec_ok eqb) (λ _, True) ops.
  Proof. first [exact bl_history | apply bl_history | intros; eapply bl_history; eassumption]. Qed.

  (** After every such history both objects are well formed backward_lists
     (tail_ on the last node) that hold the abstract sequences and own all memory. *)
  Theorem C24_bl_reaches_partial :
    ∀ (eqb : V → V → bool) ops,
    v_reaches bl_new (bl_step eqb) [] (bl_spec_ok eqb)
      (λ b vs h, ∃ xs, xs.*2 = vs ∧ is_blist b xs h) ops.
  Proof. first [exact bl_reaches | apply bl_reaches | intros; eapply bl_reaches; eassumption]. Qed.

  (** After every such history both objects are well formed backward_lists
     (tail_ on the last node) that hold the abstract sequences and own all memory. *)
  Theorem C28_bl_reaches_partial :
    ∀ (eqb : V → V → bool) ops,
    v_reaches bl_new (bl_step eqb) [] (bl_spec_ok eqb)
      (λ b vs h, ∃ xs, xs.*2 = vs ∧ is_blist b xs h) ops.
  Proof. first [exact bl_reaches | apply bl_reaches | intros; eapply bl_reaches; eassumption]. Qed.

  (** push_back appends after the last node; the other nodes stay where they are.
     [r] may refer to an element of the list itself. *)
  Theorem C24_bl_push_back_ok :
    ∀ b (xs : list (loc * V)) r v,
    refers xs r v →
    runs (is_blist b xs) (bl_push_back b r)
      (λ b' h, ∃ l, bl_head b' = bl_head b ∧ is_blist b' (xs ++ [(l, v)]) h).
  Proof. first [exact bl_push_back_ok | apply bl_push_back_ok | intros; eapply bl_push_back_ok; eassumption]. Qed.

  (** push_front. *)
  Theorem C24_bl_push_front_ok :
    ∀ b (xs : list (loc * V)) r v,
    refers xs r v →
    runs (is_blist b xs) (bl_push_front b r)
      (λ b' h, ∃ l, bl_head b' = bl_head b ∧ is_blist b' ((l, v) :: xs) h).
  Proof. first [exact bl_push_front_ok | apply bl_push_front_ok | intros; eapply bl_push_front_ok; eassumption]. Qed.

  (** pop_front frees exactly the first node, when it is not the only one. *)
  Theorem C24_bl_pop_front_ok_partial :
    ∀ b l v (xs : list (loc * V)),
    xs ≠ [] →
    runs (is_blist b ((l, v) :: xs)) (bl_pop_front b) (λ b' h, b' = b ∧ is_blist b xs h).
  Proof. first [exact bl_pop_front_ok | apply bl_pop_front_ok | intros; eapply bl_pop_front_ok; eassumption]. Qed.

  (** insert_after returns an iterator to the one new node. *)
  Theorem C24_bl_insert_after_ok :
    ∀ b (xs : list (loc * V)) i r v,
    i ≤ length xs → refers xs r v →
    runs (is_blist b xs) (bl_insert_after b (pos_at (bl_head b) xs i) r)
      (λ '(b', p) h, ∃ l, bl_head b' = bl_head b ∧ p = Some l ∧
         is_blist b' (take i xs ++ (l, v) :: drop i xs) h).
  Proof. first [exact bl_insert_after_ok | apply bl_insert_after_ok | intros; eapply bl_insert_after_ok; eassumption]. Qed.

  (** insert_after(pos, n, value). *)
  Theorem C24_bl_insert_after_n_ok :
    ∀ b (xs : list (loc * V)) i n r v,
    i ≤ length xs → refers xs r v →
    runs (is_blist b xs) (bl_insert_after_n b (pos_at (bl_head b) xs i) n r)
      (λ b' h, ∃ ys, ys.*2 = replicate n v ∧ bl_head b' = bl_head b ∧
         is_blist b' (take i xs ++ ys ++ drop i xs) h).
  Proof. first [exact bl_insert_after_n_ok | apply bl_insert_after_n_ok | intros; eapply bl_insert_after_n_ok; eassumption]. Qed.

  (** insert_after(pos, first, last) before the last position. *)
  Theorem C24_bl_insert_after_range_ok_partial :
    ∀ b (xs : list (loc * V)) i vs,
    i < length xs →
    runs (is_blist b xs) (bl_insert_after_ext b (pos_at (bl_head b) xs i) vs)
      (λ b' h, ∃ ys, ys.*2 = vs ∧ bl_head b' = bl_head b ∧
         is_blist b' (take i xs ++ ys ++ drop i xs) h).
  Proof. first [exact bl_insert_after_range_ok | apply bl_insert_after_range_ok | intros; eapply bl_insert_after_range_ok; eassumption]. Qed.

  (** erase_after frees exactly the node after pos, also when it is the last one. *)
  Theorem C24_bl_erase_after_ok :
    ∀ b (xs : list (loc * V)) i,
    i < length xs →
    runs (is_blist b xs) (bl_erase_after b (pos_at (bl_head b) xs i))
      (λ '(b', p) h, bl_head b' = bl_head b ∧ p = pos_at (bl_head b) xs (S (S i)) ∧
         is_blist b' (take i xs ++ drop (S i) xs) h).
  Proof. first [exact bl_erase_after_ok | apply bl_erase_after_ok | intros; eapply bl_erase_after_ok; eassumption]. Qed.

  (** erase_after(pos, last) frees exactly the nodes strictly between. *)
  Theorem C24_bl_erase_after_range_ok :
    ∀ fuel b (xs : list (loc * V)) i j,
    i < j ≤ S (length xs) → length xs < fuel →
    runs (is_blist b xs)
      (bl_erase_after_range fuel b (pos_at (bl_head b) xs i) (pos_at (bl_head b) xs j))
      (λ '(b', p) h, bl_head b' = bl_head b ∧ p = pos_at (bl_head b) xs j ∧
         is_blist b' (take i xs ++ drop (j - 1) xs) h).
  Proof. first [exact bl_erase_after_range_ok | apply bl_erase_after_range_ok | intros; eapply bl_erase_after_range_ok; eassumption]. Qed.

  (** clear. *)
  Theorem C24_bl_clear_ok :
    ∀ fuel b (xs : list (loc * V)),
    length xs < fuel →
    runs (is_blist b xs) (bl_clear fuel b) (λ b' h, bl_head b' = bl_head b ∧ is_blist b' [] h).
  Proof. first [exact bl_clear_ok | apply bl_clear_ok | intros; eapply bl_clear_ok; eassumption]. Qed.

  (** the destructor releases everything, whatever tail_ holds. *)
  Theorem C24_bl_destroy_ok :
    ∀ fuel b (xs : list (loc * V)),
    length xs < fuel →
    runs (is_flist (bl_head b) xs) (bl_destroy fuel b) (λ _ h, nothing h).
  Proof. first [exact bl_destroy_ok | apply bl_destroy_ok | intros; eapply bl_destroy_ok; eassumption]. Qed.

  (** reverse of a non-empty list relinks the same nodes. *)
  Theorem C24_bl_reverse_ok_partial :
    ∀ fuel b (xs : list (loc * V)),
    xs ≠ [] → length xs < fuel →
    runs (is_blist b xs) (bl_reverse fuel b)
      (λ b' h, bl_head b' = bl_head b ∧ is_blist b' (reverse xs) h).
  Proof. first [exact bl_reverse_ok | apply bl_reverse_ok | intros; eapply bl_reverse_ok; eassumption]. Qed.

  (** back() is the last element. *)
  Theorem C24_bl_back_ok :
    ∀ b (xs : list (loc * V)) l v,
    last xs = Some (l, v) →
    runs (is_blist b xs) (bl_back b) (λ w h, w = v ∧ is_blist b xs h).
  Proof. first [exact bl_back_ok | apply bl_back_ok | intros; eapply bl_back_ok; eassumption]. Qed.

  (** empty() tells whether the list is empty. *)
  Theorem C24_bl_empty_ok :
    ∀ b (xs : list (loc * V)) h,
    is_blist b xs h → bl_empty b = true ↔ xs = [].
  Proof. first [exact bl_empty_ok | apply bl_empty_ok | intros; eapply bl_empty_ok; eassumption]. Qed.

  (** == compares the two sequences element by element. *)
  Theorem C24_bl_eq_ok :
    ∀ (eqb : V → V → bool) fuel a b (xs ys : list (loc * V)),
    length xs < fuel →
    runs (both (is_blist a xs) (is_blist b ys)) (bl_eq eqb fuel a b)
      (λ r h, (r = true ↔ Forall2 (λ x y, eqb x y = true) xs.*2 ys.*2) ∧
              both (is_blist a xs) (is_blist b ys) h).
  Proof. first [exact bl_eq_ok | apply bl_eq_ok | intros; eapply bl_eq_ok; eassumption]. Qed.

  (** swap of two non-empty backward_lists exchanges the chains and
     leaves both usable. Missing: swaps involving an empty list, which are wrong. *)
  Theorem C28_bl_swap_ok_partial :
    ∀ a b (xs ys : list (loc * V)),
    xs ≠ [] → ys ≠ [] →
    runs (both (is_blist a xs) (is_blist b ys)) (bl_swap a b)
      (λ '(a', b') h, bl_head a' = bl_head a ∧ bl_head b' = bl_head b ∧
         both (is_blist a' ys) (is_blist b' xs) h).
  Proof. first [exact bl_swap_ok | apply bl_swap_ok | intros; eapply bl_swap_ok; eassumption]. Qed.

  (** swapping with an empty list: afterwards the empty one's tail_ is the
     address of the other object's last node (a), and the other one's tail_ is the
     address of the first object's header (b): neither is a usable list. *)
  Theorem C28_bl_swap_empty_refuted :
    ∀ a b (xs : list (loc * V)),
    xs ≠ [] →
    runs (both (is_blist a xs) (is_blist b [])) (bl_swap a b)
      (λ '(a', b') h,
         bl_tail a' = Some (bl_head b) ∧ bl_tail b' = Some (last_loc (bl_head b) xs) ∧
         bl_head a' = bl_head a ∧ bl_head b' = bl_head b ∧ bl_head b ≠ bl_head a ∧
         both (is_flist (bl_head a) []) (is_flist (bl_head b) xs) h).
  Proof. first [exact bl_swap_empty | apply bl_swap_empty | intros; eapply bl_swap_empty; eassumption]. Qed.

  (** swapping two empty lists crosses their tail_ pointers: each
     tail_ designates the other object's header, so empty() is false for both. *)
  Theorem C28_bl_swap_both_empty_refuted :
    ∀ a b,
    runs (both (is_blist (V:=V) a []) (is_blist b [])) (bl_swap a b)
      (λ '(a', b') h,
         bl_tail a' = Some (bl_head b) ∧ bl_tail b' = Some (bl_head a) ∧
         bl_empty a' = false ∧ bl_empty b' = false ∧
         both (is_flist (bl_head a) []) (is_flist (bl_head b) []) h).
  Proof. first [exact bl_swap_both_empty | apply bl_swap_both_empty | intros; eapply bl_swap_both_empty; eassumption]. Qed.

  (** popping the only element leaves tail_ pointing at the freed node:
     the list is empty but empty() answers false and push_back writes to freed memory. *)
  Theorem C24_bl_pop_front_last_refuted :
    ∀ b l v,
    runs (is_blist b [(l, v : V)]) (bl_pop_front b)
      (λ b' h, bl_tail b' = Some l ∧ h !! l = None ∧ bl_empty b' = false ∧
               is_flist (bl_head b) [] h).
  Proof. first [exact bl_pop_front_last | apply bl_pop_front_last | intros; eapply bl_pop_front_last; eassumption]. Qed.

  (** reverse of an empty list makes tail_ null. *)
  Theorem C24_bl_reverse_empty_refuted :
    ∀ fuel b,
    0 < fuel →
    runs (is_blist (V:=V) b []) (bl_reverse fuel b)
      (λ b' h, bl_tail b' = None ∧ is_flist (bl_head b) [] h).
  Proof. first [exact bl_reverse_empty | apply bl_reverse_empty | intros; eapply bl_reverse_empty; eassumption]. Qed.

  (** a range insertion at the last position copies the values but does
     not move tail_: it stays on the former last node. *)
  Theorem C24_bl_insert_after_range_last_refuted :
    ∀ b (xs : list (loc * V)) vs,
    runs (is_blist b xs) (bl_insert_after_ext b (bl_before_end b) vs)
      (λ b' h, ∃ ys, ys.*2 = vs ∧ bl_head b' = bl_head b ∧
         bl_tail b' = Some (last_loc (bl_head b) xs) ∧ is_flist (bl_head b) (xs ++ ys) h).
  Proof. first [exact bl_insert_after_range_last | apply bl_insert_after_range_last | intros; eapply bl_insert_after_range_last; eassumption]. Qed.

  (** copy construction copies the values but leaves tail_ on the header,
     so that the copy reports empty() and its push_back prepends. *)
  Theorem C24_bl_copy_run_refuted :
    ∀ fuel other (xs : list (loc * V)),
    length xs < fuel →
    runs (is_flist (bl_head other) xs) (bl_copy fuel other)
      (λ b h, ∃ zs, zs.*2 = xs.*2 ∧ bl_tail b = Some (bl_head b) ∧
         both (is_flist (bl_head b) zs) (is_flist (bl_head other) xs) h).
  Proof. first [exact bl_copy_run | apply bl_copy_run | intros; eapply bl_copy_run; eassumption]. Qed.

  (** the same for assignment. *)
  Theorem C24_bl_assign_from_run_refuted :
    ∀ fuel b other (xs ys : list (loc * V)),
    length xs < fuel → length ys < fuel →
    runs (both (is_flist (bl_head b) xs) (is_flist (bl_head other) ys)) (bl_assign_from fuel b other)
      (λ b' h, ∃ zs, zs.*2 = ys.*2 ∧ bl_tail b' = Some (bl_head b') ∧
         both (is_flist (bl_head b') zs) (is_flist (bl_head other) ys) h).
  Proof. first [exact bl_assign_from_run | apply bl_assign_from_run | intros; eapply bl_assign_from_run; eassumption]. Qed.

  (** assigning a backward_list to itself empties it. *)
  Theorem C07_bl_self_assign_refuted :
    ∀ fuel b (xs : list (loc * V)),
    length xs < fuel →
    runs (is_blist b xs) (bl_assign_from fuel b b)
      (λ b' h, bl_head b' = bl_head b ∧ is_blist b' [] h).
  Proof. first [exact bl_self_assign | apply bl_self_assign | intros; eapply bl_self_assign; eassumption]. Qed.

End backward.

Print Assumptions C24_bl_history_partial.
Print Assumptions C28_bl_history_partial.
Print Assumptions C24_bl_reaches_partial.
Print Assumptions C28_bl_reaches_partial.
Print Assumptions C24_bl_push_back_ok.
Print Assumptions C24_bl_push_front_ok.
Print Assumptions C24_bl_pop_front_ok_partial.
Print Assumptions C24_bl_insert_after_ok.
Print Assumptions C24_bl_insert_after_n_ok.
Print Assumptions C24_bl_insert_after_range_ok_partial.
Print Assumptions C24_bl_erase_after_ok.
Print Assumptions C24_bl_erase_after_range_ok.
Print Assumptions C24_bl_clear_ok.
Print Assumptions C24_bl_destroy_ok.
Print Assumptions C24_bl_reverse_ok_partial.
Print Assumptions C24_bl_back_ok.
Print Assumptions C24_bl_empty_ok.
Print Assumptions C24_bl_eq_ok.
Print Assumptions C28_bl_swap_ok_partial.
Print Assumptions C28_bl_swap_empty_refuted.
Print Assumptions C28_bl_swap_both_empty_refuted.
Print Assumptions C24_bl_pop_front_last_refuted.
Print Assumptions C24_bl_reverse_empty_refuted.
Print Assumptions C24_bl_insert_after_range_last_refuted.
Print Assumptions C24_bl_copy_run_refuted.
Print Assumptions C24_bl_assign_from_run_refuted.
Print Assumptions C07_bl_self_assign_refuted.
