(** GENERATED by tools/genprops.py from CostRuns.v: property theorems only.
    Every proof is the lemma of the same statement proved there. *)
From Verif Require Import SvmSpec ForwardSpec BackwardSpec LazySpec DlistSpec MapSpec VecSpec VmapSpec Cost CostSpec CostRuns.

  (** set/map find(key). *)
  Theorem C03_find_accesses :
    ∀ {K V : Type} (keyof : V → K) (lt eqb : K → K → bool) fuel this (xs : list (loc * V)) (key : K),
  RbSpec.key_order lt eqb → log_steps (length xs) < fuel →
  takes_at_most (2 * log_steps (length xs) + 4) (is_map keyof lt this xs) (λ al : Allocator (rbcell V), m_find keyof lt eqb fuel this key).
  Proof. first [exact find_accesses | apply find_accesses | intros; eapply find_accesses; eassumption]. Qed.

  (** set/map lower_bound(key). *)
  Theorem C03_lower_bound_accesses :
    ∀ {K V : Type} (keyof : V → K) (lt eqb : K → K → bool) fuel this (xs : list (loc * V)) (key : K),
  RbSpec.key_order lt eqb → log_steps (length xs) < fuel →
  takes_at_most (2 * log_steps (length xs) + 3) (is_map keyof lt this xs) (λ al : Allocator (rbcell V), m_lower_bound keyof lt fuel this key).
  Proof. first [exact lower_bound_accesses | apply lower_bound_accesses | intros; eapply lower_bound_accesses; eassumption]. Qed.

  (** set/map upper_bound(key). *)
  Theorem C03_upper_bound_accesses :
    ∀ {K V : Type} (keyof : V → K) (lt eqb : K → K → bool) fuel this (xs : list (loc * V)) (key : K),
  RbSpec.key_order lt eqb → log_steps (length xs) < fuel →
  takes_at_most (4 * log_steps (length xs) + 10) (is_map keyof lt this xs) (λ al : Allocator (rbcell V), m_upper_bound keyof lt fuel this key).
  Proof. first [exact upper_bound_accesses | apply upper_bound_accesses | intros; eapply upper_bound_accesses; eassumption]. Qed.

  (** set/map equal_range(key). *)
  Theorem C03_equal_range_accesses :
    ∀ {K V : Type} (keyof : V → K) (lt eqb : K → K → bool) fuel this (xs : list (loc * V)) (key : K),
  RbSpec.key_order lt eqb → log_steps (length xs) < fuel →
  takes_at_most (4 * log_steps (length xs) + 10) (is_map keyof lt this xs) (λ al : Allocator (rbcell V), m_equal_range keyof lt fuel this key).
  Proof. first [exact equal_range_accesses | apply equal_range_accesses | intros; eapply equal_range_accesses; eassumption]. Qed.

  (** set/map insert(v). *)
  Theorem C03_insert_accesses :
    ∀ {K V : Type} (keyof : V → K) (lt eqb : K → K → bool) fuel this (xs : list (loc * V)) (v : V),
  RbSpec.key_order lt eqb → log_steps (length xs) < fuel →
  takes_at_most (54 * log_steps (length xs) + 69) (is_map keyof lt this xs) (λ al : Allocator (rbcell V), m_insert keyof lt eqb fuel this v).
  Proof. first [exact insert_accesses | apply insert_accesses | intros; eapply insert_accesses; eassumption]. Qed.

  (** set/map erase(key). *)
  Theorem C03_erase_accesses :
    ∀ {K V : Type} (keyof : V → K) (lt eqb : K → K → bool) fuel this (xs : list (loc * V)) (key : K),
  RbSpec.key_order lt eqb → log_steps (length xs) < fuel →
  takes_at_most (196 * log_steps (length xs) + 277) (is_map keyof lt this xs) (λ al : Allocator (rbcell V), m_erase keyof lt eqb fuel this key).
  Proof. first [exact erase_accesses | apply erase_accesses | intros; eapply erase_accesses; eassumption]. Qed.

  (** set/map begin(). *)
  Theorem C03_begin_accesses :
    ∀ {K V : Type} (keyof : V → K) (lt : K → K → bool) fuel this (xs : list (loc * V)),
  log_steps (length xs) < fuel →
  takes_at_most (log_steps (length xs) + 3) (is_map keyof lt this xs) (λ al : Allocator (rbcell V), m_begin fuel this).
  Proof. first [exact begin_accesses | apply begin_accesses | intros; eapply begin_accesses; eassumption]. Qed.

  (** ++ on a set/map iterator. *)
  Theorem C03_incr_accesses :
    ∀ {K V : Type} (keyof : V → K) (lt : K → K → bool) fuel this (xs : list (loc * V)) i,
  i < length xs → log_steps (length xs) < fuel →
  takes_at_most (2 * log_steps (length xs) + 7) (is_map keyof lt this xs) (λ al : Allocator (rbcell V), m_incr fuel (iter_at this xs i)).
  Proof. first [exact incr_accesses | apply incr_accesses | intros; eapply incr_accesses; eassumption]. Qed.

  (** -- on a set/map iterator. *)
  Theorem C03_decr_accesses :
    ∀ {K V : Type} (keyof : V → K) (lt : K → K → bool) fuel this (xs : list (loc * V)) i,
  i < length xs → log_steps (length xs) < fuel →
  takes_at_most (2 * log_steps (length xs) + 10) (is_map keyof lt this xs) (λ al : Allocator (rbcell V), m_decr fuel (iter_at this xs (S i))).
  Proof. first [exact decr_accesses | apply decr_accesses | intros; eapply decr_accesses; eassumption]. Qed.

  (** list insert(pos, x) (and push_front, push_back). *)
  Theorem C86_dl_insert_const :
    ∀ {V : Type} this (xs : list (loc * V)) i r v,
  i ≤ length xs → drefers xs r v →
  takes_at_most (8) (is_dlist this xs) (λ al : Allocator (dcell V), dl_insert (dpos this xs i) r).
  Proof. first [exact dl_insert_const | apply dl_insert_const | intros; eapply dl_insert_const; eassumption]. Qed.

  (** list erase(pos) (and pop_front, pop_back). *)
  Theorem C86_dl_erase_const :
    ∀ {V : Type} this (xs : list (loc * V)) i,
  i < length xs →
  takes_at_most (9) (is_dlist this xs) (λ al : Allocator (dcell V), dl_erase (dpos this xs i)).
  Proof. first [exact dl_erase_const | apply dl_erase_const | intros; eapply dl_erase_const; eassumption]. Qed.

  (** list splice(pos, other). *)
  Theorem C86_dl_splice_all_const :
    ∀ {V : Type} this other (xs ys : list (loc * V)) i,
  i ≤ length xs → ys ≠ [] →
  takes_at_most (13) (both (is_dlist this xs) (is_dlist other ys)) (λ al : Allocator (dcell V), dl_splice_all (dpos this xs i) other).
  Proof. first [exact dl_splice_all_const | apply dl_splice_all_const | intros; eapply dl_splice_all_const; eassumption]. Qed.

  (** list splice(pos, other, it). *)
  Theorem C86_dl_splice_one_const :
    ∀ {V : Type} this other (xs ys : list (loc * V)) i j x,
  i ≤ length xs → ys !! j = Some x →
  takes_at_most (13) (both (is_dlist this xs) (is_dlist other ys)) (λ al : Allocator (dcell V), dl_splice_one (dpos this xs i) (dpos other ys j)).
  Proof. first [exact dl_splice_one_const | apply dl_splice_one_const | intros; eapply dl_splice_one_const; eassumption]. Qed.

  (** list splice(pos, other, first, last), whatever the length of the range. *)
  Theorem C86_dl_splice_range_const :
    ∀ {V : Type} this other (xs ys : list (loc * V)) i j k,
  i ≤ length xs → j < k ≤ length ys →
  takes_at_most (12) (both (is_dlist this xs) (is_dlist other ys)) (λ al : Allocator (dcell V), dl_splice_range (dpos this xs i) (dpos other ys j) (dpos other ys k)).
  Proof. first [exact dl_splice_range_const | apply dl_splice_range_const | intros; eapply dl_splice_range_const; eassumption]. Qed.

  (** list swap. *)
  Theorem C86_dl_swap_const :
    ∀ {V : Type} (rfirst : bool) a b (xs ys : list (loc * V)),
  xs ≠ [] ∨ ys ≠ [] →
  takes_at_most (18) (both (is_dlist a xs) (is_dlist b ys)) (λ al : Allocator (dcell V), dl_swap rfirst a b).
  Proof. first [exact dl_swap_const | apply dl_swap_const | intros; eapply dl_swap_const; eassumption]. Qed.

  (** forward_list push_front. *)
  Theorem C86_fl_push_front_const :
    ∀ {V : Type} this (xs : list (loc * V)) r v,
  refers xs r v →
  takes_at_most (5) (is_flist this xs) (λ al : Allocator (cell V), fl_push_front this r).
  Proof. first [exact fl_push_front_const | apply fl_push_front_const | intros; eapply fl_push_front_const; eassumption]. Qed.

  (** forward_list pop_front. *)
  Theorem C86_fl_pop_front_const :
    ∀ {V : Type} this l v (xs : list (loc * V)),
  takes_at_most (5) (is_flist this ((l, v) :: xs)) (λ al : Allocator (cell V), fl_pop_front this).
  Proof. first [exact fl_pop_front_const | apply fl_pop_front_const | intros; eapply fl_pop_front_const; eassumption]. Qed.

  (** forward_list insert_after(pos, x). *)
  Theorem C86_fl_insert_after_const :
    ∀ {V : Type} this (xs : list (loc * V)) i r v,
  i ≤ length xs → refers xs r v →
  takes_at_most (5) (is_flist this xs) (λ al : Allocator (cell V), fl_insert_after (pos_at this xs i) r).
  Proof. first [exact fl_insert_after_const | apply fl_insert_after_const | intros; eapply fl_insert_after_const; eassumption]. Qed.

  (** forward_list erase_after(pos). *)
  Theorem C86_fl_erase_after_const :
    ∀ {V : Type} this (xs : list (loc * V)) i,
  i < length xs →
  takes_at_most (6) (is_flist this xs) (λ al : Allocator (cell V), fl_erase_after (pos_at this xs i)).
  Proof. first [exact fl_erase_after_const | apply fl_erase_after_const | intros; eapply fl_erase_after_const; eassumption]. Qed.

  (** forward_list swap. *)
  Theorem C86_fl_swap_const :
    ∀ {V : Type} a b (xs ys : list (loc * V)),
  takes_at_most (4) (both (is_flist a xs) (is_flist b ys)) (λ al : Allocator (cell V), fl_swap a b).
  Proof. first [exact fl_swap_const | apply fl_swap_const | intros; eapply fl_swap_const; eassumption]. Qed.

  (** forward_list splice_after(pos, other, it). *)
  Theorem C86_fl_splice_one_const :
    ∀ {V : Type} this other (xs ys : list (loc * V)) i j l v,
  i ≤ length xs → ys !! j = Some (l, v) →
  takes_at_most (6) (both (is_flist this xs) (is_flist other ys)) (λ al : Allocator (cell V), fl_splice_one (pos_at this xs i) (pos_at other ys j)).
  Proof. first [exact fl_splice_one_const | apply fl_splice_one_const | intros; eapply fl_splice_one_const; eassumption]. Qed.

  (** backward_list push_back. *)
  Theorem C86_bl_push_back_const :
    ∀ {V : Type} b (xs : list (loc * V)) r v,
  refers xs r v →
  takes_at_most (5) (is_blist b xs) (λ al : Allocator (cell V), bl_push_back b r).
  Proof. first [exact bl_push_back_const | apply bl_push_back_const | intros; eapply bl_push_back_const; eassumption]. Qed.

  (** backward_list push_front. *)
  Theorem C86_bl_push_front_const :
    ∀ {V : Type} b (xs : list (loc * V)) r v,
  refers xs r v →
  takes_at_most (5) (is_blist b xs) (λ al : Allocator (cell V), bl_push_front b r).
  Proof. first [exact bl_push_front_const | apply bl_push_front_const | intros; eapply bl_push_front_const; eassumption]. Qed.

  (** backward_list pop_front. *)
  Theorem C86_bl_pop_front_const :
    ∀ {V : Type} b l v (xs : list (loc * V)),
  xs ≠ [] →
  takes_at_most (5) (is_blist b ((l, v) :: xs)) (λ al : Allocator (cell V), bl_pop_front b).
  Proof. first [exact bl_pop_front_const | apply bl_pop_front_const | intros; eapply bl_pop_front_const; eassumption]. Qed.

  (** backward_list insert_after(pos, x). *)
  Theorem C86_bl_insert_after_const :
    ∀ {V : Type} b (xs : list (loc * V)) i r v,
  i ≤ length xs → refers xs r v →
  takes_at_most (5) (is_blist b xs) (λ al : Allocator (cell V), bl_insert_after b (pos_at (bl_head b) xs i) r).
  Proof. first [exact bl_insert_after_const | apply bl_insert_after_const | intros; eapply bl_insert_after_const; eassumption]. Qed.

  (** backward_list erase_after(pos). *)
  Theorem C86_bl_erase_after_const :
    ∀ {V : Type} b (xs : list (loc * V)) i,
  i < length xs →
  takes_at_most (6) (is_blist b xs) (λ al : Allocator (cell V), bl_erase_after b (pos_at (bl_head b) xs i)).
  Proof. first [exact bl_erase_after_const | apply bl_erase_after_const | intros; eapply bl_erase_after_const; eassumption]. Qed.

  (** backward_list back(). *)
  Theorem C86_bl_back_const :
    ∀ {V : Type} b (xs : list (loc * V)) l v,
  last xs = Some (l, v) →
  takes_at_most (1) (is_blist b xs) (λ al : Allocator (cell V), bl_back b).
  Proof. first [exact bl_back_const | apply bl_back_const | intros; eapply bl_back_const; eassumption]. Qed.

  (** backward_list swap. *)
  Theorem C86_bl_swap_const :
    ∀ {V : Type} a b (xs ys : list (loc * V)),
  xs ≠ [] → ys ≠ [] →
  takes_at_most (4) (both (is_blist a xs) (is_blist b ys)) (λ al : Allocator (cell V), bl_swap a b).
  Proof. first [exact bl_swap_const | apply bl_swap_const | intros; eapply bl_swap_const; eassumption]. Qed.

  (** lazy_queue push_back. *)
  Theorem C86_lq_push_back_const :
    ∀ {V : Type} q (xs : list (loc * V)) ds r v,
  refers xs r v →
  takes_at_most (10) (is_lqueue q xs ds) (λ al : Allocator (cell V), lq_push_back q r).
  Proof. first [exact lq_push_back_const | apply lq_push_back_const | intros; eapply lq_push_back_const; eassumption]. Qed.

  (** lazy_queue push_front. *)
  Theorem C86_lq_push_front_const :
    ∀ {V : Type} q (xs : list (loc * V)) ds r v,
  refers xs r v →
  takes_at_most (10) (is_lqueue q xs ds) (λ al : Allocator (cell V), lq_push_front q r).
  Proof. first [exact lq_push_front_const | apply lq_push_front_const | intros; eapply lq_push_front_const; eassumption]. Qed.

  (** lazy_queue pop_front. *)
  Theorem C86_lq_pop_front_const :
    ∀ {V : Type} q l v (xs : list (loc * V)) ds,
  takes_at_most (9) (is_lqueue q ((l, v) :: xs) ds) (λ al : Allocator (cell V), lq_pop_front q).
  Proof. first [exact lq_pop_front_const | apply lq_pop_front_const | intros; eapply lq_pop_front_const; eassumption]. Qed.

  (** lazy_queue insert_after(pos, x). *)
  Theorem C86_lq_insert_after_const :
    ∀ {V : Type} q (xs : list (loc * V)) ds i r v,
  i ≤ length xs → refers xs r v →
  takes_at_most (10) (is_lqueue q xs ds) (λ al : Allocator (cell V), lq_insert_after q (pos_at (lq_head q) xs i) r).
  Proof. first [exact lq_insert_after_const | apply lq_insert_after_const | intros; eapply lq_insert_after_const; eassumption]. Qed.

  (** lazy_queue erase_after(pos). *)
  Theorem C86_lq_erase_after_const :
    ∀ {V : Type} q (xs : list (loc * V)) ds i l v,
  xs !! i = Some (l, v) →
  takes_at_most (9) (is_lqueue q xs ds) (λ al : Allocator (cell V), lq_erase_after q (pos_at (lq_head q) xs i)).
  Proof. first [exact lq_erase_after_const | apply lq_erase_after_const | intros; eapply lq_erase_after_const; eassumption]. Qed.

  (** lazy_queue roll_head. *)
  Theorem C86_lq_roll_head_const :
    ∀ {V : Type} q (xs : list (loc * V)) ds,
  takes_at_most (7) (is_lqueue q xs ds) (λ al : Allocator (cell V), lq_roll_head q).
  Proof. first [exact lq_roll_head_const | apply lq_roll_head_const | intros; eapply lq_roll_head_const; eassumption]. Qed.

  (** lazy_queue swap. *)
  Theorem C86_lq_swap_const :
    ∀ {V : Type} a b (xs ys : list (loc * V)) ds es,
  xs ≠ [] → ys ≠ [] →
  takes_at_most (4) (both (is_lqueue a xs ds) (is_lqueue b ys es)) (λ al : Allocator (cell V), lq_swap a b).
  Proof. first [exact lq_swap_const | apply lq_swap_const | intros; eapply lq_swap_const; eassumption]. Qed.

  (** list remove(x). *)
  Theorem C87_dl_remove_linear :
    ∀ {V : Type} (eqb : V → V → bool) fuel this (xs : list (loc * V)) v,
  length xs < fuel →
  takes_at_most (10 * length xs + 12) (is_dlist this xs) (λ al : Allocator (dcell V), dl_remove eqb fuel this (DExt v)).
  Proof. first [exact dl_remove_linear | apply dl_remove_linear | intros; eapply dl_remove_linear; eassumption]. Qed.

  (** list remove_if(f). *)
  Theorem C87_dl_remove_if_linear :
    ∀ {V : Type} fuel this (xs : list (loc * V)) (f : V → bool),
  length xs < fuel →
  takes_at_most (10 * length xs + 12) (is_dlist this xs) (λ al : Allocator (dcell V), dl_remove_if fuel this f).
  Proof. first [exact dl_remove_if_linear | apply dl_remove_if_linear | intros; eapply dl_remove_if_linear; eassumption]. Qed.

  (** list unique(f). *)
  Theorem C87_dl_unique_linear :
    ∀ {V : Type} fuel this (xs : list (loc * V)) (f : V → V → bool),
  length xs < fuel →
  takes_at_most (11 * length xs + 14) (is_dlist this xs) (λ al : Allocator (dcell V), dl_unique fuel this f).
  Proof. first [exact dl_unique_linear | apply dl_unique_linear | intros; eapply dl_unique_linear; eassumption]. Qed.

  (** list reverse(). *)
  Theorem C87_dl_reverse_linear :
    ∀ {V : Type} fuel this (xs : list (loc * V)),
  length xs < fuel →
  takes_at_most (4 * length xs + 8) (is_dlist this xs) (λ al : Allocator (dcell V), dl_reverse fuel this).
  Proof. first [exact dl_reverse_linear | apply dl_reverse_linear | intros; eapply dl_reverse_linear; eassumption]. Qed.

  (** list copy construction. *)
  Theorem C87_dl_copy_linear :
    ∀ {V : Type} fuel other (xs : list (loc * V)),
  length xs < fuel →
  takes_at_most (9 * length xs + 14) (is_dlist other xs) (λ al : Allocator (dcell V), dl_copy fuel other).
  Proof. first [exact dl_copy_linear | apply dl_copy_linear | intros; eapply dl_copy_linear; eassumption]. Qed.

  (** list clear(). *)
  Theorem C87_dl_clear_linear :
    ∀ {V : Type} fuel this (xs : list (loc * V)),
  length xs < fuel →
  takes_at_most (5 * length xs + 6) (is_dlist this xs) (λ al : Allocator (dcell V), dl_clear fuel this).
  Proof. first [exact dl_clear_linear | apply dl_clear_linear | intros; eapply dl_clear_linear; eassumption]. Qed.

  (** list destruction. *)
  Theorem C87_dl_destroy_linear :
    ∀ {V : Type} fuel this (xs : list (loc * V)),
  length xs < fuel →
  takes_at_most (5 * length xs + 7) (is_dlist this xs) (λ al : Allocator (dcell V), dl_destroy fuel this).
  Proof. first [exact dl_destroy_linear | apply dl_destroy_linear | intros; eapply dl_destroy_linear; eassumption]. Qed.

  (** list merge. *)
  Theorem C87_dl_merge_linear :
    ∀ {V : Type} (cmp : V → V → bool) fuel this other (xs ys : list (loc * V)),
  length xs + 2 * length ys < fuel → dsorted cmp ys.*2 →
  takes_at_most (15 * (length xs + 2 * length ys) + 30) (both (is_dlist this xs) (is_dlist other ys)) (λ al : Allocator (dcell V), dl_merge cmp fuel this other).
  Proof. first [exact dl_merge_linear | apply dl_merge_linear | intros; eapply dl_merge_linear; eassumption]. Qed.

  (** forward_list erase_after(first, last). *)
  Theorem C87_fl_erase_after_range_linear :
    ∀ {V : Type} fuel this (xs : list (loc * V)) i j,
  i < j ≤ S (length xs) → length xs < fuel →
  takes_at_most (6 * length xs + 8) (is_flist this xs) (λ al : Allocator (cell V), fl_erase_after_range fuel (pos_at this xs i) (pos_at this xs j)).
  Proof. first [exact fl_erase_after_range_linear | apply fl_erase_after_range_linear | intros; eapply fl_erase_after_range_linear; eassumption]. Qed.

  (** forward_list clear(). *)
  Theorem C87_fl_clear_linear :
    ∀ {V : Type} fuel this (xs : list (loc * V)),
  length xs < fuel →
  takes_at_most (6 * length xs + 7) (is_flist this xs) (λ al : Allocator (cell V), fl_clear fuel this).
  Proof. first [exact fl_clear_linear | apply fl_clear_linear | intros; eapply fl_clear_linear; eassumption]. Qed.

  (** forward_list destruction. *)
  Theorem C87_fl_destroy_linear :
    ∀ {V : Type} fuel this (xs : list (loc * V)),
  length xs < fuel →
  takes_at_most (6 * length xs + 8) (is_flist this xs) (λ al : Allocator (cell V), fl_destroy fuel this).
  Proof. first [exact fl_destroy_linear | apply fl_destroy_linear | intros; eapply fl_destroy_linear; eassumption]. Qed.

  (** forward_list reverse(). *)
  Theorem C87_fl_reverse_linear :
    ∀ {V : Type} fuel this (xs : list (loc * V)),
  length xs < fuel →
  takes_at_most (2 * length xs + 4) (is_flist this xs) (λ al : Allocator (cell V), fl_reverse fuel this).
  Proof. first [exact fl_reverse_linear | apply fl_reverse_linear | intros; eapply fl_reverse_linear; eassumption]. Qed.

  (** forward_list copy construction. *)
  Theorem C87_fl_copy_linear :
    ∀ {V : Type} fuel other (xs : list (loc * V)),
  length xs < fuel →
  takes_at_most (6 * length xs + 8) (is_flist other xs) (λ al : Allocator (cell V), fl_copy fuel other).
  Proof. first [exact fl_copy_linear | apply fl_copy_linear | intros; eapply fl_copy_linear; eassumption]. Qed.

  (** forward_list ==. *)
  Theorem C87_fl_eq_linear :
    ∀ {V : Type} (eqb : V → V → bool) fuel a b (xs ys : list (loc * V)),
  length xs < fuel →
  takes_at_most (4 * length xs + 8) (both (is_flist a xs) (is_flist b ys)) (λ al : Allocator (cell V), fl_eq eqb fuel a b).
  Proof. first [exact fl_eq_linear | apply fl_eq_linear | intros; eapply fl_eq_linear; eassumption]. Qed.

  (** backward_list clear(). *)
  Theorem C87_bl_clear_linear :
    ∀ {V : Type} fuel b (xs : list (loc * V)),
  length xs < fuel →
  takes_at_most (6 * length xs + 7) (is_blist b xs) (λ al : Allocator (cell V), bl_clear fuel b).
  Proof. first [exact bl_clear_linear | apply bl_clear_linear | intros; eapply bl_clear_linear; eassumption]. Qed.

  (** backward_list reverse(). *)
  Theorem C87_bl_reverse_linear :
    ∀ {V : Type} fuel b (xs : list (loc * V)),
  xs ≠ [] → length xs < fuel →
  takes_at_most (2 * length xs + 5) (is_blist b xs) (λ al : Allocator (cell V), bl_reverse fuel b).
  Proof. first [exact bl_reverse_linear | apply bl_reverse_linear | intros; eapply bl_reverse_linear; eassumption]. Qed.

  (** backward_list destruction. *)
  Theorem C87_bl_destroy_linear :
    ∀ {V : Type} fuel b (xs : list (loc * V)),
  length xs < fuel →
  takes_at_most (6 * length xs + 8) (is_flist (bl_head b) xs) (λ al : Allocator (cell V), bl_destroy fuel b).
  Proof. first [exact bl_destroy_linear | apply bl_destroy_linear | intros; eapply bl_destroy_linear; eassumption]. Qed.

  (** lazy_queue clear(). *)
  Theorem C87_lq_clear_linear :
    ∀ {V : Type} fuel q (xs : list (loc * V)) ds,
  length xs < fuel →
  takes_at_most (9 * length xs + 10) (is_lqueue q xs ds) (λ al : Allocator (cell V), lq_clear fuel q).
  Proof. first [exact lq_clear_linear | apply lq_clear_linear | intros; eapply lq_clear_linear; eassumption]. Qed.

  (** lazy_queue cleanup(), in the number of pooled nodes. *)
  Theorem C87_lq_cleanup_linear :
    ∀ {V : Type} triv fuel q (xs : list (loc * V)) ds,
  (triv = true ∨ ds = []) → length ds < fuel →
  takes_at_most (6 * length ds + 7) (is_lqueue q xs ds) (λ al : Allocator (cell V), lq_cleanup triv fuel q).
  Proof. first [exact lq_cleanup_linear | apply lq_cleanup_linear | intros; eapply lq_cleanup_linear; eassumption]. Qed.

  (** lazy_queue destruction. *)
  Theorem C87_lq_destroy_linear :
    ∀ {V : Type} triv fuel q (xs : list (loc * V)) ds,
  (triv = true ∨ ds = []) → length xs + length ds < fuel →
  takes_at_most (12 * (length xs + length ds) + 16) (is_lqueue q xs ds) (λ al : Allocator (cell V), lq_destroy triv fuel q).
  Proof. first [exact lq_destroy_linear | apply lq_destroy_linear | intros; eapply lq_destroy_linear; eassumption]. Qed.

  (** lazy_queue copy construction. *)
  Theorem C87_lq_copy_linear :
    ∀ {V : Type} fuel other (xs : list (loc * V)) ds,
  length xs < fuel →
  takes_at_most (11 * length xs + 14) (is_lqueue other xs ds) (λ al : Allocator (cell V), lq_copy fuel other).
  Proof. first [exact lq_copy_linear | apply lq_copy_linear | intros; eapply lq_copy_linear; eassumption]. Qed.

  (** vector operator[] / at. *)
  Theorem C86_v_at_const :
    ∀ {V : Type} v (xs : list V) i x,
  xs !! i = Some x →
  takes_at_most (1) (is_vec v xs) (λ al : Allocator (list (option V)), v_at v i).
  Proof. first [exact v_at_const | apply v_at_const | intros; eapply v_at_const; eassumption]. Qed.

  (** vector pop_back. *)
  Theorem C86_v_pop_back_const :
    ∀ {V : Type} v (xs : list V) x,
  takes_at_most (2) (is_vec v (xs ++ [x])) (λ al : Allocator (list (option V)), v_pop_back v).
  Proof. first [exact v_pop_back_const | apply v_pop_back_const | intros; eapply v_pop_back_const; eassumption]. Qed.

  (** vector push_back, when the capacity is exhausted. *)
  Theorem C87_v_push_back_linear :
    ∀ {V : Type} fuel v (xs : list V) r x,
  vrefers v xs r x → length xs + 1 < fuel →
  takes_at_most (11 * (length xs + 1) + 14) (is_vec v xs) (λ al : Allocator (list (option V)), v_push_back fuel v r).
  Proof. first [exact v_push_back_linear | apply v_push_back_linear | intros; eapply v_push_back_linear; eassumption]. Qed.

  (** vector insert(pos, n, x). *)
  Theorem C87_v_insert_n_linear :
    ∀ {V : Type} fuel v (xs : list V) pos n r x,
  pos ≤ length xs → vrefers v xs r x → length xs + n < fuel → match r with VExt _ => True | VSlot _ j => n = 0 ∨ j < pos ∨ v_capacity v < length xs + n end →
  takes_at_most (11 * (length xs + n) + 14) (is_vec v xs) (λ al : Allocator (list (option V)), v_insert_n fuel v pos n r).
  Proof. first [exact v_insert_n_linear | apply v_insert_n_linear | intros; eapply v_insert_n_linear; eassumption]. Qed.

  (** vector erase(first, last). *)
  Theorem C87_v_erase_range_linear :
    ∀ {V : Type} fuel v (xs : list V) i j,
  i ≤ j ≤ length xs → i < j ∨ i = length xs → length xs < fuel →
  takes_at_most (7 * length xs + 7) (is_vec v xs) (λ al : Allocator (list (option V)), v_erase_range fuel v i j).
  Proof. first [exact v_erase_range_linear | apply v_erase_range_linear | intros; eapply v_erase_range_linear; eassumption]. Qed.

  (** vector reserve(n). *)
  Theorem C87_v_reserve_linear :
    ∀ {V : Type} fuel v (xs : list V) n,
  length xs < fuel →
  takes_at_most (5 * length xs + 8) (is_vec v xs) (λ al : Allocator (list (option V)), v_reserve fuel v n).
  Proof. first [exact v_reserve_linear | apply v_reserve_linear | intros; eapply v_reserve_linear; eassumption]. Qed.

  (** vector copy construction. *)
  Theorem C87_v_copy_linear :
    ∀ {V : Type} fuel v (xs : list V),
  length xs < fuel →
  takes_at_most (3 * length xs + 4) (is_vec v xs) (λ al : Allocator (list (option V)), v_copy fuel v).
  Proof. first [exact v_copy_linear | apply v_copy_linear | intros; eapply v_copy_linear; eassumption]. Qed.

  (** vector assignment. *)
  Theorem C87_v_assign_linear :
    ∀ {V : Type} fuel v (xs : list V) w ys,
  length xs + length ys < fuel →
  takes_at_most (10 * (length xs + length ys) + 13) (both (is_vec v xs) (is_vec w ys)) (λ al : Allocator (list (option V)), v_assign fuel v w).
  Proof. first [exact v_assign_linear | apply v_assign_linear | intros; eapply v_assign_linear; eassumption]. Qed.

  (** vector clear(). *)
  Theorem C87_v_clear_linear :
    ∀ {V : Type} fuel v (xs : list V),
  length xs < fuel →
  takes_at_most (2 * length xs + 2) (is_vec v xs) (λ al : Allocator (list (option V)), v_clear fuel v).
  Proof. first [exact v_clear_linear | apply v_clear_linear | intros; eapply v_clear_linear; eassumption]. Qed.

  (** vector destruction. *)
  Theorem C87_v_destroy_linear :
    ∀ {V : Type} fuel v (xs : list V),
  length xs < fuel →
  takes_at_most (2 * length xs + 4) (is_vec v xs) (λ al : Allocator (list (option V)), v_destroy fuel v).
  Proof. first [exact v_destroy_linear | apply v_destroy_linear | intros; eapply v_destroy_linear; eassumption]. Qed.

  (** map operator[](key). *)
  Theorem C03_index_accesses :
    ∀ {K T : Type} (lt eqb : K → K → bool) (dflt : T) fuel this (xs : list (loc * (K * T))) (key : K),
  RbSpec.key_order lt eqb → log_steps (length xs) < fuel →
  takes_at_most (56 * log_steps (length xs) + 73) (is_map fst lt this xs) (λ al : Allocator (rbcell (K * T)), m_index lt eqb dflt fuel this key).
  Proof. first [exact index_accesses | apply index_accesses | intros; eapply index_accesses; eassumption]. Qed.

  (** rbtree insert_equal(v). *)
  Theorem C03_insert_equal_accesses :
    ∀ {K V : Type} (keyof : V → K) (lt eqb : K → K → bool) fuel this (xs : list (loc * V)) (v : V),
  RbSpec.key_order lt eqb → log_steps (length xs) < fuel →
  takes_at_most (54 * log_steps (length xs) + 68) (is_multi keyof lt this xs) (λ al : Allocator (rbcell V), rb_insert_equal keyof lt fuel this v).
  Proof. first [exact insert_equal_accesses | apply insert_equal_accesses | intros; eapply insert_equal_accesses; eassumption]. Qed.

  (** rbtree find(key) with equivalent keys. *)
  Theorem C03_multi_find_accesses :
    ∀ {K V : Type} (keyof : V → K) (lt eqb : K → K → bool) fuel this (xs : list (loc * V)) (key : K),
  RbSpec.key_order lt eqb → log_steps (length xs) < fuel →
  takes_at_most (2 * log_steps (length xs) + 4) (is_multi keyof lt this xs) (λ al : Allocator (rbcell V), rb_find keyof lt eqb fuel this key).
  Proof. first [exact multi_find_accesses | apply multi_find_accesses | intros; eapply multi_find_accesses; eassumption]. Qed.

  (** vector_map find(key). *)
  Theorem C87_vm_find_linear :
    ∀ {K T : Type} (keq : K → K → bool) fuel v (xs : list (K * T)) k,
  length xs < fuel →
  takes_at_most (length xs + 2) (is_vec v xs) (λ al : Allocator (list (option (K * T))), vm_find keq fuel v k).
  Proof. first [exact vm_find_linear | apply vm_find_linear | intros; eapply vm_find_linear; eassumption]. Qed.

  (** sorted_vector_map insert, in the capacity. *)
  Theorem C87_svm_insert_linear :
    ∀ {K T : Type} (keq comp : K → K → bool) (dfltT : T) (ulim : nat) fuel v (les : list (loc * (K * T))) k x,
  SvmSpec.key_order keq comp → SvmSpec.ascending comp les.*2 → sv_room keq ulim k (les.*2, sv_end v) → sv_end v + 2 < fuel →
  takes_at_most (12 * (sv_end v + 2) + 22) (is_svm v les) (λ al : Allocator (svcell K T), sv_insert keq comp ulim fuel v (EVal (k, x))).
  Proof. first [exact svm_insert_linear | apply svm_insert_linear | intros; eapply svm_insert_linear; eassumption]. Qed.

  (** sorted_vector_map operator[], in the capacity. *)
  Theorem C87_svm_index_linear :
    ∀ {K T : Type} (keq comp : K → K → bool) (dfltT : T) (ulim : nat) fuel v (les : list (loc * (K * T))) k,
  SvmSpec.key_order keq comp → SvmSpec.ascending comp les.*2 → sv_room keq ulim k (les.*2, sv_end v) → sv_end v + 2 < fuel →
  takes_at_most (12 * (sv_end v + 2) + 23) (is_svm v les) (λ al : Allocator (svcell K T), sv_index keq comp dfltT ulim fuel v k).
  Proof. first [exact svm_index_linear | apply svm_index_linear | intros; eapply svm_index_linear; eassumption]. Qed.

  (** sorted_vector_map copy construction. *)
  Theorem C87_svm_copy_linear :
    ∀ {K T : Type} (keq comp : K → K → bool) (dfltT : T) (ulim : nat) fuel v (les : list (loc * (K * T))),
  length les < fuel →
  takes_at_most (5 * length les + 6) (is_svm v les) (λ al : Allocator (svcell K T), sv_copy fuel v).
  Proof. first [exact svm_copy_linear | apply svm_copy_linear | intros; eapply svm_copy_linear; eassumption]. Qed.

  (** sorted_vector_map destruction. *)
  Theorem C87_svm_destroy_linear :
    ∀ {K T : Type} (keq comp : K → K → bool) (dfltT : T) (ulim : nat) fuel v (les : list (loc * (K * T))),
  length les < fuel →
  takes_at_most (3 * length les + 5) (is_svm v les) (λ al : Allocator (svcell K T), sv_destroy fuel v).
  Proof. first [exact svm_destroy_linear | apply svm_destroy_linear | intros; eapply svm_destroy_linear; eassumption]. Qed.

  (** map/set clear(). *)
  Theorem C87_map_clear_linear :
    ∀ {K V : Type} (keyof : V → K) (lt : K → K → bool) fuel this (xs : list (loc * V)),
  log_steps (length xs) < fuel →
  takes_at_most (4 * length xs + 2) (is_map keyof lt this xs) (λ al : Allocator (rbcell V), m_clear fuel this).
  Proof. first [exact map_clear_linear | apply map_clear_linear | intros; eapply map_clear_linear; eassumption]. Qed.

  (** map/set destruction. *)
  Theorem C87_map_destroy_linear :
    ∀ {K V : Type} (keyof : V → K) (lt : K → K → bool) fuel this (xs : list (loc * V)),
  log_steps (length xs) < fuel →
  takes_at_most (4 * length xs + 3) (is_map keyof lt this xs) (λ al : Allocator (rbcell V), rb_destroy fuel this).
  Proof. first [exact map_destroy_linear | apply map_destroy_linear | intros; eapply map_destroy_linear; eassumption]. Qed.

  (** map/set copy construction: linear, without any key comparison. *)
  Theorem C87_map_copy_linear :
    ∀ {K V : Type} (keyof : V → K) (lt : K → K → bool) fuel other (xs : list (loc * V)),
  log_steps (length xs) < fuel →
  takes_at_most (12 * length xs + 5) (is_map keyof lt other xs) (λ al : Allocator (rbcell V), m_copy fuel other).
  Proof. first [exact map_copy_linear | apply map_copy_linear | intros; eapply map_copy_linear; eassumption]. Qed.

  (** map/set assignment. *)
  Theorem C87_map_assign_linear :
    ∀ {K V : Type} (keyof : V → K) (lt : K → K → bool) fuel this other (xs ys : list (loc * V)),
  log_steps (length xs) < fuel → log_steps (length ys) < fuel →
  takes_at_most (4 * length xs + 12 * length ys + 6) (both (is_map keyof lt this xs) (is_map keyof lt other ys))
    (λ al : Allocator (rbcell V), m_assign fuel this other).
  Proof. first [exact map_assign_linear | apply map_assign_linear | intros; eapply map_assign_linear; eassumption]. Qed.

  (** sorted_vector_map find(key): at most 4 (log2 n + 2) + 2 accesses. *)
  Theorem C38_svm_find_accesses :
    ∀ {K T : Type} (keq comp : K → K → bool) ulim fuel v (les : list (loc * (K * T))) k,
  SvmSpec.key_order keq comp → SvmSpec.ascending comp les.*2 → length les < ulim →
  S (Nat.log2 (length les)) < fuel →
  takes_at_most (4 * (Nat.log2 (length les) + 2) + 2) (is_svm v les) (λ al : Allocator (svcell K T), sv_find keq comp ulim fuel v k).
  Proof. first [exact svm_find_accesses | apply svm_find_accesses | intros; eapply svm_find_accesses; eassumption]. Qed.

  (** push_back below the capacity. *)
  Theorem C88_v_push_back_room_partial :
    ∀ {V : Type} fuel v (xs : list V) r x,
  vrefers v xs r x → length xs < v_capacity v → length xs + 1 < fuel →
  takes_at_most 3 (is_vec v xs) (λ al : Allocator (list (option V)), v_push_back fuel v r).
  Proof. first [exact v_push_back_room | apply v_push_back_room | intros; eapply v_push_back_room; eassumption]. Qed.

  (** push_back into a full vector of n elements makes at least n + 1 accesses, and leaves the vector
   full again: its capacity grows by one. *)
  Theorem C88_v_push_back_full_refuted :
    ∀ {V : Type} fuel v (xs : list V) r x,
  vrefers v xs r x → v_capacity v = length xs → length xs + 1 < fuel →
  takes_at_least (S (length xs)) (is_vec v xs) (λ al : Allocator (list (option V)), v_push_back fuel v r) ∧
  ∀ al : Allocator (list (option V)), runs (is_vec v xs) (v_push_back fuel v r)
    (λ v' h, v_capacity v' = S (length xs) ∧ is_vec v' (xs ++ [x]) h).
  Proof. first [exact v_push_back_full | apply v_push_back_full | intros; eapply v_push_back_full; eassumption]. Qed.

  (** Appending n elements to a new vector one by one makes at least n (n + 1) / 2 accesses. *)
  Theorem C88_v_push_backs_quadratic_refuted :
    ∀ {V : Type} fuel (xs : list V),
 length xs < fuel →
  takes_at_least (length xs * S (length xs) / 2) nothing
    (λ al : Allocator (list (option V)), let! v := v_new in push_backs fuel v xs).
  Proof. first [exact v_push_backs_quadratic | apply v_push_backs_quadratic | intros; eapply v_push_backs_quadratic; eassumption]. Qed.

  (** After reserve(n), n elements are appended in 3 n accesses. *)
  Theorem C88_v_push_backs_reserved_partial :
    ∀ {V : Type} fuel v (xs ys : list V),
 length xs + length ys ≤ v_capacity v →
  length xs + length ys < fuel →
  takes_at_most (3 * length ys) (is_vec v xs) (λ al : Allocator (list (option V)), push_backs fuel v ys).
  Proof. first [exact v_push_backs_reserved | apply v_push_backs_reserved | intros; eapply v_push_backs_reserved; eassumption]. Qed.

  (** for (it = begin(); it != end(); ++it) visits all elements in 10n + 2 accesses: the descents and climbs of all the ++ together are shorter than 2n. *)
  Theorem C91_forward_linear :
    ∀ {K V : Type} (keyof : V → K) (lt : K → K → bool) fuel this (xs : list (loc * V)),
  length xs < fuel → log_steps (length xs) < fuel →
  takes_at_most (10 * length xs + 2) (is_map keyof lt this xs) (λ al : Allocator (rbcell V), m_forward fuel this).
  Proof. first [exact forward_linear | apply forward_linear | intros; eapply forward_linear; eassumption]. Qed.

  (** The same backwards, from end() to begin(). *)
  Theorem C91_backward_linear :
    ∀ {K V : Type} (keyof : V → K) (lt : K → K → bool) fuel this (xs : list (loc * V)),
  length xs < fuel → log_steps (length xs) < fuel →
  takes_at_most (15 * length xs + 2) (is_map keyof lt this xs) (λ al : Allocator (rbcell V), walk_back fuel this).
  Proof. first [exact backward_linear | apply backward_linear | intros; eapply backward_linear; eassumption]. Qed.

  (** And the walk backwards visits the elements in descending order and leaves the container unchanged. *)
  Theorem C91_backward_visits :
    ∀ {K V : Type} (keyof : V → K) (lt : K → K → bool) fuel this (xs : list (loc * V)),
  length xs < fuel → log_steps (length xs) < fuel →
  runs (is_map keyof lt this xs) (walk_back fuel this) (λ vs h, vs = reverse xs.*2 ∧ is_map keyof lt this xs h).
  Proof. first [exact backward_visits | apply backward_visits | intros; eapply backward_visits; eassumption]. Qed.

  (** a == b for sets and maps. *)
  Theorem C91_equal_linear :
    ∀ {K V : Type} (keyof : V → K) (lt : K → K → bool) (veqb : V → V → bool) fuel a b (xs ys : list (loc * V)),
  length xs < fuel → log_steps (length xs) < fuel → log_steps (length ys) < fuel →
  takes_at_most (10 * length xs + 10 * length ys + 6) (both (is_map keyof lt a xs) (is_map keyof lt b ys))
    (λ al : Allocator (rbcell V), m_eq veqb fuel a b).
  Proof. first [exact equal_linear | apply equal_linear | intros; eapply equal_linear; eassumption]. Qed.



Print Assumptions C03_find_accesses.
Print Assumptions C03_lower_bound_accesses.
Print Assumptions C03_upper_bound_accesses.
Print Assumptions C03_equal_range_accesses.
Print Assumptions C03_insert_accesses.
Print Assumptions C03_erase_accesses.
Print Assumptions C03_begin_accesses.
Print Assumptions C03_incr_accesses.
Print Assumptions C03_decr_accesses.
Print Assumptions C86_dl_insert_const.
Print Assumptions C86_dl_erase_const.
Print Assumptions C86_dl_splice_all_const.
Print Assumptions C86_dl_splice_one_const.
Print Assumptions C86_dl_splice_range_const.
Print Assumptions C86_dl_swap_const.
Print Assumptions C86_fl_push_front_const.
Print Assumptions C86_fl_pop_front_const.
Print Assumptions C86_fl_insert_after_const.
Print Assumptions C86_fl_erase_after_const.
Print Assumptions C86_fl_swap_const.
Print Assumptions C86_fl_splice_one_const.
Print Assumptions C86_bl_push_back_const.
Print Assumptions C86_bl_push_front_const.
Print Assumptions C86_bl_pop_front_const.
Print Assumptions C86_bl_insert_after_const.
Print Assumptions C86_bl_erase_after_const.
Print Assumptions C86_bl_back_const.
Print Assumptions C86_bl_swap_const.
Print Assumptions C86_lq_push_back_const.
Print Assumptions C86_lq_push_front_const.
Print Assumptions C86_lq_pop_front_const.
Print Assumptions C86_lq_insert_after_const.
Print Assumptions C86_lq_erase_after_const.
Print Assumptions C86_lq_roll_head_const.
Print Assumptions C86_lq_swap_const.
Print Assumptions C87_dl_remove_linear.
Print Assumptions C87_dl_remove_if_linear.
Print Assumptions C87_dl_unique_linear.
Print Assumptions C87_dl_reverse_linear.
Print Assumptions C87_dl_copy_linear.
Print Assumptions C87_dl_clear_linear.
Print Assumptions C87_dl_destroy_linear.
Print Assumptions C87_dl_merge_linear.
Print Assumptions C87_fl_erase_after_range_linear.
Print Assumptions C87_fl_clear_linear.
Print Assumptions C87_fl_destroy_linear.
Print Assumptions C87_fl_reverse_linear.
Print Assumptions C87_fl_copy_linear.
Print Assumptions C87_fl_eq_linear.
Print Assumptions C87_bl_clear_linear.
Print Assumptions C87_bl_reverse_linear.
Print Assumptions C87_bl_destroy_linear.
Print Assumptions C87_lq_clear_linear.
Print Assumptions C87_lq_cleanup_linear.
Print Assumptions C87_lq_destroy_linear.
Print Assumptions C87_lq_copy_linear.
Print Assumptions C86_v_at_const.
Print Assumptions C86_v_pop_back_const.
Print Assumptions C87_v_push_back_linear.
Print Assumptions C87_v_insert_n_linear.
Print Assumptions C87_v_erase_range_linear.
Print Assumptions C87_v_reserve_linear.
Print Assumptions C87_v_copy_linear.
Print Assumptions C87_v_assign_linear.
Print Assumptions C87_v_clear_linear.
Print Assumptions C87_v_destroy_linear.
Print Assumptions C03_index_accesses.
Print Assumptions C03_insert_equal_accesses.
Print Assumptions C03_multi_find_accesses.
Print Assumptions C87_vm_find_linear.
Print Assumptions C87_svm_insert_linear.
Print Assumptions C87_svm_index_linear.
Print Assumptions C87_svm_copy_linear.
Print Assumptions C87_svm_destroy_linear.
Print Assumptions C87_map_clear_linear.
Print Assumptions C87_map_destroy_linear.
Print Assumptions C87_map_copy_linear.
Print Assumptions C87_map_assign_linear.
Print Assumptions C38_svm_find_accesses.
Print Assumptions C88_v_push_back_room_partial.
Print Assumptions C88_v_push_back_full_refuted.
Print Assumptions C88_v_push_backs_quadratic_refuted.
Print Assumptions C88_v_push_backs_reserved_partial.
Print Assumptions C91_forward_linear.
Print Assumptions C91_backward_linear.
Print Assumptions C91_backward_visits.
Print Assumptions C91_equal_linear.
