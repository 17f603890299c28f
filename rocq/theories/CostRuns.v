(** The number of memory accesses of calls: the property lemmas, in the vocabulary of Cost.v, CostSpec.v
    and the specifications of the containers. *)
From Verif Require Import SvmRuns SvmProofs MapHistory DlistLogic ForwardRuns BackwardRuns LazyRuns DlistRuns MapRuns MappedRuns VecRuns VmapRuns.
From Verif Require Import SvmSpec ForwardSpec BackwardSpec LazySpec DlistSpec MapSpec VecSpec VmapSpec Cost CostSpec CostLogic CostNet CostProofs CostWalk ThreadMap.
From iris.proofmode Require Import tactics.
(*@HEADER
From Verif Require Import SvmSpec ForwardSpec BackwardSpec LazySpec DlistSpec MapSpec VecSpec VmapSpec Cost CostSpec CostRuns.
@*)
(*@FOOTER
@*)

(*@ C03 set/map find(key). *)
Lemma find_accesses {K V : Type} (keyof : V → K) (lt eqb : K → K → bool) fuel this (xs : list (loc * V)) (key : K) :
  RbSpec.key_order lt eqb → log_steps (length xs) < fuel →
  takes_at_most (2 * log_steps (length xs) + 4) (is_map keyof lt this xs) (λ al : Allocator (rbcell V), m_find keyof lt eqb fuel this key).
Proof.
  intros. eapply (takes_fuel (log_steps (length xs)) fuel _ _ _ (λ fuel al, m_find keyof lt eqb fuel this key)); [done|tk|cost_le|]. intros. by eapply find_ok.
Qed.

(*@ C03 set/map lower_bound(key). *)
Lemma lower_bound_accesses {K V : Type} (keyof : V → K) (lt eqb : K → K → bool) fuel this (xs : list (loc * V)) (key : K) :
  RbSpec.key_order lt eqb → log_steps (length xs) < fuel →
  takes_at_most (2 * log_steps (length xs) + 3) (is_map keyof lt this xs) (λ al : Allocator (rbcell V), m_lower_bound keyof lt fuel this key).
Proof.
  intros. eapply (takes_fuel (log_steps (length xs)) fuel _ _ _ (λ fuel al, m_lower_bound keyof lt fuel this key)); [done|tk|cost_le|]. intros. by eapply lower_bound_ok.
Qed.

(*@ C03 set/map upper_bound(key). *)
Lemma upper_bound_accesses {K V : Type} (keyof : V → K) (lt eqb : K → K → bool) fuel this (xs : list (loc * V)) (key : K) :
  RbSpec.key_order lt eqb → log_steps (length xs) < fuel →
  takes_at_most (4 * log_steps (length xs) + 10) (is_map keyof lt this xs) (λ al : Allocator (rbcell V), m_upper_bound keyof lt fuel this key).
Proof.
  intros. eapply (takes_fuel (log_steps (length xs)) fuel _ _ _ (λ fuel al, m_upper_bound keyof lt fuel this key)); [done|tk|cost_le|]. intros. by eapply upper_bound_actual.
Qed.

(*@ C03 set/map equal_range(key). *)
Lemma equal_range_accesses {K V : Type} (keyof : V → K) (lt eqb : K → K → bool) fuel this (xs : list (loc * V)) (key : K) :
  RbSpec.key_order lt eqb → log_steps (length xs) < fuel →
  takes_at_most (4 * log_steps (length xs) + 10) (is_map keyof lt this xs) (λ al : Allocator (rbcell V), m_equal_range keyof lt fuel this key).
Proof.
  intros. eapply (takes_fuel (log_steps (length xs)) fuel _ _ _ (λ fuel al, m_equal_range keyof lt fuel this key)); [done|tk|cost_le|]. intros. by eapply equal_range_actual.
Qed.

(*@ C03 set/map insert(v). *)
Lemma insert_accesses {K V : Type} (keyof : V → K) (lt eqb : K → K → bool) fuel this (xs : list (loc * V)) (v : V) :
  RbSpec.key_order lt eqb → log_steps (length xs) < fuel →
  takes_at_most (54 * log_steps (length xs) + 69) (is_map keyof lt this xs) (λ al : Allocator (rbcell V), m_insert keyof lt eqb fuel this v).
Proof.
  intros. eapply (takes_fuel (log_steps (length xs)) fuel _ _ _ (λ fuel al, m_insert keyof lt eqb fuel this v)); [done|tk|cost_le|]. intros. by eapply insert_ok.
Qed.

(*@ C03 set/map erase(key). *)
Lemma erase_accesses {K V : Type} (keyof : V → K) (lt eqb : K → K → bool) fuel this (xs : list (loc * V)) (key : K) :
  RbSpec.key_order lt eqb → log_steps (length xs) < fuel →
  takes_at_most (196 * log_steps (length xs) + 277) (is_map keyof lt this xs) (λ al : Allocator (rbcell V), m_erase keyof lt eqb fuel this key).
Proof.
  intros. eapply (takes_fuel (log_steps (length xs)) fuel _ _ _ (λ fuel al, m_erase keyof lt eqb fuel this key)); [done|tk|cost_le|]. intros. by eapply erase_ok.
Qed.

(*@ C03 set/map begin(). *)
Lemma begin_accesses {K V : Type} (keyof : V → K) (lt : K → K → bool) fuel this (xs : list (loc * V))  :
  log_steps (length xs) < fuel →
  takes_at_most (log_steps (length xs) + 3) (is_map keyof lt this xs) (λ al : Allocator (rbcell V), m_begin fuel this).
Proof.
  intros. eapply (takes_fuel (log_steps (length xs)) fuel _ _ _ (λ fuel al, m_begin fuel this)); [done|tk|cost_le|]. intros. by eapply begin_ok.
Qed.

(*@ C03 ++ on a set/map iterator. *)
Lemma incr_accesses {K V : Type} (keyof : V → K) (lt : K → K → bool) fuel this (xs : list (loc * V)) i :
  i < length xs → log_steps (length xs) < fuel →
  takes_at_most (2 * log_steps (length xs) + 7) (is_map keyof lt this xs) (λ al : Allocator (rbcell V), m_incr fuel (iter_at this xs i)).
Proof.
  intros. eapply (takes_fuel (log_steps (length xs)) fuel _ _ _ (λ fuel al, m_incr fuel (iter_at this xs i))); [done|tk|cost_le|]. intros. by eapply incr_ok.
Qed.

(*@ C03 -- on a set/map iterator. *)
Lemma decr_accesses {K V : Type} (keyof : V → K) (lt : K → K → bool) fuel this (xs : list (loc * V)) i :
  i < length xs → log_steps (length xs) < fuel →
  takes_at_most (2 * log_steps (length xs) + 10) (is_map keyof lt this xs) (λ al : Allocator (rbcell V), m_decr fuel (iter_at this xs (S i))).
Proof.
  intros. eapply (takes_fuel (log_steps (length xs)) fuel _ _ _ (λ fuel al, m_decr fuel (iter_at this xs (S i)))); [done|tk|cost_le|]. intros. by eapply decr_ok.
Qed.

(*@ C86 list insert(pos, x) (and push_front, push_back). *)
Lemma dl_insert_const {V : Type} this (xs : list (loc * V)) i r v :
  i ≤ length xs → drefers xs r v →
  takes_at_most (8) (is_dlist this xs) (λ al : Allocator (dcell V), dl_insert (dpos this xs i) r).
Proof.
  intros. eapply takes_flat; [tk|cost_le|]. intros. by eapply DlistRuns.list_insert.
Qed.

(*@ C86 list erase(pos) (and pop_front, pop_back). *)
Lemma dl_erase_const {V : Type} this (xs : list (loc * V)) i :
  i < length xs →
  takes_at_most (9) (is_dlist this xs) (λ al : Allocator (dcell V), dl_erase (dpos this xs i)).
Proof.
  intros. eapply takes_flat; [tk|cost_le|]. intros. by eapply list_erase.
Qed.

(*@ C86 list splice(pos, other). *)
Lemma dl_splice_all_const {V : Type} this other (xs ys : list (loc * V)) i :
  i ≤ length xs → ys ≠ [] →
  takes_at_most (13) (both (is_dlist this xs) (is_dlist other ys)) (λ al : Allocator (dcell V), dl_splice_all (dpos this xs i) other).
Proof.
  intros. eapply takes_flat; [tk|cost_le|]. intros. by eapply list_splice_all.
Qed.

(*@ C86 list splice(pos, other, it). *)
Lemma dl_splice_one_const {V : Type} this other (xs ys : list (loc * V)) i j x :
  i ≤ length xs → ys !! j = Some x →
  takes_at_most (13) (both (is_dlist this xs) (is_dlist other ys)) (λ al : Allocator (dcell V), dl_splice_one (dpos this xs i) (dpos other ys j)).
Proof.
  intros. eapply takes_flat; [tk|cost_le|]. intros. by eapply list_splice_one.
Qed.

(*@ C86 list splice(pos, other, first, last), whatever the length of the range. *)
Lemma dl_splice_range_const {V : Type} this other (xs ys : list (loc * V)) i j k :
  i ≤ length xs → j < k ≤ length ys →
  takes_at_most (12) (both (is_dlist this xs) (is_dlist other ys)) (λ al : Allocator (dcell V), dl_splice_range (dpos this xs i) (dpos other ys j) (dpos other ys k)).
Proof.
  intros. eapply takes_flat; [tk|cost_le|]. intros. by eapply list_splice_range.
Qed.

(*@ C86 list swap. *)
Lemma dl_swap_const {V : Type} (rfirst : bool) a b (xs ys : list (loc * V)) :
  xs ≠ [] ∨ ys ≠ [] →
  takes_at_most (18) (both (is_dlist a xs) (is_dlist b ys)) (λ al : Allocator (dcell V), dl_swap rfirst a b).
Proof.
  intros. eapply takes_flat; [tk|cost_le|]. intros. by eapply list_swap.
Qed.

(*@ C86 forward_list push_front. *)
Lemma fl_push_front_const {V : Type} this (xs : list (loc * V)) r v :
  refers xs r v →
  takes_at_most (5) (is_flist this xs) (λ al : Allocator (cell V), fl_push_front this r).
Proof.
  intros. eapply takes_flat; [tk|cost_le|]. intros. by eapply fl_push_front_ok.
Qed.

(*@ C86 forward_list pop_front. *)
Lemma fl_pop_front_const {V : Type} this l v (xs : list (loc * V)) :
  takes_at_most (5) (is_flist this ((l, v) :: xs)) (λ al : Allocator (cell V), fl_pop_front this).
Proof.
  intros. eapply takes_flat; [tk|cost_le|]. intros. by eapply fl_pop_front_ok.
Qed.

(*@ C86 forward_list insert_after(pos, x). *)
Lemma fl_insert_after_const {V : Type} this (xs : list (loc * V)) i r v :
  i ≤ length xs → refers xs r v →
  takes_at_most (5) (is_flist this xs) (λ al : Allocator (cell V), fl_insert_after (pos_at this xs i) r).
Proof.
  intros. eapply takes_flat; [tk|cost_le|]. intros. by eapply fl_insert_after_ok.
Qed.

(*@ C86 forward_list erase_after(pos). *)
Lemma fl_erase_after_const {V : Type} this (xs : list (loc * V)) i :
  i < length xs →
  takes_at_most (6) (is_flist this xs) (λ al : Allocator (cell V), fl_erase_after (pos_at this xs i)).
Proof.
  intros. eapply takes_flat; [tk|cost_le|]. intros. by eapply fl_erase_after_ok.
Qed.

(*@ C86 forward_list swap. *)
Lemma fl_swap_const {V : Type} a b (xs ys : list (loc * V)) :
  takes_at_most (4) (both (is_flist a xs) (is_flist b ys)) (λ al : Allocator (cell V), fl_swap a b).
Proof.
  intros. eapply takes_flat; [tk|cost_le|]. intros. by eapply fl_swap_ok.
Qed.

(*@ C86 forward_list splice_after(pos, other, it). *)
Lemma fl_splice_one_const {V : Type} this other (xs ys : list (loc * V)) i j l v :
  i ≤ length xs → ys !! j = Some (l, v) →
  takes_at_most (6) (both (is_flist this xs) (is_flist other ys)) (λ al : Allocator (cell V), fl_splice_one (pos_at this xs i) (pos_at other ys j)).
Proof.
  intros. eapply takes_flat; [tk|cost_le|]. intros. by eapply fl_splice_one_ok.
Qed.

(*@ C86 backward_list push_back. *)
Lemma bl_push_back_const {V : Type} b (xs : list (loc * V)) r v :
  refers xs r v →
  takes_at_most (5) (is_blist b xs) (λ al : Allocator (cell V), bl_push_back b r).
Proof.
  intros. eapply takes_flat; [tk|cost_le|]. intros. by eapply bl_push_back_ok.
Qed.

(*@ C86 backward_list push_front. *)
Lemma bl_push_front_const {V : Type} b (xs : list (loc * V)) r v :
  refers xs r v →
  takes_at_most (5) (is_blist b xs) (λ al : Allocator (cell V), bl_push_front b r).
Proof.
  intros. eapply takes_flat; [tk|cost_le|]. intros. by eapply bl_push_front_ok.
Qed.

(*@ C86 backward_list pop_front. *)
Lemma bl_pop_front_const {V : Type} b l v (xs : list (loc * V)) :
  xs ≠ [] →
  takes_at_most (5) (is_blist b ((l, v) :: xs)) (λ al : Allocator (cell V), bl_pop_front b).
Proof.
  intros. eapply takes_flat; [tk|cost_le|]. intros. by eapply bl_pop_front_ok.
Qed.

(*@ C86 backward_list insert_after(pos, x). *)
Lemma bl_insert_after_const {V : Type} b (xs : list (loc * V)) i r v :
  i ≤ length xs → refers xs r v →
  takes_at_most (5) (is_blist b xs) (λ al : Allocator (cell V), bl_insert_after b (pos_at (bl_head b) xs i) r).
Proof.
  intros. eapply takes_flat; [tk|cost_le|]. intros. by eapply bl_insert_after_ok.
Qed.

(*@ C86 backward_list erase_after(pos). *)
Lemma bl_erase_after_const {V : Type} b (xs : list (loc * V)) i :
  i < length xs →
  takes_at_most (6) (is_blist b xs) (λ al : Allocator (cell V), bl_erase_after b (pos_at (bl_head b) xs i)).
Proof.
  intros. eapply takes_flat; [tk|cost_le|]. intros. by eapply bl_erase_after_ok.
Qed.

(*@ C86 backward_list back(). *)
Lemma bl_back_const {V : Type} b (xs : list (loc * V)) l v :
  last xs = Some (l, v) →
  takes_at_most (1) (is_blist b xs) (λ al : Allocator (cell V), bl_back b).
Proof.
  intros. eapply takes_flat; [tk|cost_le|]. intros. by eapply bl_back_ok.
Qed.

(*@ C86 backward_list swap. *)
Lemma bl_swap_const {V : Type} a b (xs ys : list (loc * V)) :
  xs ≠ [] → ys ≠ [] →
  takes_at_most (4) (both (is_blist a xs) (is_blist b ys)) (λ al : Allocator (cell V), bl_swap a b).
Proof.
  intros. eapply takes_flat; [tk|cost_le|]. intros. by eapply bl_swap_ok.
Qed.

(*@ C86 lazy_queue push_back. *)
Lemma lq_push_back_const {V : Type} q (xs : list (loc * V)) ds r v :
  refers xs r v →
  takes_at_most (10) (is_lqueue q xs ds) (λ al : Allocator (cell V), lq_push_back q r).
Proof.
  intros. eapply takes_flat; [tk|cost_le|]. intros. by eapply lq_push_back_ok.
Qed.

(*@ C86 lazy_queue push_front. *)
Lemma lq_push_front_const {V : Type} q (xs : list (loc * V)) ds r v :
  refers xs r v →
  takes_at_most (10) (is_lqueue q xs ds) (λ al : Allocator (cell V), lq_push_front q r).
Proof.
  intros. eapply takes_flat; [tk|cost_le|]. intros. by eapply lq_push_front_ok.
Qed.

(*@ C86 lazy_queue pop_front. *)
Lemma lq_pop_front_const {V : Type} q l v (xs : list (loc * V)) ds :
  takes_at_most (9) (is_lqueue q ((l, v) :: xs) ds) (λ al : Allocator (cell V), lq_pop_front q).
Proof.
  intros. eapply takes_flat; [tk|cost_le|]. intros. by eapply lq_pop_front_ok.
Qed.

(*@ C86 lazy_queue insert_after(pos, x). *)
Lemma lq_insert_after_const {V : Type} q (xs : list (loc * V)) ds i r v :
  i ≤ length xs → refers xs r v →
  takes_at_most (10) (is_lqueue q xs ds) (λ al : Allocator (cell V), lq_insert_after q (pos_at (lq_head q) xs i) r).
Proof.
  intros. eapply takes_flat; [tk|cost_le|]. intros. by eapply lq_insert_after_ok.
Qed.

(*@ C86 lazy_queue erase_after(pos). *)
Lemma lq_erase_after_const {V : Type} q (xs : list (loc * V)) ds i l v :
  xs !! i = Some (l, v) →
  takes_at_most (9) (is_lqueue q xs ds) (λ al : Allocator (cell V), lq_erase_after q (pos_at (lq_head q) xs i)).
Proof.
  intros. eapply takes_flat; [tk|cost_le|]. intros. by eapply lq_erase_after_ok.
Qed.

(*@ C86 lazy_queue roll_head. *)
Lemma lq_roll_head_const {V : Type} q (xs : list (loc * V)) ds :
  takes_at_most (7) (is_lqueue q xs ds) (λ al : Allocator (cell V), lq_roll_head q).
Proof.
  intros. eapply takes_flat; [tk|cost_le|]. intros. by eapply lq_roll_head_ok.
Qed.

(*@ C86 lazy_queue swap. *)
Lemma lq_swap_const {V : Type} a b (xs ys : list (loc * V)) ds es :
  xs ≠ [] → ys ≠ [] →
  takes_at_most (4) (both (is_lqueue a xs ds) (is_lqueue b ys es)) (λ al : Allocator (cell V), lq_swap a b).
Proof.
  intros. eapply takes_flat; [tk|cost_le|]. intros. by eapply lq_swap_ok.
Qed.

(*@ C87 list remove(x). *)
Lemma dl_remove_linear {V : Type} (eqb : V → V → bool) fuel this (xs : list (loc * V)) v :
  length xs < fuel →
  takes_at_most (10 * length xs + 12) (is_dlist this xs) (λ al : Allocator (dcell V), dl_remove eqb fuel this (DExt v)).
Proof.
  intros. eapply (takes_fuel (length xs) fuel _ _ _ (λ fuel al, dl_remove eqb fuel this (DExt v))); [done|tk|cost_le|]. intros. by eapply DlistRuns.list_remove.
Qed.

(*@ C87 list remove_if(f). *)
Lemma dl_remove_if_linear {V : Type} fuel this (xs : list (loc * V)) (f : V → bool) :
  length xs < fuel →
  takes_at_most (10 * length xs + 12) (is_dlist this xs) (λ al : Allocator (dcell V), dl_remove_if fuel this f).
Proof.
  intros. eapply (takes_fuel (length xs) fuel _ _ _ (λ fuel al, dl_remove_if fuel this f)); [done|tk|cost_le|]. intros. by eapply DlistRuns.list_remove_if.
Qed.

(*@ C87 list unique(f). *)
Lemma dl_unique_linear {V : Type} fuel this (xs : list (loc * V)) (f : V → V → bool) :
  length xs < fuel →
  takes_at_most (11 * length xs + 14) (is_dlist this xs) (λ al : Allocator (dcell V), dl_unique fuel this f).
Proof.
  intros. eapply (takes_fuel (length xs) fuel _ _ _ (λ fuel al, dl_unique fuel this f)); [done|tk|cost_le|]. intros. by eapply DlistRuns.list_unique.
Qed.

(*@ C87 list reverse(). *)
Lemma dl_reverse_linear {V : Type} fuel this (xs : list (loc * V)) :
  length xs < fuel →
  takes_at_most (4 * length xs + 8) (is_dlist this xs) (λ al : Allocator (dcell V), dl_reverse fuel this).
Proof.
  intros. eapply (takes_fuel (length xs) fuel _ _ _ (λ fuel al, dl_reverse fuel this)); [done|tk|cost_le|]. intros. by eapply DlistRuns.list_reverse.
Qed.

(*@ C87 list copy construction. *)
Lemma dl_copy_linear {V : Type} fuel other (xs : list (loc * V)) :
  length xs < fuel →
  takes_at_most (9 * length xs + 14) (is_dlist other xs) (λ al : Allocator (dcell V), dl_copy fuel other).
Proof.
  intros. eapply (takes_fuel (length xs) fuel _ _ _ (λ fuel al, dl_copy fuel other)); [done|tk|cost_le|]. intros. by eapply DlistRuns.list_copy.
Qed.

(*@ C87 list clear(). *)
Lemma dl_clear_linear {V : Type} fuel this (xs : list (loc * V)) :
  length xs < fuel →
  takes_at_most (5 * length xs + 6) (is_dlist this xs) (λ al : Allocator (dcell V), dl_clear fuel this).
Proof.
  intros. eapply (takes_fuel (length xs) fuel _ _ _ (λ fuel al, dl_clear fuel this)); [done|tk|cost_le|]. intros. by eapply DlistRuns.list_clear.
Qed.

(*@ C87 list destruction. *)
Lemma dl_destroy_linear {V : Type} fuel this (xs : list (loc * V)) :
  length xs < fuel →
  takes_at_most (5 * length xs + 7) (is_dlist this xs) (λ al : Allocator (dcell V), dl_destroy fuel this).
Proof.
  intros. eapply (takes_fuel (length xs) fuel _ _ _ (λ fuel al, dl_destroy fuel this)); [done|tk|cost_le|]. intros. by eapply DlistRuns.list_destroy.
Qed.

(*@ C87 list merge. *)
Lemma dl_merge_linear {V : Type} (cmp : V → V → bool) fuel this other (xs ys : list (loc * V)) :
  length xs + 2 * length ys < fuel → dsorted cmp ys.*2 →
  takes_at_most (15 * (length xs + 2 * length ys) + 30) (both (is_dlist this xs) (is_dlist other ys)) (λ al : Allocator (dcell V), dl_merge cmp fuel this other).
Proof.
  intros. eapply (takes_fuel (length xs + 2 * length ys) fuel _ _ _ (λ fuel al, dl_merge cmp fuel this other)); [done|tk|cost_le|]. intros. by eapply DlistRuns.list_merge.
Qed.

(*@ C87 forward_list erase_after(first, last). *)
Lemma fl_erase_after_range_linear {V : Type} fuel this (xs : list (loc * V)) i j :
  i < j ≤ S (length xs) → length xs < fuel →
  takes_at_most (6 * length xs + 8) (is_flist this xs) (λ al : Allocator (cell V), fl_erase_after_range fuel (pos_at this xs i) (pos_at this xs j)).
Proof.
  intros. eapply (takes_fuel (length xs) fuel _ _ _ (λ fuel al, fl_erase_after_range fuel (pos_at this xs i) (pos_at this xs j))); [done|tk|cost_le|]. intros. by eapply fl_erase_after_range_ok.
Qed.

(*@ C87 forward_list clear(). *)
Lemma fl_clear_linear {V : Type} fuel this (xs : list (loc * V)) :
  length xs < fuel →
  takes_at_most (6 * length xs + 7) (is_flist this xs) (λ al : Allocator (cell V), fl_clear fuel this).
Proof.
  intros. eapply (takes_fuel (length xs) fuel _ _ _ (λ fuel al, fl_clear fuel this)); [done|tk|cost_le|]. intros. by eapply fl_clear_ok.
Qed.

(*@ C87 forward_list destruction. *)
Lemma fl_destroy_linear {V : Type} fuel this (xs : list (loc * V)) :
  length xs < fuel →
  takes_at_most (6 * length xs + 8) (is_flist this xs) (λ al : Allocator (cell V), fl_destroy fuel this).
Proof.
  intros. eapply (takes_fuel (length xs) fuel _ _ _ (λ fuel al, fl_destroy fuel this)); [done|tk|cost_le|]. intros. by eapply fl_destroy_ok.
Qed.

(*@ C87 forward_list reverse(). *)
Lemma fl_reverse_linear {V : Type} fuel this (xs : list (loc * V)) :
  length xs < fuel →
  takes_at_most (2 * length xs + 4) (is_flist this xs) (λ al : Allocator (cell V), fl_reverse fuel this).
Proof.
  intros. eapply (takes_fuel (length xs) fuel _ _ _ (λ fuel al, fl_reverse fuel this)); [done|tk|cost_le|]. intros. by eapply fl_reverse_ok.
Qed.

(*@ C87 forward_list copy construction. *)
Lemma fl_copy_linear {V : Type} fuel other (xs : list (loc * V)) :
  length xs < fuel →
  takes_at_most (6 * length xs + 8) (is_flist other xs) (λ al : Allocator (cell V), fl_copy fuel other).
Proof.
  intros. eapply (takes_fuel (length xs) fuel _ _ _ (λ fuel al, fl_copy fuel other)); [done|tk|cost_le|]. intros. by eapply fl_copy_ok.
Qed.

(*@ C87 forward_list ==. *)
Lemma fl_eq_linear {V : Type} (eqb : V → V → bool) fuel a b (xs ys : list (loc * V)) :
  length xs < fuel →
  takes_at_most (4 * length xs + 8) (both (is_flist a xs) (is_flist b ys)) (λ al : Allocator (cell V), fl_eq eqb fuel a b).
Proof.
  intros. eapply (takes_fuel (length xs) fuel _ _ _ (λ fuel al, fl_eq eqb fuel a b)); [done|tk|cost_le|]. intros. by eapply fl_eq_ok.
Qed.

(*@ C87 backward_list clear(). *)
Lemma bl_clear_linear {V : Type} fuel b (xs : list (loc * V)) :
  length xs < fuel →
  takes_at_most (6 * length xs + 7) (is_blist b xs) (λ al : Allocator (cell V), bl_clear fuel b).
Proof.
  intros. eapply (takes_fuel (length xs) fuel _ _ _ (λ fuel al, bl_clear fuel b)); [done|tk|cost_le|]. intros. by eapply bl_clear_ok.
Qed.

(*@ C87 backward_list reverse(). *)
Lemma bl_reverse_linear {V : Type} fuel b (xs : list (loc * V)) :
  xs ≠ [] → length xs < fuel →
  takes_at_most (2 * length xs + 5) (is_blist b xs) (λ al : Allocator (cell V), bl_reverse fuel b).
Proof.
  intros. eapply (takes_fuel (length xs) fuel _ _ _ (λ fuel al, bl_reverse fuel b)); [done|tk|cost_le|]. intros. by eapply bl_reverse_ok.
Qed.

(*@ C87 backward_list destruction. *)
Lemma bl_destroy_linear {V : Type} fuel b (xs : list (loc * V)) :
  length xs < fuel →
  takes_at_most (6 * length xs + 8) (is_flist (bl_head b) xs) (λ al : Allocator (cell V), bl_destroy fuel b).
Proof.
  intros. eapply (takes_fuel (length xs) fuel _ _ _ (λ fuel al, bl_destroy fuel b)); [done|tk|cost_le|]. intros. by eapply bl_destroy_ok.
Qed.

(*@ C87 lazy_queue clear(). *)
Lemma lq_clear_linear {V : Type} fuel q (xs : list (loc * V)) ds :
  length xs < fuel →
  takes_at_most (9 * length xs + 10) (is_lqueue q xs ds) (λ al : Allocator (cell V), lq_clear fuel q).
Proof.
  intros. eapply (takes_fuel (length xs) fuel _ _ _ (λ fuel al, lq_clear fuel q)); [done|tk|cost_le|]. intros. by eapply lq_clear_ok.
Qed.

(*@ C87 lazy_queue cleanup(), in the number of pooled nodes. *)
Lemma lq_cleanup_linear {V : Type} triv fuel q (xs : list (loc * V)) ds :
  (triv = true ∨ ds = []) → length ds < fuel →
  takes_at_most (6 * length ds + 7) (is_lqueue q xs ds) (λ al : Allocator (cell V), lq_cleanup triv fuel q).
Proof.
  intros. eapply (takes_fuel (length ds) fuel _ _ _ (λ fuel al, lq_cleanup triv fuel q)); [done|tk|cost_le|]. intros. by eapply lq_cleanup_ok.
Qed.

(*@ C87 lazy_queue destruction. *)
Lemma lq_destroy_linear {V : Type} triv fuel q (xs : list (loc * V)) ds :
  (triv = true ∨ ds = []) → length xs + length ds < fuel →
  takes_at_most (12 * (length xs + length ds) + 16) (is_lqueue q xs ds) (λ al : Allocator (cell V), lq_destroy triv fuel q).
Proof.
  intros. eapply (takes_fuel (length xs + length ds) fuel _ _ _ (λ fuel al, lq_destroy triv fuel q)); [done|tk|cost_le|]. intros. by eapply lq_destroy_ok; [done|lia..].
Qed.

(*@ C87 lazy_queue copy construction. *)
Lemma lq_copy_linear {V : Type} fuel other (xs : list (loc * V)) ds :
  length xs < fuel →
  takes_at_most (11 * length xs + 14) (is_lqueue other xs ds) (λ al : Allocator (cell V), lq_copy fuel other).
Proof.
  intros. eapply (takes_fuel (length xs) fuel _ _ _ (λ fuel al, lq_copy fuel other)); [done|tk|cost_le|]. intros. by eapply lq_copy_ok.
Qed.

(*@ C86 vector operator[] / at. *)
Lemma v_at_const {V : Type} v (xs : list V) i x :
  xs !! i = Some x →
  takes_at_most (1) (is_vec v xs) (λ al : Allocator (list (option V)), v_at v i).
Proof.
  intros. eapply takes_flat; [tk|cost_le|]. intros. by eapply vec_at_ok.
Qed.

(*@ C86 vector pop_back. *)
Lemma v_pop_back_const {V : Type} v (xs : list V) x :
  takes_at_most (2) (is_vec v (xs ++ [x])) (λ al : Allocator (list (option V)), v_pop_back v).
Proof.
  intros. eapply takes_flat; [tk|cost_le|]. intros. by eapply vec_pop_back_ok.
Qed.

(*@ C87 vector push_back, when the capacity is exhausted. *)
Lemma v_push_back_linear {V : Type} fuel v (xs : list V) r x :
  vrefers v xs r x → length xs + 1 < fuel →
  takes_at_most (11 * (length xs + 1) + 14) (is_vec v xs) (λ al : Allocator (list (option V)), v_push_back fuel v r).
Proof.
  intros. eapply (takes_fuel (length xs + 1) fuel _ _ _ (λ fuel al, v_push_back fuel v r)); [done|tk|cost_le|]. intros. by eapply vec_push_back_ok.
Qed.

(*@ C87 vector insert(pos, n, x). *)
Lemma v_insert_n_linear {V : Type} fuel v (xs : list V) pos n r x :
  pos ≤ length xs → vrefers v xs r x → length xs + n < fuel → match r with VExt _ => True | VSlot _ j => n = 0 ∨ j < pos ∨ v_capacity v < length xs + n end →
  takes_at_most (11 * (length xs + n) + 14) (is_vec v xs) (λ al : Allocator (list (option V)), v_insert_n fuel v pos n r).
Proof.
  intros. eapply (takes_fuel (length xs + n) fuel _ _ _ (λ fuel al, v_insert_n fuel v pos n r)); [done|tk|cost_le|]. intros. by eapply vec_insert_n_ok.
Qed.

(*@ C87 vector erase(first, last). *)
Lemma v_erase_range_linear {V : Type} fuel v (xs : list V) i j :
  i ≤ j ≤ length xs → i < j ∨ i = length xs → length xs < fuel →
  takes_at_most (7 * length xs + 7) (is_vec v xs) (λ al : Allocator (list (option V)), v_erase_range fuel v i j).
Proof.
  intros. eapply (takes_fuel (length xs) fuel _ _ _ (λ fuel al, v_erase_range fuel v i j)); [done|tk|cost_le|]. intros. by eapply vec_erase_range_ok.
Qed.

(*@ C87 vector reserve(n). *)
Lemma v_reserve_linear {V : Type} fuel v (xs : list V) n :
  length xs < fuel →
  takes_at_most (5 * length xs + 8) (is_vec v xs) (λ al : Allocator (list (option V)), v_reserve fuel v n).
Proof.
  intros. eapply (takes_fuel (length xs) fuel _ _ _ (λ fuel al, v_reserve fuel v n)); [done|tk|cost_le|]. intros. by eapply vec_reserve_ok.
Qed.

(*@ C87 vector copy construction. *)
Lemma v_copy_linear {V : Type} fuel v (xs : list V) :
  length xs < fuel →
  takes_at_most (3 * length xs + 4) (is_vec v xs) (λ al : Allocator (list (option V)), v_copy fuel v).
Proof.
  intros. eapply (takes_fuel (length xs) fuel _ _ _ (λ fuel al, v_copy fuel v)); [done|tk|cost_le|]. intros. by eapply vec_copy_ok.
Qed.

(*@ C87 vector assignment. *)
Lemma v_assign_linear {V : Type} fuel v (xs : list V) w ys :
  length xs + length ys < fuel →
  takes_at_most (10 * (length xs + length ys) + 13) (both (is_vec v xs) (is_vec w ys)) (λ al : Allocator (list (option V)), v_assign fuel v w).
Proof.
  intros. eapply (takes_fuel (length xs + length ys) fuel _ _ _ (λ fuel al, v_assign fuel v w)); [done|tk|cost_le|]. intros. by eapply vec_assign_ok.
Qed.

(*@ C87 vector clear(). *)
Lemma v_clear_linear {V : Type} fuel v (xs : list V) :
  length xs < fuel →
  takes_at_most (2 * length xs + 2) (is_vec v xs) (λ al : Allocator (list (option V)), v_clear fuel v).
Proof.
  intros. eapply (takes_fuel (length xs) fuel _ _ _ (λ fuel al, v_clear fuel v)); [done|tk|cost_le|]. intros. by eapply vec_clear_ok.
Qed.

(*@ C87 vector destruction. *)
Lemma v_destroy_linear {V : Type} fuel v (xs : list V) :
  length xs < fuel →
  takes_at_most (2 * length xs + 4) (is_vec v xs) (λ al : Allocator (list (option V)), v_destroy fuel v).
Proof.
  intros. eapply (takes_fuel (length xs) fuel _ _ _ (λ fuel al, v_destroy fuel v)); [done|tk|cost_le|]. intros. by eapply vec_destroy_ok.
Qed.

(*@ C03 map operator[](key). *)
Lemma index_accesses {K T : Type} (lt eqb : K → K → bool) (dflt : T) fuel this (xs : list (loc * (K * T))) (key : K) :
  RbSpec.key_order lt eqb → log_steps (length xs) < fuel →
  takes_at_most (56 * log_steps (length xs) + 73) (is_map fst lt this xs) (λ al : Allocator (rbcell (K * T)), m_index lt eqb dflt fuel this key).
Proof.
  intros. eapply (takes_fuel (log_steps (length xs)) fuel _ _ _ (λ fuel al, m_index lt eqb dflt fuel this key)); [done|tk|cost_le|]. intros. by eapply index_ok.
Qed.

(*@ C03 rbtree insert_equal(v). *)
Lemma insert_equal_accesses {K V : Type} (keyof : V → K) (lt eqb : K → K → bool) fuel this (xs : list (loc * V)) (v : V) :
  RbSpec.key_order lt eqb → log_steps (length xs) < fuel →
  takes_at_most (54 * log_steps (length xs) + 68) (is_multi keyof lt this xs) (λ al : Allocator (rbcell V), rb_insert_equal keyof lt fuel this v).
Proof.
  intros. eapply (takes_fuel (log_steps (length xs)) fuel _ _ _ (λ fuel al, rb_insert_equal keyof lt fuel this v)); [done|tk|cost_le|]. intros. by eapply insert_equal_ok.
Qed.

(*@ C03 rbtree find(key) with equivalent keys. *)
Lemma multi_find_accesses {K V : Type} (keyof : V → K) (lt eqb : K → K → bool) fuel this (xs : list (loc * V)) (key : K) :
  RbSpec.key_order lt eqb → log_steps (length xs) < fuel →
  takes_at_most (2 * log_steps (length xs) + 4) (is_multi keyof lt this xs) (λ al : Allocator (rbcell V), rb_find keyof lt eqb fuel this key).
Proof.
  intros. eapply (takes_fuel (log_steps (length xs)) fuel _ _ _ (λ fuel al, rb_find keyof lt eqb fuel this key)); [done|tk|cost_le|]. intros. by eapply multi_find_ok.
Qed.

(*@ C87 vector_map find(key). *)
Lemma vm_find_linear {K T : Type} (keq : K → K → bool) fuel v (xs : list (K * T)) k :
  length xs < fuel →
  takes_at_most (length xs + 2) (is_vec v xs) (λ al : Allocator (list (option (K * T))), vm_find keq fuel v k).
Proof.
  intros. eapply (takes_fuel (length xs) fuel _ _ _ (λ fuel al, vm_find keq fuel v k)); [done|tk|cost_le|]. intros. by eapply vmap_find.
Qed.

(*@ C87 sorted_vector_map insert, in the capacity. *)
Lemma svm_insert_linear {K T : Type} (keq comp : K → K → bool) (dfltT : T) (ulim : nat) fuel v (les : list (loc * (K * T))) k x :
  SvmSpec.key_order keq comp → SvmSpec.ascending comp les.*2 → sv_room keq ulim k (les.*2, sv_end v) → sv_end v + 2 < fuel →
  takes_at_most (12 * (sv_end v + 2) + 22) (is_svm v les) (λ al : Allocator (svcell K T), sv_insert keq comp ulim fuel v (EVal (k, x))).
Proof.
  intros. eapply (takes_fuel (sv_end v + 2) fuel _ _ _ (λ fuel al, sv_insert keq comp ulim fuel v (EVal (k, x)))); [done|tk|cost_le|]. intros. by eapply svm_insert.
Qed.

(*@ C87 sorted_vector_map operator[], in the capacity. *)
Lemma svm_index_linear {K T : Type} (keq comp : K → K → bool) (dfltT : T) (ulim : nat) fuel v (les : list (loc * (K * T))) k :
  SvmSpec.key_order keq comp → SvmSpec.ascending comp les.*2 → sv_room keq ulim k (les.*2, sv_end v) → sv_end v + 2 < fuel →
  takes_at_most (12 * (sv_end v + 2) + 23) (is_svm v les) (λ al : Allocator (svcell K T), sv_index keq comp dfltT ulim fuel v k).
Proof.
  intros. eapply (takes_fuel (sv_end v + 2) fuel _ _ _ (λ fuel al, sv_index keq comp dfltT ulim fuel v k)); [done|tk|cost_le|]. intros. by eapply svm_index.
Qed.

(*@ C87 sorted_vector_map copy construction. *)
Lemma svm_copy_linear {K T : Type} (keq comp : K → K → bool) (dfltT : T) (ulim : nat) fuel v (les : list (loc * (K * T))) :
  length les < fuel →
  takes_at_most (5 * length les + 6) (is_svm v les) (λ al : Allocator (svcell K T), sv_copy fuel v).
Proof.
  intros. eapply (takes_fuel (length les) fuel _ _ _ (λ fuel al, sv_copy fuel v)); [done|tk|cost_le|]. intros. by eapply svm_copy.
Qed.

(*@ C87 sorted_vector_map destruction. *)
Lemma svm_destroy_linear {K T : Type} (keq comp : K → K → bool) (dfltT : T) (ulim : nat) fuel v (les : list (loc * (K * T))) :
  length les < fuel →
  takes_at_most (3 * length les + 5) (is_svm v les) (λ al : Allocator (svcell K T), sv_destroy fuel v).
Proof.
  intros. eapply (takes_fuel (length les) fuel _ _ _ (λ fuel al, sv_destroy fuel v)); [done|tk|cost_le|]. intros. by eapply svm_destroy.
Qed.

(*@ C87 map/set clear(). *)
Lemma map_clear_linear {K V : Type} (keyof : V → K) (lt : K → K → bool) fuel this (xs : list (loc * V)) :
  log_steps (length xs) < fuel →
  takes_at_most (4 * length xs + 2) (is_map keyof lt this xs) (λ al : Allocator (rbcell V), m_clear fuel this).
Proof. apply map_clear_takes. Qed.

(*@ C87 map/set destruction. *)
Lemma map_destroy_linear {K V : Type} (keyof : V → K) (lt : K → K → bool) fuel this (xs : list (loc * V)) :
  log_steps (length xs) < fuel →
  takes_at_most (4 * length xs + 3) (is_map keyof lt this xs) (λ al : Allocator (rbcell V), rb_destroy fuel this).
Proof. apply map_destroy_takes. Qed.

(*@ C87 map/set copy construction: linear, without any key comparison. *)
Lemma map_copy_linear {K V : Type} (keyof : V → K) (lt : K → K → bool) fuel other (xs : list (loc * V)) :
  log_steps (length xs) < fuel →
  takes_at_most (12 * length xs + 5) (is_map keyof lt other xs) (λ al : Allocator (rbcell V), m_copy fuel other).
Proof. apply map_copy_takes. Qed.

(*@ C87 map/set assignment. *)
Lemma map_assign_linear {K V : Type} (keyof : V → K) (lt : K → K → bool) fuel this other (xs ys : list (loc * V)) :
  log_steps (length xs) < fuel → log_steps (length ys) < fuel →
  takes_at_most (4 * length xs + 12 * length ys + 6) (both (is_map keyof lt this xs) (is_map keyof lt other ys))
    (λ al : Allocator (rbcell V), m_assign fuel this other).
Proof. apply map_assign_takes. Qed.

(*@ C38 sorted_vector_map find(key): at most 4 (log2 n + 2) + 2 accesses. *)
Lemma svm_find_accesses {K T : Type} (keq comp : K → K → bool) ulim fuel v (les : list (loc * (K * T))) k :
  SvmSpec.key_order keq comp → SvmSpec.ascending comp les.*2 → length les < ulim →
  S (Nat.log2 (length les)) < fuel →
  takes_at_most (4 * (Nat.log2 (length les) + 2) + 2) (is_svm v les) (λ al : Allocator (svcell K T), sv_find keq comp ulim fuel v k).
Proof.
  intros Hko Ha Hl Hf.
  eapply (takes_fuel (S (Nat.log2 (length les))) fuel _ _ _ (λ fuel al, sv_find keq comp ulim fuel v k) (λ _ _, True)); [done|tk|cost_le|].
  intros al fu Hfu h hf Hh Hd.
  assert (runs (is_svm v les) (sv_bsearch keq comp ulim fu v k) (λ r h, is_svm v les h)) as Hr.
  { eapply runs_from; [by rewrite svm_holds|apply wp_sv_bsearch; [done..|]|].
    - unfold probes. destruct (decide _); lia.
    - intros r. iIntros "[%Hr H]". change (λ h, is_svm v les h) with (is_svm v les). by rewrite svm_holds. }
  destruct (Hr h hf Hh Hd) as ([i b]&h'&Hm&Hd'&_).
  eexists _, h'. split; [|done]. unfold sv_find, bind. by rewrite Hm.
Qed.

(*@ C88_partial push_back below the capacity. *)
Lemma v_push_back_room {V : Type} fuel v (xs : list V) r x :
  vrefers v xs r x → length xs < v_capacity v → length xs + 1 < fuel →
  takes_at_most 3 (is_vec v xs) (λ al : Allocator (list (option V)), v_push_back fuel v r).
Proof.
  intros Hr Hc Hf. apply (v_push_back_room_takes fuel v xs r x Hr Hc Hf).
Qed.

(*@ C88_refuted push_back into a full vector of n elements makes at least n + 1 accesses, and leaves the vector
   full again: its capacity grows by one. *)
Lemma v_push_back_full {V : Type} fuel v (xs : list V) r x :
  vrefers v xs r x → v_capacity v = length xs → length xs + 1 < fuel →
  takes_at_least (S (length xs)) (is_vec v xs) (λ al : Allocator (list (option V)), v_push_back fuel v r) ∧
  ∀ al : Allocator (list (option V)), runs (is_vec v xs) (v_push_back fuel v r)
    (λ v' h, v_capacity v' = S (length xs) ∧ is_vec v' (xs ++ [x]) h).
Proof. intros Hr Hc Hf. by apply v_push_back_full_takes. Qed.

(*@ C88_refuted Appending n elements to a new vector one by one makes at least n (n + 1) / 2 accesses. *)
Lemma v_push_backs_quadratic {V : Type} fuel (xs : list V) : length xs < fuel →
  takes_at_least (length xs * S (length xs) / 2) nothing
    (λ al : Allocator (list (option V)), let! v := v_new in push_backs fuel v xs).
Proof. apply push_backs_quadratic. Qed.

(*@ C88_partial After reserve(n), n elements are appended in 3 n accesses. *)
Lemma v_push_backs_reserved {V : Type} fuel v (xs ys : list V) : length xs + length ys ≤ v_capacity v →
  length xs + length ys < fuel →
  takes_at_most (3 * length ys) (is_vec v xs) (λ al : Allocator (list (option V)), push_backs fuel v ys).
Proof. apply push_backs_reserved. Qed.

(*@ C91 for (it = begin(); it != end(); ++it) visits all elements in 10n + 2 accesses: the descents and climbs of all the ++ together are shorter than 2n. *)
Lemma forward_linear {K V : Type} (keyof : V → K) (lt : K → K → bool) fuel this (xs : list (loc * V)) :
  length xs < fuel → log_steps (length xs) < fuel →
  takes_at_most (10 * length xs + 2) (is_map keyof lt this xs) (λ al : Allocator (rbcell V), m_forward fuel this).
Proof.
  intros Hf Hg. eapply takes_ok_in; [apply perf_forward|]. intros al h hf [_ Hh] Hd.
  destruct (map_in_mem this xs h hf Hh Hd) as (t&Hin&<-&Ht). eexists. apply ok_forward; [done|lia|done].
Qed.

(*@ C91 The same backwards, from end() to begin(). *)
Lemma backward_linear {K V : Type} (keyof : V → K) (lt : K → K → bool) fuel this (xs : list (loc * V)) :
  length xs < fuel → log_steps (length xs) < fuel →
  takes_at_most (15 * length xs + 2) (is_map keyof lt this xs) (λ al : Allocator (rbcell V), walk_back fuel this).
Proof.
  intros Hf Hg. eapply takes_ok_in; [apply perf_backward|]. intros al h hf [_ Hh] Hd.
  destruct (map_in_mem this xs h hf Hh Hd) as (t&Hin&<-&Ht). eexists. apply ok_backward; [done|lia|done].
Qed.

(*@ C91 And the walk backwards visits the elements in descending order and leaves the container unchanged. *)
Lemma backward_visits {K V : Type} (keyof : V → K) (lt : K → K → bool) fuel this (xs : list (loc * V)) :
  length xs < fuel → log_steps (length xs) < fuel →
  runs (is_map keyof lt this xs) (walk_back fuel this) (λ vs h, vs = reverse xs.*2 ∧ is_map keyof lt this xs h).
Proof.
  intros Hf Hg h hf [Hs Hh] Hd. destruct (map_in_mem this xs h hf Hh Hd) as (t&Hin&Hx&Ht). subst xs.
  destruct (ok_backward (bump_allocator _) this t (h ∪ hf) fuel Hin ltac:(lia) Hf) as [Hi _].
  rewrite -(performs_interp _ _ (perf_backward fuel this)) in Hi.
  eexists _, h. split; [exact Hi|]. split; [done|]. by split.
Qed.

(*@ C91 a == b for sets and maps. *)
Lemma equal_linear {K V : Type} (keyof : V → K) (lt : K → K → bool) (veqb : V → V → bool) fuel a b (xs ys : list (loc * V)) :
  length xs < fuel → log_steps (length xs) < fuel → log_steps (length ys) < fuel →
  takes_at_most (10 * length xs + 10 * length ys + 6) (both (is_map keyof lt a xs) (is_map keyof lt b ys))
    (λ al : Allocator (rbcell V), m_eq veqb fuel a b).
Proof.
  intros Hf Hg1 Hg2. eapply takes_ok_in; [apply perf_eq|]. intros al h hf (h1&h2&->&H12&[_ H1]&[_ H2]) Hd.
  apply map_disjoint_union_l in Hd as [Hd1 Hd2].
  destruct (map_in_mem a xs h1 (h2 ∪ hf) H1) as (t1&Hin1&<-&Ht1); [by apply map_disjoint_union_r|].
  destruct (map_in_mem b ys h2 (h1 ∪ hf) H2) as (t2&Hin2&<-&Ht2); [by apply map_disjoint_union_r|].
  rewrite map_union_assoc in Hin1. rewrite map_union_assoc (map_union_comm h2) // in Hin2.
  apply (ok_eq veqb al a b t1 t2); [done|done|lia|lia|done].
Qed.
