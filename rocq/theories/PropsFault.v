(** GENERATED by tools/genprops.py from FaultRuns.v: property theorems only.
    Every proof is the lemma of the same statement proved there. *)
From Verif Require Import SvmSpec Fault FaultSpec ThreadSpec ForwardSpec BackwardSpec LazySpec DlistSpec MapSpec VecSpec VmapSpec FaultRuns.

  (** forward_list: every program on two lists, in which any call may run out of memory at any of
   its allocations and the client goes on: never undefined behaviour, every call that returns observes
   what the sequences prescribe, a call that threw has left the contents [fl_aborted] allows, the
   other list is untouched, and after both destructors nothing is left in memory. *)
  Theorem C79_fl_survives_failures :
    ∀ {V : Type} (eqb : V → V → bool) ops,
  survives_failures (λ al : Allocator (cell V), fl_new) (λ al, fl_destroy) (λ al, keep_this (fl_step eqb)) []
    (fl_fault_spec eqb) (λ _, True) fl_aborted same_members ops.
  Proof. first [exact fl_survives_failures | apply fl_survives_failures | intros; eapply fl_survives_failures; eassumption]. Qed.

  (** list. *)
  Theorem C79_dl_survives_failures :
    ∀ {V : Type} (eqb : V → V → bool) (rfirst : bool) ops,
  survives_failures (λ al : Allocator (dcell V), dl_new) (λ al, dl_destroy) (λ al, keep_this (dl_step eqb rfirst)) ([], false)
    (dl_fault_spec eqb) (λ _, True) dl_aborted same_members ops.
  Proof. first [exact dl_survives_failures | apply dl_survives_failures | intros; eapply dl_survives_failures; eassumption]. Qed.

  (** set. *)
  Theorem C79_set_survives_failures :
    ∀ {K V : Type} (keyof : V → K) (lt eqb : K → K → bool) (veqb : V → V → bool) ops,
  RbSpec.key_order lt eqb →
  survives_failures (λ al : Allocator (rbcell V), rb_new) (λ al, rb_destroy) (λ al, keep_this (m_step keyof lt eqb veqb)) []
    (set_fault_spec keyof lt eqb veqb) (λ _, True) (set_aborted keyof lt eqb) same_members ops.
  Proof. first [exact set_survives_failures | apply set_survives_failures | intros; eapply set_survives_failures; eassumption]. Qed.

  (** map, with operator[] and m[k] = v. *)
  Theorem C79_map_survives_failures :
    ∀ {K T : Type} (lt eqb : K → K → bool) (veqb : K * T → K * T → bool) (dflt : T) ops,
  RbSpec.key_order lt eqb →
  survives_failures (λ al : Allocator (rbcell (K * T)), rb_new) (λ al, rb_destroy) (λ al, keep_this (map_step lt eqb veqb dflt)) []
    (map_fault_spec lt eqb veqb dflt) (λ _, True) (map_aborted lt eqb) same_members ops.
  Proof. first [exact map_survives_failures | apply map_survives_failures | intros; eapply map_survives_failures; eassumption]. Qed.

  (** vector: a call throws only if the capacity did not suffice. *)
  Theorem C79_ve_survives_failures :
    ∀ {V : Type} (dflt : V) (eqb : V → V → bool) ops,
  survives_failures (λ al : Allocator (list (option V)), v_new) (λ al, v_destroy) (λ al, ve_step dflt eqb) ([], 0)
    (ve_fault_spec dflt eqb) (λ _, True) ve_aborted ve_members ops.
  Proof. first [exact ve_survives_failures | apply ve_survives_failures | intros; eapply ve_survives_failures; eassumption]. Qed.

  (** vector_map. *)
  Theorem C79_vm_survives_failures :
    ∀ {K T : Type} (keq : K → K → bool) (dfltK : K) (dfltT : T) (eqb : K * T → K * T → bool) ops,
  survives_failures (λ al : Allocator (list (option (K * T))), v_new) (λ al, v_destroy) (λ al, vm_step keq dfltK dfltT eqb) ([], 0)
    (vm_fault_spec keq dfltK dfltT eqb) (λ _, True) (vm_aborted keq) vm_members ops.
  Proof. first [exact vm_survives_failures | apply vm_survives_failures | intros; eapply vm_survives_failures; eassumption]. Qed.

  (** forward_list push_front either adds one node or throws and nothing at all has changed. *)
  Theorem C80_fl_push_front_strong :
    ∀ {V : Type} this (xs : list (loc * V)) r v,
  refers xs r v →
  runs_or_throws (is_flist this xs) (λ al : Allocator (cell V), fl_push_front this r)
    (λ _ h, ∃ l, is_flist this ((l, v) :: xs) h) (is_flist this xs).
  Proof. first [exact fl_push_front_strong | apply fl_push_front_strong | intros; eapply fl_push_front_strong; eassumption]. Qed.

  (** forward_list insert_after(pos, x). *)
  Theorem C80_fl_insert_after_strong :
    ∀ {V : Type} this (xs : list (loc * V)) i r v,
  i ≤ length xs → refers xs r v →
  runs_or_throws (is_flist this xs) (λ al : Allocator (cell V), fl_insert_after (pos_at this xs i) r)
    (λ p h, ∃ l, p = Some l ∧ is_flist this (take i xs ++ (l, v) :: drop i xs) h) (is_flist this xs).
  Proof. first [exact fl_insert_after_strong | apply fl_insert_after_strong | intros; eapply fl_insert_after_strong; eassumption]. Qed.

  (** backward_list push_back: if it throws, the members are those before the call, too. *)
  Theorem C80_bl_push_back_strong :
    ∀ {V : Type} b (xs : list (loc * V)) r v,
  refers xs r v →
  runs_or_throws (is_blist b xs) (λ al : Allocator (cell V), bl_push_back b r)
    (λ b' h, ∃ l, bl_head b' = bl_head b ∧ is_blist b' (xs ++ [(l, v)]) h) (is_blist b xs).
  Proof. first [exact bl_push_back_strong | apply bl_push_back_strong | intros; eapply bl_push_back_strong; eassumption]. Qed.

  (** backward_list push_front. *)
  Theorem C80_bl_push_front_strong :
    ∀ {V : Type} b (xs : list (loc * V)) r v,
  refers xs r v →
  runs_or_throws (is_blist b xs) (λ al : Allocator (cell V), bl_push_front b r)
    (λ b' h, ∃ l, bl_head b' = bl_head b ∧ is_blist b' ((l, v) :: xs) h) (is_blist b xs).
  Proof. first [exact bl_push_front_strong | apply bl_push_front_strong | intros; eapply bl_push_front_strong; eassumption]. Qed.

  (** backward_list insert_after(pos, x). *)
  Theorem C80_bl_insert_after_strong :
    ∀ {V : Type} b (xs : list (loc * V)) i r v,
  i ≤ length xs → refers xs r v →
  runs_or_throws (is_blist b xs) (λ al : Allocator (cell V), bl_insert_after b (pos_at (bl_head b) xs i) r)
    (λ '(b', p) h, ∃ l, bl_head b' = bl_head b ∧ p = Some l ∧
       is_blist b' (take i xs ++ (l, v) :: drop i xs) h) (is_blist b xs).
  Proof. first [exact bl_insert_after_strong | apply bl_insert_after_strong | intros; eapply bl_insert_after_strong; eassumption]. Qed.

  (** lazy_queue push_back. *)
  Theorem C80_lq_push_back_strong :
    ∀ {V : Type} q (xs : list (loc * V)) ds r v,
  refers xs r v →
  runs_or_throws (is_lqueue q xs ds) (λ al : Allocator (cell V), lq_push_back q r)
    (λ q' h, ∃ l, lq_head q' = lq_head q ∧ reused [l] ds ∧
       is_lqueue q' (xs ++ [(l, v)]) (drop 1 ds) h) (is_lqueue q xs ds).
  Proof. first [exact lq_push_back_strong | apply lq_push_back_strong | intros; eapply lq_push_back_strong; eassumption]. Qed.

  (** lazy_queue push_front. *)
  Theorem C80_lq_push_front_strong :
    ∀ {V : Type} q (xs : list (loc * V)) ds r v,
  refers xs r v →
  runs_or_throws (is_lqueue q xs ds) (λ al : Allocator (cell V), lq_push_front q r)
    (λ q' h, ∃ l, lq_head q' = lq_head q ∧ reused [l] ds ∧
       is_lqueue q' ((l, v) :: xs) (drop 1 ds) h) (is_lqueue q xs ds).
  Proof. first [exact lq_push_front_strong | apply lq_push_front_strong | intros; eapply lq_push_front_strong; eassumption]. Qed.

  (** lazy_queue insert_after(pos, x). *)
  Theorem C80_lq_insert_after_strong :
    ∀ {V : Type} q (xs : list (loc * V)) ds i r v,
  i ≤ length xs → refers xs r v →
  runs_or_throws (is_lqueue q xs ds) (λ al : Allocator (cell V), lq_insert_after q (pos_at (lq_head q) xs i) r)
    (λ '(q', p) h, ∃ l, lq_head q' = lq_head q ∧ p = Some l ∧ reused [l] ds ∧
       is_lqueue q' (take i xs ++ (l, v) :: drop i xs) (drop 1 ds) h) (is_lqueue q xs ds).
  Proof. first [exact lq_insert_after_strong | apply lq_insert_after_strong | intros; eapply lq_insert_after_strong; eassumption]. Qed.

  (** forward_list pop_front never throws. *)
  Theorem C81_fl_pop_front_nothrow :
    ∀ {V : Type} this l v (xs : list (loc * V)),
  runs_or_throws (is_flist this ((l, v) :: xs)) (λ al : Allocator (cell V), fl_pop_front this)
    (λ _ h, is_flist this xs h) (λ _, False).
  Proof. first [exact fl_pop_front_nothrow | apply fl_pop_front_nothrow | intros; eapply fl_pop_front_nothrow; eassumption]. Qed.

  (** forward_list erase_after(pos). *)
  Theorem C81_fl_erase_after_nothrow :
    ∀ {V : Type} this (xs : list (loc * V)) i,
  i < length xs →
  runs_or_throws (is_flist this xs) (λ al : Allocator (cell V), fl_erase_after (pos_at this xs i))
    (λ p h, p = pos_at this xs (S (S i)) ∧ is_flist this (take i xs ++ drop (S i) xs) h) (λ _, False).
  Proof. first [exact fl_erase_after_nothrow | apply fl_erase_after_nothrow | intros; eapply fl_erase_after_nothrow; eassumption]. Qed.

  (** forward_list clear. *)
  Theorem C81_fl_clear_nothrow :
    ∀ {V : Type} fuel this (xs : list (loc * V)),
  length xs < fuel →
  runs_or_throws (is_flist this xs) (λ al : Allocator (cell V), fl_clear fuel this) (λ _ h, is_flist this [] h) (λ _, False).
  Proof. first [exact fl_clear_nothrow | apply fl_clear_nothrow | intros; eapply fl_clear_nothrow; eassumption]. Qed.

  (** forward_list destructor. *)
  Theorem C81_fl_destroy_nothrow :
    ∀ {V : Type} fuel this (xs : list (loc * V)),
  length xs < fuel →
  runs_or_throws (is_flist this xs) (λ al : Allocator (cell V), fl_destroy fuel this) (λ _ h, nothing h) (λ _, False).
  Proof. first [exact fl_destroy_nothrow | apply fl_destroy_nothrow | intros; eapply fl_destroy_nothrow; eassumption]. Qed.

  (** forward_list swap. *)
  Theorem C81_fl_swap_nothrow :
    ∀ {V : Type} a b (xs ys : list (loc * V)),
  runs_or_throws (both (is_flist a xs) (is_flist b ys)) (λ al : Allocator (cell V), fl_swap a b)
    (λ _ h, both (is_flist a ys) (is_flist b xs) h) (λ _, False).
  Proof. first [exact fl_swap_nothrow | apply fl_swap_nothrow | intros; eapply fl_swap_nothrow; eassumption]. Qed.

  (** forward_list reverse. *)
  Theorem C81_fl_reverse_nothrow :
    ∀ {V : Type} fuel this (xs : list (loc * V)),
  length xs < fuel →
  runs_or_throws (is_flist this xs) (λ al : Allocator (cell V), fl_reverse fuel this) (λ _ h, is_flist this (reverse xs) h) (λ _, False).
  Proof. first [exact fl_reverse_nothrow | apply fl_reverse_nothrow | intros; eapply fl_reverse_nothrow; eassumption]. Qed.

  (** backward_list erase_after(pos). *)
  Theorem C81_bl_erase_after_nothrow :
    ∀ {V : Type} b (xs : list (loc * V)) i,
  i < length xs →
  runs_or_throws (is_blist b xs) (λ al : Allocator (cell V), bl_erase_after b (pos_at (bl_head b) xs i))
    (λ '(b', p) h, bl_head b' = bl_head b ∧ p = pos_at (bl_head b) xs (S (S i)) ∧
       is_blist b' (take i xs ++ drop (S i) xs) h) (λ _, False).
  Proof. first [exact bl_erase_after_nothrow | apply bl_erase_after_nothrow | intros; eapply bl_erase_after_nothrow; eassumption]. Qed.

  (** lazy_queue pop_front. *)
  Theorem C81_lq_pop_front_nothrow :
    ∀ {V : Type} q l v (xs : list (loc * V)) ds,
  runs_or_throws (is_lqueue q ((l, v) :: xs) ds) (λ al : Allocator (cell V), lq_pop_front q)
    (λ q' h, lq_head q' = lq_head q ∧ is_lqueue q' xs (l :: ds) h) (λ _, False).
  Proof. first [exact lq_pop_front_nothrow | apply lq_pop_front_nothrow | intros; eapply lq_pop_front_nothrow; eassumption]. Qed.

  (** list insert(pos, x). *)
  Theorem C80_dl_insert_strong :
    ∀ {V : Type} this (xs : list (loc * V)) i r v,
  i ≤ length xs → drefers xs r v →
  runs_or_throws (is_dlist this xs) (λ al : Allocator (dcell V), dl_insert (dpos this xs i) r)
    (λ p h, ∃ l, p = Some l ∧ is_dlist this (take i xs ++ (l, v) :: drop i xs) h) (is_dlist this xs).
  Proof. first [exact dl_insert_strong | apply dl_insert_strong | intros; eapply dl_insert_strong; eassumption]. Qed.

  (** list erase(pos). *)
  Theorem C81_dl_erase_nothrow :
    ∀ {V : Type} this (xs : list (loc * V)) i,
  i < length xs →
  runs_or_throws (is_dlist this xs) (λ al : Allocator (dcell V), dl_erase (dpos this xs i))
    (λ p h, p = dpos this xs (S i) ∧ is_dlist this (take i xs ++ drop (S i) xs) h) (λ _, False).
  Proof. first [exact dl_erase_nothrow | apply dl_erase_nothrow | intros; eapply dl_erase_nothrow; eassumption]. Qed.

  (** list destructor. *)
  Theorem C81_dl_destroy_nothrow :
    ∀ {V : Type} fuel this (xs : list (loc * V)),
  length xs < fuel →
  runs_or_throws (is_dlist this xs) (λ al : Allocator (dcell V), dl_destroy fuel this) (λ _ h, nothing h) (λ _, False).
  Proof. first [exact dl_destroy_nothrow | apply dl_destroy_nothrow | intros; eapply dl_destroy_nothrow; eassumption]. Qed.

  (** list splice of a whole list. *)
  Theorem C81_dl_splice_all_nothrow :
    ∀ {V : Type} this other (xs ys : list (loc * V)) i,
  i ≤ length xs → ys ≠ [] →
  runs_or_throws (both (is_dlist this xs) (is_dlist other ys)) (λ al : Allocator (dcell V), dl_splice_all (dpos this xs i) other)
    (λ _ h, both (is_dlist this (take i xs ++ ys ++ drop i xs)) (is_dlist other []) h) (λ _, False).
  Proof. first [exact dl_splice_all_nothrow | apply dl_splice_all_nothrow | intros; eapply dl_splice_all_nothrow; eassumption]. Qed.

  (** set/map insert(v): it throws only if the key is new, and then nothing at all has changed. *)
  Theorem C80_insert_strong :
    ∀ {K V : Type} (keyof : V → K) (lt eqb : K → K → bool) fuel this (xs : list (loc * V)) (v : V),
  RbSpec.key_order lt eqb → log_steps (length xs) < fuel →
  runs_or_throws (is_map keyof lt this xs) (λ al : Allocator (rbcell V), m_insert keyof lt eqb fuel this v)
    (λ '(p, b) h,
       b = negb (has keyof eqb (keyof v) xs.*2) ∧
       if b then ∃ i n, p = Some n ∧ i ≤ length xs ∧
                  is_map keyof lt this (take i xs ++ (n, v) :: drop i xs) h
       else ∃ i x w, xs !! i = Some (x, w) ∧ eqb (keyof v) (keyof w) = true ∧
                  p = Some x ∧ is_map keyof lt this xs h)
    (λ h, has keyof eqb (keyof v) xs.*2 = false ∧ is_map keyof lt this xs h).
  Proof. first [exact insert_strong | apply insert_strong | intros; eapply insert_strong; eassumption]. Qed.

  (** set/map insert(v) of a present key never throws. *)
  Theorem C80_insert_present_nothrow :
    ∀ {K V : Type} (keyof : V → K) (lt eqb : K → K → bool) fuel this (xs : list (loc * V)) (v : V),
  RbSpec.key_order lt eqb → log_steps (length xs) < fuel → has keyof eqb (keyof v) xs.*2 = true →
  runs_or_throws (is_map keyof lt this xs) (λ al : Allocator (rbcell V), m_insert keyof lt eqb fuel this v)
    (λ '(p, b) h, b = false ∧ ∃ i x w, xs !! i = Some (x, w) ∧ eqb (keyof v) (keyof w) = true ∧
       p = Some x ∧ is_map keyof lt this xs h) (λ _, False).
  Proof. first [exact insert_present_nothrow | apply insert_present_nothrow | intros; eapply insert_present_nothrow; eassumption]. Qed.

  (** set/map insert(v) of a present key never throws. *)
  Theorem C81_insert_present_nothrow :
    ∀ {K V : Type} (keyof : V → K) (lt eqb : K → K → bool) fuel this (xs : list (loc * V)) (v : V),
  RbSpec.key_order lt eqb → log_steps (length xs) < fuel → has keyof eqb (keyof v) xs.*2 = true →
  runs_or_throws (is_map keyof lt this xs) (λ al : Allocator (rbcell V), m_insert keyof lt eqb fuel this v)
    (λ '(p, b) h, b = false ∧ ∃ i x w, xs !! i = Some (x, w) ∧ eqb (keyof v) (keyof w) = true ∧
       p = Some x ∧ is_map keyof lt this xs h) (λ _, False).
  Proof. first [exact insert_present_nothrow | apply insert_present_nothrow | intros; eapply insert_present_nothrow; eassumption]. Qed.

  (** set/map erase(key). *)
  Theorem C81_erase_nothrow :
    ∀ {K V : Type} (keyof : V → K) (lt eqb : K → K → bool) fuel this (xs : list (loc * V)) (key : K),
  RbSpec.key_order lt eqb → log_steps (length xs) < fuel →
  runs_or_throws (is_map keyof lt this xs) (λ al : Allocator (rbcell V), m_erase keyof lt eqb fuel this key)
    (λ r h,
       if has keyof eqb key xs.*2
       then r = 1 ∧ ∃ i x w, xs !! i = Some (x, w) ∧ eqb key (keyof w) = true ∧
              is_map keyof lt this (take i xs ++ drop (S i) xs) h
       else r = 0 ∧ is_map keyof lt this xs h) (λ _, False).
  Proof. first [exact erase_nothrow | apply erase_nothrow | intros; eapply erase_nothrow; eassumption]. Qed.

  (** set/map find(key). *)
  Theorem C81_find_nothrow :
    ∀ {K V : Type} (keyof : V → K) (lt eqb : K → K → bool) fuel this (xs : list (loc * V)) (key : K),
  RbSpec.key_order lt eqb → log_steps (length xs) < fuel →
  runs_or_throws (is_map keyof lt this xs) (λ al : Allocator (rbcell V), m_find keyof lt eqb fuel this key)
    (λ p h,
       is_map keyof lt this xs h ∧
       if has keyof eqb key xs.*2
       then ∃ i x w, xs !! i = Some (x, w) ∧ eqb key (keyof w) = true ∧ p = Some x
       else p = m_end this) (λ _, False).
  Proof. first [exact find_nothrow | apply find_nothrow | intros; eapply find_nothrow; eassumption]. Qed.

  (** set/map clear. *)
  Theorem C81_clear_nothrow :
    ∀ {K V : Type} (keyof : V → K) (lt : K → K → bool) fuel this (xs : list (loc * V)),
  log_steps (length xs) < fuel →
  runs_or_throws (is_map keyof lt this xs) (λ al : Allocator (rbcell V), m_clear fuel this) (λ _ h, is_map keyof lt this [] h) (λ _, False).
  Proof. first [exact clear_nothrow | apply clear_nothrow | intros; eapply clear_nothrow; eassumption]. Qed.

  (** set/map destructor. *)
  Theorem C81_destroy_nothrow :
    ∀ {K V : Type} (keyof : V → K) (lt : K → K → bool) fuel this (xs : list (loc * V)),
  log_steps (length xs) < fuel →
  runs_or_throws (is_map keyof lt this xs) (λ al : Allocator (rbcell V), rb_destroy fuel this) (λ _ h, nothing h) (λ _, False).
  Proof. first [exact destroy_nothrow | apply destroy_nothrow | intros; eapply destroy_nothrow; eassumption]. Qed.

  (** map operator[](key) of a present key never throws. *)
  Theorem C80_index_present_nothrow :
    ∀ {K T : Type} (lt eqb : K → K → bool) (dflt : T) fuel this (xs : list (loc * (K * T))) (key : K),
  RbSpec.key_order lt eqb → log_steps (length xs) < fuel → has fst eqb key xs.*2 = true →
  runs_or_throws (is_map fst lt this xs) (λ al : Allocator (rbcell (K * T)), m_index lt eqb dflt fuel this key)
    (λ p h, ∃ i x w, xs !! i = Some (x, w) ∧ eqb key w.1 = true ∧ p = Some x ∧ is_map fst lt this xs h) (λ _, False).
  Proof. first [exact index_present_nothrow | apply index_present_nothrow | intros; eapply index_present_nothrow; eassumption]. Qed.

  (** map operator[](key) of a present key never throws. *)
  Theorem C81_index_present_nothrow :
    ∀ {K T : Type} (lt eqb : K → K → bool) (dflt : T) fuel this (xs : list (loc * (K * T))) (key : K),
  RbSpec.key_order lt eqb → log_steps (length xs) < fuel → has fst eqb key xs.*2 = true →
  runs_or_throws (is_map fst lt this xs) (λ al : Allocator (rbcell (K * T)), m_index lt eqb dflt fuel this key)
    (λ p h, ∃ i x w, xs !! i = Some (x, w) ∧ eqb key w.1 = true ∧ p = Some x ∧ is_map fst lt this xs h) (λ _, False).
  Proof. first [exact index_present_nothrow | apply index_present_nothrow | intros; eapply index_present_nothrow; eassumption]. Qed.

  (** map operator[](key): it throws only if the key is new, and then nothing at all has changed. *)
  Theorem C80_index_strong :
    ∀ {K T : Type} (lt eqb : K → K → bool) (dflt : T) fuel this (xs : list (loc * (K * T))) (key : K),
  RbSpec.key_order lt eqb → log_steps (length xs) < fuel →
  runs_or_throws (is_map fst lt this xs) (λ al : Allocator (rbcell (K * T)), m_index lt eqb dflt fuel this key)
    (λ p h,
       if has fst eqb key xs.*2
       then ∃ i x w, xs !! i = Some (x, w) ∧ eqb key w.1 = true ∧
                  p = Some x ∧ is_map fst lt this xs h
       else ∃ i n, p = Some n ∧ i ≤ length xs ∧
                  is_map fst lt this (take i xs ++ (n, (key, dflt)) :: drop i xs) h)
    (λ h, has fst eqb key xs.*2 = false ∧ is_map fst lt this xs h).
  Proof. first [exact index_strong | apply index_strong | intros; eapply index_strong; eassumption]. Qed.

  (** vector push_back. *)
  Theorem C80_vec_push_back_strong :
    ∀ {V : Type} fuel v (xs : list V) r x,
  vrefers v xs r x → length xs + 1 < fuel →
  runs_or_throws (is_vec v xs) (λ al : Allocator (list (option V)), v_push_back fuel v r)
    (λ v' h, v_capacity v' = grown xs (v_capacity v) 1 ∧
       (length xs < v_capacity v → v_buf v' = v_buf v) ∧ is_vec v' (xs ++ [x]) h) (is_vec v xs).
  Proof. first [exact vec_push_back_strong | apply vec_push_back_strong | intros; eapply vec_push_back_strong; eassumption]. Qed.

  (** vector insert(pos, n, x). *)
  Theorem C80_vec_insert_n_strong :
    ∀ {V : Type} fuel v (xs : list V) pos n r x,
  pos ≤ length xs → vrefers v xs r x → length xs + n < fuel →
  match r with VExt _ => True | VSlot _ j => n = 0 ∨ j < pos ∨ v_capacity v < length xs + n end →
  runs_or_throws (is_vec v xs) (λ al : Allocator (list (option V)), v_insert_n fuel v pos n r)
    (λ '(v', i) h, i = pos ∧ v_capacity v' = grown xs (v_capacity v) n ∧
       (length xs + n ≤ v_capacity v → v_buf v' = v_buf v) ∧
       is_vec v' (take pos xs ++ replicate n x ++ drop pos xs) h) (is_vec v xs).
  Proof. first [exact vec_insert_n_strong | apply vec_insert_n_strong | intros; eapply vec_insert_n_strong; eassumption]. Qed.

  (** vector resize(n, x). *)
  Theorem C80_vec_resize_strong :
    ∀ {V : Type} (dflt : V) fuel v (xs : list V) n r x,
  vrefers v xs r x → length xs + n < fuel →
  runs_or_throws (is_vec v xs) (λ al : Allocator (list (option V)), v_resize_to dflt fuel v n r)
    (λ v' h, v_size v' = n ∧ (n ≤ v_capacity v → v_buf v' = v_buf v) ∧
       v_capacity v' = grown xs (v_capacity v) (n - length xs) ∧
       is_vec v' (take n xs ++ replicate (n - length xs) x) h) (is_vec v xs).
  Proof. first [exact vec_resize_strong | apply vec_resize_strong | intros; eapply vec_resize_strong; eassumption]. Qed.

  (** vector reserve(n). *)
  Theorem C80_vec_reserve_strong :
    ∀ {V : Type} fuel v (xs : list V) n,
  length xs < fuel →
  runs_or_throws (is_vec v xs) (λ al : Allocator (list (option V)), v_reserve fuel v n)
    (λ v' h, v_capacity v' = v_capacity v `max` n ∧ (n < v_capacity v → v' = v) ∧
       is_vec v' xs h) (is_vec v xs).
  Proof. first [exact vec_reserve_strong | apply vec_reserve_strong | intros; eapply vec_reserve_strong; eassumption]. Qed.

  (** vector copy constructor: if it throws, the source is intact and nothing else is left. *)
  Theorem C82_vec_copy_strong :
    ∀ {V : Type} fuel v (xs : list V),
  length xs < fuel →
  runs_or_throws (is_vec v xs) (λ al : Allocator (list (option V)), v_copy fuel v)
    (λ v' h, v_capacity v' = length xs ∧ both (is_vec v xs) (is_vec v' xs) h) (is_vec v xs).
  Proof. first [exact vec_copy_strong | apply vec_copy_strong | intros; eapply vec_copy_strong; eassumption]. Qed.

  (** forward_list(n, value): if the constructor throws, memory is consistent: either
   nothing was allocated or the unfinished object and the first k < n nodes are there. Missing: that
   the nodes are released; the destructor of an object whose constructor threw does not run. *)
  Theorem C82_fl_new_n_throws_partial :
    ∀ {V : Type} n (v : V),
  runs_or_throws nothing (λ al : Allocator (cell V), fl_new_n n (ExtVal v))
    (λ this h, ∃ ys, ys.*2 = replicate n v ∧ is_flist this ys h)
    (λ h, nothing h ∨ ∃ this ys k, k < n ∧ ys.*2 = replicate k v ∧ is_flist this ys h).
  Proof. first [exact fl_new_n_throws | apply fl_new_n_throws | intros; eapply fl_new_n_throws; eassumption]. Qed.

  (** for every k < n the constructor can throw after it has allocated k nodes: they
   stay allocated and nothing refers to them. *)
  Theorem C82_fl_new_n_leaks_refuted :
    ∀ {V : Type} n k (v : V),
  k < n →
  can_throw nothing (λ al : Allocator (cell V), fl_new_n n (ExtVal v))
    (λ h, ∃ this ys, ys.*2 = replicate k v ∧ is_flist this ys h).
  Proof. first [exact fl_new_n_leaks | apply fl_new_n_leaks | intros; eapply fl_new_n_leaks; eassumption]. Qed.

  (** map and set operator=: if it throws, the target is empty and the source is intact.
   Missing: that no other memory is left. *)
  Theorem C82_map_assign_throws_partial :
    ∀ {K V : Type} (keyof : V → K) (lt : K → K → bool) fuel this other (xs ys : list (loc * V)),
  log_steps (length xs) < fuel → log_steps (length ys) < fuel →
  runs_or_throws (both (is_map keyof lt this xs) (is_map keyof lt other ys)) (λ al : Allocator (rbcell V), m_assign fuel this other)
    (λ _ h, ∃ zs, zs.*2 = ys.*2 ∧ both (is_map keyof lt this zs) (is_map keyof lt other ys) h)
    (both (both (is_map keyof lt this []) (is_map keyof lt other ys)) whatever).
  Proof. first [exact map_assign_throws | apply map_assign_throws | intros; eapply map_assign_throws; eassumption]. Qed.

  (** for every source of at least two elements the assignment can throw with the target
   empty, the source intact and a node that belongs to neither. *)
  Theorem C82_map_assign_leaks_refuted :
    ∀ {K V : Type} (keyof : V → K) (lt : K → K → bool) fuel this other (xs ys : list (loc * V)),
  2 ≤ length ys → log_steps (length xs) < fuel → log_steps (length ys) < fuel →
  can_throw (both (is_map keyof lt this xs) (is_map keyof lt other ys)) (λ al : Allocator (rbcell V), m_assign fuel this other)
    (both (both (is_map keyof lt this []) (is_map keyof lt other ys)) one_cell).
  Proof. first [exact map_assign_leaks | apply map_assign_leaks | intros; eapply map_assign_leaks; eassumption]. Qed.

  (** map and set copy constructor: if it throws, the source is intact. *)
  Theorem C82_map_copy_throws_partial :
    ∀ {K V : Type} (keyof : V → K) (lt : K → K → bool) fuel other (xs : list (loc * V)),
  log_steps (length xs) < fuel →
  runs_or_throws (is_map keyof lt other xs) (λ al : Allocator (rbcell V), m_copy fuel other)
    (λ this h, ∃ ys, ys.*2 = xs.*2 ∧ both (is_map keyof lt this ys) (is_map keyof lt other xs) h)
    (both (is_map keyof lt other xs) whatever).
  Proof. first [exact map_copy_throws | apply map_copy_throws | intros; eapply map_copy_throws; eassumption]. Qed.

  (** for every source of at least two elements the copy constructor can throw with an
   empty new object and a node that belongs to nothing. *)
  Theorem C82_map_copy_leaks_refuted :
    ∀ {K V : Type} (keyof : V → K) (lt : K → K → bool) fuel other (xs : list (loc * V)),
  2 ≤ length xs → log_steps (length xs) < fuel →
  can_throw (is_map keyof lt other xs) (λ al : Allocator (rbcell V), m_copy fuel other)
    (both (is_map keyof lt other xs) (λ h, ∃ this, both (is_map keyof lt this []) one_cell h)).
  Proof. first [exact map_copy_leaks | apply map_copy_leaks | intros; eapply map_copy_leaks; eassumption]. Qed.

  (** the range constructor of map and set: if it throws, either nothing has been allocated, or the
   tree - a member, whose destructor runs - holds the elements inserted so far, and destroying it
   leaves nothing. *)
  Theorem C82_map_new_range_throws :
    ∀ {K V : Type} (keyof : V → K) (lt eqb : K → K → bool) fuel (vs : list V),
  RbSpec.key_order lt eqb → S (2 * length vs) ≤ fuel →
  runs_or_throws nothing (λ al : Allocator (rbcell V), m_new_range keyof lt eqb fuel vs)
    (λ this h, ∃ xs, xs.*2 = foldl (λ ws v, s_insert keyof lt eqb v ws) [] vs ∧ is_map keyof lt this xs h)
    (λ h, nothing h ∨ ∃ this xs k, k < length vs ∧
       xs.*2 = foldl (λ ws v, s_insert keyof lt eqb v ws) [] (take k vs) ∧ is_map keyof lt this xs h ∧
       ∀ al : Allocator (rbcell V), runs (λ h', h' = h) (rb_destroy fuel this) (λ _, nothing)).
  Proof. first [exact map_new_range_throws | apply map_new_range_throws | intros; eapply map_new_range_throws; eassumption]. Qed.

  (** list(n, value): if the constructor throws, either nothing was allocated or the
   unfinished object and its first k < n nodes are there. Missing: that they are released. *)
  Theorem C82_dl_new_n_throws_partial :
    ∀ {V : Type} n (v : V),
  runs_or_throws nothing (λ al : Allocator (dcell V), dl_new_n n (DExt v))
    (λ this h, ∃ ys, ys.*2 = replicate n v ∧ is_dlist this ys h)
    (λ h, nothing h ∨ ∃ this ys k, k < n ∧ ys.*2 = replicate k v ∧ is_dlist this ys h).
  Proof. first [exact dl_new_n_throws | apply dl_new_n_throws | intros; eapply dl_new_n_throws; eassumption]. Qed.

  (** list(n, value): for every k < n the constructor can throw after it has allocated k
   nodes: they stay allocated and nothing refers to them. *)
  Theorem C82_dl_new_n_leaks_refuted :
    ∀ {V : Type} n k (v : V),
  k < n →
  can_throw nothing (λ al : Allocator (dcell V), dl_new_n n (DExt v))
    (λ h, ∃ this ys, ys.*2 = replicate k v ∧ is_dlist this ys h).
  Proof. first [exact dl_new_n_leaks | apply dl_new_n_leaks | intros; eapply dl_new_n_leaks; eassumption]. Qed.

  (** backward_list(n, value). *)
  Theorem C82_bl_new_n_leaks_refuted :
    ∀ {V : Type} n k (v : V),
  k < n →
  can_throw nothing (λ al : Allocator (cell V), bl_new_n n (ExtVal v))
    (λ h, ∃ this ys, ys.*2 = replicate k v ∧ is_flist this ys h).
  Proof. first [exact bl_new_n_leaks | apply bl_new_n_leaks | intros; eapply bl_new_n_leaks; eassumption]. Qed.

  (** lazy_queue(n, value). *)
  Theorem C82_lq_new_n_leaks_refuted :
    ∀ {V : Type} n k (v : V),
  k < n →
  can_throw nothing (λ al : Allocator (cell V), lq_new_n n (ExtVal v))
    (λ h, ∃ q ys, ys.*2 = replicate k v ∧ is_lqueue q ys [] h).
  Proof. first [exact lq_new_n_leaks | apply lq_new_n_leaks | intros; eapply lq_new_n_leaks; eassumption]. Qed.

  (** sorted_vector_map copy constructor: if it throws, the source is intact, and what else
   is in memory is a map with copies of the first elements only. Missing: that it is released. *)
  Theorem C82_svm_copy_throws_partial :
    ∀ {K T : Type} fuel v (les : list (loc * (K * T))),
  length les < fuel →
  runs_or_throws (is_svm v les) (λ al : Allocator (svcell K T), sv_copy fuel v)
    (λ v' h, ∃ les', les'.*2 = les.*2 ∧ sv_end v' = sv_end v ∧ both (is_svm v les) (is_svm v' les') h)
    (λ h, is_svm v les h ∨ ∃ v' les', length les' < length les ∧ les'.*2 = take (length les') les.*2 ∧ both (is_svm v les) (is_svm v' les') h).
  Proof. first [exact svm_copy_throws | apply svm_copy_throws | intros; eapply svm_copy_throws; eassumption]. Qed.

  (** sorted_vector_map copy constructor: for every k less than the number of elements it can
   throw with an array and k copies allocated that nothing refers to. *)
  Theorem C82_svm_copy_leaks_refuted :
    ∀ {K T : Type} fuel v (les : list (loc * (K * T))) k,
  k < length les → length les < fuel →
  can_throw (is_svm v les) (λ al : Allocator (svcell K T), sv_copy fuel v)
    (both (is_svm v les) (λ h, ∃ v' les', les'.*2 = take k les.*2 ∧ is_svm v' les' h)).
  Proof. first [exact svm_copy_leaks | apply svm_copy_leaks | intros; eapply svm_copy_leaks; eassumption]. Qed.

  (** sorted_vector_map insert, exactly: a present key never throws; when a new key throws
   in a full array, the map is as it was and at most one allocation is left behind; when it throws in
   an array with room, the map is left counting an element that does not exist ([sv_torn]). Missing:
   that the map can be used again. *)
  Theorem C83_svm_insert_throws_partial :
    ∀ {K T : Type} (keq comp : K → K → bool) (ulim fuel : nat) v (les : list (loc * (K * T))) k x,
  SvmSpec.key_order keq comp → SvmSpec.ascending comp les.*2 →
  sv_room keq ulim k (les.*2, sv_end v) → sv_end v + 2 < fuel →
  runs_or_throws (is_svm v les) (λ al : Allocator (svcell K T), sv_insert keq comp ulim fuel v (EVal (k, x)))
    (λ '(v', i, fresh) h,
      i = length (SvmSpec.below comp k les.*2) ∧ fresh = negb (SvmSpec.present keq k les.*2) ∧
      if SvmSpec.present keq k les.*2 then v' = v ∧ is_svm v les h
      else ∃ l, is_svm v' (take i les ++ (l, (k, x)) :: drop i les) h)
    (λ h, SvmSpec.present keq k les.*2 = false ∧
      if decide (length les = sv_end v) then is_svm v les h ∨ both (is_svm v les) one_cell h
      else sv_torn (Svm (sv_arr v) (S (sv_last v)) (sv_end v)) les (length (SvmSpec.below comp k les.*2)) h).
  Proof. first [exact svm_insert_throws | apply svm_insert_throws | intros; eapply svm_insert_throws; eassumption]. Qed.

  (** With room in the array, every insertion of a new key that is not the greatest can
   throw and leave the map torn; the destructor of a torn map deletes an element twice. *)
  Theorem C83_svm_insert_tears_refuted :
    ∀ {K T : Type} (keq comp : K → K → bool) (ulim fuel : nat) v (les : list (loc * (K * T))) k x,
  SvmSpec.key_order keq comp → SvmSpec.ascending comp les.*2 →
  sv_room keq ulim k (les.*2, sv_end v) → sv_end v + 2 < fuel →
  SvmSpec.present keq k les.*2 = false → length les < sv_end v → length (SvmSpec.below comp k les.*2) < length les →
  let v' := Svm (sv_arr v) (S (sv_last v)) (sv_end v) in
  can_throw (is_svm v les) (λ al : Allocator (svcell K T), sv_insert keq comp ulim fuel v (EVal (k, x)))
    (sv_torn v' les (length (SvmSpec.below comp k les.*2))) ∧
  ∀ (al : Allocator (svcell K T)) fuel', length les < fuel' →
    fails (sv_torn v' les (length (SvmSpec.below comp k les.*2))) (sv_destroy fuel' v') Dangling.
  Proof. first [exact svm_insert_tears | apply svm_insert_tears | intros; eapply svm_insert_tears; eassumption]. Qed.

  (** In a full array every insertion of a new key can throw and leave an allocation that
   nothing refers to: the new pointer array. *)
  Theorem C83_svm_insert_leaks_refuted :
    ∀ {K T : Type} (keq comp : K → K → bool) (ulim fuel : nat) v (les : list (loc * (K * T))) k x,
  SvmSpec.key_order keq comp → SvmSpec.ascending comp les.*2 →
  sv_room keq ulim k (les.*2, sv_end v) → sv_end v + 2 < fuel →
  SvmSpec.present keq k les.*2 = false → length les = sv_end v →
  can_throw (is_svm v les) (λ al : Allocator (svcell K T), sv_insert keq comp ulim fuel v (EVal (k, x)))
    (both (is_svm v les) one_cell).
  Proof. first [exact svm_insert_leaks | apply svm_insert_leaks | intros; eapply svm_insert_leaks; eassumption]. Qed.

  (** sorted_vector_map operator[], exactly: a present key never throws and designates its
   element; when a new key throws in a full array, the map is as it was and at most one allocation is
   left behind; when it throws in an array with room, the map is torn. Missing: that the map can be
   used again. *)
  Theorem C83_svm_index_throws_partial :
    ∀ {K T : Type} (keq comp : K → K → bool) (dfltT : T) (ulim fuel : nat) v (les : list (loc * (K * T))) k,
  SvmSpec.key_order keq comp → SvmSpec.ascending comp les.*2 →
  sv_room keq ulim k (les.*2, sv_end v) → sv_end v + 2 < fuel →
  let i := length (SvmSpec.below comp k les.*2) in
  runs_or_throws (is_svm v les) (λ al : Allocator (svcell K T), sv_index keq comp dfltT ulim fuel v k)
    (λ '(v', q) h, ∃ l, q = Some l ∧
      if SvmSpec.present keq k les.*2 then v' = v ∧ is_svm v les h ∧ ∃ e, les !! i = Some (l, e) ∧ keq e.1 k = true
      else is_svm v' (take i les ++ (l, (k, dfltT)) :: drop i les) h)
    (λ h, SvmSpec.present keq k les.*2 = false ∧
      if decide (length les = sv_end v) then is_svm v les h ∨ both (is_svm v les) one_cell h
      else sv_torn (Svm (sv_arr v) (S (sv_last v)) (sv_end v)) les i h).
  Proof. first [exact svm_index_throws | apply svm_index_throws | intros; eapply svm_index_throws; eassumption]. Qed.

  (** With room in the array, every m[k] for a new key that is not the greatest can throw and
   leave the map torn; the destructor of a torn map deletes an element twice. *)
  Theorem C83_svm_index_tears_refuted :
    ∀ {K T : Type} (keq comp : K → K → bool) (dfltT : T) (ulim fuel : nat) v (les : list (loc * (K * T))) k,
  SvmSpec.key_order keq comp → SvmSpec.ascending comp les.*2 →
  sv_room keq ulim k (les.*2, sv_end v) → sv_end v + 2 < fuel →
  SvmSpec.present keq k les.*2 = false → length les < sv_end v → length (SvmSpec.below comp k les.*2) < length les →
  let v' := Svm (sv_arr v) (S (sv_last v)) (sv_end v) in
  can_throw (is_svm v les) (λ al : Allocator (svcell K T), sv_index keq comp dfltT ulim fuel v k)
    (sv_torn v' les (length (SvmSpec.below comp k les.*2))) ∧
  ∀ (al : Allocator (svcell K T)) fuel', length les < fuel' →
    fails (sv_torn v' les (length (SvmSpec.below comp k les.*2))) (sv_destroy fuel' v') Dangling.
  Proof. first [exact svm_index_tears | apply svm_index_tears | intros; eapply svm_index_tears; eassumption]. Qed.

  (** backward_list insert_after(pos, n, value): if it throws, the first k < n values are
   there; the list is as usable as before if pos is not the last position (or nothing was inserted).
   Missing: pos is the last position; tail_ is then only updated after the last allocation. *)
  Theorem C84_bl_insert_n_throws_partial :
    ∀ {V : Type} b (xs : list (loc * V)) i n r v,
  i ≤ length xs → refers xs r v →
  runs_or_throws (is_blist b xs) (λ al : Allocator (cell V), bl_insert_after_n b (pos_at (bl_head b) xs i) n r)
    (λ b' h, ∃ ys, ys.*2 = replicate n v ∧ bl_head b' = bl_head b ∧ is_blist b' (take i xs ++ ys ++ drop i xs) h)
    (λ h, ∃ ys k, k < n ∧ ys.*2 = replicate k v ∧ is_flist (bl_head b) (take i xs ++ ys ++ drop i xs) h ∧
       (i < length xs ∨ k = 0 → is_blist b (take i xs ++ ys ++ drop i xs) h)).
  Proof. first [exact bl_insert_n_throws | apply bl_insert_n_throws | intros; eapply bl_insert_n_throws; eassumption]. Qed.

  (** backward_list insert_after(pos, first, last), at any position: whether it throws or
   not, tail_ does not move and the values (the first k of them) are there; the list is usable if pos
   is not the last position or nothing was inserted. Missing: pos is the last position, where tail_ is
   never updated (C24). *)
  Theorem C84_bl_insert_range_throws_partial :
    ∀ {V : Type} b (xs : list (loc * V)) i vs,
  i ≤ length xs →
  runs_or_throws (is_blist b xs) (λ al : Allocator (cell V), bl_insert_after_ext b (pos_at (bl_head b) xs i) vs)
    (λ b' h, b' = b ∧ ∃ ys, ys.*2 = vs ∧ is_flist (bl_head b) (take i xs ++ ys ++ drop i xs) h ∧
       (i < length xs ∨ vs = [] → is_blist b (take i xs ++ ys ++ drop i xs) h))
    (λ h, ∃ ys k, k < length vs ∧ ys.*2 = take k vs ∧ is_flist (bl_head b) (take i xs ++ ys ++ drop i xs) h ∧
       (i < length xs ∨ k = 0 → is_blist b (take i xs ++ ys ++ drop i xs) h)).
  Proof. first [exact bl_insert_range_throws | apply bl_insert_range_throws | intros; eapply bl_insert_range_throws; eassumption]. Qed.

  (** insert_after(before_end(), n, value) can throw after any number k < n of values has
   been appended, with tail_ still on the former last node; push_back then inserts before the k
   values instead of after them, and back() is not the last element. *)
  Theorem C84_bl_insert_n_stale_refuted :
    ∀ {V : Type} b (xs : list (loc * V)) n k v,
  k < n →
  can_throw (is_blist b xs) (λ al : Allocator (cell V), bl_insert_after_n b (bl_before_end b) n (ExtVal v))
    (λ h, ∃ ys, ys.*2 = replicate k v ∧ is_flist (bl_head b) (xs ++ ys) h ∧
       ∀ (al : Allocator (cell V)) w,
         runs (λ h', h' = h) (let! b' := bl_push_back b (ExtVal w) in let! x := bl_back b' in ret (b', x))
           (λ '(b', x) h', x = w ∧ ∃ zs, zs.*2 = xs.*2 ++ [w] ++ replicate k v ∧ is_flist (bl_head b') zs h')).
  Proof. first [exact bl_insert_n_stale | apply bl_insert_n_stale | intros; eapply bl_insert_n_stale; eassumption]. Qed.

  (** lazy_queue push_back requests memory only when no spare node is left; if the request fails the
   queue is as it was. *)
  Theorem C85_lq_push_back_pooled :
    ∀ {V : Type} q (xs : list (loc * V)) ds r v,
  refers xs r v →
  runs_or_throws (is_lqueue q xs ds) (λ al : Allocator (cell V), lq_push_back q r)
    (λ q' h, ∃ l, lq_head q' = lq_head q ∧ reused [l] ds ∧ is_lqueue q' (xs ++ [(l, v)]) (drop 1 ds) h)
    (λ h, ds = [] ∧ is_lqueue q xs ds h).
  Proof. first [exact lq_push_back_pooled | apply lq_push_back_pooled | intros; eapply lq_push_back_pooled; eassumption]. Qed.

  (** lazy_queue push_front. *)
  Theorem C85_lq_push_front_pooled :
    ∀ {V : Type} q (xs : list (loc * V)) ds r v,
  refers xs r v →
  runs_or_throws (is_lqueue q xs ds) (λ al : Allocator (cell V), lq_push_front q r)
    (λ q' h, ∃ l, lq_head q' = lq_head q ∧ reused [l] ds ∧ is_lqueue q' ((l, v) :: xs) (drop 1 ds) h)
    (λ h, ds = [] ∧ is_lqueue q xs ds h).
  Proof. first [exact lq_push_front_pooled | apply lq_push_front_pooled | intros; eapply lq_push_front_pooled; eassumption]. Qed.

  (** lazy_queue insert_after(pos, x). *)
  Theorem C85_lq_insert_after_pooled :
    ∀ {V : Type} q (xs : list (loc * V)) ds i r v,
  i ≤ length xs → refers xs r v →
  runs_or_throws (is_lqueue q xs ds) (λ al : Allocator (cell V), lq_insert_after q (pos_at (lq_head q) xs i) r)
    (λ '(q', p) h, ∃ l, lq_head q' = lq_head q ∧ p = Some l ∧ reused [l] ds ∧
       is_lqueue q' (take i xs ++ (l, v) :: drop i xs) (drop 1 ds) h)
    (λ h, ds = [] ∧ is_lqueue q xs ds h).
  Proof. first [exact lq_insert_after_pooled | apply lq_insert_after_pooled | intros; eapply lq_insert_after_pooled; eassumption]. Qed.

  (** lazy_queue insert_after(pos, n, value) with at least n spare nodes never throws. *)
  Theorem C85_lq_insert_n_nothrow :
    ∀ {V : Type} q (xs : list (loc * V)) ds i n r v,
  i ≤ length xs → refers xs r v → n ≤ length ds →
  runs_or_throws (is_lqueue q xs ds) (λ al : Allocator (cell V), lq_insert_after_n q (pos_at (lq_head q) xs i) n r)
    (λ q' h, ∃ ys, ys.*2 = replicate n v ∧ lq_head q' = lq_head q ∧ reused ys.*1 ds ∧
       is_lqueue q' (take i xs ++ ys ++ drop i xs) (drop n ds) h)
    (λ _, False).
  Proof. first [exact lq_insert_n_nothrow | apply lq_insert_n_nothrow | intros; eapply lq_insert_n_nothrow; eassumption]. Qed.

  (** lazy_queue insert_after(pos, first, last) with at least as many spare nodes as values never
   throws. *)
  Theorem C85_lq_insert_range_nothrow :
    ∀ {V : Type} q (xs : list (loc * V)) ds i vs,
  i ≤ length xs → length vs ≤ length ds →
  runs_or_throws (is_lqueue q xs ds) (λ al : Allocator (cell V), lq_insert_after_ext q (pos_at (lq_head q) xs i) vs)
    (λ q' h, ∃ ys, ys.*2 = vs ∧ lq_head q' = lq_head q ∧ reused ys.*1 ds ∧
       is_lqueue q' (take i xs ++ ys ++ drop i xs) (drop (length vs) ds) h)
    (λ _, False).
  Proof. first [exact lq_insert_range_nothrow | apply lq_insert_range_nothrow | intros; eapply lq_insert_range_nothrow; eassumption]. Qed.

  (** After clear() a lazy_queue takes as many values as it held (and had spare) without requesting
   memory. *)
  Theorem C85_lq_refill_nothrow :
    ∀ {V : Type} fuel q (xs : list (loc * V)) ds vs,
  length xs < fuel → length vs ≤ length xs + length ds →
  runs_or_throws (is_lqueue q xs ds)
    (λ al : Allocator (cell V), let! q' := lq_clear fuel q in lq_insert_after_ext q' (lq_before_begin q') vs)
    (λ q' h, ∃ ys es, ys.*2 = vs ∧ length es = length xs + length ds - length vs ∧ lq_head q' = lq_head q ∧ is_lqueue q' ys es h)
    (λ _, False).
  Proof. first [exact lq_refill_nothrow | apply lq_refill_nothrow | intros; eapply lq_refill_nothrow; eassumption]. Qed.

  (** lazy_queue insert_after(pos, n, value): if it throws, every spare node has been used
   and the first k values are there; the queue is as usable as before if pos is not the last position
   (or nothing was inserted). Missing: pos is the last position; tail_ is then stale. *)
  Theorem C85_lq_insert_n_throws_partial :
    ∀ {V : Type} q (xs : list (loc * V)) ds i n r v,
  i ≤ length xs → refers xs r v →
  runs_or_throws (is_lqueue q xs ds) (λ al : Allocator (cell V), lq_insert_after_n q (pos_at (lq_head q) xs i) n r)
    (λ q' h, ∃ ys, ys.*2 = replicate n v ∧ lq_head q' = lq_head q ∧ reused ys.*1 ds ∧
       is_lqueue q' (take i xs ++ ys ++ drop i xs) (drop n ds) h)
    (λ h, ∃ ys k, length ds ≤ k < n ∧ ys.*2 = replicate k v ∧ reused ys.*1 ds ∧
       let xs' := take i xs ++ ys ++ drop i xs in
       is_lqueue (lq_set_tail q (Some (last_loc (lq_head q) xs'))) xs' [] h ∧
       (i < length xs ∨ k = 0 → is_lqueue q xs' [] h)).
  Proof. first [exact lq_insert_n_throws | apply lq_insert_n_throws | intros; eapply lq_insert_n_throws; eassumption]. Qed.

  (** insert_after(before_end(), n, value) can throw after any number k < n of values (all
   spare nodes used) has been appended, with tail_ still on the former last node; push_back then
   inserts before the k values instead of after them, and back() is not the last element. *)
  Theorem C85_lq_insert_n_stale_refuted :
    ∀ {V : Type} q (xs : list (loc * V)) ds n k v,
  length ds ≤ k < n →
  can_throw (is_lqueue q xs ds) (λ al : Allocator (cell V), lq_insert_after_n q (lq_before_end q) n (ExtVal v))
    (λ h, ∃ ys, ys.*2 = replicate k v ∧ is_lqueue (lq_set_tail q (Some (last_loc (lq_head q) (xs ++ ys)))) (xs ++ ys) [] h ∧
       ∀ (al : Allocator (cell V)) w,
         runs (λ h', h' = h) (let! q' := lq_push_back q (ExtVal w) in let! x := lq_back q' in ret (q', x))
           (λ '(q', x) h', x = w ∧ ∃ zs, zs.*2 = xs.*2 ++ [w] ++ replicate k v ∧
              is_lqueue (lq_set_tail q' (Some (last_loc (lq_head q) zs))) zs [] h')).
  Proof. first [exact lq_insert_n_stale | apply lq_insert_n_stale | intros; eapply lq_insert_n_stale; eassumption]. Qed.



Print Assumptions C79_fl_survives_failures.
Print Assumptions C79_dl_survives_failures.
Print Assumptions C79_set_survives_failures.
Print Assumptions C79_map_survives_failures.
Print Assumptions C79_ve_survives_failures.
Print Assumptions C79_vm_survives_failures.
Print Assumptions C80_fl_push_front_strong.
Print Assumptions C80_fl_insert_after_strong.
Print Assumptions C80_bl_push_back_strong.
Print Assumptions C80_bl_push_front_strong.
Print Assumptions C80_bl_insert_after_strong.
Print Assumptions C80_lq_push_back_strong.
Print Assumptions C80_lq_push_front_strong.
Print Assumptions C80_lq_insert_after_strong.
Print Assumptions C81_fl_pop_front_nothrow.
Print Assumptions C81_fl_erase_after_nothrow.
Print Assumptions C81_fl_clear_nothrow.
Print Assumptions C81_fl_destroy_nothrow.
Print Assumptions C81_fl_swap_nothrow.
Print Assumptions C81_fl_reverse_nothrow.
Print Assumptions C81_bl_erase_after_nothrow.
Print Assumptions C81_lq_pop_front_nothrow.
Print Assumptions C80_dl_insert_strong.
Print Assumptions C81_dl_erase_nothrow.
Print Assumptions C81_dl_destroy_nothrow.
Print Assumptions C81_dl_splice_all_nothrow.
Print Assumptions C80_insert_strong.
Print Assumptions C80_insert_present_nothrow.
Print Assumptions C81_insert_present_nothrow.
Print Assumptions C81_erase_nothrow.
Print Assumptions C81_find_nothrow.
Print Assumptions C81_clear_nothrow.
Print Assumptions C81_destroy_nothrow.
Print Assumptions C80_index_present_nothrow.
Print Assumptions C81_index_present_nothrow.
Print Assumptions C80_index_strong.
Print Assumptions C80_vec_push_back_strong.
Print Assumptions C80_vec_insert_n_strong.
Print Assumptions C80_vec_resize_strong.
Print Assumptions C80_vec_reserve_strong.
Print Assumptions C82_vec_copy_strong.
Print Assumptions C82_fl_new_n_throws_partial.
Print Assumptions C82_fl_new_n_leaks_refuted.
Print Assumptions C82_map_assign_throws_partial.
Print Assumptions C82_map_assign_leaks_refuted.
Print Assumptions C82_map_copy_throws_partial.
Print Assumptions C82_map_copy_leaks_refuted.
Print Assumptions C82_map_new_range_throws.
Print Assumptions C82_dl_new_n_throws_partial.
Print Assumptions C82_dl_new_n_leaks_refuted.
Print Assumptions C82_bl_new_n_leaks_refuted.
Print Assumptions C82_lq_new_n_leaks_refuted.
Print Assumptions C82_svm_copy_throws_partial.
Print Assumptions C82_svm_copy_leaks_refuted.
Print Assumptions C83_svm_insert_throws_partial.
Print Assumptions C83_svm_insert_tears_refuted.
Print Assumptions C83_svm_insert_leaks_refuted.
Print Assumptions C83_svm_index_throws_partial.
Print Assumptions C83_svm_index_tears_refuted.
Print Assumptions C84_bl_insert_n_throws_partial.
Print Assumptions C84_bl_insert_range_throws_partial.
Print Assumptions C84_bl_insert_n_stale_refuted.
Print Assumptions C85_lq_push_back_pooled.
Print Assumptions C85_lq_push_front_pooled.
Print Assumptions C85_lq_insert_after_pooled.
Print Assumptions C85_lq_insert_n_nothrow.
Print Assumptions C85_lq_insert_range_nothrow.
Print Assumptions C85_lq_refill_nothrow.
Print Assumptions C85_lq_insert_n_throws_partial.
Print Assumptions C85_lq_insert_n_stale_refuted.
