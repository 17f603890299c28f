(** Running out of memory: the property lemmas, in the vocabulary of Fault.v, FaultSpec.v and the
    specifications of the containers. *)
From Verif Require Import FaultSl FaultDl FaultMap FaultVec FaultCtor FaultCopy FaultBl FaultLq FaultSvm FaultCtor2 SvmRuns SvmProofs2 RbMap MapHistory DlistLogic ForwardProofs LazyProofs ForwardRuns BackwardRuns LazyRuns DlistRuns MapRuns MappedRuns VecRuns.
From Verif Require Import SvmSpec ForwardSpec BackwardSpec LazySpec DlistSpec MapSpec VecSpec VmapSpec Fault FaultSpec FaultLogic ThreadSpec.
From iris.proofmode Require Import tactics.
(*@HEADER
From Verif Require Import SvmSpec Fault FaultSpec ThreadSpec ForwardSpec BackwardSpec LazySpec DlistSpec MapSpec VecSpec VmapSpec FaultRuns.
@*)
(*@FOOTER
@*)
Ltac cw_hint h ::=
  lazymatch h with
  | @it_advance => cw_by @cl_it_advance
  | @it_go => cw_by @cl_it_go
  | @postorder_destroy => cw_by @cl_postorder_destroy
  | @insert_rebalance => cw_by @cl_insert_rebalance
  | @rb_remove => cw_by @cl_rb_remove
  | @rb_insert_unique => cw_by @cl_insert_unique
  | @v_insert_values => first [ cw_by @cl_insert_stay | cw_by @cl_insert_grow ]
  end.

(*@ C79 forward_list: every program on two lists, in which any call may run out of memory at any of
   its allocations and the client goes on: never undefined behaviour, every call that returns observes
   what the sequences prescribe, a call that threw has left the contents [fl_aborted] allows, the
   other list is untouched, and after both destructors nothing is left in memory. *)
Lemma fl_survives_failures {V : Type} (eqb : V → V → bool) ops :
  survives_failures (λ al : Allocator (cell V), fl_new) (λ al, fl_destroy) (λ al, keep_this (fl_step eqb)) []
    (fl_fault_spec eqb) (λ _, True) fl_aborted same_members ops.
Proof. apply fl_survives. Qed.
(*@ C79 list. *)
Lemma dl_survives_failures {V : Type} (eqb : V → V → bool) (rfirst : bool) ops :
  survives_failures (λ al : Allocator (dcell V), dl_new) (λ al, dl_destroy) (λ al, keep_this (dl_step eqb rfirst)) ([], false)
    (dl_fault_spec eqb) (λ _, True) dl_aborted same_members ops.
Proof. apply dl_survives. Qed.
(*@ C79 set. *)
Lemma set_survives_failures {K V : Type} (keyof : V → K) (lt eqb : K → K → bool) (veqb : V → V → bool) ops :
  RbSpec.key_order lt eqb →
  survives_failures (λ al : Allocator (rbcell V), rb_new) (λ al, rb_destroy) (λ al, keep_this (m_step keyof lt eqb veqb)) []
    (set_fault_spec keyof lt eqb veqb) (λ _, True) (set_aborted keyof lt eqb) same_members ops.
Proof. intros. by apply set_survives. Qed.
(*@ C79 map, with operator[] and m[k] = v. *)
Lemma map_survives_failures {K T : Type} (lt eqb : K → K → bool) (veqb : K * T → K * T → bool) (dflt : T) ops :
  RbSpec.key_order lt eqb →
  survives_failures (λ al : Allocator (rbcell (K * T)), rb_new) (λ al, rb_destroy) (λ al, keep_this (map_step lt eqb veqb dflt)) []
    (map_fault_spec lt eqb veqb dflt) (λ _, True) (map_aborted lt eqb) same_members ops.
Proof. intros. by apply map_survives. Qed.
(*@ C79 vector: a call throws only if the capacity did not suffice. *)
Lemma ve_survives_failures {V : Type} (dflt : V) (eqb : V → V → bool) ops :
  survives_failures (λ al : Allocator (list (option V)), v_new) (λ al, v_destroy) (λ al, ve_step dflt eqb) ([], 0)
    (ve_fault_spec dflt eqb) (λ _, True) ve_aborted ve_members ops.
Proof. apply ve_survives. Qed.
(*@ C79 vector_map. *)
Lemma vm_survives_failures {K T : Type} (keq : K → K → bool) (dfltK : K) (dfltT : T) (eqb : K * T → K * T → bool) ops :
  survives_failures (λ al : Allocator (list (option (K * T))), v_new) (λ al, v_destroy) (λ al, vm_step keq dfltK dfltT eqb) ([], 0)
    (vm_fault_spec keq dfltK dfltT eqb) (λ _, True) (vm_aborted keq) vm_members ops.
Proof. apply vm_survives. Qed.


(*@ C80 forward_list push_front either adds one node or throws and nothing at all has changed. *)
Lemma fl_push_front_strong {V : Type} this (xs : list (loc * V)) r v :
  refers xs r v →
  runs_or_throws (is_flist this xs) (λ al : Allocator (cell V), fl_push_front this r)
    (λ _ h, ∃ l, is_flist this ((l, v) :: xs) h) (is_flist this xs).
Proof. intros. apply (throws_clean 1); [cw|]. intros al. by apply fl_push_front_ok. Qed.
(*@ C80 forward_list insert_after(pos, x). *)
Lemma fl_insert_after_strong {V : Type} this (xs : list (loc * V)) i r v :
  i ≤ length xs → refers xs r v →
  runs_or_throws (is_flist this xs) (λ al : Allocator (cell V), fl_insert_after (pos_at this xs i) r)
    (λ p h, ∃ l, p = Some l ∧ is_flist this (take i xs ++ (l, v) :: drop i xs) h) (is_flist this xs).
Proof. intros. apply (throws_clean 1); [cw|]. intros al. by apply fl_insert_after_ok. Qed.
(*@ C80 backward_list push_back: if it throws, the members are those before the call, too. *)
Lemma bl_push_back_strong {V : Type} b (xs : list (loc * V)) r v :
  refers xs r v →
  runs_or_throws (is_blist b xs) (λ al : Allocator (cell V), bl_push_back b r)
    (λ b' h, ∃ l, bl_head b' = bl_head b ∧ is_blist b' (xs ++ [(l, v)]) h) (is_blist b xs).
Proof. intros. apply (throws_clean 1); [cw|]. intros al. by apply bl_push_back_ok. Qed.
(*@ C80 backward_list push_front. *)
Lemma bl_push_front_strong {V : Type} b (xs : list (loc * V)) r v :
  refers xs r v →
  runs_or_throws (is_blist b xs) (λ al : Allocator (cell V), bl_push_front b r)
    (λ b' h, ∃ l, bl_head b' = bl_head b ∧ is_blist b' ((l, v) :: xs) h) (is_blist b xs).
Proof. intros. apply (throws_clean 1); [cw|]. intros al. by apply bl_push_front_ok. Qed.
(*@ C80 backward_list insert_after(pos, x). *)
Lemma bl_insert_after_strong {V : Type} b (xs : list (loc * V)) i r v :
  i ≤ length xs → refers xs r v →
  runs_or_throws (is_blist b xs) (λ al : Allocator (cell V), bl_insert_after b (pos_at (bl_head b) xs i) r)
    (λ '(b', p) h, ∃ l, bl_head b' = bl_head b ∧ p = Some l ∧
       is_blist b' (take i xs ++ (l, v) :: drop i xs) h) (is_blist b xs).
Proof. intros. apply (throws_clean 1); [cw|]. intros al. by apply bl_insert_after_ok. Qed.
(*@ C80 lazy_queue push_back. *)
Lemma lq_push_back_strong {V : Type} q (xs : list (loc * V)) ds r v :
  refers xs r v →
  runs_or_throws (is_lqueue q xs ds) (λ al : Allocator (cell V), lq_push_back q r)
    (λ q' h, ∃ l, lq_head q' = lq_head q ∧ reused [l] ds ∧
       is_lqueue q' (xs ++ [(l, v)]) (drop 1 ds) h) (is_lqueue q xs ds).
Proof. intros. apply (throws_clean 1); [cw|]. intros al. by apply lq_push_back_ok. Qed.
(*@ C80 lazy_queue push_front. *)
Lemma lq_push_front_strong {V : Type} q (xs : list (loc * V)) ds r v :
  refers xs r v →
  runs_or_throws (is_lqueue q xs ds) (λ al : Allocator (cell V), lq_push_front q r)
    (λ q' h, ∃ l, lq_head q' = lq_head q ∧ reused [l] ds ∧
       is_lqueue q' ((l, v) :: xs) (drop 1 ds) h) (is_lqueue q xs ds).
Proof. intros. apply (throws_clean 1); [cw|]. intros al. by apply lq_push_front_ok. Qed.
(*@ C80 lazy_queue insert_after(pos, x). *)
Lemma lq_insert_after_strong {V : Type} q (xs : list (loc * V)) ds i r v :
  i ≤ length xs → refers xs r v →
  runs_or_throws (is_lqueue q xs ds) (λ al : Allocator (cell V), lq_insert_after q (pos_at (lq_head q) xs i) r)
    (λ '(q', p) h, ∃ l, lq_head q' = lq_head q ∧ p = Some l ∧ reused [l] ds ∧
       is_lqueue q' (take i xs ++ (l, v) :: drop i xs) (drop 1 ds) h) (is_lqueue q xs ds).
Proof. intros. apply (throws_clean 1); [cw|]. intros al. by apply lq_insert_after_ok. Qed.

(*@ C81 forward_list pop_front never throws. *)
Lemma fl_pop_front_nothrow {V : Type} this l v (xs : list (loc * V)) :
  runs_or_throws (is_flist this ((l, v) :: xs)) (λ al : Allocator (cell V), fl_pop_front this)
    (λ _ h, is_flist this xs h) (λ _, False).
Proof. intros. apply throws_never; [cw|]. intros al. by apply fl_pop_front_ok. Qed.
(*@ C81 forward_list erase_after(pos). *)
Lemma fl_erase_after_nothrow {V : Type} this (xs : list (loc * V)) i :
  i < length xs →
  runs_or_throws (is_flist this xs) (λ al : Allocator (cell V), fl_erase_after (pos_at this xs i))
    (λ p h, p = pos_at this xs (S (S i)) ∧ is_flist this (take i xs ++ drop (S i) xs) h) (λ _, False).
Proof. intros. apply throws_never; [cw|]. intros al. by apply fl_erase_after_ok. Qed.
(*@ C81 forward_list clear. *)
Lemma fl_clear_nothrow {V : Type} fuel this (xs : list (loc * V)) :
  length xs < fuel →
  runs_or_throws (is_flist this xs) (λ al : Allocator (cell V), fl_clear fuel this) (λ _ h, is_flist this [] h) (λ _, False).
Proof. intros. apply throws_never; [cw|]. intros al. by apply fl_clear_ok. Qed.
(*@ C81 forward_list destructor. *)
Lemma fl_destroy_nothrow {V : Type} fuel this (xs : list (loc * V)) :
  length xs < fuel →
  runs_or_throws (is_flist this xs) (λ al : Allocator (cell V), fl_destroy fuel this) (λ _ h, nothing h) (λ _, False).
Proof. intros. apply throws_never; [cw|]. intros al. by apply fl_destroy_ok. Qed.
(*@ C81 forward_list swap. *)
Lemma fl_swap_nothrow {V : Type} a b (xs ys : list (loc * V)) :
  runs_or_throws (both (is_flist a xs) (is_flist b ys)) (λ al : Allocator (cell V), fl_swap a b)
    (λ _ h, both (is_flist a ys) (is_flist b xs) h) (λ _, False).
Proof. intros. apply throws_never; [cw|]. intros al. by apply fl_swap_ok. Qed.
(*@ C81 forward_list reverse. *)
Lemma fl_reverse_nothrow {V : Type} fuel this (xs : list (loc * V)) :
  length xs < fuel →
  runs_or_throws (is_flist this xs) (λ al : Allocator (cell V), fl_reverse fuel this) (λ _ h, is_flist this (reverse xs) h) (λ _, False).
Proof. intros. apply throws_never; [cw|]. intros al. by apply fl_reverse_ok. Qed.
(*@ C81 backward_list erase_after(pos). *)
Lemma bl_erase_after_nothrow {V : Type} b (xs : list (loc * V)) i :
  i < length xs →
  runs_or_throws (is_blist b xs) (λ al : Allocator (cell V), bl_erase_after b (pos_at (bl_head b) xs i))
    (λ '(b', p) h, bl_head b' = bl_head b ∧ p = pos_at (bl_head b) xs (S (S i)) ∧
       is_blist b' (take i xs ++ drop (S i) xs) h) (λ _, False).
Proof. intros. apply throws_never; [cw|]. intros al. by apply bl_erase_after_ok. Qed.
(*@ C81 lazy_queue pop_front. *)
Lemma lq_pop_front_nothrow {V : Type} q l v (xs : list (loc * V)) ds :
  runs_or_throws (is_lqueue q ((l, v) :: xs) ds) (λ al : Allocator (cell V), lq_pop_front q)
    (λ q' h, lq_head q' = lq_head q ∧ is_lqueue q' xs (l :: ds) h) (λ _, False).
Proof. intros. apply throws_never; [cw|]. intros al. by apply lq_pop_front_ok. Qed.

(*@ C80 list insert(pos, x). *)
Lemma dl_insert_strong {V : Type} this (xs : list (loc * V)) i r v :
  i ≤ length xs → drefers xs r v →
  runs_or_throws (is_dlist this xs) (λ al : Allocator (dcell V), dl_insert (dpos this xs i) r)
    (λ p h, ∃ l, p = Some l ∧ is_dlist this (take i xs ++ (l, v) :: drop i xs) h) (is_dlist this xs).
Proof. intros. apply (throws_clean 1); [cw|]. intros al. by apply DlistRuns.list_insert. Qed.
(*@ C81 list erase(pos). *)
Lemma dl_erase_nothrow {V : Type} this (xs : list (loc * V)) i :
  i < length xs →
  runs_or_throws (is_dlist this xs) (λ al : Allocator (dcell V), dl_erase (dpos this xs i))
    (λ p h, p = dpos this xs (S i) ∧ is_dlist this (take i xs ++ drop (S i) xs) h) (λ _, False).
Proof. intros. apply throws_never; [cw|]. intros al. by apply DlistRuns.list_erase. Qed.
(*@ C81 list destructor. *)
Lemma dl_destroy_nothrow {V : Type} fuel this (xs : list (loc * V)) :
  length xs < fuel →
  runs_or_throws (is_dlist this xs) (λ al : Allocator (dcell V), dl_destroy fuel this) (λ _ h, nothing h) (λ _, False).
Proof. intros. apply throws_never; [cw|]. intros al. by apply DlistRuns.list_destroy. Qed.
(*@ C81 list splice of a whole list. *)
Lemma dl_splice_all_nothrow {V : Type} this other (xs ys : list (loc * V)) i :
  i ≤ length xs → ys ≠ [] →
  runs_or_throws (both (is_dlist this xs) (is_dlist other ys)) (λ al : Allocator (dcell V), dl_splice_all (dpos this xs i) other)
    (λ _ h, both (is_dlist this (take i xs ++ ys ++ drop i xs)) (is_dlist other []) h) (λ _, False).
Proof. intros. apply throws_never; [cw|]. intros al. by apply DlistRuns.list_splice_all. Qed.

(*@ C80 set/map insert(v): it throws only if the key is new, and then nothing at all has changed. *)
Lemma insert_strong {K V : Type} (keyof : V → K) (lt eqb : K → K → bool) fuel this (xs : list (loc * V)) (v : V) :
  RbSpec.key_order lt eqb → log_steps (length xs) < fuel →
  runs_or_throws (is_map keyof lt this xs) (λ al : Allocator (rbcell V), m_insert keyof lt eqb fuel this v)
    (λ '(p, b) h,
       b = negb (has keyof eqb (keyof v) xs.*2) ∧
       if b then ∃ i n, p = Some n ∧ i ≤ length xs ∧
                  is_map keyof lt this (take i xs ++ (n, v) :: drop i xs) h
       else ∃ i x w, xs !! i = Some (x, w) ∧ eqb (keyof v) (keyof w) = true ∧
                  p = Some x ∧ is_map keyof lt this xs h)
    (λ h, has keyof eqb (keyof v) xs.*2 = false ∧ is_map keyof lt this xs h).
Proof.
  intros Hord Hf. eapply runs_or_throws_conseq.
  { unfold m_insert. apply (xp_rins keyof lt eqb Hord fuel this v (λ xs, nondesc keyof lt xs ∧ lg xs < fuel) (λ xs, xs) (λ _, emp)%I). done. }
  rewrite plain_map. iIntros "[%Hasc H]". iExists xs. iSplit.
  { iPureIntro. split; [|exact Hf]. eapply (asc_nondesc _ _ eqb); [done|]. by apply asc_values. }
  iExists emp%I. iSplitR; [done|]. iFrame "H". iSplit.
  - iIntros ([p b]) "_ [[H|H] _]".
    + iDestruct "H" as (E1 x w E2) "[%Hx H]". destruct Hx as (Hr&->&He). injection Hr as -> ->. iSplit.
      { iPureIntro. by rewrite fmap_mid (present_has _ _ _ _ _ _ He). }
      iExists (length E1), x, w. iSplit; [iPureIntro; by apply list_lookup_middle|].
      iSplit; [done|]. iSplit; [done|]. rewrite plain_map'. by iSplit.
    + iDestruct "H" as (E1 n E2) "[%Hx H]". destruct Hx as (Hr&->&HL&HR). injection Hr as -> ->.
      apply all_lt_values in HL. apply all_gt_values in HR. iSplit.
      { iPureIntro. by rewrite fmap_app (absent_has _ _ _ Hord). }
      iExists (length E1), n. iSplit; [done|]. iSplit; [iPureIntro; rewrite app_length; lia|].
      rewrite plain_map' take_app drop_app. iSplit; [|done]. iPureIntro.
      rewrite fmap_mid. apply ascending_insert_mid; [by rewrite -fmap_app|done|done].
  - iIntros "_ [%Hn [H _]]". iSplit; [iPureIntro; by eapply nokey_has|]. rewrite plain_map'. by iSplit.
Qed.
(*@ C80,C81 set/map insert(v) of a present key never throws. *)
Lemma insert_present_nothrow {K V : Type} (keyof : V → K) (lt eqb : K → K → bool) fuel this (xs : list (loc * V)) (v : V) :
  RbSpec.key_order lt eqb → log_steps (length xs) < fuel → has keyof eqb (keyof v) xs.*2 = true →
  runs_or_throws (is_map keyof lt this xs) (λ al : Allocator (rbcell V), m_insert keyof lt eqb fuel this v)
    (λ '(p, b) h, b = false ∧ ∃ i x w, xs !! i = Some (x, w) ∧ eqb (keyof v) (keyof w) = true ∧
       p = Some x ∧ is_map keyof lt this xs h) (λ _, False).
Proof.
  intros Hord Hf Hh. destruct (insert_strong keyof lt eqb fuel this xs v Hord Hf) as (p&Hp&Hw). exists p. split; [done|].
  intros h hf h1 p' H1 H2 H3. destruct (Hw h hf h1 p' H1 H2 H3) as (Hs&Hr&Ht). split_and!; [done|..].
  - intros [q b] ->. destruct (Hr _ eq_refl) as (h'&?&?&Hb&Hq). exists h'. rewrite Hh in Hb. simpl in Hb. subst b. done.
  - intros Hn. destruct (Ht Hn) as (h'&_&_&Hf'&_). congruence.
Qed.
(*@ C81 set/map erase(key). *)
Lemma erase_nothrow {K V : Type} (keyof : V → K) (lt eqb : K → K → bool) fuel this (xs : list (loc * V)) (key : K) :
  RbSpec.key_order lt eqb → log_steps (length xs) < fuel →
  runs_or_throws (is_map keyof lt this xs) (λ al : Allocator (rbcell V), m_erase keyof lt eqb fuel this key)
    (λ r h,
       if has keyof eqb key xs.*2
       then r = 1 ∧ ∃ i x w, xs !! i = Some (x, w) ∧ eqb key (keyof w) = true ∧
              is_map keyof lt this (take i xs ++ drop (S i) xs) h
       else r = 0 ∧ is_map keyof lt this xs h) (λ _, False).
Proof. intros. apply throws_never; [cw|]. intros al. by apply erase_ok. Qed.
(*@ C81 set/map find(key). *)
Lemma find_nothrow {K V : Type} (keyof : V → K) (lt eqb : K → K → bool) fuel this (xs : list (loc * V)) (key : K) :
  RbSpec.key_order lt eqb → log_steps (length xs) < fuel →
  runs_or_throws (is_map keyof lt this xs) (λ al : Allocator (rbcell V), m_find keyof lt eqb fuel this key)
    (λ p h,
       is_map keyof lt this xs h ∧
       if has keyof eqb key xs.*2
       then ∃ i x w, xs !! i = Some (x, w) ∧ eqb key (keyof w) = true ∧ p = Some x
       else p = m_end this) (λ _, False).
Proof. intros. apply throws_never; [cw|]. intros al. by apply find_ok. Qed.
(*@ C81 set/map clear. *)
Lemma clear_nothrow {K V : Type} (keyof : V → K) (lt : K → K → bool) fuel this (xs : list (loc * V)) :
  log_steps (length xs) < fuel →
  runs_or_throws (is_map keyof lt this xs) (λ al : Allocator (rbcell V), m_clear fuel this) (λ _ h, is_map keyof lt this [] h) (λ _, False).
Proof. intros. apply throws_never; [cw|]. intros al. by apply clear_ok. Qed.
(*@ C81 set/map destructor. *)
Lemma destroy_nothrow {K V : Type} (keyof : V → K) (lt : K → K → bool) fuel this (xs : list (loc * V)) :
  log_steps (length xs) < fuel →
  runs_or_throws (is_map keyof lt this xs) (λ al : Allocator (rbcell V), rb_destroy fuel this) (λ _ h, nothing h) (λ _, False).
Proof. intros. apply throws_never; [cw|]. intros al. by apply destroy_ok. Qed.
(*@ C80,C81 map operator[](key) of a present key never throws. *)
Lemma index_present_nothrow {K T : Type} (lt eqb : K → K → bool) (dflt : T) fuel this (xs : list (loc * (K * T))) (key : K) :
  RbSpec.key_order lt eqb → log_steps (length xs) < fuel → has fst eqb key xs.*2 = true →
  runs_or_throws (is_map fst lt this xs) (λ al : Allocator (rbcell (K * T)), m_index lt eqb dflt fuel this key)
    (λ p h, ∃ i x w, xs !! i = Some (x, w) ∧ eqb key w.1 = true ∧ p = Some x ∧ is_map fst lt this xs h) (λ _, False).
Proof.
  intros Hord Hf Hh.
  apply (runs_or_throws_of _ (λ _ : unit, True) (λ _, Sep.plain (is_map fst lt this xs))
    (λ _ p, Sep.plain (λ h, ∃ i x w, xs !! i = Some (x, w) ∧ eqb key w.1 = true ∧ p = Some x ∧ is_map fst lt this xs h))
    (λ _, False)%I tt); [|done|done|done|intros h Hp; by apply hpure_unfold in Hp].
  unfold m_index.
  set (Fd := λ n : ptr, (∃ i y w, ⌜n = Some y ∧ y ≠ this ∧ xs !! i = Some (y, w) ∧ eqb key w.1 = true⌝ ∧ Sep.plain (is_map fst lt this xs))%I).
  apply (xp_bind (λ al : Allocator (rbcell (K * T)), rb_find fst lt eqb fuel this key) _ _ _ (λ _, Fd)).
  - apply xp_of_wp; [cw|]. intros al _ _. unfold Fd. iIntros "H". iDestruct (bi.equiv_entails_1_1 _ _ (plain_map fst lt this xs) with "H") as "[%Hs H]".
    pose proof (proj2 (asc_values _ _ _) Hs) as Hs'. pose proof (asc_nondesc _ _ _ Hord _ Hs') as Hnd.
    iDestruct (rbt_nodup with "H") as %Hdup.
    iApply (wp_m_find _ _ _ Hord with "H"); [done|exact Hf|]. iSplit.
    + iIntros (E1 x w E2) "%Hx H". destruct Hx as (Hx&He). iExists (length E1), x, w. iSplit; [iPureIntro|iApply (bi.equiv_entails_1_2 _ _ (plain_map fst lt this xs)); by iSplit].
      split_and!; [done| |rewrite Hx; by apply list_lookup_middle|done].
      intros ->. rewrite Hx in Hdup. inversion_clear Hdup as [|?? Hni _]. apply Hni. rewrite fmap_app fmap_cons. set_solver.
    + iIntros (E1 E2) "%Hx H". destruct Hx as (->&HL&HR). exfalso.
      apply all_lt_values in HL. apply all_gt_values in HR. by rewrite fmap_app (absent_has _ _ _ Hord) in Hh.
  - intros n. destruct (decide (n = Some this)) as [->|Hn].
    + eapply xp_throw; [apply (xp_clean 1); [cw|]|].
      * intros al x Hx. iIntros "H". iDestruct "H" as (i y w Hz) "H". destruct Hz as [Hz [Hz' _]]. congruence.
      * intros x Hx. iIntros "H". iDestruct "H" as (i y w Hz) "H". destruct Hz as [Hz [Hz' _]]. congruence.
    + apply xp_ret. intros x Hx. iIntros "H". iDestruct "H" as (i y w Hz) "H". destruct Hz as (->&_&?&?).
      iExists i, y, w. do 3 (iSplit; [done|]). done.
Qed.
(*@ C80 map operator[](key): it throws only if the key is new, and then nothing at all has changed. *)
Lemma index_strong {K T : Type} (lt eqb : K → K → bool) (dflt : T) fuel this (xs : list (loc * (K * T))) (key : K) :
  RbSpec.key_order lt eqb → log_steps (length xs) < fuel →
  runs_or_throws (is_map fst lt this xs) (λ al : Allocator (rbcell (K * T)), m_index lt eqb dflt fuel this key)
    (λ p h,
       if has fst eqb key xs.*2
       then ∃ i x w, xs !! i = Some (x, w) ∧ eqb key w.1 = true ∧
                  p = Some x ∧ is_map fst lt this xs h
       else ∃ i n, p = Some n ∧ i ≤ length xs ∧
                  is_map fst lt this (take i xs ++ (n, (key, dflt)) :: drop i xs) h)
    (λ h, has fst eqb key xs.*2 = false ∧ is_map fst lt this xs h).
Proof.
  intros Hord Hf. destruct (has fst eqb key xs.*2) eqn:E.
  - destruct (index_present_nothrow lt eqb dflt fuel this xs key Hord Hf E) as (p&Hp&Hw). exists p. split; [done|].
    intros h hf h1 p' H1 H2 H3. destruct (Hw h hf h1 p' H1 H2 H3) as (Hs&Hr&Ht). split_and!; [done|done|].
    intros Hn. by destruct (Ht Hn) as (h'&_&_&[]).
  - assert (runs_or_throws (is_map fst lt this xs) (λ al : Allocator (rbcell (K * T)), m_index lt eqb dflt fuel this key)
      (λ p h, if has fst eqb key xs.*2 then ∃ i x w, xs !! i = Some (x, w) ∧ eqb key w.1 = true ∧ p = Some x ∧ is_map fst lt this xs h
       else ∃ i n, p = Some n ∧ i ≤ length xs ∧ is_map fst lt this (take i xs ++ (n, (key, dflt)) :: drop i xs) h)
      (is_map fst lt this xs)) as (p&Hp&Hw).
    { apply (throws_clean 1); [cw|]. intros al. by apply index_ok. }
    rewrite E in Hw. exists p. split; [done|].
    intros h hf h1 p' H1 H2 H3. destruct (Hw h hf h1 p' H1 H2 H3) as (Hs&Hr&Ht). split_and!; [done|done|].
    intros Hn. destruct (Ht Hn) as (h'&?&?&?). by exists h'.
Qed.

(*@ C80 vector push_back. *)
Lemma vec_push_back_strong {V : Type} fuel v (xs : list V) r x :
  vrefers v xs r x → length xs + 1 < fuel →
  runs_or_throws (is_vec v xs) (λ al : Allocator (list (option V)), v_push_back fuel v r)
    (λ v' h, v_capacity v' = grown xs (v_capacity v) 1 ∧
       (length xs < v_capacity v → v_buf v' = v_buf v) ∧ is_vec v' (xs ++ [x]) h) (is_vec v xs).
Proof. intros. apply (throws_clean 1); [cw|]. intros al. by apply vec_push_back_ok. Qed.
(*@ C80 vector insert(pos, n, x). *)
Lemma vec_insert_n_strong {V : Type} fuel v (xs : list V) pos n r x :
  pos ≤ length xs → vrefers v xs r x → length xs + n < fuel →
  match r with VExt _ => True | VSlot _ j => n = 0 ∨ j < pos ∨ v_capacity v < length xs + n end →
  runs_or_throws (is_vec v xs) (λ al : Allocator (list (option V)), v_insert_n fuel v pos n r)
    (λ '(v', i) h, i = pos ∧ v_capacity v' = grown xs (v_capacity v) n ∧
       (length xs + n ≤ v_capacity v → v_buf v' = v_buf v) ∧
       is_vec v' (take pos xs ++ replicate n x ++ drop pos xs) h) (is_vec v xs).
Proof. intros. apply (throws_clean 1); [cw|]. intros al. by apply vec_insert_n_ok. Qed.
(*@ C80 vector resize(n, x). *)
Lemma vec_resize_strong {V : Type} (dflt : V) fuel v (xs : list V) n r x :
  vrefers v xs r x → length xs + n < fuel →
  runs_or_throws (is_vec v xs) (λ al : Allocator (list (option V)), v_resize_to dflt fuel v n r)
    (λ v' h, v_size v' = n ∧ (n ≤ v_capacity v → v_buf v' = v_buf v) ∧
       v_capacity v' = grown xs (v_capacity v) (n - length xs) ∧
       is_vec v' (take n xs ++ replicate (n - length xs) x) h) (is_vec v xs).
Proof. intros. apply (throws_clean 1); [cw|]. intros al. by apply vec_resize_ok. Qed.
(*@ C80 vector reserve(n). *)
Lemma vec_reserve_strong {V : Type} fuel v (xs : list V) n :
  length xs < fuel →
  runs_or_throws (is_vec v xs) (λ al : Allocator (list (option V)), v_reserve fuel v n)
    (λ v' h, v_capacity v' = v_capacity v `max` n ∧ (n < v_capacity v → v' = v) ∧
       is_vec v' xs h) (is_vec v xs).
Proof. intros. apply (throws_clean 1); [cw|]. intros al. by apply vec_reserve_ok. Qed.
(*@ C82 vector copy constructor: if it throws, the source is intact and nothing else is left. *)
Lemma vec_copy_strong {V : Type} fuel v (xs : list V) :
  length xs < fuel →
  runs_or_throws (is_vec v xs) (λ al : Allocator (list (option V)), v_copy fuel v)
    (λ v' h, v_capacity v' = length xs ∧ both (is_vec v xs) (is_vec v' xs) h) (is_vec v xs).
Proof. intros. apply (throws_clean 1); [cw|]. intros al. by apply vec_copy_ok. Qed.

(*@ C82_partial forward_list(n, value): if the constructor throws, memory is consistent: either
   nothing was allocated or the unfinished object and the first k < n nodes are there. Missing: that
   the nodes are released; the destructor of an object whose constructor threw does not run. *)
Lemma fl_new_n_throws {V : Type} n (v : V) :
  runs_or_throws nothing (λ al : Allocator (cell V), fl_new_n n (ExtVal v))
    (λ this h, ∃ ys, ys.*2 = replicate n v ∧ is_flist this ys h)
    (λ h, nothing h ∨ ∃ this ys k, k < n ∧ ys.*2 = replicate k v ∧ is_flist this ys h).
Proof.
  apply (runs_or_throws_of _ _ _ _ _ tt _ _ _ (xp_fl_new_n n v)); [done|..].
  - intros h Hh. apply (hentails (Sep.plain nothing)); [by rewrite plain_nothing|exact Hh].
  - intros this. apply (hentails _ (Sep.plain (λ h, ∃ ys, ys.*2 = replicate n v ∧ is_flist this ys h))).
    iIntros "H". iDestruct "H" as (ys Hys) "H". iExists ys. iSplit; [done|]. by rewrite plain_flist.
  - intros h [Hh|Hh].
    + left. apply (hentails emp%I (Sep.plain nothing)); [by rewrite plain_nothing|exact Hh].
    + right. revert h Hh. apply (hentails _ (Sep.plain (λ h, ∃ this ys k, k < n ∧ ys.*2 = replicate k v ∧ is_flist this ys h))).
      iIntros "H". iDestruct "H" as (this ys k Hk Hys) "H". iExists this, ys, k. do 2 (iSplit; [done|]). by rewrite plain_flist.
Qed.
(*@ C82_refuted for every k < n the constructor can throw after it has allocated k nodes: they
   stay allocated and nothing refers to them. *)
Lemma fl_new_n_leaks {V : Type} n k (v : V) :
  k < n →
  can_throw nothing (λ al : Allocator (cell V), fl_new_n n (ExtVal v))
    (λ h, ∃ this ys, ys.*2 = replicate k v ∧ is_flist this ys h).
Proof.
  intros Hk. eapply (can_throw_of _ _ _ emp%I (∃ this ys, ⌜ys.*2 = replicate k v⌝ ∧ flist this ys)%I).
  - unfold fl_new_n. apply (th_after (λ al : Allocator (cell V), fl_new) _ _ (λ this, flist this [])%I emp%I).
    + apply (xp_clean 1); [cw|]. intros al x _. iStartProof. iIntros "_". by iApply wp_fl_new.
    + intros this. apply (th_now 0 2); [|intros p; tr].
      eapply th_conseq; [apply (th_fl_insert_n k n (Some this) v Hk this []); done|done|].
      iIntros "H". iExists this. done.
  - intros h Hh. apply (hentails (Sep.plain nothing)); [by rewrite plain_nothing|exact Hh].
  - apply (hentails _ (Sep.plain (λ h, ∃ this ys, ys.*2 = replicate k v ∧ is_flist this ys h))).
    iIntros "H". iDestruct "H" as (this ys Hys) "H". iExists this, ys. iSplit; [done|]. by rewrite plain_flist.
Qed.

Lemma plain_whatever {C : Type} : ⊢ @Sep.plain C whatever ∗-∗ True.
Proof. iSplit; [by iIntros "_"|]. iIntros "H". iStopProof. by apply hentails_intro. Qed.
Lemma plain_one_cell {C : Type} : (∃ l (c : C), l ↦ c) ⊢ Sep.plain one_cell.
Proof.
  iIntros "H". iDestruct "H" as (l c) "H". iStopProof. apply hentails_intro. intros h Hh. apply hpto_unfold in Hh. by exists l, c.
Qed.
(*@ C82_partial map and set operator=: if it throws, the target is empty and the source is intact.
   Missing: that no other memory is left. *)
Lemma map_assign_throws {K V : Type} (keyof : V → K) (lt : K → K → bool) fuel this other (xs ys : list (loc * V)) :
  log_steps (length xs) < fuel → log_steps (length ys) < fuel →
  runs_or_throws (both (is_map keyof lt this xs) (is_map keyof lt other ys)) (λ al : Allocator (rbcell V), m_assign fuel this other)
    (λ _ h, ∃ zs, zs.*2 = ys.*2 ∧ both (is_map keyof lt this zs) (is_map keyof lt other ys) h)
    (both (both (is_map keyof lt this []) (is_map keyof lt other ys)) whatever).
Proof.
  intros Hf1 Hf2. eapply runs_or_throws_conseq; [apply (xp_m_assign fuel this other)|].
  rewrite plain_both !plain_map. iIntros "[[%Hx H] [%Hy Ho]]". iExists (xs, ys). iSplit; [done|]. iExists emp%I. iSplitR; [done|]. iFrame. iSplit.
  - iIntros (_) "_ H". iDestruct "H" as (zs Hz) "[H Ho]". simpl in Hz. iExists zs. iSplit; [done|].
    change (λ h, both (is_map keyof lt this zs) (is_map keyof lt other ys) h) with (both (is_map keyof lt this zs) (is_map keyof lt other ys)).
    rewrite plain_both !plain_map. rewrite Hz. iSplitL "H"; by iSplit.
  - iIntros "_ (H&Ho&Hj)". rewrite !plain_both !plain_map. iSplitR "Hj"; [|by iApply plain_whatever].
    iSplitL "H"; iSplit; [iPureIntro; constructor|done|done|done].
Qed.
(*@ C82_refuted for every source of at least two elements the assignment can throw with the target
   empty, the source intact and a node that belongs to neither. *)
Lemma map_assign_leaks {K V : Type} (keyof : V → K) (lt : K → K → bool) fuel this other (xs ys : list (loc * V)) :
  2 ≤ length ys → log_steps (length xs) < fuel → log_steps (length ys) < fuel →
  can_throw (both (is_map keyof lt this xs) (is_map keyof lt other ys)) (λ al : Allocator (rbcell V), m_assign fuel this other)
    (both (both (is_map keyof lt this []) (is_map keyof lt other ys)) one_cell).
Proof.
  intros Hl Hf1 Hf2. apply can_throw_plain.
  eapply th_conseq; [apply (th_pure (ascending keyof lt ys.*2)), (th_m_assign fuel this other xs ys); done|..].
  - rewrite plain_both !plain_map. iIntros "[[%Hx H] [%Hy Ho]]". iSplit; [done|]. iFrame.
  - iIntros "[%Hy (H&Ho&Hj)]". rewrite !plain_both !plain_map. iSplitR "Hj"; [|by iApply plain_one_cell].
    iSplitL "H"; iSplit; [iPureIntro; constructor|done|done|done].
Qed.
(*@ C82_partial map and set copy constructor: if it throws, the source is intact. *)
Lemma map_copy_throws {K V : Type} (keyof : V → K) (lt : K → K → bool) fuel other (xs : list (loc * V)) :
  log_steps (length xs) < fuel →
  runs_or_throws (is_map keyof lt other xs) (λ al : Allocator (rbcell V), m_copy fuel other)
    (λ this h, ∃ ys, ys.*2 = xs.*2 ∧ both (is_map keyof lt this ys) (is_map keyof lt other xs) h)
    (both (is_map keyof lt other xs) whatever).
Proof.
  intros Hf2. eapply runs_or_throws_conseq; [apply (xp_m_copy fuel other)|].
  rewrite plain_map. iIntros "[%Hx H]". iExists xs. iSplit; [done|]. iExists emp%I. iSplitR; [done|]. iFrame. iSplit.
  - iIntros (this) "_ H". iDestruct "H" as (zs Hz) "[H Ho]". iExists zs. iSplit; [done|].
    change (λ h, both (is_map keyof lt this zs) (is_map keyof lt other xs) h) with (both (is_map keyof lt this zs) (is_map keyof lt other xs)).
    rewrite plain_both !plain_map. rewrite Hz. iSplitL "H"; by iSplit.
  - iIntros "_ (H&Hj)". rewrite plain_both plain_map. iSplitR "Hj"; [|by iApply plain_whatever]. by iSplit.
Qed.
(*@ C82_refuted for every source of at least two elements the copy constructor can throw with an
   empty new object and a node that belongs to nothing. *)
Lemma map_copy_leaks {K V : Type} (keyof : V → K) (lt : K → K → bool) fuel other (xs : list (loc * V)) :
  2 ≤ length xs → log_steps (length xs) < fuel →
  can_throw (is_map keyof lt other xs) (λ al : Allocator (rbcell V), m_copy fuel other)
    (both (is_map keyof lt other xs) (λ h, ∃ this, both (is_map keyof lt this []) one_cell h)).
Proof.
  intros Hl Hf2. apply can_throw_plain.
  eapply th_conseq; [apply (th_pure (ascending keyof lt xs.*2)), (th_m_copy fuel other xs); done|..].
  - rewrite plain_map. iIntros "[%Hx H]". by iSplit.
  - iIntros "[%Hy (H&Hj)]". rewrite plain_both plain_map. iSplitL "H"; [by iSplit|].
    iDestruct "Hj" as (this) "[H Hj]". iExists this. change (λ h, both (is_map keyof lt this []) one_cell h) with (both (is_map keyof lt this []) one_cell).
    rewrite plain_both plain_map. iSplitR "Hj"; [|by iApply plain_one_cell]. iSplit; [iPureIntro; constructor|done].
Qed.
(*@ C82 the range constructor of map and set: if it throws, either nothing has been allocated, or the
   tree - a member, whose destructor runs - holds the elements inserted so far, and destroying it
   leaves nothing. *)
Lemma map_new_range_throws {K V : Type} (keyof : V → K) (lt eqb : K → K → bool) fuel (vs : list V) :
  RbSpec.key_order lt eqb → S (2 * length vs) ≤ fuel →
  runs_or_throws nothing (λ al : Allocator (rbcell V), m_new_range keyof lt eqb fuel vs)
    (λ this h, ∃ xs, xs.*2 = foldl (λ ws v, s_insert keyof lt eqb v ws) [] vs ∧ is_map keyof lt this xs h)
    (λ h, nothing h ∨ ∃ this xs k, k < length vs ∧
       xs.*2 = foldl (λ ws v, s_insert keyof lt eqb v ws) [] (take k vs) ∧ is_map keyof lt this xs h ∧
       ∀ al : Allocator (rbcell V), runs (λ h', h' = h) (rb_destroy fuel this) (λ _, nothing)).
Proof.
  intros Hord Hf. set (ins := λ ws v, s_insert keyof lt eqb v ws).
  assert (∀ us ws, length (foldl ins ws us) ≤ length ws + length us) as Hlen.
  { clear Hf vs. induction us as [|v us IH]; intros ws; simpl; [lia|].
    specialize (IH (s_insert keyof lt eqb v ws)). pose proof (s_insert_length_le keyof lt eqb Hord v ws). unfold ins in *. lia. }
  eapply (runs_or_throws_of _ (λ _ : unit, True) (λ _, emp)%I (λ _ this, mrep keyof lt this (foldl ins [] vs))
    (λ _, emp ∨ ∃ this k, ⌜k < length vs⌝ ∧ mrep keyof lt this (foldl ins [] (take k vs)))%I tt); [|done|..].
  - unfold m_new_range. apply (xp_bind _ _ _ _ (λ _ this, mrep keyof lt this [])).
    + eapply xp_throw; [apply (xp_clean 1); [cw|]|].
      * intros al x _. iStartProof. iIntros "_". iApply wp_m_new. iIntros (a) "H". by iApply (mrep_close _ _ _ []); [constructor|].
      * intros x _. iIntros "_". by iLeft.
    + intros this. apply (xp_bind (λ al : Allocator (rbcell V), m_insert_range keyof lt eqb fuel this vs) (λ _ _, ret this) _ _ (λ _ _, mrep keyof lt this (foldl ins [] vs))).
      2: { intros _. apply xp_ret. intros x _. by iIntros "H". }
      eapply xp_conseq; [apply (xp_m_insert_range _ _ _ Hord)|]. intros x _. iIntros "H". iExists []. iSplit.
      { iPureIntro. unfold mneed. specialize (Hlen vs []). cbn [length] in Hlen. fold ins. lia. }
      iExists emp%I. iSplitR; [done|]. iFrame. iSplit.
      * iIntros (_) "_ $".
      * iIntros "_ H". iDestruct "H" as (k w [Hk _]) "H". iRight. iExists this, k. iSplit; [|done]. iPureIntro. by eapply lookup_lt_Some.
  - intros h Hh. apply (hentails (Sep.plain nothing)); [by rewrite plain_nothing|exact Hh].
  - intros this. apply (hentails _ (Sep.plain (λ h, ∃ xs, xs.*2 = foldl ins [] vs ∧ is_map keyof lt this xs h))). apply mrep_plain.
  - intros h [Hh|Hh].
    + left. apply (hentails emp%I (Sep.plain nothing)); [by rewrite plain_nothing|exact Hh].
    + right. apply hexist_unfold in Hh as [this Hh]. apply hexist_unfold in Hh as [k Hh]. apply hand_unfold in Hh as [Hk Hh]. apply hpure_unfold in Hk.
      apply (hentails _ _ (mrep_plain keyof lt this _)) in Hh as (xs&Hxs&Hm). exists this, xs, k. split_and!; [done..|].
      intros al h' hf -> Hd. apply (destroy_ok keyof lt fuel this xs); [|done|done].
      assert (length xs ≤ length vs) as Hl.
      { specialize (Hlen (take k vs) []). rewrite -Hxs fmap_length take_length in Hlen. cbn [length] in Hlen. lia. }
      unfold log_steps. pose proof (Nat.log2_lt_lin (S (length xs))). lia.
Qed.

Lemma svm_of {K T : Type} v (les : list (loc * (K * T))) h : hholds (svmP v les) h → is_svm v les h.
Proof. apply (hentails (svmP v les) (Sep.plain (is_svm v les))). by rewrite svm_holds. Qed.
(*@ C82_partial list(n, value): if the constructor throws, either nothing was allocated or the
   unfinished object and its first k < n nodes are there. Missing: that they are released. *)
Lemma dl_new_n_throws {V : Type} n (v : V) :
  runs_or_throws nothing (λ al : Allocator (dcell V), dl_new_n n (DExt v))
    (λ this h, ∃ ys, ys.*2 = replicate n v ∧ is_dlist this ys h)
    (λ h, nothing h ∨ ∃ this ys k, k < n ∧ ys.*2 = replicate k v ∧ is_dlist this ys h).
Proof.
  apply (runs_or_throws_of _ _ _ _ _ tt _ _ _ (xp_dl_new_n n v)); [done|..].
  - intros h Hh. apply (hentails (Sep.plain nothing)); [by rewrite plain_nothing|exact Hh].
  - intros this. apply (hentails _ (Sep.plain (λ h, ∃ ys, ys.*2 = replicate n v ∧ is_dlist this ys h))).
    iIntros "H". iDestruct "H" as (ys Hys) "H". iExists ys. iSplit; [done|]. change (λ h, is_dlist this ys h) with (is_dlist this ys). by rewrite dlist_holds.
  - intros h [Hh|Hh].
    + left. apply (hentails emp%I (Sep.plain nothing)); [by rewrite plain_nothing|exact Hh].
    + right. revert h Hh. apply (hentails _ (Sep.plain (λ h, ∃ this ys k, k < n ∧ ys.*2 = replicate k v ∧ is_dlist this ys h))).
      iIntros "H". iDestruct "H" as (this ys k [Hk Hys]) "H". iExists this, ys, k. do 2 (iSplit; [done|]). change (λ h, is_dlist this ys h) with (is_dlist this ys). by rewrite dlist_holds.
Qed.
(*@ C82_refuted list(n, value): for every k < n the constructor can throw after it has allocated k
   nodes: they stay allocated and nothing refers to them. *)
Lemma dl_new_n_leaks {V : Type} n k (v : V) :
  k < n →
  can_throw nothing (λ al : Allocator (dcell V), dl_new_n n (DExt v))
    (λ h, ∃ this ys, ys.*2 = replicate k v ∧ is_dlist this ys h).
Proof.
  intros Hk. eapply (can_throw_of _ _ _ emp%I); [apply (th_dl_new_n n k v Hk)|..].
  - intros h Hh. apply (hentails (Sep.plain nothing)); [by rewrite plain_nothing|exact Hh].
  - apply (hentails _ (Sep.plain (λ h, ∃ this ys, ys.*2 = replicate k v ∧ is_dlist this ys h))).
    iIntros "H". iDestruct "H" as (this ys Hys) "H". iExists this, ys. iSplit; [done|]. change (λ h, is_dlist this ys h) with (is_dlist this ys). by rewrite dlist_holds.
Qed.
(*@ C82_refuted backward_list(n, value). *)
Lemma bl_new_n_leaks {V : Type} n k (v : V) :
  k < n →
  can_throw nothing (λ al : Allocator (cell V), bl_new_n n (ExtVal v))
    (λ h, ∃ this ys, ys.*2 = replicate k v ∧ is_flist this ys h).
Proof.
  intros Hk. eapply (can_throw_of _ _ _ emp%I (∃ this ys, ⌜ys.*2 = replicate k v⌝ ∧ flist this ys)%I).
  - unfold bl_new_n. apply (th_after (λ al : Allocator (cell V), bl_new) _ _ (λ b, blistP b [])%I emp%I).
    + apply (xp_clean 1); [cw|]. intros al x _. iStartProof. iIntros "_". by iApply wp_bl_new.
    + intros b. eapply th_conseq; [apply (th_bl_insert_n b [] n k v Hk)|done|].
      iIntros "H". iDestruct "H" as (ys [_ Hys]) "H". iExists (bl_head b), ys. by iSplit.
  - intros h Hh. apply (hentails (Sep.plain nothing)); [by rewrite plain_nothing|exact Hh].
  - apply (hentails _ (Sep.plain (λ h, ∃ this ys, ys.*2 = replicate k v ∧ is_flist this ys h))).
    iIntros "H". iDestruct "H" as (this ys Hys) "H". iExists this, ys. iSplit; [done|]. by rewrite plain_flist.
Qed.
(*@ C82_refuted lazy_queue(n, value). *)
Lemma lq_new_n_leaks {V : Type} n k (v : V) :
  k < n →
  can_throw nothing (λ al : Allocator (cell V), lq_new_n n (ExtVal v))
    (λ h, ∃ q ys, ys.*2 = replicate k v ∧ is_lqueue q ys [] h).
Proof.
  intros Hk. eapply (can_throw_of _ _ _ emp%I (∃ q ys, ⌜ys.*2 = replicate k v⌝ ∧ lqueueP q ys [])%I).
  - unfold lq_new_n.
    apply (th_after (λ al : Allocator (cell V), lq_new) _ _ (λ q, lqueueP q [] [])%I (emp ∨ ∃ l, l ↦ Cell None Hdr)%I).
    + unfold lq_new. apply (xp_bind _ _ _ _ (λ _ h, h ↦ Cell None Hdr)%I).
      * eapply xp_throw; [apply (xp_clean 1); [cw|]|].
        -- intros al x Hx. iIntros "_". iApply wp_allocate. by iIntros (l) "H".
        -- intros x Hx. iIntros "H". by iLeft.
      * intros h. apply (xp_bind _ _ _ _ (λ _ d, h ↦ Cell None Hdr ∗ d ↦ Cell None Hdr)%I).
        -- eapply xp_throw; [apply (xp_clean 1); [cw|]|].
           ++ intros al x Hx. iIntros "H". iApply wp_allocate. iIntros (l) "Hl". iFrame.
           ++ intros x Hx. iIntros "H". iRight. by iExists h.
        -- intros d. apply xp_ret. intros x Hx. iIntros "[H Hd]". iSplit; [done|]. unfold flist, pool. simpl. iFrame.
    + intros q. eapply th_conseq; [apply (th_lq_insert_n q [] [] n k v); simpl; lia|done|].
      iIntros "H". iDestruct "H" as (ys [_ Hys]) "[H Hp]". iExists (lq_set_tail q (Some (last_loc (lq_head q) ys))), ys. iSplit; [done|].
      iSplit; [done|]. iFrame.
  - intros h Hh. apply (hentails (Sep.plain nothing)); [by rewrite plain_nothing|exact Hh].
  - apply (hentails _ (Sep.plain (λ h, ∃ q ys, ys.*2 = replicate k v ∧ is_lqueue q ys [] h))).
    iIntros "H". iDestruct "H" as (q ys Hys) "H". iExists q, ys. iSplit; [done|]. by rewrite plain_lqueue.
Qed.
(*@ C82_partial sorted_vector_map copy constructor: if it throws, the source is intact, and what else
   is in memory is a map with copies of the first elements only. Missing: that it is released. *)
Lemma svm_copy_throws {K T : Type} fuel v (les : list (loc * (K * T))) :
  length les < fuel →
  runs_or_throws (is_svm v les) (λ al : Allocator (svcell K T), sv_copy fuel v)
    (λ v' h, ∃ les', les'.*2 = les.*2 ∧ sv_end v' = sv_end v ∧ both (is_svm v les) (is_svm v' les') h)
    (λ h, is_svm v les h ∨ ∃ v' les', length les' < length les ∧ les'.*2 = take (length les') les.*2 ∧ both (is_svm v les) (is_svm v' les') h).
Proof.
  intros Hf. eapply runs_or_throws_conseq; [apply (xp_sv_copy fuel v les Hf)|].
  iIntros "H". iExists tt. iSplit; [done|]. iExists emp%I. iSplitR; [done|]. iSplitL; [by rewrite svm_holds|]. iSplit.
  - iIntros (v') "_ H". iDestruct "H" as (les' [H1 H2]) "H". iExists les'. do 2 (iSplit; [done|]).
    change (λ h, both (is_svm v les) (is_svm v' les') h) with (both (is_svm v les) (is_svm v' les')). by rewrite plain_both !svm_holds.
  - iIntros "_ [H|[H Hc]]".
    + rewrite -svm_holds. iStopProof. apply hentails_intro. intros h Hh. apply plain_holds in Hh. apply plain_holds. by left.
    + iDestruct "Hc" as (v' ns [Hl Hn]) "Hc". iAssert (Sep.plain (both (is_svm v les) (is_svm v' ns))) with "[H Hc]" as "H".
      { rewrite plain_both !svm_holds. iFrame. }
      iStopProof. apply hentails_intro. intros h Hh. apply plain_holds in Hh. apply plain_holds. right. exists v', ns. by split_and!.
Qed.
(*@ C82_refuted sorted_vector_map copy constructor: for every k less than the number of elements it can
   throw with an array and k copies allocated that nothing refers to. *)
Lemma svm_copy_leaks {K T : Type} fuel v (les : list (loc * (K * T))) k :
  k < length les → length les < fuel →
  can_throw (is_svm v les) (λ al : Allocator (svcell K T), sv_copy fuel v)
    (both (is_svm v les) (λ h, ∃ v' les', les'.*2 = take k les.*2 ∧ is_svm v' les' h)).
Proof.
  intros Hk Hf. apply can_throw_plain. eapply th_conseq; [apply (th_sv_copy fuel v les k Hk Hf)|by rewrite svm_holds|].
  rewrite plain_both svm_holds. iIntros "[$ H]". iDestruct "H" as (v' ns Hn) "H". iExists v', ns. iSplit; [done|].
  change (λ h, is_svm v' ns h) with (is_svm v' ns). by rewrite svm_holds.
Qed.

(*@ C83_partial sorted_vector_map insert, exactly: a present key never throws; when a new key throws
   in a full array, the map is as it was and at most one allocation is left behind; when it throws in
   an array with room, the map is left counting an element that does not exist ([sv_torn]). Missing:
   that the map can be used again. *)
Lemma svm_insert_throws {K T : Type} (keq comp : K → K → bool) (ulim fuel : nat) v (les : list (loc * (K * T))) k x :
  SvmSpec.key_order keq comp → SvmSpec.ascending comp les.*2 →
  sv_room keq ulim k (les.*2, sv_end v) → sv_end v + 2 < fuel →
  runs_or_throws (is_svm v les) (λ al : Allocator (svcell K T), sv_insert keq comp ulim fuel v (EVal (k, x)))
    (λ '(v', i, fresh) h,
      i = length (SvmSpec.below comp k les.*2) ∧ fresh = negb (SvmSpec.present keq k les.*2) ∧
      if SvmSpec.present keq k les.*2 then v' = v ∧ is_svm v les h
      else ∃ l, is_svm v' (take i les ++ (l, (k, x)) :: drop i les) h)
    (λ h, SvmSpec.present keq k les.*2 = false ∧
      if decide (length les = sv_end v) then is_svm v les h ∨ both (is_svm v les) one_cell h
      else sv_torn (Svm (sv_arr v) (S (sv_last v)) (sv_end v)) les (length (SvmSpec.below comp k les.*2)) h).
Proof.
  intros Hko Ha [Hfit Hcap] Hf. unfold sv_fits in Hfit. simpl in Hfit, Hcap. rewrite fmap_length in Hfit, Hcap.
  pose proof (lb_le comp k les) as Hlb.
  eapply (runs_or_throws_of _ _ _ _ _ tt _ _ _ (xp_sv_insert keq comp ulim Hko fuel v les (k, x) Ha Hfit Hcap Hf)); [done|..].
  - intros h Hh. apply (hentails (Sep.plain (is_svm v les))); [by rewrite svm_holds|exact Hh].
  - intros [[v' i] fresh] h Hh. apply hand_unfold in Hh as [Hh1 Hh]. apply hpure_unfold in Hh1 as [-> ->]. cbn [fst] in *. split; [done|]. split; [done|].
    destruct (SvmSpec.present keq k les.*2).
    + apply hand_unfold in Hh as [Hh1 Hh]. apply hpure_unfold in Hh1 as ->. split; [done|]. by apply svm_of.
    + apply hexist_unfold in Hh as [l Hh]. exists l. by apply svm_of.
  - intros h Hh. apply hand_unfold in Hh as [Hh1 Hh]. apply hpure_unfold in Hh1. cbn [fst] in *. split; [done|].
    unfold insT in Hh. rewrite take_drop in Hh. destruct (decide (length les = sv_end v)).
    + apply hsep_unfold in Hh as (h1&h2&->&Hd&H1&H2). destruct H2 as [H2|H2].
      * left. pose proof (proj1 (hemp_unfold _) H2) as ->. rewrite right_id_L. by apply svm_of.
      * right. exists h1, h2. split_and!; [done|done|..].
        -- by apply svm_of.
        -- exact (hentails _ _ plain_one_cell _ H2).
    + apply (hentails _ _ (torn_plain v _ _)) in Hh. rewrite take_drop take_length_le // in Hh.
Qed.
(*@ C83_refuted With room in the array, every insertion of a new key that is not the greatest can
   throw and leave the map torn; the destructor of a torn map deletes an element twice. *)
Lemma svm_insert_tears {K T : Type} (keq comp : K → K → bool) (ulim fuel : nat) v (les : list (loc * (K * T))) k x :
  SvmSpec.key_order keq comp → SvmSpec.ascending comp les.*2 →
  sv_room keq ulim k (les.*2, sv_end v) → sv_end v + 2 < fuel →
  SvmSpec.present keq k les.*2 = false → length les < sv_end v → length (SvmSpec.below comp k les.*2) < length les →
  let v' := Svm (sv_arr v) (S (sv_last v)) (sv_end v) in
  can_throw (is_svm v les) (λ al : Allocator (svcell K T), sv_insert keq comp ulim fuel v (EVal (k, x)))
    (sv_torn v' les (length (SvmSpec.below comp k les.*2))) ∧
  ∀ (al : Allocator (svcell K T)) fuel', length les < fuel' →
    fails (sv_torn v' les (length (SvmSpec.below comp k les.*2))) (sv_destroy fuel' v') Dangling.
Proof.
  intros Hko Ha [Hfit Hcap] Hf Hno Hroom Hpos v'. unfold sv_fits in Hfit. simpl in Hfit. rewrite fmap_length in Hfit. split.
  2: { intros al fuel' Hf'. by apply destroy_torn. }
  pose proof (lb_le comp k les) as Hlb.
  eapply (can_throw_of _ _ _ (svmP v les) (tornP v (take (length (SvmSpec.below comp k les.*2)) les) (drop (length (SvmSpec.below comp k les.*2)) les))).
  - apply th_sv_insert; [done..|lia|].
    eapply th_conseq; [apply (th_shift fuel v (take (length (SvmSpec.below comp k les.*2)) les) (drop (length (SvmSpec.below comp k les.*2)) les))| |reflexivity].
    + symmetry. by apply take_length_le.
    + rewrite take_drop. lia.
    + by rewrite take_drop.
    + by rewrite take_drop.
  - intros h Hh. apply (hentails (Sep.plain (is_svm v les))); [by rewrite svm_holds|exact Hh].
  - intros h Hh. apply (hentails _ _ (torn_plain v _ _)) in Hh. by rewrite take_drop take_length_le // in Hh.
Qed.
(*@ C83_refuted In a full array every insertion of a new key can throw and leave an allocation that
   nothing refers to: the new pointer array. *)
Lemma svm_insert_leaks {K T : Type} (keq comp : K → K → bool) (ulim fuel : nat) v (les : list (loc * (K * T))) k x :
  SvmSpec.key_order keq comp → SvmSpec.ascending comp les.*2 →
  sv_room keq ulim k (les.*2, sv_end v) → sv_end v + 2 < fuel →
  SvmSpec.present keq k les.*2 = false → length les = sv_end v →
  can_throw (is_svm v les) (λ al : Allocator (svcell K T), sv_insert keq comp ulim fuel v (EVal (k, x)))
    (both (is_svm v les) one_cell).
Proof.
  intros Hko Ha [Hfit Hcap] Hf Hno Hroom. unfold sv_fits in Hfit. simpl in Hfit, Hcap. rewrite fmap_length in Hfit, Hcap.
  pose proof (lb_le comp k les) as Hlb. assert (¬ (length les = 1 ∧ sv_end v = 1)) as Hcap' by (destruct Hcap; [congruence|done]).
  apply can_throw_plain.
  eapply th_conseq; [apply th_sv_insert; [exact Hko|exact Ha|exact Hfit|exact Hno|lia|]|by rewrite svm_holds|].
  - eapply th_conseq; [apply (th_grow fuel v (take (length (SvmSpec.below comp k les.*2)) les) (drop (length (SvmSpec.below comp k les.*2)) les))| |reflexivity].
    + symmetry. by apply take_length_le.
    + rewrite take_drop. lia.
    + by rewrite take_drop.
    + by rewrite take_drop.
    + by rewrite take_drop.
  - rewrite take_drop plain_both svm_holds. iIntros "[$ H]". by iApply plain_one_cell.
Qed.

(*@ C83_partial sorted_vector_map operator[], exactly: a present key never throws and designates its
   element; when a new key throws in a full array, the map is as it was and at most one allocation is
   left behind; when it throws in an array with room, the map is torn. Missing: that the map can be
   used again. *)
Lemma svm_index_throws {K T : Type} (keq comp : K → K → bool) (dfltT : T) (ulim fuel : nat) v (les : list (loc * (K * T))) k :
  SvmSpec.key_order keq comp → SvmSpec.ascending comp les.*2 →
  sv_room keq ulim k (les.*2, sv_end v) → sv_end v + 2 < fuel →
  let i := length (SvmSpec.below comp k les.*2) in
  runs_or_throws (is_svm v les) (λ al : Allocator (svcell K T), sv_index keq comp dfltT ulim fuel v k)
    (λ '(v', q) h, ∃ l, q = Some l ∧
      if SvmSpec.present keq k les.*2 then v' = v ∧ is_svm v les h ∧ ∃ e, les !! i = Some (l, e) ∧ keq e.1 k = true
      else is_svm v' (take i les ++ (l, (k, dfltT)) :: drop i les) h)
    (λ h, SvmSpec.present keq k les.*2 = false ∧
      if decide (length les = sv_end v) then is_svm v les h ∨ both (is_svm v les) one_cell h
      else sv_torn (Svm (sv_arr v) (S (sv_last v)) (sv_end v)) les i h).
Proof.
  intros Hko Ha [Hfit Hcap] Hf i. unfold sv_fits in Hfit. simpl in Hfit, Hcap. rewrite fmap_length in Hfit, Hcap.
  pose proof (lb_le comp k les) as Hlb. fold i in Hlb.
  eapply (runs_or_throws_of _ _ _ _ _ tt _ _ _ (xp_sv_index keq comp dfltT ulim Hko fuel v les k Ha Hfit Hcap Hf)); [done|..].
  - intros h Hh. apply (hentails (Sep.plain (is_svm v les))); [by rewrite svm_holds|exact Hh].
  - intros [v' q] h Hh. apply hexist_unfold in Hh as [l Hh]. apply hand_unfold in Hh as [Hh1 Hh]. apply hpure_unfold in Hh1 as ->.
    exists l. split; [done|]. destruct (SvmSpec.present keq k les.*2).
    + apply hexist_unfold in Hh as [e Hh]. apply hand_unfold in Hh as [Hh1 Hh]. apply hpure_unfold in Hh1 as (->&Hl&He).
      split; [done|]. split; [by apply svm_of|]. by exists e.
    + by apply svm_of.
  - intros h Hh. apply hand_unfold in Hh as [Hh1 Hh]. apply hpure_unfold in Hh1. split; [done|].
    unfold insT in Hh. rewrite take_drop in Hh. destruct (decide (length les = sv_end v)).
    + apply hsep_unfold in Hh as (h1&h2&->&Hd&H1&H2). destruct H2 as [H2|H2].
      * left. pose proof (proj1 (hemp_unfold _) H2) as ->. rewrite right_id_L. by apply svm_of.
      * right. exists h1, h2. split_and!; [done|done|..].
        -- by apply svm_of.
        -- exact (hentails _ _ plain_one_cell _ H2).
    + apply (hentails _ _ (torn_plain v _ _)) in Hh. rewrite take_drop take_length_le // in Hh.
Qed.
(*@ C83_refuted With room in the array, every m[k] for a new key that is not the greatest can throw and
   leave the map torn; the destructor of a torn map deletes an element twice. *)
Lemma svm_index_tears {K T : Type} (keq comp : K → K → bool) (dfltT : T) (ulim fuel : nat) v (les : list (loc * (K * T))) k :
  SvmSpec.key_order keq comp → SvmSpec.ascending comp les.*2 →
  sv_room keq ulim k (les.*2, sv_end v) → sv_end v + 2 < fuel →
  SvmSpec.present keq k les.*2 = false → length les < sv_end v → length (SvmSpec.below comp k les.*2) < length les →
  let v' := Svm (sv_arr v) (S (sv_last v)) (sv_end v) in
  can_throw (is_svm v les) (λ al : Allocator (svcell K T), sv_index keq comp dfltT ulim fuel v k)
    (sv_torn v' les (length (SvmSpec.below comp k les.*2))) ∧
  ∀ (al : Allocator (svcell K T)) fuel', length les < fuel' →
    fails (sv_torn v' les (length (SvmSpec.below comp k les.*2))) (sv_destroy fuel' v') Dangling.
Proof.
  intros Hko Ha [Hfit Hcap] Hf Hno Hroom Hpos v'. unfold sv_fits in Hfit. simpl in Hfit. rewrite fmap_length in Hfit. split.
  2: { intros al fuel' Hf'. by apply destroy_torn. }
  pose proof (lb_le comp k les) as Hlb.
  eapply (can_throw_of _ _ _ (svmP v les) (tornP v (take (length (SvmSpec.below comp k les.*2)) les) (drop (length (SvmSpec.below comp k les.*2)) les))).
  - apply th_sv_index; [done..|lia|].
    eapply th_conseq; [apply (th_shift fuel v (take (length (SvmSpec.below comp k les.*2)) les) (drop (length (SvmSpec.below comp k les.*2)) les))| |reflexivity].
    + symmetry. by apply take_length_le.
    + rewrite take_drop. lia.
    + by rewrite take_drop.
    + by rewrite take_drop.
  - intros h Hh. apply (hentails (Sep.plain (is_svm v les))); [by rewrite svm_holds|exact Hh].
  - intros h Hh. apply (hentails _ _ (torn_plain v _ _)) in Hh. by rewrite take_drop take_length_le // in Hh.
Qed.

(*@ C84_partial backward_list insert_after(pos, n, value): if it throws, the first k < n values are
   there; the list is as usable as before if pos is not the last position (or nothing was inserted).
   Missing: pos is the last position; tail_ is then only updated after the last allocation. *)
Lemma bl_insert_n_throws {V : Type} b (xs : list (loc * V)) i n r v :
  i ≤ length xs → refers xs r v →
  runs_or_throws (is_blist b xs) (λ al : Allocator (cell V), bl_insert_after_n b (pos_at (bl_head b) xs i) n r)
    (λ b' h, ∃ ys, ys.*2 = replicate n v ∧ bl_head b' = bl_head b ∧ is_blist b' (take i xs ++ ys ++ drop i xs) h)
    (λ h, ∃ ys k, k < n ∧ ys.*2 = replicate k v ∧ is_flist (bl_head b) (take i xs ++ ys ++ drop i xs) h ∧
       (i < length xs ∨ k = 0 → is_blist b (take i xs ++ ys ++ drop i xs) h)).
Proof.
  intros Hi Hr. apply (runs_or_throws_of _ _ _ _ _ tt _ _ _ (xp_bl_insert_n b xs i n r v Hi Hr)); [done|..].
  - intros h Hh. apply (hentails (Sep.plain (is_blist b xs))); [by rewrite plain_blist|exact Hh].
  - intros b'. apply (hentails _ (Sep.plain (λ h, ∃ ys, ys.*2 = replicate n v ∧ bl_head b' = bl_head b ∧ is_blist b' (take i xs ++ ys ++ drop i xs) h))).
    iIntros "H". iDestruct "H" as (ys Hys Hb) "H". iExists ys. do 2 (iSplit; [done|]). by rewrite plain_blist.
  - intros h Hh. apply hexist_unfold in Hh as [ys Hh]. apply hexist_unfold in Hh as [k Hh]. apply hand_unfold in Hh as [Hφ Hh].
    apply hpure_unfold in Hφ as (Hk&Hys&Ht). rewrite replicate_length in Hk. rewrite take_replicate Nat.min_l in Hys; [|lia].
    assert (is_flist (bl_head b) (take i xs ++ ys ++ drop i xs) h) as Hf.
    { revert h Hh. apply (hentails _ (Sep.plain (is_flist (bl_head b) (take i xs ++ ys ++ drop i xs)))). by rewrite plain_flist. }
    exists ys, k. split_and!; [done..|]. intros Hc. split; [by apply Ht|done].
Qed.
(*@ C84_partial backward_list insert_after(pos, first, last), at any position: whether it throws or
   not, tail_ does not move and the values (the first k of them) are there; the list is usable if pos
   is not the last position or nothing was inserted. Missing: pos is the last position, where tail_ is
   never updated (C24). *)
Lemma bl_insert_range_throws {V : Type} b (xs : list (loc * V)) i vs :
  i ≤ length xs →
  runs_or_throws (is_blist b xs) (λ al : Allocator (cell V), bl_insert_after_ext b (pos_at (bl_head b) xs i) vs)
    (λ b' h, b' = b ∧ ∃ ys, ys.*2 = vs ∧ is_flist (bl_head b) (take i xs ++ ys ++ drop i xs) h ∧
       (i < length xs ∨ vs = [] → is_blist b (take i xs ++ ys ++ drop i xs) h))
    (λ h, ∃ ys k, k < length vs ∧ ys.*2 = take k vs ∧ is_flist (bl_head b) (take i xs ++ ys ++ drop i xs) h ∧
       (i < length xs ∨ k = 0 → is_blist b (take i xs ++ ys ++ drop i xs) h)).
Proof.
  intros Hi. apply (runs_or_throws_of _ _ _ _ _ tt _ _ _ (xp_bl_insert_ext b xs i vs Hi)); [done|..].
  - intros h Hh. apply (hentails (Sep.plain (is_blist b xs))); [by rewrite plain_blist|exact Hh].
  - intros b' h Hh. apply hand_unfold in Hh as [Hφ Hh]. apply hpure_unfold in Hφ as ->. split; [done|].
    apply hexist_unfold in Hh as [ys Hh]. apply hand_unfold in Hh as [Hφ Hh]. apply hpure_unfold in Hφ as (Hys&Ht).
    assert (is_flist (bl_head b) (take i xs ++ ys ++ drop i xs) h) as Hf.
    { revert h Hh. apply (hentails _ (Sep.plain (is_flist (bl_head b) (take i xs ++ ys ++ drop i xs)))). by rewrite plain_flist. }
    exists ys. split_and!; [done..|]. intros Hc. split; [by apply Ht|done].
  - intros h Hh. apply hexist_unfold in Hh as [ys Hh]. apply hexist_unfold in Hh as [k Hh]. apply hand_unfold in Hh as [Hφ Hh].
    apply hpure_unfold in Hφ as (Hk&Hys&Ht).
    assert (is_flist (bl_head b) (take i xs ++ ys ++ drop i xs) h) as Hf.
    { revert h Hh. apply (hentails _ (Sep.plain (is_flist (bl_head b) (take i xs ++ ys ++ drop i xs)))). by rewrite plain_flist. }
    exists ys, k. split_and!; [done..|]. intros Hc. split; [by apply Ht|done].
Qed.
(*@ C84_refuted insert_after(before_end(), n, value) can throw after any number k < n of values has
   been appended, with tail_ still on the former last node; push_back then inserts before the k
   values instead of after them, and back() is not the last element. *)
Lemma bl_insert_n_stale {V : Type} b (xs : list (loc * V)) n k v :
  k < n →
  can_throw (is_blist b xs) (λ al : Allocator (cell V), bl_insert_after_n b (bl_before_end b) n (ExtVal v))
    (λ h, ∃ ys, ys.*2 = replicate k v ∧ is_flist (bl_head b) (xs ++ ys) h ∧
       ∀ (al : Allocator (cell V)) w,
         runs (λ h', h' = h) (let! b' := bl_push_back b (ExtVal w) in let! x := bl_back b' in ret (b', x))
           (λ '(b', x) h', x = w ∧ ∃ zs, zs.*2 = xs.*2 ++ [w] ++ replicate k v ∧ is_flist (bl_head b') zs h')).
Proof.
  intros Hk.
  assert (can_throw (λ h, bl_before_end b = Some (last_loc (bl_head b) xs) ∧ is_blist b xs h)
    (λ al : Allocator (cell V), bl_insert_after_n b (Some (last_loc (bl_head b) xs)) n (ExtVal v))
    (λ h, ∃ ys, bl_tail b = Some (last_loc (bl_head b) xs) ∧ ys.*2 = replicate k v ∧ is_flist (bl_head b) (xs ++ ys) h)) as Hth.
  { eapply can_throw_of; [apply (th_bl_insert_n b xs n k v Hk)|..].
    - intros h [_ Hh]. apply (hentails (Sep.plain (is_blist b xs))); [by rewrite plain_blist|exact Hh].
    - apply (hentails _ (Sep.plain (λ h, ∃ ys, bl_tail b = Some (last_loc (bl_head b) xs) ∧ ys.*2 = replicate k v ∧ is_flist (bl_head b) (xs ++ ys) h))).
      iIntros "H". iDestruct "H" as (ys [Ht Hys]) "H". iExists ys. do 2 (iSplit; [done|]). by rewrite plain_flist. }
  destruct Hth as [p [Hp Hw]].
  assert ({bl_before_end b = Some (last_loc (bl_head b) xs)} + {bl_before_end b ≠ Some (last_loc (bl_head b) xs)}) as [Ht|Ht] by apply decide, _.
  2: { destruct (tr_bl_insert_n b (bl_before_end b) n v) as [p' [Hp' _]]. exists p'. split; [exact Hp'|]. intros h [Hb _]. done. }
  rewrite Ht. exists p. split; [exact Hp|]. intros h Hh. destruct (Hw h (conj Ht Hh)) as (h1&p'&Hs&Ha&ys&Ht'&Hys&Hfl).
  exists h1, p'. split; [done|]. split; [done|]. exists ys. split_and!; [done..|]. intros al w.
  assert (runs (is_flist (bl_head b) (xs ++ ys)) (let! b' := bl_push_back b (ExtVal w) in let! x := bl_back b' in ret (b', x))
    (λ '(b', x) h', x = w ∧ ∃ zs, zs.*2 = xs.*2 ++ [w] ++ replicate k v ∧ is_flist (bl_head b') zs h')) as Hr.
  { eapply runs_from; [by rewrite plain_flist|by apply (wp_stale_push b xs ys w)|]. intros [b' x]. iIntros "[%Hx H]". destruct Hx as [-> ->].
    iDestruct "H" as (m) "H". iSplit; [done|]. iExists (xs ++ (m, w) :: ys). iSplit; [|by rewrite plain_flist].
    iPureIntro. by rewrite fmap_app fmap_cons Hys. }
  intros h' hf -> Hd. by apply Hr.
Qed.

(*@ C85 lazy_queue push_back requests memory only when no spare node is left; if the request fails the
   queue is as it was. *)
Lemma lq_push_back_pooled {V : Type} q (xs : list (loc * V)) ds r v :
  refers xs r v →
  runs_or_throws (is_lqueue q xs ds) (λ al : Allocator (cell V), lq_push_back q r)
    (λ q' h, ∃ l, lq_head q' = lq_head q ∧ reused [l] ds ∧ is_lqueue q' (xs ++ [(l, v)]) (drop 1 ds) h)
    (λ h, ds = [] ∧ is_lqueue q xs ds h).
Proof.
  intros Hr.
  assert ({lq_tail q = Some (last_loc (lq_head q) xs)} + {lq_tail q ≠ Some (last_loc (lq_head q) xs)}) as [Ht|Ht] by apply decide, _.
  2: { assert (Cl 0 1 (λ al : Allocator (cell V), lq_push_back q r)) as [p [Hp _]] by cw. exists p. split; [exact Hp|]. intros h hf h1 p' [Hb _]. done. }
  eapply (runs_or_throws_conseq _ (λ _ : unit, True) (λ _, lqueueP q xs ds) (λ _ q', ∃ l, ⌜lq_head q' = lq_head q ∧ reused [l] ds⌝ ∧ lqueueP q' (xs ++ [(l, v)]) (drop 1 ds))%I).
  - unfold lq_push_back. rewrite Ht -pos_at_last.
    apply (xp_get_ins q xs ds (length xs) r v (λ al n, ret (lq_set_tail q n))); [lia|done|intros p; cw|].
    intros al n Hre. rewrite firstn_all drop_all. destruct (decide (pos_at (lq_head q) xs (length xs) = lq_tail q)) as [_|E]; [|by rewrite pos_at_last in E].
    iIntros "H". wstep. iExists n. by iFrame.
  - iIntros "H". iExists tt. iSplit; [done|]. iExists emp%I. iSplitR; [done|]. iSplitL; [by rewrite plain_lqueue|]. iSplit.
    + iIntros (q') "_ H". iDestruct "H" as (l [H1 H2]) "H". iExists l. do 2 (iSplit; [done|]). by rewrite plain_lqueue.
    + iIntros "_ [%Hd H]". iSplit; [done|]. by rewrite plain_lqueue.
Qed.
(*@ C85 lazy_queue push_front. *)
Lemma lq_push_front_pooled {V : Type} q (xs : list (loc * V)) ds r v :
  refers xs r v →
  runs_or_throws (is_lqueue q xs ds) (λ al : Allocator (cell V), lq_push_front q r)
    (λ q' h, ∃ l, lq_head q' = lq_head q ∧ reused [l] ds ∧ is_lqueue q' ((l, v) :: xs) (drop 1 ds) h)
    (λ h, ds = [] ∧ is_lqueue q xs ds h).
Proof.
  intros Hr.
  eapply (runs_or_throws_conseq _ (λ _ : unit, True) (λ _, lqueueP q xs ds) (λ _ q', ∃ l, ⌜lq_head q' = lq_head q ∧ reused [l] ds⌝ ∧ lqueueP q' ((l, v) :: xs) (drop 1 ds))%I).
  - unfold lq_push_front.
    apply (xp_get_ins q xs ds 0 r v (λ al n, if decide (lq_tail q = Some (lq_head q)) then ret (lq_set_tail q n) else ret q)); [lia|done|intros p; destruct (decide (lq_tail q = Some (lq_head q))); cw|].
    intros al n Hre. cbn [take drop app]. change (pos_at (lq_head q) xs 0) with (Some (lq_head q)).
    destruct (decide (Some (lq_head q) = lq_tail q)) as [E|E]; destruct (decide (lq_tail q = Some (lq_head q))) as [E'|E']; try congruence;
      iIntros "H"; wstep; iExists n; by iFrame.
  - iIntros "H". iExists tt. iSplit; [done|]. iExists emp%I. iSplitR; [done|]. iSplitL; [by rewrite plain_lqueue|]. iSplit.
    + iIntros (q') "_ H". iDestruct "H" as (l [H1 H2]) "H". iExists l. do 2 (iSplit; [done|]). by rewrite plain_lqueue.
    + iIntros "_ [%Hd H]". iSplit; [done|]. by rewrite plain_lqueue.
Qed.
(*@ C85 lazy_queue insert_after(pos, x). *)
Lemma lq_insert_after_pooled {V : Type} q (xs : list (loc * V)) ds i r v :
  i ≤ length xs → refers xs r v →
  runs_or_throws (is_lqueue q xs ds) (λ al : Allocator (cell V), lq_insert_after q (pos_at (lq_head q) xs i) r)
    (λ '(q', p) h, ∃ l, lq_head q' = lq_head q ∧ p = Some l ∧ reused [l] ds ∧
       is_lqueue q' (take i xs ++ (l, v) :: drop i xs) (drop 1 ds) h)
    (λ h, ds = [] ∧ is_lqueue q xs ds h).
Proof.
  intros Hi Hr.
  eapply (runs_or_throws_conseq _ (λ _ : unit, True) (λ _, lqueueP q xs ds) (λ _ qp, ∃ l, ⌜lq_head qp.1 = lq_head q ∧ qp.2 = Some l ∧ reused [l] ds⌝ ∧ lqueueP qp.1 (take i xs ++ (l, v) :: drop i xs) (drop 1 ds))%I).
  - unfold lq_insert_after.
    apply (xp_get_ins q xs ds i r v (λ al n, if decide (pos_at (lq_head q) xs i = lq_tail q) then ret (lq_set_tail q n, n) else ret (q, n))); [lia|done|intros p; destruct (decide (pos_at (lq_head q) xs i = lq_tail q)); cw|].
    intros al n Hre. destruct (decide (pos_at (lq_head q) xs i = lq_tail q)) as [E|E]; iIntros "H"; wstep; iExists n; by iFrame.
  - iIntros "H". iExists tt. iSplit; [done|]. iExists emp%I. iSplitR; [done|]. iSplitL; [by rewrite plain_lqueue|]. iSplit.
    + iIntros ([q' p]) "_ H". iDestruct "H" as (l (H1&H2&H3)) "H". simpl in *. iExists l. do 3 (iSplit; [done|]). by rewrite plain_lqueue.
    + iIntros "_ [%Hd H]". iSplit; [done|]. by rewrite plain_lqueue.
Qed.
(*@ C85 lazy_queue insert_after(pos, n, value) with at least n spare nodes never throws. *)
Lemma lq_insert_n_nothrow {V : Type} q (xs : list (loc * V)) ds i n r v :
  i ≤ length xs → refers xs r v → n ≤ length ds →
  runs_or_throws (is_lqueue q xs ds) (λ al : Allocator (cell V), lq_insert_after_n q (pos_at (lq_head q) xs i) n r)
    (λ q' h, ∃ ys, ys.*2 = replicate n v ∧ lq_head q' = lq_head q ∧ reused ys.*1 ds ∧
       is_lqueue q' (take i xs ++ ys ++ drop i xs) (drop n ds) h)
    (λ _, False).
Proof.
  intros Hi Hr Hn. eapply runs_or_throws_conseq; [apply (xp_lq_insert_n q xs ds i n r v Hi Hr)|].
  iIntros "H". iExists tt. iSplit; [done|]. iExists emp%I. iSplitR; [done|]. iSplitL; [by rewrite plain_lqueue|]. iSplit.
  - iIntros (q') "_ H". iDestruct "H" as (ys (H1&H2&H3)) "H". iExists ys. rewrite replicate_length. do 3 (iSplit; [done|]). by rewrite plain_lqueue.
  - iIntros "_ H". iDestruct "H" as (ys k (Hk&_)) "H". rewrite replicate_length in Hk. lia.
Qed.
(*@ C85 lazy_queue insert_after(pos, first, last) with at least as many spare nodes as values never
   throws. *)
Lemma lq_insert_range_nothrow {V : Type} q (xs : list (loc * V)) ds i vs :
  i ≤ length xs → length vs ≤ length ds →
  runs_or_throws (is_lqueue q xs ds) (λ al : Allocator (cell V), lq_insert_after_ext q (pos_at (lq_head q) xs i) vs)
    (λ q' h, ∃ ys, ys.*2 = vs ∧ lq_head q' = lq_head q ∧ reused ys.*1 ds ∧
       is_lqueue q' (take i xs ++ ys ++ drop i xs) (drop (length vs) ds) h)
    (λ _, False).
Proof.
  intros Hi Hn. eapply runs_or_throws_conseq; [apply (xp_lq_insert_ext q xs ds i vs Hi)|].
  iIntros "H". iExists tt. iSplit; [done|]. iExists emp%I. iSplitR; [done|]. iSplitL; [by rewrite plain_lqueue|]. iSplit.
  - iIntros (q') "_ H". iDestruct "H" as (ys (H1&H2&H3)) "H". iExists ys. do 3 (iSplit; [done|]). by rewrite plain_lqueue.
  - iIntros "_ H". iDestruct "H" as (ys k (Hk&_)) "H". lia.
Qed.
(*@ C85 After clear() a lazy_queue takes as many values as it held (and had spare) without requesting
   memory. *)
Lemma lq_refill_nothrow {V : Type} fuel q (xs : list (loc * V)) ds vs :
  length xs < fuel → length vs ≤ length xs + length ds →
  runs_or_throws (is_lqueue q xs ds)
    (λ al : Allocator (cell V), let! q' := lq_clear fuel q in lq_insert_after_ext q' (lq_before_begin q') vs)
    (λ q' h, ∃ ys es, ys.*2 = vs ∧ length es = length xs + length ds - length vs ∧ lq_head q' = lq_head q ∧ is_lqueue q' ys es h)
    (λ _, False).
Proof.
  intros Hf Hn. eapply runs_or_throws_conseq; [apply (xp_refill fuel q xs ds vs Hf)|].
  iIntros "H". iExists tt. iSplit; [done|]. iExists emp%I. iSplitR; [done|]. iSplitL; [by rewrite plain_lqueue|]. iSplit.
  - iIntros (q') "_ H". iDestruct "H" as (ys [H1 H2]) "H". iExists ys, (drop (length vs) (reverse xs.*1 ++ ds)).
    iSplit; [done|]. iSplit; [iPureIntro; by rewrite drop_length app_length reverse_length fmap_length|]. iSplit; [done|]. by rewrite plain_lqueue.
  - iIntros "_ [%Hk H]". lia.
Qed.
(*@ C85_partial lazy_queue insert_after(pos, n, value): if it throws, every spare node has been used
   and the first k values are there; the queue is as usable as before if pos is not the last position
   (or nothing was inserted). Missing: pos is the last position; tail_ is then stale. *)
Lemma lq_insert_n_throws {V : Type} q (xs : list (loc * V)) ds i n r v :
  i ≤ length xs → refers xs r v →
  runs_or_throws (is_lqueue q xs ds) (λ al : Allocator (cell V), lq_insert_after_n q (pos_at (lq_head q) xs i) n r)
    (λ q' h, ∃ ys, ys.*2 = replicate n v ∧ lq_head q' = lq_head q ∧ reused ys.*1 ds ∧
       is_lqueue q' (take i xs ++ ys ++ drop i xs) (drop n ds) h)
    (λ h, ∃ ys k, length ds ≤ k < n ∧ ys.*2 = replicate k v ∧ reused ys.*1 ds ∧
       let xs' := take i xs ++ ys ++ drop i xs in
       is_lqueue (lq_set_tail q (Some (last_loc (lq_head q) xs'))) xs' [] h ∧
       (i < length xs ∨ k = 0 → is_lqueue q xs' [] h)).
Proof.
  intros Hi Hr. eapply runs_or_throws_conseq; [apply (xp_lq_insert_n q xs ds i n r v Hi Hr)|].
  iIntros "H". iExists tt. iSplit; [done|]. iExists emp%I. iSplitR; [done|]. iSplitL; [by rewrite plain_lqueue|]. iSplit.
  - iIntros (q') "_ H". iDestruct "H" as (ys (H1&H2&H3)) "H". iExists ys. rewrite replicate_length. do 3 (iSplit; [done|]). by rewrite plain_lqueue.
  - iIntros "_ H". iDestruct "H" as (ys k (Hk&Hys&Hre&Ht)) "[H Hp]". rewrite replicate_length in Hk. rewrite take_replicate Nat.min_l in Hys; [|lia].
    set (xs' := take i xs ++ ys ++ drop i xs) in *.
    iAssert (lqueueP (lq_set_tail q (Some (last_loc (lq_head q) xs'))) xs' []) with "[H Hp]" as "H"; [iSplit; [done|]; iFrame|].
    rewrite -plain_lqueue. iStopProof. apply hentails_intro. intros h Hh. apply plain_holds in Hh. apply plain_holds. exists ys, k.
    split_and!; [lia|lia|done|done|exact Hh|]. intros Hc. destruct Hh as [_ Hh]. split; [by apply Ht|exact Hh].
Qed.
(*@ C85_refuted insert_after(before_end(), n, value) can throw after any number k < n of values (all
   spare nodes used) has been appended, with tail_ still on the former last node; push_back then
   inserts before the k values instead of after them, and back() is not the last element. *)
Lemma lq_insert_n_stale {V : Type} q (xs : list (loc * V)) ds n k v :
  length ds ≤ k < n →
  can_throw (is_lqueue q xs ds) (λ al : Allocator (cell V), lq_insert_after_n q (lq_before_end q) n (ExtVal v))
    (λ h, ∃ ys, ys.*2 = replicate k v ∧ is_lqueue (lq_set_tail q (Some (last_loc (lq_head q) (xs ++ ys)))) (xs ++ ys) [] h ∧
       ∀ (al : Allocator (cell V)) w,
         runs (λ h', h' = h) (let! q' := lq_push_back q (ExtVal w) in let! x := lq_back q' in ret (q', x))
           (λ '(q', x) h', x = w ∧ ∃ zs, zs.*2 = xs.*2 ++ [w] ++ replicate k v ∧
              is_lqueue (lq_set_tail q' (Some (last_loc (lq_head q) zs))) zs [] h')).
Proof.
  intros Hk.
  assert (can_throw (λ h, lq_before_end q = Some (last_loc (lq_head q) xs) ∧ is_lqueue q xs ds h)
    (λ al : Allocator (cell V), lq_insert_after_n q (Some (last_loc (lq_head q) xs)) n (ExtVal v))
    (λ h, ∃ ys, lq_tail q = Some (last_loc (lq_head q) xs) ∧ ys.*2 = replicate k v ∧
       is_lqueue (lq_set_tail q (Some (last_loc (lq_head q) (xs ++ ys)))) (xs ++ ys) [] h)) as Hth.
  { eapply can_throw_of; [apply (th_lq_insert_n q xs ds n k v Hk)|..].
    - intros h [_ Hh]. apply (hentails (Sep.plain (is_lqueue q xs ds))); [by rewrite lqueue_holds|exact Hh].
    - apply (hentails _ (Sep.plain (λ h, ∃ ys, lq_tail q = Some (last_loc (lq_head q) xs) ∧ ys.*2 = replicate k v ∧
         is_lqueue (lq_set_tail q (Some (last_loc (lq_head q) (xs ++ ys)))) (xs ++ ys) [] h))).
      iIntros "H". iDestruct "H" as (ys [Ht Hys]) "[H Hp]". iExists ys. do 2 (iSplit; [done|]). rewrite plain_lqueue. iSplit; [done|]. iFrame. }
  destruct Hth as [p [Hp Hw]].
  assert ({lq_before_end q = Some (last_loc (lq_head q) xs)} + {lq_before_end q ≠ Some (last_loc (lq_head q) xs)}) as [Ht|Ht] by apply decide, _.
  2: { destruct (tr_lq_insert_n q (lq_before_end q) n v) as [p' [Hp' _]]. exists p'. split; [exact Hp'|]. intros h [Hb _]. done. }
  rewrite Ht. exists p. split; [exact Hp|]. intros h Hh. destruct (Hw h (conj Ht Hh)) as (h1&p'&Hs&Ha&ys&Ht'&Hys&Hfl).
  exists h1, p'. split; [done|]. split; [done|]. exists ys. split_and!; [done..|]. intros al w.
  assert (runs (is_lqueue (lq_set_tail q (Some (last_loc (lq_head q) (xs ++ ys)))) (xs ++ ys) [])
    (let! q' := lq_push_back q (ExtVal w) in let! x := lq_back q' in ret (q', x))
    (λ '(q', x) h', x = w ∧ ∃ zs, zs.*2 = xs.*2 ++ [w] ++ replicate k v ∧ is_lqueue (lq_set_tail q' (Some (last_loc (lq_head q) zs))) zs [] h')) as Hr.
  { apply (runs_from _ _ _ (flist (lq_head q) (xs ++ ys) ∗ pool q [])%I (λ '(q', x), ⌜x = w ∧ lq_head q' = lq_head q ∧ lq_dead q' = lq_dead q⌝ ∧
         ∃ n, flist (lq_head q) (xs ++ (n, w) :: ys) ∗ pool q [])%I); [rewrite lqueue_holds; iIntros "[_ H]"; iExact "H"|exact (wp_lq_stale_push q xs ys [] w Ht')|]. intros [q' x]. iIntros "[%Hx H]". destruct Hx as (->&Hq1&Hq2).
    iDestruct "H" as (m) "[H Hp]". iSplit; [done|]. iExists (xs ++ (m, w) :: ys). iSplit; [iPureIntro; by rewrite fmap_app fmap_cons Hys|].
    rewrite plain_lqueue. unfold lqueueP, pool. simpl. rewrite Hq1 Hq2. iSplit; [done|]. iFrame. }
  intros h' hf -> Hd. by apply Hr.
Qed.
