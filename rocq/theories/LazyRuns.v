(** lazy_queue: the property lemmas, in the vocabulary of Triple.v, SlistSpec.v,
    LazySpec.v and HistoryV.v only. *)
From Verif Require Import LazyHistory ForwardRuns.
From iris.proofmode Require Import tactics.
(*@HEADER
From Verif Require Import LazySpec LazyRuns.

Section lazy.
  Context {V : Type} `{Allocator (cell V)}.
@*)
(*@FOOTER
End lazy.
@*)

Ltac qpre := first [rewrite plain_both !lqueue_holds | rewrite lqueue_holds]; reflexivity.

Section lazy.
  Context {V : Type} `{Allocator (cell V)}.
  Notation iProp := (bi_car (hpropI (cell V))).

  Lemma plain_lqueue q (xs : list (loc * V)) ds : Sep.plain (λ h, is_lqueue q xs ds h) ⊣⊢ lqueueP q xs ds.
  Proof. apply lqueue_holds. Qed.
  Lemma plain_lqueue2 a b (xs ys : list (loc * V)) ds es :
    Sep.plain (λ h, both (is_lqueue a xs ds) (is_lqueue b ys es) h) ⊣⊢ lqueueP a xs ds ∗ lqueueP b ys es.
  Proof. rewrite plain_both !lqueue_holds. done. Qed.

  (*@ C25,C26,C27_partial,C28_partial Whole programs on two lazy_queues: every history whose calls stay within
     [lq_ok] (swap only of two non-empty queues; cleanup and destruction only of queues
     whose T is trivially destructible or whose pool is empty) observes exactly what the
     abstract sequences prescribe, has no undefined behaviour, leaves no memory, and
     owns exactly the number of nodes [lq_spec] prescribes: a node is allocated only
     when all owned nodes are in use. Missing: the calls excluded by [lq_ok], on which
     the code is wrong (see _refuted). *)
  Lemma lq_history triv ops :
    v_correct lq_new (lq_destroy triv) (lq_step triv) ([], 0) (lq_spec_ok triv) (lq_fin (V:=V) triv) ops.
  Proof. apply lq_history_correct. Qed.
  (*@ C25,C26,C28_partial After every such history both objects are well formed queues (tail_ on
     the last node) that hold the abstract sequences, and elements plus pooled nodes
     are as many as prescribed. *)
  Lemma lq_reaches triv ops :
    v_reaches lq_new (lq_step triv) ([], 0) (lq_spec_ok triv)
      (λ q (s : lq_state V) h, ∃ xs ds, xs.*2 = s.1 ∧ length xs + length ds = s.2 ∧
         is_lqueue q xs ds h) ops.
  Proof. apply lq_history_reaches. Qed.
  Lemma lq_h_spec_ok triv (P : lq_op V → Prop) ops s o r :
    (∀ op s o, P op → lq_ok triv s o op) → Forall (λ o, P o.2) ops →
    h_spec lq_spec s o ops = Some r → h_spec (lq_spec_ok triv) s o ops = Some r.
  Proof.
    intros HP. revert s o r. induction ops as [|[t op] ops IH]; intros s o r Hops Hr; [done|].
    apply Forall_cons in Hops as [Hop Hops]. simpl in *. unfold lq_spec_ok.
    destruct t; (destruct (decide _) as [_|Hn]; [|by destruct Hn; apply HP]);
      apply bind_Some in Hr as ([[xs ys] u]&Hs&Hr); rewrite Hs; simpl;
      apply bind_Some in Hr as ([ab rs]&Hr&?); by rewrite (IH _ _ _ Hops Hr).
  Qed.
  (*@ C25,C26 For every T and every history without swap, cleanup and destruction in the
     middle: the observations are those of the abstract sequences, and afterwards the
     objects are well formed and own exactly as many nodes as the maximum number of
     elements stored so far. *)
  Lemma lq_reaches_all triv ops :
    Forall (λ o, o.2 ≠ QSwap ∧ o.2 ≠ QRecopy ∧ o.2 ≠ QCleanup) ops →
    v_reaches lq_new (lq_step triv) ([], 0) lq_spec
      (λ q (s : lq_state V) h, ∃ xs ds, xs.*2 = s.1 ∧ length xs + length ds = s.2 ∧
         is_lqueue q xs ds h) ops.
  Proof.
    intros Hops xs ys outs Hs. eapply (lq_history_reaches triv).
    eapply (lq_h_spec_ok _ (λ op, op ≠ QSwap ∧ op ≠ QRecopy ∧ op ≠ QCleanup)); [|exact Hops|exact Hs].
    clear. intros op s o (?&?&?). by destruct op.
  Qed.
  (*@ C25,C26,C27 With a trivially destructible T: every history without swap, including
     cleanup, copies and destruction at any point, is right and leaves no memory. *)
  Lemma lq_history_trivial ops :
    Forall (λ o, o.2 ≠ QSwap) ops →
    v_correct lq_new (lq_destroy true) (lq_step true) ([], 0) lq_spec (λ _ : lq_state V, True) ops.
  Proof.
    intros Hops xs ys outs Hs _ _. eapply (lq_history_correct true); [|by left|by left].
    eapply (lq_h_spec_ok _ (λ op, op ≠ QSwap)); [|exact Hops|exact Hs]. clear. intros op s o ?. destruct op; simpl; try done; by left.
  Qed.

  (*@ C25,C26 push_back appends one node after the last; it is the first pooled node if there is
     one. [r] may refer to an element of the queue itself. *)
  Lemma lq_push_back_ok q (xs : list (loc * V)) ds r v :
    refers xs r v →
    runs (is_lqueue q xs ds) (lq_push_back q r)
      (λ q' h, ∃ l, lq_head q' = lq_head q ∧ reused [l] ds ∧
         is_lqueue q' (xs ++ [(l, v)]) (drop 1 ds) h).
  Proof.
    intros Hr. eapply runs_from; [qpre|by eapply wp_lq_push_back|].
    intros b'. iIntros "H". iDestruct "H" as (l Hh Hre) "H". iExists l. iSplit; [done|]. iSplit; [done|].
    by rewrite plain_lqueue.
  Qed.
  (*@ C25,C26 push_front. *)
  Lemma lq_push_front_ok q (xs : list (loc * V)) ds r v :
    refers xs r v →
    runs (is_lqueue q xs ds) (lq_push_front q r)
      (λ q' h, ∃ l, lq_head q' = lq_head q ∧ reused [l] ds ∧
         is_lqueue q' ((l, v) :: xs) (drop 1 ds) h).
  Proof.
    intros Hr. eapply runs_from; [qpre|by eapply wp_lq_push_front|].
    intros b'. iIntros "H". iDestruct "H" as (l Hh Hre) "H". iExists l. iSplit; [done|]. iSplit; [done|].
    by rewrite plain_lqueue.
  Qed.
  (*@ C25,C26 pop_front moves the first node to the pool: no memory is released. *)
  Lemma lq_pop_front_ok q l v (xs : list (loc * V)) ds :
    runs (is_lqueue q ((l, v) :: xs) ds) (lq_pop_front q)
      (λ q' h, lq_head q' = lq_head q ∧ is_lqueue q' xs (l :: ds) h).
  Proof.
    eapply runs_from; [qpre|by eapply wp_lq_pop_front|].
    intros b'. iIntros "[% H]". iSplit; [done|]. by rewrite plain_lqueue.
  Qed.
  (*@ C25,C26 insert_after(pos, value) returns an iterator to the one new element. *)
  Lemma lq_insert_after_ok q (xs : list (loc * V)) ds i r v :
    i ≤ length xs → refers xs r v →
    runs (is_lqueue q xs ds) (lq_insert_after q (pos_at (lq_head q) xs i) r)
      (λ '(q', p) h, ∃ l, lq_head q' = lq_head q ∧ p = Some l ∧ reused [l] ds ∧
         is_lqueue q' (take i xs ++ (l, v) :: drop i xs) (drop 1 ds) h).
  Proof.
    intros Hi Hr. eapply runs_from; [qpre|by eapply wp_lq_insert_after|].
    intros [b' p]. iIntros "H". iDestruct "H" as (l Hh Hp Hre) "H". iExists l.
    repeat (iSplit; [done|]). by rewrite plain_lqueue.
  Qed.
  (*@ C25,C26 insert_after(pos, n, value): the pool is used up before memory is allocated. *)
  Lemma lq_insert_after_n_ok q (xs : list (loc * V)) ds i n r v :
    i ≤ length xs → refers xs r v →
    runs (is_lqueue q xs ds) (lq_insert_after_n q (pos_at (lq_head q) xs i) n r)
      (λ q' h, ∃ ys, ys.*2 = replicate n v ∧ lq_head q' = lq_head q ∧ reused ys.*1 ds ∧
         is_lqueue q' (take i xs ++ ys ++ drop i xs) (drop n ds) h).
  Proof.
    intros Hi Hr. eapply runs_from; [qpre|by eapply wp_lq_insert_after_n|].
    intros b'. iIntros "H". iDestruct "H" as (ys Hys Hh Hre) "H". iExists ys.
    repeat (iSplit; [done|]). by rewrite plain_lqueue.
  Qed.
  (*@ C25,C26 insert_after(pos, first, last). *)
  Lemma lq_insert_after_range_ok q (xs : list (loc * V)) ds i vs :
    i ≤ length xs →
    runs (is_lqueue q xs ds) (lq_insert_after_ext q (pos_at (lq_head q) xs i) vs)
      (λ q' h, ∃ ys, ys.*2 = vs ∧ lq_head q' = lq_head q ∧ reused ys.*1 ds ∧
         is_lqueue q' (take i xs ++ ys ++ drop i xs) (drop (length vs) ds) h).
  Proof.
    intros Hi. eapply runs_from; [qpre|by eapply wp_lq_insert_after_ext|].
    intros b'. iIntros "H". iDestruct "H" as (ys Hys Hh Hre) "H". iExists ys.
    repeat (iSplit; [done|]). by rewrite plain_lqueue.
  Qed.
  (*@ C25,C26 erase_after moves the node after pos to the pool, also when it is the last one. *)
  Lemma lq_erase_after_ok q (xs : list (loc * V)) ds i l v :
    xs !! i = Some (l, v) →
    runs (is_lqueue q xs ds) (lq_erase_after q (pos_at (lq_head q) xs i))
      (λ '(q', p) h, lq_head q' = lq_head q ∧ p = pos_at (lq_head q) xs (S (S i)) ∧
         is_lqueue q' (take i xs ++ drop (S i) xs) (l :: ds) h).
  Proof.
    intros Hi. eapply runs_from; [qpre|by eapply wp_lq_erase_after|].
    intros [b' p]. iIntros "(%Hh&%Hp&H)". repeat (iSplit; [done|]). by rewrite plain_lqueue.
  Qed.
  (*@ C25,C26 erase_after(pos, last) moves exactly the nodes strictly between to the pool. *)
  Lemma lq_erase_after_range_ok fuel q (xs : list (loc * V)) ds i j :
    i < j ≤ S (length xs) → length xs < fuel →
    runs (is_lqueue q xs ds)
      (lq_erase_after_range fuel q (pos_at (lq_head q) xs i) (pos_at (lq_head q) xs j))
      (λ '(q', p) h, lq_head q' = lq_head q ∧ p = pos_at (lq_head q) xs j ∧
         is_lqueue q' (take i xs ++ drop (j - 1) xs)
           (reverse (take (j - 1 - i) (drop i xs)).*1 ++ ds) h).
  Proof.
    intros Hi Hf. eapply runs_from; [qpre|by eapply wp_lq_erase_after_range|].
    intros [b' p]. iIntros "(%Hh&%Hp&H)". repeat (iSplit; [done|]). by rewrite plain_lqueue.
  Qed.
  (*@ C25,C26 clear moves every node to the pool. *)
  Lemma lq_clear_ok fuel q (xs : list (loc * V)) ds :
    length xs < fuel →
    runs (is_lqueue q xs ds) (lq_clear fuel q)
      (λ q' h, lq_head q' = lq_head q ∧ is_lqueue q' [] (reverse xs.*1 ++ ds) h).
  Proof.
    intros Hf. eapply (runs_from _ _ _ (flist (lq_head q) xs ∗ pool q ds)%I);
      [rewrite lqueue_holds; by iIntros "[_ H]"|by eapply wp_lq_clear|].
    intros b'. iIntros "(%&%&H)". iSplit; [done|]. by rewrite plain_lqueue.
  Qed.
  (*@ C25 roll_head moves the first element to the end (no element is copied). *)
  Lemma lq_roll_head_ok q (xs : list (loc * V)) ds :
    runs (is_lqueue q xs ds) (lq_roll_head q)
      (λ q' h, lq_head q' = lq_head q ∧ is_lqueue q' (drop 1 xs ++ take 1 xs) ds h).
  Proof.
    eapply runs_from; [qpre|by eapply wp_lq_roll|].
    intros b'. iIntros "[% H]". iSplit; [done|]. by rewrite plain_lqueue.
  Qed.
  (*@ C25 front(). *)
  Lemma lq_front_ok q l v (xs : list (loc * V)) ds :
    runs (is_lqueue q ((l, v) :: xs) ds) (lq_front q)
      (λ w h, w = v ∧ is_lqueue q ((l, v) :: xs) ds h).
  Proof.
    eapply runs_from; [qpre|by eapply wp_lq_front|].
    intros w. iIntros "[% H]". iSplit; [done|]. by rewrite plain_lqueue.
  Qed.
  (*@ C25 back() is the last element. *)
  Lemma lq_back_ok q l v (xs : list (loc * V)) ds :
    runs (is_lqueue q (xs ++ [(l, v)]) ds) (lq_back q)
      (λ w h, w = v ∧ is_lqueue q (xs ++ [(l, v)]) ds h).
  Proof.
    eapply runs_from; [qpre|by eapply wp_lq_back|].
    intros w. iIntros "[% H]". iSplit; [done|]. by rewrite plain_lqueue.
  Qed.
  (*@ C25 lazy_queue(n, value). *)
  Lemma lq_new_n_ok n r (v : V) :
    refers [] r v →
    runs nothing (lq_new_n n r) (λ q h, ∃ zs, zs.*2 = replicate n v ∧ is_lqueue q zs [] h).
  Proof.
    intros Hr. eapply (runs_from _ _ _ emp%I); [by rewrite plain_nothing|by eapply wp_lq_new_n|].
    intros q. iIntros "H". iDestruct "H" as (zs Hzs) "H". iExists zs. iSplit; [done|].
    by rewrite plain_lqueue.
  Qed.
  (*@ C25 copy construction: fresh nodes with the same values; the pool is not copied
     and the source is unchanged. *)
  Lemma lq_copy_ok fuel other (xs : list (loc * V)) ds :
    length xs < fuel →
    runs (is_lqueue other xs ds) (lq_copy fuel other)
      (λ q h, ∃ zs, zs.*2 = xs.*2 ∧ both (is_lqueue q zs []) (is_lqueue other xs ds) h).
  Proof.
    intros Hf. eapply (runs_from _ _ _ _ (λ q, ∃ zs, ⌜zs.*2 = xs.*2⌝ ∧
      lqueueP q zs [] ∗ lqueueP other xs ds)%I); [qpre| |].
    - iIntros "[%Ht [H Hp]]".
      iApply (wp_wand with "[H]"); [by iApply (wp_lq_copy with "H")|].
      iIntros (q) "H". iDestruct "H" as (zs Hzs) "[Hq H]". iExists zs. iSplit; [done|]. by iFrame.
    - intros q. iIntros "H". iDestruct "H" as (zs Hzs) "H". iExists zs. iSplit; [done|].
      by rewrite plain_lqueue2.
  Qed.
  (*@ C25,C26 assignment reuses the nodes of the destination before allocating. *)
  Lemma lq_assign_from_ok fuel q other (xs ys : list (loc * V)) ds es :
    length xs < fuel → length ys < fuel →
    runs (both (is_lqueue q xs ds) (is_lqueue other ys es)) (lq_assign_from fuel q other)
      (λ q' h, ∃ zs, zs.*2 = ys.*2 ∧ lq_head q' = lq_head q ∧
         reused zs.*1 (reverse xs.*1 ++ ds) ∧
         both (is_lqueue q' zs (drop (length ys) (reverse xs.*1 ++ ds))) (is_lqueue other ys es) h).
  Proof.
    intros Hf Hf2. eapply (runs_from _ _ _ _ (λ q', ∃ zs, ⌜zs.*2 = ys.*2⌝ ∧ ⌜lq_head q' = lq_head q⌝ ∧
      ⌜reused zs.*1 (reverse xs.*1 ++ ds)⌝ ∧
      lqueueP q' zs (drop (length ys) (reverse xs.*1 ++ ds)) ∗ lqueueP other ys es)%I); [qpre| |].
    - iIntros "[[%Ht [H Hp]] [%Hto [Ho Hpo]]]". unfold lq_assign_from.
      iApply (wp_wand with "[H Hp Ho]"); [iApply (wp_lq_assign_from with "[$H $Hp $Ho]"); lia|].
      iIntros (q') "H". iDestruct "H" as (zs Hzs Hh Hre) "[H Ho]". iExists zs.
      repeat (iSplit; [done|]). by iFrame.
    - intros q'. iIntros "H". iDestruct "H" as (zs Hzs Hh Hre) "H". iExists zs.
      repeat (iSplit; [done|]). by rewrite plain_lqueue2.
  Qed.
  (*@ C27_partial cleanup() releases exactly the pooled nodes, provided T is trivially
     destructible or the pool is empty. Missing: the other pools (refuted below). *)
  Lemma lq_cleanup_ok triv fuel q (xs : list (loc * V)) ds :
    (triv = true ∨ ds = []) → length ds < fuel →
    runs (is_lqueue q xs ds) (lq_cleanup triv fuel q) (λ _ h, is_lqueue q xs [] h).
  Proof.
    intros Hok Hf. eapply (runs_from _ _ _ _ (λ _, lqueueP q xs [])%I); [qpre| |].
    - iIntros "[%Ht [H Hp]]". iApply (wp_wand with "[Hp]"); [by iApply (wp_lq_cleanup with "Hp")|].
      iIntros (_) "Hp". by iFrame.
    - intros _. by rewrite plain_lqueue.
  Qed.
  (*@ C27_partial the destructor releases everything under the same condition. *)
  Lemma lq_destroy_ok triv fuel q (xs : list (loc * V)) ds :
    (triv = true ∨ ds = []) → length xs < fuel → length ds < fuel →
    runs (is_lqueue q xs ds) (lq_destroy triv fuel q) (λ _ h, nothing h).
  Proof.
    intros Hok Hf Hf2. eapply (runs_from _ _ _ (flist (lq_head q) xs ∗ pool q ds)%I);
      [rewrite lqueue_holds; by iIntros "[_ H]"|by eapply wp_lq_destroy|].
    intros p. change (λ h, nothing h) with (@nothing (cell V)). by rewrite plain_nothing.
  Qed.

  Lemma ifails_cleanup fuel q d ds :
    0 < fuel → ifails (pool (V:=V) q (d :: ds)) (lq_cleanup false fuel q) NoObject.
  Proof.
    intros Hf. destruct fuel as [|fuel]; [lia|]. unfold lq_cleanup. cbn [loop].
    apply ifails_bind_l.
    eapply (ifails_bind _ _ _ (λ n, ⌜n = Some d⌝ ∧ pool q (d :: ds))%I).
    { iIntros "[Hd Hp]". iApply (wp_get_next with "Hd"). iIntros "Hd". iSplit; [done|].
      unfold pool. simpl. iFrame. }
    intros n. apply ifails_pure. intros ->.
    eapply (ifails_bind _ _ _ (λ n, ⌜n = Some d⌝ ∧ ∃ nx, d ↦ Cell nx Raw ∗ pool q ds)%I).
    { iIntros "(Hd&Hn&Hp)". iApply (wp_unlink_next with "Hd Hn"). iIntros "Hd Hn". iSplit; [done|].
      iExists _. unfold pool. simpl. iFrame. }
    intros n. apply ifails_pure. intros ->. apply ifails_exist. intros nx.
    apply ifails_bind_l. unfold delete_pooled.
    eapply (ifails_bind _ _ _ (λ l, ⌜l = d⌝ ∧ d ↦ Cell nx Raw ∗ pool q ds)%I).
    { iIntros "H". wstep. iSplit; [done|]. done. }
    intros l. apply ifails_pure. intros ->.
    eapply (ifails_bind _ _ _ (λ c, ⌜c = Cell nx Raw⌝ ∧ emp ∗ d ↦ Cell nx Raw ∗ pool q ds)%I).
    { iIntros "[Hd Hp]". iApply (wp_load with "Hd"). iIntros "Hd". iSplit; [done|]. iFrame. }
    intros c. apply ifails_pure. intros ->. apply ifails_fail.
  Qed.
  (*@ C27_refuted with a T that has a real destructor, cleanup() of ANY queue with a
     non-empty pool destroys an object that was already destroyed. *)
  Lemma lq_cleanup_bad fuel q (xs : list (loc * V)) d ds :
    0 < fuel → fails (is_lqueue q xs (d :: ds)) (lq_cleanup false fuel q) NoObject.
  Proof.
    intros Hf h hf Hh Hd.
    assert (hholds (lqueueP q xs (d :: ds)) h) as Hp.
    { eapply hentails; [rewrite -lqueue_holds; reflexivity|]. by apply plain_holds. }
    apply hand_unfold in Hp as [_ Hp]. apply hsep_unfold in Hp as (h1&h2&->&Hd12&H1&H2).
    apply map_disjoint_union_l in Hd as [Hd1 Hd2].
    rewrite (map_union_comm h1 h2) // -map_union_assoc.
    eapply ifails_cleanup; [done|exact H2|]. apply map_disjoint_union_r_2; done.
  Qed.
  (*@ C27_refuted and so does the destructor. *)
  Lemma lq_destroy_bad fuel q (xs : list (loc * V)) d ds :
    length xs < fuel → fails (is_lqueue q xs (d :: ds)) (lq_destroy false fuel q) NoObject.
  Proof.
    intros Hf. eapply fails_of; [qpre|]. unfold lq_destroy.
    eapply (ifails_bind _ _ _ (λ _, pool q (d :: ds) ∗ lq_head q ↦ Cell None Hdr)%I).
    { iIntros "[_ [H Hp]]".
      iApply (wp_wand with "[H]"); [by iApply (wp_clear with "H")|]. iIntros (_) "H". iFrame. }
    intros _. apply ifails_bind_l. intros h hf Hh Hd.
    apply hsep_unfold in Hh as (h1&h2&->&Hd12&H1&H2).
    apply map_disjoint_union_l in Hd as [Hd1 Hd2]. rewrite -map_union_assoc.
    eapply ifails_cleanup; [lia|exact H1|]. apply map_disjoint_union_r_2; done.
  Qed.
  (*@ C28_partial swap of two non-empty lazy_queues exchanges the chains (not the pools)
     and leaves both usable. *)
  Lemma lq_swap_ok a b (xs ys : list (loc * V)) ds es :
    xs ≠ [] → ys ≠ [] →
    runs (both (is_lqueue a xs ds) (is_lqueue b ys es)) (lq_swap a b)
      (λ '(a', b') h, lq_head a' = lq_head a ∧ lq_head b' = lq_head b ∧
         both (is_lqueue a' ys ds) (is_lqueue b' xs es) h).
  Proof.
    intros Hx Hy. eapply runs_from; [qpre|by eapply wp_lq_swap|].
    intros [a' b']. iIntros "(%&%&H)". iSplit; [done|]. iSplit; [done|]. by rewrite plain_lqueue2.
  Qed.
  (*@ C28_refuted swapping with an empty lazy_queue: the chains are exchanged, but the
     tail_ of the queue that becomes empty designates the other object's header, so that
     push_back on it appends to the wrong queue: it is not a usable empty queue. *)
  Lemma lq_swap_empty a b (xs : list (loc * V)) ds es :
    runs (both (is_lqueue a xs ds) (is_lqueue b [] es)) (lq_swap a b)
      (λ '(a', b') h, lq_tail a' = Some (lq_head b) ∧ lq_head a' = lq_head a ∧
         lq_head b' = lq_head b ∧ lq_head b ≠ lq_head a ∧
         (∀ ds' h', ¬ is_lqueue (V:=V) a' [] ds' h') ∧
         both (is_flist (lq_head a) []) (λ _, True) h).
  Proof.
    eapply (runs_from _ _ _ _ (λ ab, ⌜lq_tail ab.1 = Some (lq_head b) ∧
        lq_head ab.1 = lq_head a ∧ lq_head ab.2 = lq_head b ∧ lq_head b ≠ lq_head a⌝ ∧
        flist (lq_head a) [] ∗ Sep.plain (λ _ : gmap loc (cell V), True%type))%I); [qpre| |].
    - iIntros "[[%Hta [Ha Hp]] [%Htb [Hb Hq]]]". unfold lq_swap. wstep.
      iAssert (⌜lq_head b ≠ lq_head a⌝)%I as "%Hne".
      { iDestruct "Ha" as "[Ha _]". iDestruct "Hb" as "[Hb _]".
        iApply (pto_ne with "[$Hb $Ha]"). }
      iApply (wp_wand with "[Ha Hb]"); [iApply wp_fl_swap; iFrame|]. iIntros (_) "[Ha Hb]".
      wstep. cbn [fst snd lq_tail lq_head]. iSplit; [iPureIntro|].
      { rewrite Htb. done. }
      iFrame "Ha". iAssert True%I as "Ht"; [done|]. iStopProof. apply hentails_intro.
      intros σ _. by apply plain_holds.
    - intros [a' b']. cbn [fst snd]. iIntros "[%Hx' H]". destruct Hx' as (Ht&Ha&?&Hne).
      repeat (iSplit; [done|]). iSplit.
      { iPureIntro. intros ds' h' [Ht' _]. rewrite Ht Ha last_loc_nil in Ht'. congruence. }
      change (λ h, both (is_flist (lq_head a) []) (λ _ : gmap loc (cell V), True) h)
        with (both (is_flist (V:=V) (lq_head a) []) (λ _, True%type)).
      by rewrite plain_both flist_holds.
  Qed.
  (*@ C07_refuted assigning a lazy_queue to itself empties it. *)
  Lemma lq_self_assign fuel q (xs : list (loc * V)) ds :
    length xs < fuel →
    runs (is_lqueue q xs ds) (lq_assign_from fuel q q)
      (λ q' h, lq_head q' = lq_head q ∧ is_lqueue q' [] (reverse xs.*1 ++ ds) h).
  Proof.
    intros Hf. eapply runs_from; [qpre|by eapply wp_lq_assign_self|].
    intros b'. iIntros "[% H]". iSplit; [done|]. by rewrite plain_lqueue.
  Qed.
End lazy.
