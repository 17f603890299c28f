(** GENERATED by tools/genprops.py from LazyRuns.v: property theorems only.
    Every proof is the lemma of the same statement proved there. *)
From Verif Require Import LazySpec LazyRuns.

Section lazy.
  Context {V : Type} `{Allocator (cell V)}.

  (** Whole programs on two lazy_queues: every history whose calls stay within
     [lq_ok] (swap only of two non-empty queues; cleanup and destruction only of queues
     whose T is trivially destructible or whose pool is empty) observes exactly what the
     abstract sequences prescribe, has no undefined behaviour, leaves no memory, and
     owns exactly the number of nodes [lq_spec] prescribes: a node is allocated only
     when all owned nodes are in use. Missing: the calls excluded by [lq_ok], on which
     the code is wrong (see _refuted). *)
  Theorem C25_lq_history :
    ∀ triv ops,
    v_correct lq_new (lq_destroy triv) (lq_step triv) ([], 0) (lq_spec_ok triv) (lq_fin (V:=V) triv) ops.
  Proof. first [exact lq_history | apply lq_history | intros; eapply lq_history; eassumption]. Qed.

  (** Whole programs on two lazy_queues: every history whose calls stay within
     [lq_ok] (swap only of two non-empty queues; cleanup and destruction only of queues
     whose T is trivially destructible or whose pool is empty) observes exactly what the
     abstract sequences prescribe, has no undefined behaviour, leaves no memory, and
     owns exactly the number of nodes [lq_spec] prescribes: a node is allocated only
     when all owned nodes are in use. Missing: the calls excluded by [lq_ok], on which
     the code is wrong (see _refuted). *)
  Theorem C26_lq_history :
    ∀ triv ops,
    v_correct lq_new (lq_destroy triv) (lq_step triv) ([], 0) (lq_spec_ok triv) (lq_fin (V:=V) triv) ops.
  Proof. first [exact lq_history | apply lq_history | intros; eapply lq_history; eassumption]. Qed.

  (** Whole programs on two lazy_queues: every history whose calls stay within
     [lq_ok] (swap only of two non-empty queues; cleanup and destruction only of queues
     whose T is trivially destructible or whose pool is empty) observes exactly what the
     abstract sequences prescribe, has no undefined behaviour, leaves no memory, and
     owns exactly the number of nodes [lq_spec] prescribes: a node is allocated only
     when all owned nodes are in use. Missing: the calls excluded by [lq_ok], on which
     the code is wrong (see _refuted). *)
  Theorem C27_lq_history_partial :
    ∀ triv ops,
    v_correct lq_new (lq_destroy triv) (lq_step triv) ([], 0) (lq_spec_ok triv) (lq_fin (V:=V) triv) ops.
  Proof. first [exact lq_history | apply lq_history | intros; eapply lq_history; eassumption]. Qed.

  (** Whole programs on two lazy_queues: every history whose calls stay within
     [lq_ok] (swap only of two non-empty queues; cleanup and destruction only of queues
     whose T is trivially destructible or whose pool is empty) observes exactly what the
     abstract sequences prescribe, has no undefined behaviour, leaves no memory, and
     owns exactly the number of nodes [lq_spec] prescribes: a node is allocated only
     when all owned nodes are in use. Missing: the calls excluded by [lq_ok], on which
     the code is wrong (see _refuted). *)
  Theorem C28_lq_history_partial :
    ∀ triv ops,
    v_correct lq_new (lq_destroy triv) (lq_step triv) ([], 0) (lq_spec_ok triv) (lq_fin (V:=V) triv) ops.
  Proof. first [exact lq_history | apply lq_history | intros; eapply lq_history; eassumption]. Qed.

  (** After every such history both objects are well formed queues (tail_ on
     the last node) that hold the abstract sequences, and elements plus pooled nodes
     are as many as prescribed. *)
  Theorem C25_lq_reaches :
    ∀ triv ops,
    v_reaches lq_new (lq_step triv) ([], 0) (lq_spec_ok triv)
      (λ q (s : lq_state V) h, ∃ xs ds, xs.*2 = s.1 ∧ length xs + length ds = s.2 ∧
         is_lqueue q xs ds h) ops.
  Proof. first [exact lq_reaches | apply lq_reaches | intros; eapply lq_reaches; eassumption]. Qed.

  (** After every such history both objects are well formed queues (tail_ on
     the last node) that hold the abstract sequences, and elements plus pooled nodes
     are as many as prescribed. *)
  Theorem C26_lq_reaches :
    ∀ triv ops,
    v_reaches lq_new (lq_step triv) ([], 0) (lq_spec_ok triv)
      (λ q (s : lq_state V) h, ∃ xs ds, xs.*2 = s.1 ∧ length xs + length ds = s.2 ∧
         is_lqueue q xs ds h) ops.
  Proof. first [exact lq_reaches | apply lq_reaches | intros; eapply lq_reaches; eassumption]. Qed.

  (** After every such history both objects are well formed queues (tail_ on
     the last node) that hold the abstract sequences, and elements plus pooled nodes
     are as many as prescribed. *)
  Theorem C28_lq_reaches_partial :
    ∀ triv ops,
    v_reaches lq_new (lq_step triv) ([], 0) (lq_spec_ok triv)
      (λ q (s : lq_state V) h, ∃ xs ds, xs.*2 = s.1 ∧ length xs + length ds = s.2 ∧
         is_lqueue q xs ds h) ops.
  Proof. first [exact lq_reaches | apply lq_reaches | intros; eapply lq_reaches; eassumption]. Qed.

  (** For every T and every history without swap, cleanup and destruction in the
     middle: the observations are those of the abstract sequences, and afterwards the
     objects are well formed and own exactly as many nodes as the maximum number of
     elements stored so far. *)
  Theorem C25_lq_reaches_all :
    ∀ triv ops,
    Forall (λ o, o.2 ≠ QSwap ∧ o.2 ≠ QRecopy ∧ o.2 ≠ QCleanup) ops →
    v_reaches lq_new (lq_step triv) ([], 0) lq_spec
      (λ q (s : lq_state V) h, ∃ xs ds, xs.*2 = s.1 ∧ length xs + length ds = s.2 ∧
         is_lqueue q xs ds h) ops.
  Proof. first [exact lq_reaches_all | apply lq_reaches_all | intros; eapply lq_reaches_all; eassumption]. Qed.

  (** For every T and every history without swap, cleanup and destruction in the
     middle: the observations are those of the abstract sequences, and afterwards the
     objects are well formed and own exactly as many nodes as the maximum number of
     elements stored so far. *)
  Theorem C26_lq_reaches_all :
    ∀ triv ops,
    Forall (λ o, o.2 ≠ QSwap ∧ o.2 ≠ QRecopy ∧ o.2 ≠ QCleanup) ops →
    v_reaches lq_new (lq_step triv) ([], 0) lq_spec
      (λ q (s : lq_state V) h, ∃ xs ds, xs.*2 = s.1 ∧ length xs + length ds = s.2 ∧
         is_lqueue q xs ds h) ops.
  Proof. first [exact lq_reaches_all | apply lq_reaches_all | intros; eapply lq_reaches_all; eassumption]. Qed.

  (** With a trivially destructible T: every history without swap, including
     cleanup, copies and destruction at any point, is right and leaves no memory. *)
  Theorem C25_lq_history_trivial :
    ∀ ops,
    Forall (λ o, o.2 ≠ QSwap) ops →
    v_correct lq_new (lq_destroy true) (lq_step true) ([], 0) lq_spec (λ _ : lq_state V, True) ops.
  Proof. first [exact lq_history_trivial | apply lq_history_trivial | intros; eapply lq_history_trivial; eassumption]. Qed.

  (** With a trivially destructible T: every history without swap, including
     cleanup, copies and destruction at any point, is right and leaves no memory. *)
  Theorem C26_lq_history_trivial :
    ∀ ops,
    Forall (λ o, o.2 ≠ QSwap) ops →
    v_correct lq_new (lq_destroy true) (lq_step true) ([], 0) lq_spec (λ _ : lq_state V, True) ops.
  Proof. first [exact lq_history_trivial | apply lq_history_trivial | intros; eapply lq_history_trivial; eassumption]. Qed.

  (** With a trivially destructible T: every history without swap, including
     cleanup, copies and destruction at any point, is right and leaves no memory. *)
  Theorem C27_lq_history_trivial :
    ∀ ops,
    Forall (λ o, o.2 ≠ QSwap) ops →
    v_correct lq_new (lq_destroy true) (lq_step true) ([], 0) lq_spec (λ _ : lq_state V, True) ops.
  Proof. first [exact lq_history_trivial | apply lq_history_trivial | intros; eapply lq_history_trivial; eassumption]. Qed.

  (** push_back appends one node after the last; it is the first pooled node if there is
     one. [r] may refer to an element of the queue itself. *)
  Theorem C25_lq_push_back_ok :
    ∀ q (xs : list (loc * V)) ds r v,
    refers xs r v →
    runs (is_lqueue q xs ds) (lq_push_back q r)
      (λ q' h, ∃ l, lq_head q' = lq_head q ∧ reused [l] ds ∧
         is_lqueue q' (xs ++ [(l, v)]) (drop 1 ds) h).
  Proof. first [exact lq_push_back_ok | apply lq_push_back_ok | intros; eapply lq_push_back_ok; eassumption]. Qed.

  (** push_back appends one node after the last; it is the first pooled node if there is
     one. [r] may refer to an element of the queue itself. *)
  Theorem C26_lq_push_back_ok :
    ∀ q (xs : list (loc * V)) ds r v,
    refers xs r v →
    runs (is_lqueue q xs ds) (lq_push_back q r)
      (λ q' h, ∃ l, lq_head q' = lq_head q ∧ reused [l] ds ∧
         is_lqueue q' (xs ++ [(l, v)]) (drop 1 ds) h).
  Proof. first [exact lq_push_back_ok | apply lq_push_back_ok | intros; eapply lq_push_back_ok; eassumption]. Qed.

  (** push_front. *)
  Theorem C25_lq_push_front_ok :
    ∀ q (xs : list (loc * V)) ds r v,
    refers xs r v →
    runs (is_lqueue q xs ds) (lq_push_front q r)
      (λ q' h, ∃ l, lq_head q' = lq_head q ∧ reused [l] ds ∧
         is_lqueue q' ((l, v) :: xs) (drop 1 ds) h).
  Proof. first [exact lq_push_front_ok | apply lq_push_front_ok | intros; eapply lq_push_front_ok; eassumption]. Qed.

  (** push_front. *)
  Theorem C26_lq_push_front_ok :
    ∀ q (xs : list (loc * V)) ds r v,
    refers xs r v →
    runs (is_lqueue q xs ds) (lq_push_front q r)
      (λ q' h, ∃ l, lq_head q' = lq_head q ∧ reused [l] ds ∧
         is_lqueue q' ((l, v) :: xs) (drop 1 ds) h).
  Proof. first [exact lq_push_front_ok | apply lq_push_front_ok | intros; eapply lq_push_front_ok; eassumption]. Qed.

  (** pop_front moves the first node to the pool: no memory is released. *)
  Theorem C25_lq_pop_front_ok :
    ∀ q l v (xs : list (loc * V)) ds,
    runs (is_lqueue q ((l, v) :: xs) ds) (lq_pop_front q)
      (λ q' h, lq_head q' = lq_head q ∧ is_lqueue q' xs (l :: ds) h).
  Proof. first [exact lq_pop_front_ok | apply lq_pop_front_ok | intros; eapply lq_pop_front_ok; eassumption]. Qed.

  (** pop_front moves the first node to the pool: no memory is released. *)
  Theorem C26_lq_pop_front_ok :
    ∀ q l v (xs : list (loc * V)) ds,
    runs (is_lqueue q ((l, v) :: xs) ds) (lq_pop_front q)
      (λ q' h, lq_head q' = lq_head q ∧ is_lqueue q' xs (l :: ds) h).
  Proof. first [exact lq_pop_front_ok | apply lq_pop_front_ok | intros; eapply lq_pop_front_ok; eassumption]. Qed.

  (** insert_after(pos, value) returns an iterator to the one new element. *)
  Theorem C25_lq_insert_after_ok :
    ∀ q (xs : list (loc * V)) ds i r v,
    i ≤ length xs → refers xs r v →
    runs (is_lqueue q xs ds) (lq_insert_after q (pos_at (lq_head q) xs i) r)
      (λ '(q', p) h, ∃ l, lq_head q' = lq_head q ∧ p = Some l ∧ reused [l] ds ∧
         is_lqueue q' (take i xs ++ (l, v) :: drop i xs) (drop 1 ds) h).
  Proof. first [exact lq_insert_after_ok | apply lq_insert_after_ok | intros; eapply lq_insert_after_ok; eassumption]. Qed.

  (** insert_after(pos, value) returns an iterator to the one new element. *)
  Theorem C26_lq_insert_after_ok :
    ∀ q (xs : list (loc * V)) ds i r v,
    i ≤ length xs → refers xs r v →
    runs (is_lqueue q xs ds) (lq_insert_after q (pos_at (lq_head q) xs i) r)
      (λ '(q', p) h, ∃ l, lq_head q' = lq_head q ∧ p = Some l ∧ reused [l] ds ∧
         is_lqueue q' (take i xs ++ (l, v) :: drop i xs) (drop 1 ds) h).
  Proof. first [exact lq_insert_after_ok | apply lq_insert_after_ok | intros; eapply lq_insert_after_ok; eassumption]. Qed.

  (** insert_after(pos, n, value): the pool is used up before memory is allocated. *)
  Theorem C25_lq_insert_after_n_ok :
    ∀ q (xs : list (loc * V)) ds i n r v,
    i ≤ length xs → refers xs r v →
    runs (is_lqueue q xs ds) (lq_insert_after_n q (pos_at (lq_head q) xs i) n r)
      (λ q' h, ∃ ys, ys.*2 = replicate n v ∧ lq_head q' = lq_head q ∧ reused ys.*1 ds ∧
         is_lqueue q' (take i xs ++ ys ++ drop i xs) (drop n ds) h).
  Proof. first [exact lq_insert_after_n_ok | apply lq_insert_after_n_ok | intros; eapply lq_insert_after_n_ok; eassumption]. Qed.

  (** insert_after(pos, n, value): the pool is used up before memory is allocated. *)
  Theorem C26_lq_insert_after_n_ok :
    ∀ q (xs : list (loc * V)) ds i n r v,
    i ≤ length xs → refers xs r v →
    runs (is_lqueue q xs ds) (lq_insert_after_n q (pos_at (lq_head q) xs i) n r)
      (λ q' h, ∃ ys, ys.*2 = replicate n v ∧ lq_head q' = lq_head q ∧ reused ys.*1 ds ∧
         is_lqueue q' (take i xs ++ ys ++ drop i xs) (drop n ds) h).
  Proof. first [exact lq_insert_after_n_ok | apply lq_insert_after_n_ok | intros; eapply lq_insert_after_n_ok; eassumption]. Qed.

  (** insert_after(pos, first, last). *)
  Theorem C25_lq_insert_after_range_ok :
    ∀ q (xs : list (loc * V)) ds i vs,
    i ≤ length xs →
    runs (is_lqueue q xs ds) (lq_insert_after_ext q (pos_at (lq_head q) xs i) vs)
      (λ q' h, ∃ ys, ys.*2 = vs ∧ lq_head q' = lq_head q ∧ reused ys.*1 ds ∧
         is_lqueue q' (take i xs ++ ys ++ drop i xs) (drop (length vs) ds) h).
  Proof. first [exact lq_insert_after_range_ok | apply lq_insert_after_range_ok | intros; eapply lq_insert_after_range_ok; eassumption]. Qed.

  (** insert_after(pos, first, last). *)
  Theorem C26_lq_insert_after_range_ok :
    ∀ q (xs : list (loc * V)) ds i vs,
    i ≤ length xs →
    runs (is_lqueue q xs ds) (lq_insert_after_ext q (pos_at (lq_head q) xs i) vs)
      (λ q' h, ∃ ys, ys.*2 = vs ∧ lq_head q' = lq_head q ∧ reused ys.*1 ds ∧
         is_lqueue q' (take i xs ++ ys ++ drop i xs) (drop (length vs) ds) h).
  Proof. first [exact lq_insert_after_range_ok | apply lq_insert_after_range_ok | intros; eapply lq_insert_after_range_ok; eassumption]. Qed.

  (** erase_after moves the node after pos to the pool, also when it is the last one. *)
  Theorem C25_lq_erase_after_ok :
    ∀ q (xs : list (loc * V)) ds i l v,
    xs !! i = Some (l, v) →
    runs (is_lqueue q xs ds) (lq_erase_after q (pos_at (lq_head q) xs i))
      (λ '(q', p) h, lq_head q' = lq_head q ∧ p = pos_at (lq_head q) xs (S (S i)) ∧
         is_lqueue q' (take i xs ++ drop (S i) xs) (l :: ds) h).
  Proof. first [exact lq_erase_after_ok | apply lq_erase_after_ok | intros; eapply lq_erase_after_ok; eassumption]. Qed.

  (** erase_after moves the node after pos to the pool, also when it is the last one. *)
  Theorem C26_lq_erase_after_ok :
    ∀ q (xs : list (loc * V)) ds i l v,
    xs !! i = Some (l, v) →
    runs (is_lqueue q xs ds) (lq_erase_after q (pos_at (lq_head q) xs i))
      (λ '(q', p) h, lq_head q' = lq_head q ∧ p = pos_at (lq_head q) xs (S (S i)) ∧
         is_lqueue q' (take i xs ++ drop (S i) xs) (l :: ds) h).
  Proof. first [exact lq_erase_after_ok | apply lq_erase_after_ok | intros; eapply lq_erase_after_ok; eassumption]. Qed.

  (** erase_after(pos, last) moves exactly the nodes strictly between to the pool. *)
  Theorem C25_lq_erase_after_range_ok :
    ∀ fuel q (xs : list (loc * V)) ds i j,
    i < j ≤ S (length xs) → length xs < fuel →
    runs (is_lqueue q xs ds)
      (lq_erase_after_range fuel q (pos_at (lq_head q) xs i) (pos_at (lq_head q) xs j))
      (λ '(q', p) h, lq_head q' = lq_head q ∧ p = pos_at (lq_head q) xs j ∧
         is_lqueue q' (take i xs ++ drop (j - 1) xs)
           (reverse (take (j - 1 - i) (drop i xs)).*1 ++ ds) h).
  Proof. first [exact lq_erase_after_range_ok | apply lq_erase_after_range_ok | intros; eapply lq_erase_after_range_ok; eassumption]. Qed.

  (** erase_after(pos, last) moves exactly the nodes strictly between to the pool. *)
  Theorem C26_lq_erase_after_range_ok :
    ∀ fuel q (xs : list (loc * V)) ds i j,
    i < j ≤ S (length xs) → length xs < fuel →
    runs (is_lqueue q xs ds)
      (lq_erase_after_range fuel q (pos_at (lq_head q) xs i) (pos_at (lq_head q) xs j))
      (λ '(q', p) h, lq_head q' = lq_head q ∧ p = pos_at (lq_head q) xs j ∧
         is_lqueue q' (take i xs ++ drop (j - 1) xs)
           (reverse (take (j - 1 - i) (drop i xs)).*1 ++ ds) h).
  Proof. first [exact lq_erase_after_range_ok | apply lq_erase_after_range_ok | intros; eapply lq_erase_after_range_ok; eassumption]. Qed.

  (** clear moves every node to the pool. *)
  Theorem C25_lq_clear_ok :
    ∀ fuel q (xs : list (loc * V)) ds,
    length xs < fuel →
    runs (is_lqueue q xs ds) (lq_clear fuel q)
      (λ q' h, lq_head q' = lq_head q ∧ is_lqueue q' [] (reverse xs.*1 ++ ds) h).
  Proof. first [exact lq_clear_ok | apply lq_clear_ok | intros; eapply lq_clear_ok; eassumption]. Qed.

  (** clear moves every node to the pool. *)
  Theorem C26_lq_clear_ok :
    ∀ fuel q (xs : list (loc * V)) ds,
    length xs < fuel →
    runs (is_lqueue q xs ds) (lq_clear fuel q)
      (λ q' h, lq_head q' = lq_head q ∧ is_lqueue q' [] (reverse xs.*1 ++ ds) h).
  Proof. first [exact lq_clear_ok | apply lq_clear_ok | intros; eapply lq_clear_ok; eassumption]. Qed.

  (** roll_head moves the first element to the end (no element is copied). *)
  Theorem C25_lq_roll_head_ok :
    ∀ q (xs : list (loc * V)) ds,
    runs (is_lqueue q xs ds) (lq_roll_head q)
      (λ q' h, lq_head q' = lq_head q ∧ is_lqueue q' (drop 1 xs ++ take 1 xs) ds h).
  Proof. first [exact lq_roll_head_ok | apply lq_roll_head_ok | intros; eapply lq_roll_head_ok; eassumption]. Qed.

  (** front(). *)
  Theorem C25_lq_front_ok :
    ∀ q l v (xs : list (loc * V)) ds,
    runs (is_lqueue q ((l, v) :: xs) ds) (lq_front q)
      (λ w h, w = v ∧ is_lqueue q ((l, v) :: xs) ds h).
  Proof. first [exact lq_front_ok | apply lq_front_ok | intros; eapply lq_front_ok; eassumption]. Qed.

  (** back() is the last element. *)
  Theorem C25_lq_back_ok :
    ∀ q l v (xs : list (loc * V)) ds,
    runs (is_lqueue q (xs ++ [(l, v)]) ds) (lq_back q)
      (λ w h, w = v ∧ is_lqueue q (xs ++ [(l, v)]) ds h).
  Proof. first [exact lq_back_ok | apply lq_back_ok | intros; eapply lq_back_ok; eassumption]. Qed.

  (** lazy_queue(n, value). *)
  Theorem C25_lq_new_n_ok :
    ∀ n r (v : V),
    refers [] r v →
    runs nothing (lq_new_n n r) (λ q h, ∃ zs, zs.*2 = replicate n v ∧ is_lqueue q zs [] h).
  Proof. first [exact lq_new_n_ok | apply lq_new_n_ok | intros; eapply lq_new_n_ok; eassumption]. Qed.

  (** copy construction: fresh nodes with the same values; the pool is not copied
     and the source is unchanged. *)
  Theorem C25_lq_copy_ok :
    ∀ fuel other (xs : list (loc * V)) ds,
    length xs < fuel →
    runs (is_lqueue other xs ds) (lq_copy fuel other)
      (λ q h, ∃ zs, zs.*2 = xs.*2 ∧ both (is_lqueue q zs []) (is_lqueue other xs ds) h).
  Proof. first [exact lq_copy_ok | apply lq_copy_ok | intros; eapply lq_copy_ok; eassumption]. Qed.

  (** assignment reuses the nodes of the destination before allocating. *)
  Theorem C25_lq_assign_from_ok :
    ∀ fuel q other (xs ys : list (loc * V)) ds es,
    length xs < fuel → length ys < fuel →
    runs (both (is_lqueue q xs ds) (is_lqueue other ys es)) (lq_assign_from fuel q other)
      (λ q' h, ∃ zs, zs.*2 = ys.*2 ∧ lq_head q' = lq_head q ∧
         reused zs.*1 (reverse xs.*1 ++ ds) ∧
         both (is_lqueue q' zs (drop (length ys) (reverse xs.*1 ++ ds))) (is_lqueue other ys es) h).
  Proof. first [exact lq_assign_from_ok | apply lq_assign_from_ok | intros; eapply lq_assign_from_ok; eassumption]. Qed.

  (** assignment reuses the nodes of the destination before allocating. *)
  Theorem C26_lq_assign_from_ok :
    ∀ fuel q other (xs ys : list (loc * V)) ds es,
    length xs < fuel → length ys < fuel →
    runs (both (is_lqueue q xs ds) (is_lqueue other ys es)) (lq_assign_from fuel q other)
      (λ q' h, ∃ zs, zs.*2 = ys.*2 ∧ lq_head q' = lq_head q ∧
         reused zs.*1 (reverse xs.*1 ++ ds) ∧
         both (is_lqueue q' zs (drop (length ys) (reverse xs.*1 ++ ds))) (is_lqueue other ys es) h).
  Proof. first [exact lq_assign_from_ok | apply lq_assign_from_ok | intros; eapply lq_assign_from_ok; eassumption]. Qed.

  (** cleanup() releases exactly the pooled nodes, provided T is trivially
     destructible or the pool is empty. Missing: the other pools (refuted below). *)
  Theorem C27_lq_cleanup_ok_partial :
    ∀ triv fuel q (xs : list (loc * V)) ds,
    (triv = true ∨ ds = []) → length ds < fuel →
    runs (is_lqueue q xs ds) (lq_cleanup triv fuel q) (λ _ h, is_lqueue q xs [] h).
  Proof. first [exact lq_cleanup_ok | apply lq_cleanup_ok | intros; eapply lq_cleanup_ok; eassumption]. Qed.

  (** the destructor releases everything under the same condition. *)
  Theorem C27_lq_destroy_ok_partial :
    ∀ triv fuel q (xs : list (loc * V)) ds,
    (triv = true ∨ ds = []) → length xs < fuel → length ds < fuel →
    runs (is_lqueue q xs ds) (lq_destroy triv fuel q) (λ _ h, nothing h).
  Proof. first [exact lq_destroy_ok | apply lq_destroy_ok | intros; eapply lq_destroy_ok; eassumption]. Qed.

  (** with a T that has a real destructor, cleanup() of ANY queue with a
     non-empty pool destroys an object that was already destroyed. *)
  Theorem C27_lq_cleanup_bad_refuted :
    ∀ fuel q (xs : list (loc * V)) d ds,
    0 < fuel → fails (is_lqueue q xs (d :: ds)) (lq_cleanup false fuel q) NoObject.
  Proof. first [exact lq_cleanup_bad | apply lq_cleanup_bad | intros; eapply lq_cleanup_bad; eassumption]. Qed.

  (** and so does the destructor. *)
  Theorem C27_lq_destroy_bad_refuted :
    ∀ fuel q (xs : list (loc * V)) d ds,
    length xs < fuel → fails (is_lqueue q xs (d :: ds)) (lq_destroy false fuel q) NoObject.
  Proof. first [exact lq_destroy_bad | apply lq_destroy_bad | intros; eapply lq_destroy_bad; eassumption]. Qed.

  (** swap of two non-empty lazy_queues exchanges the chains (not the pools)
     and leaves both usable. *)
  Theorem C28_lq_swap_ok_partial :
    ∀ a b (xs ys : list (loc * V)) ds es,
    xs ≠ [] → ys ≠ [] →
    runs (both (is_lqueue a xs ds) (is_lqueue b ys es)) (lq_swap a b)
      (λ '(a', b') h, lq_head a' = lq_head a ∧ lq_head b' = lq_head b ∧
         both (is_lqueue a' ys ds) (is_lqueue b' xs es) h).
  Proof. first [exact lq_swap_ok | apply lq_swap_ok | intros; eapply lq_swap_ok; eassumption]. Qed.

  (** swapping with an empty lazy_queue: the chains are exchanged, but the
     tail_ of the queue that becomes empty designates the other object's header, so that
     push_back on it appends to the wrong queue: it is not a usable empty queue. *)
  Theorem C28_lq_swap_empty_refuted :
    ∀ a b (xs : list (loc * V)) ds es,
    runs (both (is_lqueue a xs ds) (is_lqueue b [] es)) (lq_swap a b)
      (λ '(a', b') h, lq_tail a' = Some (lq_head b) ∧ lq_head a' = lq_head a ∧
         lq_head b' = lq_head b ∧ lq_head b ≠ lq_head a ∧
         (∀ ds' h', ¬ is_lqueue (V:=V) a' [] ds' h') ∧
         both (is_flist (lq_head a) []) (λ _, True) h).
  Proof. first [exact lq_swap_empty | apply lq_swap_empty | intros; eapply lq_swap_empty; eassumption]. Qed.

  (** assigning a lazy_queue to itself empties it. *)
  Theorem C07_lq_self_assign_refuted :
    ∀ fuel q (xs : list (loc * V)) ds,
    length xs < fuel →
    runs (is_lqueue q xs ds) (lq_assign_from fuel q q)
      (λ q' h, lq_head q' = lq_head q ∧ is_lqueue q' [] (reverse xs.*1 ++ ds) h).
  Proof. first [exact lq_self_assign | apply lq_self_assign | intros; eapply lq_self_assign; eassumption]. Qed.

End lazy.

Print Assumptions C25_lq_history.
Print Assumptions C26_lq_history.
Print Assumptions C27_lq_history_partial.
Print Assumptions C28_lq_history_partial.
Print Assumptions C25_lq_reaches.
Print Assumptions C26_lq_reaches.
Print Assumptions C28_lq_reaches_partial.
Print Assumptions C25_lq_reaches_all.
Print Assumptions C26_lq_reaches_all.
Print Assumptions C25_lq_history_trivial.
Print Assumptions C26_lq_history_trivial.
Print Assumptions C27_lq_history_trivial.
Print Assumptions C25_lq_push_back_ok.
Print Assumptions C26_lq_push_back_ok.
Print Assumptions C25_lq_push_front_ok.
Print Assumptions C26_lq_push_front_ok.
Print Assumptions C25_lq_pop_front_ok.
Print Assumptions C26_lq_pop_front_ok.
Print Assumptions C25_lq_insert_after_ok.
Print Assumptions C26_lq_insert_after_ok.
Print Assumptions C25_lq_insert_after_n_ok.
Print Assumptions C26_lq_insert_after_n_ok.
Print Assumptions C25_lq_insert_after_range_ok.
Print Assumptions C26_lq_insert_after_range_ok.
Print Assumptions C25_lq_erase_after_ok.
Print Assumptions C26_lq_erase_after_ok.
Print Assumptions C25_lq_erase_after_range_ok.
Print Assumptions C26_lq_erase_after_range_ok.
Print Assumptions C25_lq_clear_ok.
Print Assumptions C26_lq_clear_ok.
Print Assumptions C25_lq_roll_head_ok.
Print Assumptions C25_lq_front_ok.
Print Assumptions C25_lq_back_ok.
Print Assumptions C25_lq_new_n_ok.
Print Assumptions C25_lq_copy_ok.
Print Assumptions C25_lq_assign_from_ok.
Print Assumptions C26_lq_assign_from_ok.
Print Assumptions C27_lq_cleanup_ok_partial.
Print Assumptions C27_lq_destroy_ok_partial.
Print Assumptions C27_lq_cleanup_bad_refuted.
Print Assumptions C27_lq_destroy_bad_refuted.
Print Assumptions C28_lq_swap_ok_partial.
Print Assumptions C28_lq_swap_empty_refuted.
Print Assumptions C07_lq_self_assign_refuted.
