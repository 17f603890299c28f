(** A client program using two lazy_queues, and what it must observe.

    The abstract state of a queue is its sequence of elements together with the
    number of nodes it owns (elements plus pooled nodes), see [lq_spec]. *)
From Verif Require Export ForwardSpec HistoryV.

(** The new nodes [ns] were taken from the pool [ds], first node first, as long
    as it lasted. *)
Definition reused (ns ds : list loc) : Prop := take (length ds) ns = take (length ns) ds.

Section lazy.
  Context {V : Type} `{Allocator (cell V)}.
  Context (triv : bool).      (* is T trivially destructible? *)
  Notation heap := (gmap loc (cell V)).

  (** One call on a queue ("this"), possibly involving another one ("other").
      Positions count increments from before_begin(). *)
  Inductive lq_op :=
    | QPushFront (v : V)
    | QPushFrontOwn (i : nat)            (* push_front(reference to own element i) *)
    | QPushBack (v : V)
    | QPushBackOwn (i : nat)
    | QPopFront
    | QInsertAfter (i : nat) (v : V)
    | QInsertAfterN (i n : nat) (v : V)
    | QInsertAfterOwn (i n j : nat)      (* insert_after(pos i, n, own element j) *)
    | QInsertAfterRange (i : nat) (vs : list V)
    | QInsertAfterOther (i : nat)        (* insert_after(pos i, other.begin(), other.end()) *)
    | QEraseAfter (i : nat)
    | QEraseAfterRange (i j : nat)
    | QClear
    | QRoll
    | QFront
    | QBack
    | QEmpty
    | QContents                          (* for (x : queue) ... *)
    | QSwap
    | QAssignFrom                        (* this = other *)
    | QRecopy                            (* other is destroyed and re-created as a copy of this *)
    | QCleanup.

  Definition qdone (o : lqueue) (m : M heap lqueue) : M heap (lqueue * lqueue * fl_out V) :=
    let! q := m in ret (q, o, ODone).

  Definition lq_step (fuel : nat) (this other : lqueue) (op : lq_op)
      : M heap (lqueue * lqueue * fl_out V) :=
    match op with
    | QPushFront v => qdone other (lq_push_front this (ExtVal v))
    | QPushFrontOwn i =>
        let! r := own_ref (lq_head this) i in qdone other (lq_push_front this r)
    | QPushBack v => qdone other (lq_push_back this (ExtVal v))
    | QPushBackOwn i =>
        let! r := own_ref (lq_head this) i in qdone other (lq_push_back this r)
    | QPopFront => qdone other (lq_pop_front this)
    | QInsertAfter i v =>
        let! p := fl_at (lq_head this) i in
        let! (q, n) := lq_insert_after this p (ExtVal v) in
        let! o := show_it n in ret (q, other, o)
    | QInsertAfterN i n v =>
        let! p := fl_at (lq_head this) i in
        qdone other (lq_insert_after_n this p n (ExtVal v))
    | QInsertAfterOwn i n j =>
        let! p := fl_at (lq_head this) i in
        let! r := own_ref (lq_head this) j in
        qdone other (lq_insert_after_n this p n r)
    | QInsertAfterRange i vs =>
        let! p := fl_at (lq_head this) i in
        qdone other (lq_insert_after_ext this p vs)
    | QInsertAfterOther i =>
        let! p := fl_at (lq_head this) i in
        let! f := lq_begin other in
        qdone other (lq_insert_after_its fuel this p f None)
    | QEraseAfter i =>
        let! p := fl_at (lq_head this) i in
        let! (q, n) := lq_erase_after this p in
        let! o := show_it n in ret (q, other, o)
    | QEraseAfterRange i j =>
        let! p := fl_at (lq_head this) i in
        let! l := fl_at (lq_head this) j in
        let! (q, n) := lq_erase_after_range fuel this p l in
        let! o := show_it n in ret (q, other, o)
    | QClear => qdone other (lq_clear fuel this)
    | QRoll => qdone other (lq_roll_head this)
    | QFront => let! v := lq_front this in ret (this, other, OVal v)
    | QBack => let! v := lq_back this in ret (this, other, OVal v)
    | QEmpty => let! b := lq_empty this in ret (this, other, OBool b)
    | QContents =>
        let! vs := fl_contents fuel (lq_head this) in ret (this, other, OSeq vs)
    | QSwap => let! (a, b) := lq_swap this other in ret (a, b, ODone)
    | QAssignFrom => qdone other (lq_assign_from fuel this other)
    | QRecopy =>
        lq_destroy triv fuel other ;!
        let! o := lq_copy fuel this in ret (this, o, ODone)
    | QCleanup => lq_cleanup triv fuel this ;! ret (this, other, ODone)
    end.

  (** *** The abstract queue *)
  (** elements, and number of nodes owned *)
  Definition lq_state : Type := list V * nat.

  (** What a call does to the elements of this; [None]: outside the documented
      preconditions. *)
  Definition lq_elems (xs ys : list V) (op : lq_op) : option (list V * fl_out V) :=
    match op with
    | QPushFront v => Some (v :: xs, ODone)
    | QPushFrontOwn i => v ← xs !! i; Some (v :: xs, ODone)
    | QPushBack v => Some (xs ++ [v], ODone)
    | QPushBackOwn i => v ← xs !! i; Some (xs ++ [v], ODone)
    | QPopFront => match xs with [] => None | _ :: xs' => Some (xs', ODone) end
    | QInsertAfter i v =>
        if decide (i ≤ length xs) then Some (take i xs ++ v :: drop i xs, OVal v) else None
    | QInsertAfterN i n v =>
        if decide (i ≤ length xs)
        then Some (take i xs ++ replicate n v ++ drop i xs, ODone) else None
    | QInsertAfterOwn i n j =>
        v ← xs !! j;
        if decide (i ≤ length xs)
        then Some (take i xs ++ replicate n v ++ drop i xs, ODone) else None
    | QInsertAfterRange i vs =>
        if decide (i ≤ length xs) then Some (take i xs ++ vs ++ drop i xs, ODone) else None
    | QInsertAfterOther i =>
        if decide (i ≤ length xs) then Some (take i xs ++ ys ++ drop i xs, ODone) else None
    | QEraseAfter i =>
        if decide (i < length xs)
        then Some (take i xs ++ drop (S i) xs, show_nth xs (S i)) else None
    | QEraseAfterRange i j =>    (* the elements at positions i+1 .. j-1 *)
        if decide (i < j ≤ S (length xs))
        then Some (take i xs ++ drop (j - 1) xs, show_nth xs (j - 1)) else None
    | QClear => Some ([], ODone)
    | QRoll => match xs with [] => Some ([], ODone) | x :: r => Some (r ++ [x], ODone) end
    | QFront => v ← head xs; Some (xs, OVal v)
    | QBack => v ← last xs; Some (xs, OVal v)
    | QEmpty => Some (xs, OBool (bool_decide (xs = [])))
    | QContents => Some (xs, OSeq xs)
    | QSwap => Some (ys, ODone)
    | QAssignFrom => Some (ys, ODone)
    | QRecopy => Some (xs, ODone)
    | QCleanup => Some (xs, ODone)
    end.

  (** The nodes owned: a call never frees a node (except cleanup and destruction)
      and allocates only when more elements are stored than nodes are owned. *)
  Definition lq_spec (s o : lq_state) (op : lq_op) : option (lq_state * lq_state * fl_out V) :=
    let '((xs, n), (ys, m)) := (s, o) in
    '(xs', out) ← lq_elems xs ys op;
    match op with
    | QSwap =>      (* the chains are exchanged, the pools are not *)
        Some ((ys, n - length xs + length ys), (xs, m - length ys + length xs), out)
    | QRecopy => Some ((xs, n), (xs, length xs), out)
    | QCleanup => Some ((xs, length xs), o, out)
    | _ => Some ((xs', n `max` length xs'), o, out)
    end.

  (** No value of this queue was removed without its node being reused: then
      cleanup and destruction do not run ~T a second time. *)
  Definition lq_fin (s : lq_state) : Prop := triv = true ∨ s.2 = length s.1.
  (** The calls on which lazy_queue.hpp is right. *)
  Definition lq_ok (s o : lq_state) (op : lq_op) : Prop :=
    match op with
    | QSwap => s.1 ≠ [] ∧ o.1 ≠ []
    | QRecopy => lq_fin o
    | QCleanup => lq_fin s
    | _ => True
    end.
  Global Instance lq_fin_dec s : Decision (lq_fin s).
  Proof. unfold lq_fin. apply _. Defined.
  Global Instance lq_ok_dec s o op : Decision (lq_ok s o op).
  Proof. destruct op; simpl; try apply _; destruct s as [[]], o as [[]]; apply _. Defined.
  Definition lq_spec_ok (s o : lq_state) (op : lq_op) : option (lq_state * lq_state * fl_out V) :=
    if decide (lq_ok s o op) then lq_spec s o op else None.
End lazy.
Global Arguments lq_op : clear implicits.
Global Arguments lq_state : clear implicits.
