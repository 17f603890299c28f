(** A client program using two forward_lists, and what it must observe.

    [fl_step] is client code written against the modelled API; [fl_spec] is the
    corresponding operation on two plain sequences (no nodes, no addresses). *)
From Verif Require Export SlistSpec.

Section forward.
  Context {V : Type} (eqb : V → V → bool) `{Allocator (cell V)}.
  Notation heap := (gmap loc (cell V)).

  (** One call on a list ("this"), possibly involving another one ("other").
      Positions count increments from before_begin(). *)
  Inductive fl_op :=
    | FPushFront (v : V)
    | FPushFrontOwn (i : nat)            (* push_front(reference to own element i) *)
    | FPopFront
    | FInsertAfter (i : nat) (v : V)
    | FInsertAfterOwn (i n j : nat)      (* insert_after(pos i, n, own element j) *)
    | FInsertAfterN (i n : nat) (v : V)
    | FInsertAfterRange (i : nat) (vs : list V)
    | FEraseAfter (i : nat)
    | FEraseAfterRange (i j : nat)
    | FAssign (vs : list V)
    | FAssignN (n : nat) (v : V)
    | FClear
    | FReverse
    | FFront
    | FEmpty
    | FContents                          (* for (x : list) ... *)
    | FSwap
    | FAssignFrom                        (* this = other *)
    | FRecopy                            (* other is destroyed and re-created as a copy of this *)
    | FEqual
    | FSpliceAll (i : nat)
    | FSpliceOne (i j : nat)
    | FSpliceRange (i j k : nat)
    | FMoveOne (i j : nat)               (* splice_after(pos i, *this, own position j) *)
    | FMoveRange (i j k : nat).          (* splice_after(pos i, *this, own positions j, k) *)

  Inductive fl_out := ODone | OVal (v : V) | OBool (b : bool) | OSeq (vs : list V) | OEnd.

  (** *)
  Definition fl_at (this : loc) (i : nat) : M heap ptr :=
    it_advance i (fl_before_begin this).
  Definition own_ref (this : loc) (i : nat) : M heap (vref V) :=
    let! p := fl_at this (S i) in let! l := addr p in ret (InNode l).
  (** [*it], or "end" *)
  Definition show_it (p : ptr) : M heap fl_out :=
    match p with None => ret OEnd | Some _ => let! v := value_at p in ret (OVal v) end.
  (** for (it = begin(); it != end(); ++it) out.push_back( *it); *)
  Definition fl_contents (fuel : nat) (this : loc) : M heap (list V) :=
    let! b := fl_begin this in
    loop fuel (λ '(p, acc),
      if decide (p ≠ fl_end) then
        let! v := value_at p in
        let! p' := it_incr p in
        ret (inl (p', acc ++ [v]))
      else ret (inr acc)) (b, []).

  Definition done {A} (m : M heap A) : M heap fl_out := m ;! ret ODone.

  (** Returns the (possibly new) identity of "other" and an observation. *)
  Definition fl_step (fuel : nat) (this other : loc) (op : fl_op) : M heap (loc * fl_out) :=
    let! r :=
      match op with
      | FPushFront v => done (fl_push_front this (ExtVal v))
      | FPushFrontOwn i => let! r := own_ref this i in done (fl_push_front this r)
      | FPopFront => done (fl_pop_front this)
      | FInsertAfter i v =>
          let! p := fl_at this i in
          let! q := fl_insert_after p (ExtVal v) in show_it q
      | FInsertAfterOwn i n j =>
          let! p := fl_at this i in
          let! r := own_ref this j in done (fl_insert_after_n p n r)
      | FInsertAfterN i n v =>
          let! p := fl_at this i in done (fl_insert_after_n p n (ExtVal v))
      | FInsertAfterRange i vs =>
          let! p := fl_at this i in done (fl_insert_after_ext p vs)
      | FEraseAfter i =>
          let! p := fl_at this i in let! q := fl_erase_after p in show_it q
      | FEraseAfterRange i j =>
          let! p := fl_at this i in
          let! l := fl_at this j in
          let! q := fl_erase_after_range fuel p l in show_it q
      | FAssign vs => done (fl_assign_ext fuel this vs)
      | FAssignN n v => done (fl_assign_n fuel this n (ExtVal v))
      | FClear => done (fl_clear fuel this)
      | FReverse => done (fl_reverse fuel this)
      | FFront => let! v := fl_front this in ret (OVal v)
      | FEmpty => let! b := fl_empty this in ret (OBool b)
      | FContents => let! vs := fl_contents fuel this in ret (OSeq vs)
      | FSwap => done (fl_swap this other)
      | FAssignFrom => done (fl_assign_from fuel this other)
      | FRecopy => ret ODone
      | FEqual => let! b := fl_eq eqb fuel this other in ret (OBool b)
      | FSpliceAll i => let! p := fl_at this i in done (fl_splice_all fuel p other)
      | FSpliceOne i j =>
          let! p := fl_at this i in
          let! q := fl_at other j in done (fl_splice_one p q)
      | FSpliceRange i j k =>
          let! p := fl_at this i in
          let! f := fl_at other j in
          let! l := fl_at other k in done (fl_splice_range fuel p f l)
      | FMoveOne i j =>
          let! p := fl_at this i in
          let! q := fl_at this j in done (fl_splice_one p q)
      | FMoveRange i j k =>
          let! p := fl_at this i in
          let! f := fl_at this j in
          let! l := fl_at this k in done (fl_splice_range fuel p f l)
      end in
    match op with
    | FRecopy =>
        fl_destroy fuel other ;!
        let! o := fl_copy fuel this in ret (o, r)
    | _ => ret (other, r)
    end.

  (** The abstract operation; [None]: outside the documented preconditions
      (or, for the splices, an empty source range or elements that are already in
      place: see C23). *)
  (** the elements from [j] up to [m] go behind the first [i] ones *)
  Definition fmove {A} (i j m : nat) (xs : list A) : list A :=
    if decide (i ≤ j)
    then take i xs ++ take (m - j) (drop j xs) ++ take (j - i) (drop i xs) ++ drop m xs
    else take j xs ++ take (i - m) (drop m xs) ++ take (m - j) (drop j xs) ++ drop i xs.
  Definition show_nth (xs : list V) (i : nat) : fl_out :=
    match xs !! i with Some v => OVal v | None => OEnd end.
  Definition fl_spec (xs ys : list V) (op : fl_op) : option (list V * list V * fl_out) :=
    match op with
    | FPushFront v => Some (v :: xs, ys, ODone)
    | FPushFrontOwn i => v ← xs !! i; Some (v :: xs, ys, ODone)
    | FPopFront => match xs with [] => None | _ :: xs' => Some (xs', ys, ODone) end
    | FInsertAfter i v =>
        if decide (i ≤ length xs) then Some (take i xs ++ v :: drop i xs, ys, OVal v) else None
    | FInsertAfterOwn i n j =>
        v ← xs !! j;
        if decide (i ≤ length xs)
        then Some (take i xs ++ replicate n v ++ drop i xs, ys, ODone) else None
    | FInsertAfterN i n v =>
        if decide (i ≤ length xs)
        then Some (take i xs ++ replicate n v ++ drop i xs, ys, ODone) else None
    | FInsertAfterRange i vs =>
        if decide (i ≤ length xs) then Some (take i xs ++ vs ++ drop i xs, ys, ODone) else None
    | FEraseAfter i =>
        if decide (i < length xs)
        then Some (take i xs ++ drop (S i) xs, ys, show_nth xs (S i)) else None
    | FEraseAfterRange i j =>    (* the elements at positions i+1 .. j-1 *)
        if decide (i < j ≤ S (length xs))
        then Some (take i xs ++ drop (j - 1) xs, ys, show_nth xs (j - 1)) else None
    | FAssign vs => Some (vs, ys, ODone)
    | FAssignN n v => Some (replicate n v, ys, ODone)
    | FClear => Some ([], ys, ODone)
    | FReverse => Some (reverse xs, ys, ODone)
    | FFront => match xs with [] => None | v :: _ => Some (xs, ys, OVal v) end
    | FEmpty => Some (xs, ys, OBool (bool_decide (xs = [])))
    | FContents => Some (xs, ys, OSeq xs)
    | FSwap => Some (ys, xs, ODone)
    | FAssignFrom => Some (ys, ys, ODone)
    | FRecopy => Some (xs, xs, ODone)
    | FEqual => Some (xs, ys, OBool (bool_decide (Forall2 (λ x y, eqb x y = true) xs ys)))
    | FSpliceAll i =>
        if decide (i ≤ length xs ∧ ys ≠ [])
        then Some (take i xs ++ ys ++ drop i xs, [], ODone) else None
    | FSpliceOne i j =>
        v ← ys !! j;
        if decide (i ≤ length xs)
        then Some (take i xs ++ v :: drop i xs, take j ys ++ drop (S j) ys, ODone) else None
    | FSpliceRange i j k =>      (* the elements of other at positions j+1 .. k-1 *)
        if decide (i ≤ length xs ∧ S j < k ≤ S (length ys))
        then Some (take i xs ++ take (k - 1 - j) (drop j ys) ++ drop i xs,
                   take j ys ++ drop (k - 1) ys, ODone)
        else None
    | FMoveOne i j =>            (* the element at position j+1 *)
        if decide (i ≤ length xs ∧ j < length xs ∧ i ≠ S j)
        then Some (fmove i j (S j) xs, ys, ODone) else None
    | FMoveRange i j k =>        (* the elements at positions j+1 .. k-1 *)
        if decide (i ≤ length xs ∧ S j ≤ k ≤ S (length xs) ∧
                   ((i < j ∨ k ≤ i) ∧ S j < k ∨ i = j ∧ k = S j))
        then Some (fmove i j (k - 1) xs, ys, ODone) else None
    end.

  (** A history: every call names its target (false: list a, true: list b). *)
  Fixpoint fl_run (fuel : nat) (a b : loc) (ops : list (bool * fl_op))
      : M heap (loc * loc * list fl_out) :=
    match ops with
    | [] => ret (a, b, [])
    | (false, op) :: ops =>
        let! (b', r) := fl_step fuel a b op in
        let! (ab, rs) := fl_run fuel a b' ops in ret (ab, r :: rs)
    | (true, op) :: ops =>
        let! (a', r) := fl_step fuel b a op in
        let! (ab, rs) := fl_run fuel a' b ops in ret (ab, r :: rs)
    end.
  Fixpoint fl_spec_run (xs ys : list V) (ops : list (bool * fl_op))
      : option (list V * list V * list fl_out) :=
    match ops with
    | [] => Some (xs, ys, [])
    | (false, op) :: ops =>
        '(xs', ys', r) ← fl_spec xs ys op;
        '(ab, rs) ← fl_spec_run xs' ys' ops; Some (ab, r :: rs)
    | (true, op) :: ops =>
        '(ys', xs', r) ← fl_spec ys xs op;
        '(ab, rs) ← fl_spec_run xs' ys' ops; Some (ab, r :: rs)
    end.

  (** Two lists are constructed, the history runs, both are destroyed. *)
  Definition fl_program (fuel : nat) (ops : list (bool * fl_op)) : M heap (list fl_out) :=
    let! a := fl_new in
    let! b := fl_new in
    let! (a, b, rs) := fl_run fuel a b ops in
    fl_destroy fuel a ;!
    fl_destroy fuel b ;!
    ret rs.
End forward.
Global Arguments fl_op : clear implicits.
Global Arguments fl_out : clear implicits.
