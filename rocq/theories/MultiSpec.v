(** A client program using two red-black trees with duplicate keys (rbtree.hpp
    used directly: insert_equal / remove / bounds), and what it must observe.

    The abstract state is the sequence of the stored values in iteration order. *)
From Verif Require Export MapSpec.

Section multi.
  Context {K V : Type} (keyof : V → K) (lt eqb : K → K → bool).
  Context `{Allocator (rbcell V)}.
  Notation heap := (gmap loc (rbcell V)).

  Inductive x_op :=
    | XInsert (v : V)    (* *insert_equal(v) *)
    | XErase (k : K)     (* n = remove(k); delete n; return n != 0 *)
    | XClear
    | XEmpty             (* !get_root() *)
    | XHas (k : K)       (* find(k) != end() *)
    | XCount (k : K)
    | XLower (k : K)
    | XUpper (k : K)
    | XRange (k : K)     (* r = equal_range(k); for (it = r.first; it != r.second; ++it) *)
    | XForward
    | XBackward
    | XAssignFrom        (* this.clear(); this.assign(other) *)
    | XRecopy.           (* other is destroyed and re-created as a copy of this *)

  (** [for (it = first; it != last; ++it) yield *it] *)
  Definition x_walk (fuel : nat) (first last : ptr) : M heap (list V) :=
    loop fuel (λ '(p, acc),
      if decide (p ≠ last) then
        let! v := node_data p in
        let! p' := m_incr fuel p in
        ret (inl (p', acc ++ [v]))
      else ret (inr acc)) (first, []).

  Definition x_step (fuel : nat) (this other : loc) (op : x_op) : M heap (loc * m_out V) :=
    match op with
    | XInsert v =>
        let! p := rb_insert_equal keyof lt fuel this v in
        let! w := node_data p in ret (other, UVal w)
    | XErase k =>
        let! n := rb_remove keyof lt eqb fuel this k in
        delete_rbnode n ;!
        ret (other, UBool (nonnull n))
    | XClear => rb_clear fuel this ;! ret (other, UDone)
    | XEmpty => let! b := m_empty this in ret (other, UBool b)
    | XHas k =>
        let! p := rb_find keyof lt eqb fuel this k in
        ret (other, UBool (bool_decide (p ≠ m_end this)))
    | XCount k => let! n := rb_count keyof lt eqb fuel this k in ret (other, UNum n)
    | XLower k =>
        let! p := rb_lower_bound keyof lt fuel this k in
        let! o := m_show this p in ret (other, o)
    | XUpper k =>
        let! p := rb_upper_bound keyof lt fuel this k in
        let! o := m_show this p in ret (other, o)
    | XRange k =>
        let! (lo, up) := rb_equal_range keyof lt fuel this k in
        let! vs := x_walk fuel lo up in ret (other, USeq vs)
    | XForward => let! vs := m_forward fuel this in ret (other, USeq vs)
    | XBackward => let! vs := m_backward fuel this in ret (other, USeq vs)
    | XAssignFrom => m_assign fuel this other ;! ret (other, UDone)
    | XRecopy =>
        rb_destroy fuel other ;!
        let! o := m_copy fuel this in ret (o, UDone)
    end.

  (** Abstract insertion: behind every element that is not greater. *)
  Definition x_insert (v : V) (xs : list V) : list V :=
    filter (λ w, lt (keyof v) (keyof w) = false) xs ++ v :: above keyof lt (keyof v) xs.
  (** "at most one element has the key [k]" *)
  Definition x_single (k : K) (xs : list V) : bool :=
    bool_decide (length (matching keyof eqb k xs) ≤ 1).

  (** [None]: outside the proved part (erase and count of a key that several
      elements have: defects, see C10/C11 refutations). *)
  Definition x_spec (xs ys : list V) (op : x_op) : option (list V * list V * m_out V) :=
    match op with
    | XInsert v => Some (x_insert v xs, ys, UVal v)
    | XErase k =>
        if x_single k xs then Some (s_erase keyof eqb k xs, ys, UBool (has keyof eqb k xs)) else None
    | XClear => Some ([], ys, UDone)
    | XEmpty => Some (xs, ys, UBool (bool_decide (xs = [])))
    | XHas k => Some (xs, ys, UBool (has keyof eqb k xs))
    | XCount k =>
        if x_single k xs then Some (xs, ys, UNum (length (matching keyof eqb k xs))) else None
    | XLower k => Some (xs, ys, s_show (head (filter (λ w, lt (keyof w) k = false) xs)))
    | XUpper k => Some (xs, ys, s_show (head (above keyof lt k xs)))
    | XRange k => Some (xs, ys, USeq (matching keyof eqb k xs))
    | XForward => Some (xs, ys, USeq xs)
    | XBackward => Some (xs, ys, USeq (reverse xs))
    | XAssignFrom => Some (ys, ys, UDone)
    | XRecopy => Some (xs, xs, UDone)
    end.

  (** A program using two trees with duplicate keys. *)
  Definition multi_correct (ops : list (bool * x_op)) : Prop :=
    h_correct rb_new rb_destroy x_step [] x_spec ops.
End multi.
Global Arguments x_op : clear implicits.
