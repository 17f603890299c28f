(** A client program using two ttl::set objects, or two ttl::map objects, and
    what it must observe.

    The client code ([m_step], [map_step]) is written against the modelled API;
    the abstract state is the sequence of the stored values in ascending order. *)
From Verif Require Export RbSpec History.

(** Loop iterations that suffice for one descent (or climb) in a tree with [n]
    elements. [fuel] bounds the iterations of every loop, and the recursion depth
    of every recursive function, of a call separately; each iteration makes at most
    two key comparisons. *)
Definition log_steps (n : nat) : nat := 2 * Nat.log2 (S n).

Section ordered.
  Context {K V : Type} (keyof : V → K) (lt eqb : K → K → bool) (veqb : V → V → bool).
  Context `{Allocator (rbcell V)}.
  Notation heap := (gmap loc (rbcell V)).

  Inductive m_op :=
    | MInsert (v : V)
    | MInsertRange (vs : list V)
    | MErase (k : K)
    | MClear
    | MEmpty
    | MFind (k : K)
    | MCount (k : K)
    | MLower (k : K)
    | MForward           (* for (it = begin(); it != end(); ++it) *)
    | MBackward          (* for (it = end(); it != begin(); ) --it *)
    | MAssignFrom        (* this = other *)
    | MRecopy            (* other is destroyed and re-created as a copy of this *)
    | MEqual.            (* this == other *)
  Inductive m_out :=
    | UDone | UVal (v : V) | UEnd | UBool (b : bool) | UNum (n : nat)
    | USeq (vs : list V) | UIns (v : V) (b : bool).

  (** [*it] or "end" *)
  Definition m_show (this : loc) (p : ptr) : M heap m_out :=
    if decide (p = m_end this) then ret UEnd
    else let! v := node_data p in ret (UVal v).
  Definition m_forward (fuel : nat) (this : loc) : M heap (list V) :=
    let! b := m_begin fuel this in
    loop fuel (λ '(p, acc),
      if decide (p ≠ m_end this) then
        let! v := node_data p in
        let! p' := m_incr fuel p in
        ret (inl (p', acc ++ [v]))
      else ret (inr acc)) (b, []).
  Definition m_backward (fuel : nat) (this : loc) : M heap (list V) :=
    loop fuel (λ '(p, acc),
      let! b := m_begin fuel this in
      if decide (p ≠ b) then
        let! p' := m_decr fuel p in
        let! v := node_data p' in
        ret (inl (p', acc ++ [v]))
      else ret (inr acc)) (m_end this, []).

  Definition m_step (fuel : nat) (this other : loc) (op : m_op) : M heap (loc * m_out) :=
    match op with
    | MInsert v =>
        let! (p, b) := m_insert keyof lt eqb fuel this v in
        let! w := node_data p in ret (other, UIns w b)
    | MInsertRange vs => m_insert_range keyof lt eqb fuel this vs ;! ret (other, UDone)
    | MErase k => let! n := m_erase keyof lt eqb fuel this k in ret (other, UNum n)
    | MClear => m_clear fuel this ;! ret (other, UDone)
    | MEmpty => let! b := m_empty this in ret (other, UBool b)
    | MFind k =>
        let! p := m_find keyof lt eqb fuel this k in
        let! o := m_show this p in ret (other, o)
    | MCount k => let! n := m_count keyof lt eqb fuel this k in ret (other, UNum n)
    | MLower k =>
        let! p := m_lower_bound keyof lt fuel this k in
        let! o := m_show this p in ret (other, o)
    | MForward => let! vs := m_forward fuel this in ret (other, USeq vs)
    | MBackward => let! vs := m_backward fuel this in ret (other, USeq vs)
    | MAssignFrom => m_assign fuel this other ;! ret (other, UDone)
    | MRecopy =>
        rb_destroy fuel other ;!
        let! o := m_copy fuel this in ret (o, UDone)
    | MEqual => let! b := m_eq veqb fuel this other in ret (other, UBool b)
    end.

  (** Abstract operations on the ascending sequence of values. *)
  Definition has (k : K) (xs : list V) : bool := existsb (λ w, eqb k (keyof w)) xs.
  Definition below (k : K) (xs : list V) : list V := filter (λ w, lt (keyof w) k = true) xs.
  Definition above (k : K) (xs : list V) : list V := filter (λ w, lt k (keyof w) = true) xs.
  Definition matching (k : K) (xs : list V) : list V := filter (λ w, eqb k (keyof w) = true) xs.
  Definition s_insert (v : V) (xs : list V) : list V :=
    if has (keyof v) xs then xs else below (keyof v) xs ++ v :: above (keyof v) xs.
  Definition s_erase (k : K) (xs : list V) : list V := filter (λ w, eqb k (keyof w) = false) xs.
  Definition s_show (o : option V) : m_out := match o with Some v => UVal v | None => UEnd end.

  Definition m_spec (xs ys : list V) (op : m_op) : option (list V * list V * m_out) :=
    match op with
    | MInsert v =>
        Some (s_insert v xs, ys,
              match head (matching (keyof v) xs) with Some w => UIns w false | None => UIns v true end)
    | MInsertRange vs => Some (foldl (λ xs v, s_insert v xs) xs vs, ys, UDone)
    | MErase k => Some (s_erase k xs, ys, UNum (if has k xs then 1 else 0))
    | MClear => Some ([], ys, UDone)
    | MEmpty => Some (xs, ys, UBool (bool_decide (xs = [])))
    | MFind k => Some (xs, ys, s_show (head (matching k xs)))
    | MCount k => Some (xs, ys, UNum (if has k xs then 1 else 0))
    | MLower k => Some (xs, ys, s_show (head (filter (λ w, lt (keyof w) k = false) xs)))
    | MForward => Some (xs, ys, USeq xs)
    | MBackward => Some (xs, ys, USeq (reverse xs))
    | MAssignFrom => Some (ys, ys, UDone)
    | MRecopy => Some (xs, xs, UDone)
    | MEqual => Some (xs, ys, UBool (bool_decide (Forall2 (λ x y, veqb x y = true) xs ys)))
    end.

  (** A program using two sets. *)
  Definition set_correct (ops : list (bool * m_op)) : Prop :=
    h_correct rb_new rb_destroy m_step [] m_spec ops.

  (** Position of the first element not less than [key]. *)
  Definition lower_pos (key : K) (xs : list (loc * V)) : nat :=
    length (filter (λ a, lt (keyof a.2) key = true) xs).
  (** What the property demands: the first element greater than [key]. *)
  Definition upper_pos (key : K) (xs : list (loc * V)) : nat :=
    length (filter (λ a, lt key (keyof a.2) = false) xs).
  (** At most one element has the given key. *)
  Definition at_most_one (key : K) (xs : list (loc * V)) : Prop :=
    length (matching key xs.*2) ≤ 1.
End ordered.
Global Arguments m_op : clear implicits.
Global Arguments m_out : clear implicits.

(** map: element access by key as well. *)
Section map.
  Context {K T : Type} (lt eqb : K → K → bool) (veqb : K * T → K * T → bool) (dflt : T).
  Context `{Allocator (rbcell (K * T))}.
  Notation heap := (gmap loc (rbcell (K * T))).

  Inductive map_op :=
    | MapGen (op : m_op K (K * T))
    | MapGet (k : K)                   (* reads m[k] *)
    | MapStore (k : K) (v : T)         (* m[k] = v *)
    | MapAt (k : K).                   (* reads m.at(k) *)
  Inductive map_out := OGen (o : m_out (K * T)) | OMapped (v : T).

  Definition map_step (fuel : nat) (this other : loc) (op : map_op) : M heap (loc * map_out) :=
    match op with
    | MapGen op => let! (o, r) := m_step fst lt eqb veqb fuel this other op in ret (o, OGen r)
    | MapGet k =>
        let! p := m_index lt eqb dflt fuel this k in
        let! w := node_data p in ret (other, OMapped w.2)
    | MapStore k v => m_store lt eqb dflt fuel this k v ;! ret (other, OGen UDone)
    | MapAt k => let! v := m_at lt eqb fuel this k in ret (other, OMapped v)
    end.

  Definition s_update (k : K) (v : T) (xs : list (K * T)) : list (K * T) :=
    (λ w, if eqb k w.1 then (w.1, v) else w) <$> xs.
  Definition map_spec (xs ys : list (K * T)) (op : map_op)
      : option (list (K * T) * list (K * T) * map_out) :=
    match op with
    | MapGen op => '(xs', ys', o) ← m_spec fst lt eqb veqb xs ys op; Some (xs', ys', OGen o)
    | MapGet k =>
        Some (s_insert fst lt eqb (k, dflt) xs, ys,
              OMapped (match head (matching fst eqb k xs) with Some w => w.2 | None => dflt end))
    | MapStore k v =>
        Some (s_update k v (s_insert fst lt eqb (k, dflt) xs), ys, OGen UDone)
    | MapAt k => w ← head (matching fst eqb k xs); Some (xs, ys, OMapped w.2)   (* k must be present *)
    end.

  (** A program using two maps. *)
  Definition map_correct (ops : list (bool * map_op)) : Prop :=
    h_correct rb_new rb_destroy map_step [] map_spec ops.
End map.
Global Arguments map_op : clear implicits.
Global Arguments map_out : clear implicits.
