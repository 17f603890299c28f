(** set and map whose Compare or == may throw: clients that catch the exceptions (CatchSpec.v). *)
From Verif Require Export CatchSpec MapSpec.

Section set.
  Context {K V : Type} (keyof : V → K) (lt eqb : K → K → bool) (veqb : V → V → bool).
  Context (ltf eqf : nat → K → K → option bool) `{Allocator (rbcell V)}.
  Notation heap := (gmap loc (rbcell V)).
  (** The calls of [m_step], in the form HistoryV.v has: the call may also change the object's own
      address, but none does. *)
  Definition m_step' (fuel : nat) (this other : loc) (op : m_op K V) : M heap (loc * loc * m_out V) :=
    let! (o, r) := m_step keyof lt eqb veqb fuel this other op in ret (this, o, r).
  (** The same with comparisons that may throw in insert, find, count and lower_bound. They do not
      throw here in erase, which an exception may leave torn (C95_erase_throws_partial), nor in
      range insertion and copying, which are insertions one by one. == of whole sets calls neither. *)
  Definition xm_step (fuel : nat) (this other : loc) (op : m_op K V) : T heap (loc * loc * m_out V) :=
    match op with
    | MInsert v =>
        let@ (p, b) := xm_insert keyof ltf eqf fuel this v in
        let@ w := tdo (node_data p) in tret (this, other, UIns w b)
    | MFind k =>
        let@ p := xm_find keyof ltf eqf fuel this k in
        let@ o := tdo (m_show this p) in tret (this, other, o)
    | MCount k => let@ n := xm_count keyof ltf eqf fuel this k in tret (this, other, UNum n)
    | MLower k =>
        let@ p := xm_lower_bound keyof ltf fuel this k in
        let@ o := tdo (m_show this p) in tret (this, other, o)
    | _ => tdo (m_step' fuel this other op)
    end.
End set.

Section map.
  Context {K T0 : Type} (lt eqb : K → K → bool) (veqb : K * T0 → K * T0 → bool) (dflt : T0).
  Context (ltf eqf : nat → K → K → option bool) `{Allocator (rbcell (K * T0))}.
  Notation heap := (gmap loc (rbcell (K * T0))).
  Definition map_step' (fuel : nat) (this other : loc) (op : map_op K T0) : M heap (loc * loc * map_out K T0) :=
    let! (o, r) := map_step lt eqb veqb dflt fuel this other op in ret (this, o, r).
  (** ... and operator[] and at. *)
  Definition xmap_step (fuel : nat) (this other : loc) (op : map_op K T0) : T heap (loc * loc * map_out K T0) :=
    match op with
    | MapGen op =>
        let@ (a, o, r) := xm_step fst lt eqb veqb ltf eqf fuel this other op in tret (a, o, OGen r)
    | MapGet k =>
        let@ p := xm_index ltf eqf dflt fuel this k in
        let@ w := tdo (node_data p) in tret (this, other, OMapped w.2)
    | MapStore k v =>
        let@ p := xm_index ltf eqf dflt fuel this k in
        let@ d := tdo (node_data p) in
        tdo (setf (set_data (d.1, v)) p) ;@ tret (this, other, OGen UDone)
    | MapAt k => let@ v := xm_at ltf eqf fuel this k in tret (this, other, OMapped v)
    end.
End map.
