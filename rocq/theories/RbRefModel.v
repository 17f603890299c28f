(** Keys and values passed by reference to the red-black tree, map and set.

    RbModel.v passes keys and values by value. In C++ they are [const K &] and
    [const KV &]: the argument may be (part of) an element of the very container,
    as in [m.erase(it->first)], and is read again at every comparison. Here the
    functions taking such arguments are transcribed with a reference that is read
    where the C++ reads it; everything else is shared with RbModel.v. *)
From Verif Require Export RbModel.

Section rbref.
  Context {K V : Type} `{Allocator (rbcell V)} (keyof : V → K) (lt eqb : K → K → bool).
  Notation heap := (gmap loc (rbcell V)).
  Notation HM := (M heap).

  (** [const K &]: some object elsewhere, or the key of the element in node [x]. *)
  Inductive kref := ExtKey (k : K) | NodeKey (x : loc).
  Definition read_key (r : kref) : HM K :=
    match r with
    | ExtKey k => ret k
    | NodeKey x => let! d := node_data (Some x) in ret (keyof d)
    end.
  (** [const KV &] *)
  Inductive dref := ExtData (v : V) | NodeData (x : loc).
  Definition read_data (r : dref) : HM V :=
    match r with ExtData v => ret v | NodeData x => node_data (Some x) end.
  (** [keyof_(data)] returns a reference into [data]: rbtree.hpp 424, 446 *)
  Definition key_of_data (r : dref) : kref :=
    match r with ExtData v => ExtKey (keyof v) | NodeData x => NodeKey x end.

  (** rbtree.hpp 350-368 *)
  Definition rb_count_ref (fuel : nat) (hdr : loc) (rk : kref) : HM nat :=
    let! root := getf parent (Some hdr) in
    loop fuel (λ '(n, c),
      match n with
      | None => ret (inr c)
      | Some _ =>
          let! d := node_data n in
          let nkey := keyof d in
          let! key := read_key rk in
          if lt nkey key then let! r := getf right n in ret (inl (r, c))
          else
            let! key := read_key rk in
            let c' := if eqb nkey key then S c else c in
            let! l := getf left n in ret (inl (l, c'))
      end) (root, 0).

  (** rbtree.hpp 370-386 *)
  Definition rb_find_ref (fuel : nat) (hdr : loc) (rk : kref) : HM ptr :=
    let! root := getf parent (Some hdr) in
    let! n := loop fuel (λ n,
      match n with
      | None => ret (inr None)
      | Some _ =>
          let! d := node_data n in
          let nkey := keyof d in
          let! key := read_key rk in
          if lt key nkey then let! l := getf left n in ret (inl l)
          else
            let! key := read_key rk in
            if eqb key nkey then ret (inr n)
            else let! r := getf right n in ret (inl r)
      end) root in
    ret (if nonnull n then n else Some hdr).

  (** rbtree.hpp 388-402 *)
  Definition rb_lower_bound_ref (fuel : nat) (hdr : loc) (rk : kref) : HM ptr :=
    let! root := getf parent (Some hdr) in
    loop fuel (λ '(n, prev),
      match n with
      | None => ret (inr prev)
      | Some _ =>
          let! d := node_data n in
          let! key := read_key rk in
          if lt (keyof d) key then let! r := getf right n in ret (inl (r, prev))
          else let! l := getf left n in ret (inl (l, n))
      end) (root, Some hdr).

  (** rbtree.hpp 404-417 *)
  Definition rb_upper_bound_ref (fuel : nat) (hdr : loc) (rk : kref) : HM ptr :=
    let! root := getf parent (Some hdr) in
    loop fuel (λ '(n, prev),
      match n with
      | None => ret (inr prev)
      | Some _ =>
          let! d := node_data n in
          let! key := read_key rk in
          if lt key (keyof d) then let! l := getf left n in ret (inl (l, n))
          else let! r := getf right n in ret (inl (r, prev))
      end) (root, Some hdr).

  (** rbtree.hpp 419-438: the value is copied by [new node(data)] (line 433) *)
  Definition rb_insert_equal_ref (fuel : nat) (hdr : loc) (rv : dref) : HM ptr :=
    let rk := key_of_data rv in
    let! (par, e) := loop fuel (λ '(par, e),
      let! p := get_edge e in
      match p with
      | None => ret (inr (par, e))
      | Some a =>
          let! d := node_data p in
          let! key := read_key rk in
          if lt key (keyof d) then ret (inl (p, ELeft a)) else ret (inl (p, ERight a))
      end) (Some hdr, EParent hdr) in
    let! v := read_data rv in
    rb_attach fuel hdr e par v.

  (** rbtree.hpp 440-461: the value is copied by [new node(data)] (line 456) *)
  Definition rb_insert_unique_ref (fuel : nat) (hdr : loc) (rv : dref) : HM (ptr * bool) :=
    let rk := key_of_data rv in
    let! r := loop fuel (λ '(par, e),
      let! p := get_edge e in
      match p with
      | None => ret (inr (inl (par, e)))
      | Some a =>
          let! d := node_data p in
          let ekey := keyof d in
          let! key := read_key rk in
          if lt key ekey then ret (inl (p, ELeft a))
          else
            let! key := read_key rk in
            if eqb key ekey then ret (inr (inr p))
            else ret (inl (p, ERight a))
      end) (Some hdr, EParent hdr) in
    match r with
    | inr p => ret (p, false)
    | inl (par, e) =>
        let! v := read_data rv in
        let! n := rb_attach fuel hdr e par v in ret (n, true)
    end.

  (** rbtree.hpp 463-527 *)
  Definition rb_remove_ref (fuel : nat) (hdr : loc) (rk : kref) : HM ptr :=
    let! (par, deleted) := loop fuel (λ '(root, par),
      let! r := get_edge root in
      match r with
      | None => ret (inr (par, None))
      | Some _ =>
          let! par := getf parent r in
          let! d := node_data r in
          let! key := read_key rk in
          let isless := lt key (keyof d) in
          if isless then
            let! l := getf left r in
            let! b := some_both_black l in
            (if b : bool then let! r' := move_left r in set_edge root r' else ret tt) ;!
            let! r := get_edge root in
            let! a := addr r in
            ret (inl (ELeft a, par))
          else
            let! l := getf left r in
            let! lr := is_red l in
            let! isless :=
              (if lr : bool then
                 let! r' := rotate_right r in
                 set_edge root r' ;!
                 let! r := get_edge root in
                 let! d := node_data r in
                 let! key := read_key rk in
                 ret (lt key (keyof d))
               else ret isless) in
            let! r := get_edge root in
            let! c :=
              andM (ret (negb isless))
                (andM (let! d := node_data r in let! key := read_key rk in ret (eqb key (keyof d)))
                      (let! rr := getf right r in ret (negb (nonnull rr)))) in
            if c : bool then
              let! deleted := get_edge root in
              set_edge root None ;!
              ret (inr (par, deleted))
            else
              let! rr := getf right r in
              let! b := some_both_black rr in
              (if b : bool then let! r' := move_right r in set_edge root r' else ret tt) ;!
              let! r := get_edge root in
              let! d := node_data r in
              let! key := read_key rk in
              if eqb key (keyof d) then
                let! deleted := rb_replace_by_min fuel hdr root in
                let! par := get_edge root in
                ret (inr (par, deleted))
              else
                let! a := addr r in
                ret (inl (ERight a, par))
      end) (EParent hdr, Some hdr) in
    climb_fixup fuel hdr par ;!
    let! root := getf parent (Some hdr) in
    (if nonnull root then setf (set_red false) root else ret tt) ;!
    ret deleted.

  (** map / set: map.hpp 189-193, 221-226, 236-242, set.hpp 177-181, 198-203,
      213-219 *)
  Definition m_insert_ref (fuel : nat) (this : loc) (rv : dref) : HM (ptr * bool) :=
    rb_insert_unique_ref fuel this rv.
  Definition m_erase_ref (fuel : nat) (this : loc) (rk : kref) : HM nat :=
    let! n := rb_remove_ref fuel this rk in
    delete_rbnode n ;!
    ret (if nonnull n then 1 else 0).
  Definition m_find_ref (fuel : nat) (this : loc) (rk : kref) : HM ptr := rb_find_ref fuel this rk.
  Definition m_count_ref (fuel : nat) (this : loc) (rk : kref) : HM nat :=
    let! n := rb_find_ref fuel this rk in
    ret (if bool_decide (n ≠ Some this) then 1 else 0).
  Definition m_lower_bound_ref (fuel : nat) (this : loc) (rk : kref) : HM ptr :=
    rb_lower_bound_ref fuel this rk.
  (** map.hpp 273-309, set.hpp 250-286 *)
  Definition m_upper_bound_ref (fuel : nat) (this : loc) (rk : kref) : HM ptr :=
    let! lo := rb_lower_bound_ref fuel this rk in
    if decide (lo = Some this) then ret (m_end this) else next_node fuel lo.
  Definition m_equal_range_ref (fuel : nat) (this : loc) (rk : kref) : HM (ptr * ptr) :=
    let! lo := rb_lower_bound_ref fuel this rk in
    let! up := (if decide (lo ≠ Some this) then next_node fuel lo else ret lo) in
    ret (lo, up).
End rbref.
Global Arguments kref : clear implicits.
Global Arguments dref : clear implicits.

(** operator[](const KT &): map.hpp 198-204. A missing key is copied into the
    temporary [value_type(key, T())] before insert is called. *)
Section mapref.
  Context {K T : Type} `{Allocator (rbcell (K * T))} (lt eqb : K → K → bool).
  Notation HM := (M (gmap loc (rbcell (K * T)))).
  Definition m_index_ref (dflt : T) (fuel : nat) (this : loc) (rk : kref K) : HM ptr :=
    let! n := rb_find_ref fst lt eqb fuel this rk in
    if decide (n = Some this) then
      let! key := read_key fst rk in
      let! (n', _) := rb_insert_unique fst lt eqb fuel this (key, dflt) in ret n'
    else ret n.
End mapref.
