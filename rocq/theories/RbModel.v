(** Model of rbtree.hpp (all of it) and of map.hpp / set.hpp of /repo/ttl.

    A tree node, and the header inside the container object, is one heap cell
    with the members of [rbnode] (rbtree.hpp 16-22) and the [data] member of
    [node] (rbtree.hpp 237-241); the header has no [data]. A [rbnode **] is the
    address of a pointer member of some cell. *)
From Verif Require Export Base.

Section rb.
  Context {K V : Type}.

  (** rbtree.hpp 16-22, 237-241. [red = true] is rbnode::RED. *)
  Record rbcell := Rb { parent : ptr; left : ptr; right : ptr; red : bool; data : option V }.
  Context `{Allocator rbcell}.
  Notation heap := (gmap loc rbcell).
  Notation HM := (M heap).

  Definition set_parent (q : ptr) (c : rbcell) := Rb q (left c) (right c) (red c) (data c).
  Definition set_left (q : ptr) (c : rbcell) := Rb (parent c) q (right c) (red c) (data c).
  Definition set_right (q : ptr) (c : rbcell) := Rb (parent c) (left c) q (red c) (data c).
  Definition set_red (b : bool) (c : rbcell) := Rb (parent c) (left c) (right c) b (data c).
  Definition neg_red (c : rbcell) := Rb (parent c) (left c) (right c) (negb (red c)) (data c).
  Definition set_data (v : V) (c : rbcell) := Rb (parent c) (left c) (right c) (red c) (Some v).

  (** [p->member] and [p->member = ...] *)
  Definition getf {A} (f : rbcell → A) (p : ptr) : HM A := let! c := loadp p in ret (f c).
  Definition setf (g : rbcell → rbcell) (p : ptr) : HM unit := modifyp p g.
  (** [static_cast<node *>(p)->data] *)
  Definition node_data (p : ptr) : HM V :=
    let! c := loadp p in
    match data c with Some v => ret v | None => fail BadCast end.

  (** [rbnode **]: which pointer member it addresses. *)
  Inductive edge := EParent (l : loc) | ELeft (l : loc) | ERight (l : loc).
  Global Instance edge_eq_dec : EqDecision edge.
  Proof. solve_decision. Defined.
  Definition get_edge (e : edge) : HM ptr :=
    match e with
    | EParent l => getf parent (Some l)
    | ELeft l => getf left (Some l)
    | ERight l => getf right (Some l)
    end.
  Definition set_edge (e : edge) (q : ptr) : HM unit :=
    match e with
    | EParent l => setf (set_parent q) (Some l)
    | ELeft l => setf (set_left q) (Some l)
    | ERight l => setf (set_right q) (Some l)
    end.

  (** Short-circuit operators on conditions that read memory. *)
  Definition andM (a b : HM bool) : HM bool := let! x := a in if x then b else ret false.
  Definition orM (a b : HM bool) : HM bool := let! x := a in if x then ret true else b.
  Definition notM (a : HM bool) : HM bool := let! x := a in ret (negb x).
  Definition nonnull (p : ptr) : bool := match p with Some _ => true | None => false end.

  (** rbtree.hpp 70-75 *)
  Definition flip_colors (n : ptr) : HM unit :=
    setf neg_red n ;!
    let! l := getf left n in
    setf neg_red l ;!
    let! r := getf right n in
    setf neg_red r.

  (** rbtree.hpp 77-80 *)
  Definition is_red (n : ptr) : HM bool :=
    match n with None => ret false | Some _ => getf red n end.

  (** rbtree.hpp 82-89; [hdr] is the address of [header_] *)
  Definition edge_of (hdr : loc) (h : ptr) : HM edge :=
    let! root := getf parent (Some hdr) in
    if decide (h = root) then ret (EParent hdr) else
    let! p := getf parent h in
    let! pl := getf left p in
    let! a := addr p in
    if decide (h = pl) then ret (ELeft a) else ret (ERight a).

  (** rbtree.hpp 98-103, 105-110 *)
  Definition min_node (fuel : nat) (n : ptr) : HM ptr :=
    loop fuel (λ n,
      match n with
      | None => ret (inr None)
      | Some _ =>
          let! l := getf left n in
          match l with Some _ => ret (inl l) | None => ret (inr n) end
      end) n.
  Definition max_node (fuel : nat) (n : ptr) : HM ptr :=
    loop fuel (λ n,
      match n with
      | None => ret (inr None)
      | Some _ =>
          let! r := getf right n in
          match r with Some _ => ret (inl r) | None => ret (inr n) end
      end) n.

  (** rbtree.hpp 112-121 *)
  Definition next_node (fuel : nat) (n : ptr) : HM ptr :=
    let! r := getf right n in
    match r with
    | Some _ => min_node fuel r
    | None =>
        let! p := getf parent n in
        let! pl := getf left p in
        if decide (n = pl) then getf parent n else
        loop fuel (λ n,
          let! p := getf parent n in
          let! pr := getf right p in
          if decide (n = pr) then ret (inl p) else ret (inr p)) n
    end.
  (** rbtree.hpp 123-132 *)
  Definition prev_node (fuel : nat) (n : ptr) : HM ptr :=
    let! l := getf left n in
    match l with
    | Some _ => max_node fuel l
    | None =>
        let! p := getf parent n in
        let! pr := getf right p in
        if decide (n = pr) then getf parent n else
        loop fuel (λ n,
          let! p := getf parent n in
          let! pl := getf left p in
          if decide (n = pl) then ret (inl p) else ret (inr p)) n
    end.

  (** rbtree.hpp 134-146 *)
  Definition rotate_left (a : ptr) : HM ptr :=
    let! b := getf right a in
    let! bl := getf left b in
    setf (set_right bl) a ;!
    let! ar := getf right a in
    (match ar with Some _ => setf (set_parent a) ar | None => ret tt end) ;!
    setf (set_left a) b ;!
    let! ca := getf red a in
    setf (set_red ca) b ;!
    setf (set_red true) a ;!
    let! pa := getf parent a in
    setf (set_parent pa) b ;!
    setf (set_parent b) a ;!
    ret b.

  (** rbtree.hpp 148-160 *)
  Definition rotate_right (b : ptr) : HM ptr :=
    let! a := getf left b in
    let! ar := getf right a in
    setf (set_left ar) b ;!
    let! bl := getf left b in
    (match bl with Some _ => setf (set_parent b) bl | None => ret tt end) ;!
    setf (set_right b) a ;!
    let! cb := getf red b in
    setf (set_red cb) a ;!
    setf (set_red true) b ;!
    let! pb := getf parent b in
    setf (set_parent pb) a ;!
    setf (set_parent a) b ;!
    ret a.

  (** rbtree.hpp 162-171 *)
  Definition fixup (root : ptr) : HM ptr :=
    let! b := andM (let! r := getf right root in is_red r)
                   (notM (let! l := getf left root in is_red l)) in
    let! root := (if b : bool then rotate_left root else ret root) in
    let! b := andM (let! l := getf left root in is_red l)
                   (let! l := getf left root in let! ll := getf left l in is_red ll) in
    let! root := (if b : bool then rotate_right root else ret root) in
    let! b := andM (let! l := getf left root in is_red l)
                   (let! r := getf right root in is_red r) in
    (if b : bool then flip_colors root else ret tt) ;!
    ret root.

  (** The walk back to the header, fixing up every subtree on the way
      (rbtree.hpp 518-523). *)
  Definition climb_fixup (fuel : nat) (hdr : loc) (parent0 : ptr) : HM unit :=
    loop fuel (λ p,
      if decide (p ≠ Some hdr) then
        let! root := edge_of hdr p in
        let! p' := getf parent p in
        let! r := get_edge root in
        let! r' := fixup r in
        set_edge root r' ;!
        ret (inl p')
      else ret (inr tt)) parent0.

  (** rbtree.hpp 173-184 *)
  Definition insert_rebalance (fuel : nat) (hdr : loc) (root : edge) (parent0 : ptr) : HM unit :=
    let! r := get_edge root in
    setf (set_red true) r ;!
    setf (set_right None) r ;!
    setf (set_left None) r ;!
    loop fuel (λ p,
      let! b := (if decide (p ≠ Some hdr) then
                   orM (let! l := getf left p in is_red l)
                       (let! r := getf right p in is_red r)
                 else ret false) in
      if b : bool then
        let! root := edge_of hdr p in
        let! p' := getf parent p in
        let! r := get_edge root in
        let! r' := fixup r in
        set_edge root r' ;!
        ret (inl p')
      else ret (inr tt)) parent0 ;!
    let! r := getf parent (Some hdr) in
    setf (set_red false) r.

  (** rbtree.hpp 186-196 *)
  Definition move_left (pivot : ptr) : HM ptr :=
    flip_colors pivot ;!
    let! r := getf right pivot in
    let! rl := getf left r in
    let! b := is_red rl in
    if b : bool then
      let! r' := rotate_right r in
      setf (set_right r') pivot ;!
      let! p := rotate_left pivot in
      flip_colors p ;!
      ret p
    else ret pivot.

  (** rbtree.hpp 198-207 *)
  Definition move_right (pivot : ptr) : HM ptr :=
    flip_colors pivot ;!
    let! l := getf left pivot in
    let! ll := getf left l in
    let! b := is_red ll in
    if b : bool then
      let! p := rotate_right pivot in
      flip_colors p ;!
      ret p
    else ret pivot.

  (** [p && !is_red(p) && !is_red(p->left)] (rbtree.hpp 474, 493) and the same
      without the null test (rbtree.hpp 214). *)
  Definition both_black (p : ptr) : HM bool :=
    andM (notM (is_red p)) (notM (let! l := getf left p in is_red l)).
  Definition some_both_black (p : ptr) : HM bool :=
    if nonnull p then both_black p else ret false.

  (** rbtree.hpp 209-228 *)
  Definition delete_min (fuel : nat) (hdr : loc) (root : edge) : HM ptr :=
    let! pivot := loop fuel (λ pivot,
      let! p := get_edge pivot in
      let! l := getf left p in
      match l with
      | Some _ =>
          let! b := both_black l in
          (if b : bool then let! p' := move_left p in set_edge pivot p' else ret tt) ;!
          let! p := get_edge pivot in
          let! a := addr p in
          ret (inl (ELeft a))
      | None => ret (inr pivot)
      end) root in
    let! deleted := get_edge pivot in
    let! par := getf parent deleted in
    set_edge pivot None ;!
    loop fuel (λ '(pivot, par),
      if decide (root ≠ pivot) then
        let! pivot := edge_of hdr par in
        let! par' := getf parent par in
        let! r := get_edge pivot in
        let! r' := fixup r in
        set_edge pivot r' ;!
        ret (inl (pivot, par'))
      else ret (inr tt)) (pivot, par) ;!
    ret deleted.

  (** ** The tree proper: [keyof_], [is_less_] and the key type's [==]. *)
  Context (keyof : V → K) (lt eqb : K → K → bool).

  (** default constructor: rbtree.hpp 44-48, 243 *)
  Definition rb_new : HM loc := allocate (Rb None None None true None).

  (** rbtree.hpp 299-310; [fuel] bounds the recursion depth. [delete] of a
      header cell would be a bad cast, of a freed node dangling. *)
  Definition delete_rbnode (p : ptr) : HM unit :=
    match p with
    | None => ret tt
    | Some l =>
        let! c := load l in
        match data c with Some _ => deallocate l | None => fail BadCast end
    end.
  Fixpoint postorder_destroy (fuel : nat) (n : ptr) : HM unit :=
    match fuel with
    | 0 => λ _, NoFuel
    | S fuel =>
        match n with
        | None => ret tt
        | Some _ =>
            let! l := getf left n in
            (if nonnull l then postorder_destroy fuel l else ret tt) ;!
            let! r := getf right n in
            (if nonnull r then postorder_destroy fuel r else ret tt) ;!
            delete_rbnode n
        end
    end.

  (** [new node(data)]: rbtree.hpp 240; the rbnode members are left
      uninitialised (here null/black; all callers set them before reading them). *)
  Definition new_rbnode (v : V) : HM loc := allocate (Rb None None None false (Some v)).

  (** rbtree.hpp 312-330 *)
  Fixpoint preorder_copy (fuel : nat) (n : ptr) : HM ptr :=
    match fuel with
    | 0 => λ _, NoFuel
    | S fuel =>
        match n with
        | None => ret None
        | Some _ =>
            let! v := node_data n in
            let! nc := new_rbnode v in
            let! c := getf red n in
            setf (set_red c) (Some nc) ;!
            let! l := getf left n in
            (if nonnull l then
               let! l' := preorder_copy fuel l in
               setf (set_left l') (Some nc) ;!
               let! l'' := getf left (Some nc) in
               setf (set_parent (Some nc)) l''
             else setf (set_left None) (Some nc)) ;!
            let! r := getf right n in
            (if nonnull r then
               let! r' := preorder_copy fuel r in
               setf (set_right r') (Some nc) ;!
               let! r'' := getf right (Some nc) in
               setf (set_parent (Some nc)) r''
             else setf (set_right None) (Some nc)) ;!
            ret (Some nc)
        end
    end.

  (** rbtree.hpp 342-348 *)
  Definition rb_clear (fuel : nat) (hdr : loc) : HM unit :=
    let! root := getf parent (Some hdr) in
    setf (set_parent None) (Some hdr) ;!
    postorder_destroy fuel root.
  (** destructor, then the object's storage goes away: rbtree.hpp 244 *)
  Definition rb_destroy (fuel : nat) (hdr : loc) : HM unit :=
    rb_clear fuel hdr ;! deallocate hdr.

  (** rbtree.hpp 332-340 *)
  Definition rb_assign (fuel : nat) (hdr other : loc) : HM unit :=
    let! root := getf parent (Some hdr) in
    (if nonnull root then rb_clear fuel hdr else ret tt) ;!
    let! oroot := getf parent (Some other) in
    if nonnull oroot then
      let! p := preorder_copy fuel oroot in
      setf (set_parent p) (Some hdr) ;!
      setf (set_parent (Some hdr)) p
    else ret tt.

  (** rbtree.hpp 350-368 *)
  Definition rb_count (fuel : nat) (hdr : loc) (key : K) : HM nat :=
    let! root := getf parent (Some hdr) in
    loop fuel (λ '(n, c),
      match n with
      | None => ret (inr c)
      | Some _ =>
          let! d := node_data n in
          let nkey := keyof d in
          if lt nkey key then let! r := getf right n in ret (inl (r, c))
          else
            let c' := if eqb nkey key then S c else c in
            let! l := getf left n in ret (inl (l, c'))
      end) (root, 0).

  (** rbtree.hpp 370-386 *)
  Definition rb_find (fuel : nat) (hdr : loc) (key : K) : HM ptr :=
    let! root := getf parent (Some hdr) in
    let! n := loop fuel (λ n,
      match n with
      | None => ret (inr None)
      | Some _ =>
          let! d := node_data n in
          let nkey := keyof d in
          if lt key nkey then let! l := getf left n in ret (inl l)
          else if eqb key nkey then ret (inr n)
          else let! r := getf right n in ret (inl r)
      end) root in
    ret (if nonnull n then n else Some hdr).

  (** rbtree.hpp 388-402 *)
  Definition rb_lower_bound (fuel : nat) (hdr : loc) (key : K) : HM ptr :=
    let! root := getf parent (Some hdr) in
    loop fuel (λ '(n, prev),
      match n with
      | None => ret (inr prev)
      | Some _ =>
          let! d := node_data n in
          if lt (keyof d) key then let! r := getf right n in ret (inl (r, prev))
          else let! l := getf left n in ret (inl (l, n))
      end) (root, Some hdr).

  (** rbtree.hpp 404-417 *)
  Definition rb_upper_bound (fuel : nat) (hdr : loc) (key : K) : HM ptr :=
    let! root := getf parent (Some hdr) in
    loop fuel (λ '(n, prev),
      match n with
      | None => ret (inr prev)
      | Some _ =>
          let! d := node_data n in
          if lt key (keyof d) then let! l := getf left n in ret (inl (l, n))
          else let! r := getf right n in ret (inl (r, prev))
      end) (root, Some hdr).

  (** rbtree.hpp 278-285 *)
  Definition rb_equal_range (fuel : nat) (hdr : loc) (key : K) : HM (ptr * ptr) :=
    let! a := rb_lower_bound fuel hdr key in
    let! b := rb_upper_bound fuel hdr key in
    ret (a, b).

  (** The common end of both insertions: rbtree.hpp 433-437, 456-460 *)
  Definition rb_attach (fuel : nat) (hdr : loc) (e : edge) (par : ptr) (v : V) : HM ptr :=
    let! n := new_rbnode v in
    setf (set_parent par) (Some n) ;!
    set_edge e (Some n) ;!
    insert_rebalance fuel hdr e par ;!
    ret (Some n).

  (** rbtree.hpp 419-438. The argument is taken by value although C++ takes a
      reference: nothing is written before it has been copied into the node. *)
  Definition rb_insert_equal (fuel : nat) (hdr : loc) (v : V) : HM ptr :=
    let key := keyof v in
    let! (par, e) := loop fuel (λ '(par, e),
      let! p := get_edge e in
      match p with
      | None => ret (inr (par, e))
      | Some a =>
          let! d := node_data p in
          if lt key (keyof d) then ret (inl (p, ELeft a)) else ret (inl (p, ERight a))
      end) (Some hdr, EParent hdr) in
    rb_attach fuel hdr e par v.

  (** rbtree.hpp 440-461 *)
  Definition rb_insert_unique (fuel : nat) (hdr : loc) (v : V) : HM (ptr * bool) :=
    let key := keyof v in
    let! r := loop fuel (λ '(par, e),
      let! p := get_edge e in
      match p with
      | None => ret (inr (inl (par, e)))
      | Some a =>
          let! d := node_data p in
          let ekey := keyof d in
          if lt key ekey then ret (inl (p, ELeft a))
          else if eqb key ekey then ret (inr (inr p))
          else ret (inl (p, ERight a))
      end) (Some hdr, EParent hdr) in
    match r with
    | inr p => ret (p, false)
    | inl (par, e) => let! n := rb_attach fuel hdr e par v in ret (n, true)
    end.

  (** rbtree.hpp 500-511: the node at [root] is replaced by the minimum of its
      right subtree; returns the node taken out. *)
  Definition rb_replace_by_min (fuel : nat) (hdr : loc) (root : edge) : HM ptr :=
    let! r := get_edge root in
    let! a := addr r in
    let! orphan := delete_min fuel hdr (ERight a) in
    let! r := get_edge root in
    let! c := getf red r in
    setf (set_red c) orphan ;!
    let! p := getf parent r in
    setf (set_parent p) orphan ;!
    let! rr := getf right r in
    setf (set_right rr) orphan ;!
    let! orr := getf right orphan in
    (if nonnull orr then setf (set_parent orphan) orr else ret tt) ;!
    let! rl := getf left r in
    setf (set_left rl) orphan ;!
    let! ol := getf left orphan in
    (if nonnull ol then setf (set_parent orphan) ol else ret tt) ;!
    let! deleted := get_edge root in
    set_edge root orphan ;!
    ret deleted.

  (** rbtree.hpp 463-527; loop variables (root, parent), results (parent,
      deleted) *)
  Definition rb_remove (fuel : nat) (hdr : loc) (key : K) : HM ptr :=
    let! (par, deleted) := loop fuel (λ '(root, par),
      let! r := get_edge root in
      match r with
      | None => ret (inr (par, None))
      | Some _ =>
          let! par := getf parent r in
          let! d := node_data r in
          let isless := lt key (keyof d) in
          if isless then
            let! l := getf left r in
            let! b := some_both_black l in
            (if b : bool then let! r' := move_left r in set_edge root r' else ret tt) ;!
            let! r := get_edge root in
            let! a := addr r in
            ret (inl (ELeft a, par))
          else
            let! l := getf left r in
            let! lr := is_red l in
            let! isless :=
              (if lr : bool then
                 let! r' := rotate_right r in
                 set_edge root r' ;!
                 let! r := get_edge root in
                 let! d := node_data r in
                 ret (lt key (keyof d))
               else ret isless) in
            let! r := get_edge root in
            let! c :=
              andM (ret (negb isless))
                (andM (let! d := node_data r in ret (eqb key (keyof d)))
                      (let! rr := getf right r in ret (negb (nonnull rr)))) in
            if c : bool then
              let! deleted := get_edge root in
              set_edge root None ;!
              ret (inr (par, deleted))
            else
              let! rr := getf right r in
              let! b := some_both_black rr in
              (if b : bool then let! r' := move_right r in set_edge root r' else ret tt) ;!
              let! r := get_edge root in
              let! d := node_data r in
              if eqb key (keyof d) then
                let! deleted := rb_replace_by_min fuel hdr root in
                let! par := get_edge root in
                ret (inr (par, deleted))
              else
                let! a := addr r in
                ret (inl (ERight a, par))
      end) (EParent hdr, Some hdr) in
    climb_fixup fuel hdr par ;!
    let! root := getf parent (Some hdr) in
    (if nonnull root then setf (set_red false) root else ret tt) ;!
    ret deleted.

  (** ** map / set. The container is identified with the address of its
      header. Iterators are pointers to nodes or to the header (end). *)

  (** map.hpp 140-151, set.hpp 128-139 (end, end const, cend) *)
  Definition m_end (this : loc) : ptr := Some this.
  (** map.hpp 153-167, set.hpp 141-155 (begin, begin const, cbegin) *)
  Definition m_begin (fuel : nat) (this : loc) : HM ptr :=
    let! root := getf parent (Some this) in
    if nonnull root then min_node fuel root else ret (m_end this).
  (** operator++ of iterator and const_iterator (the postfix form also returns the
      old pointer): map.hpp 64-74, 105-115, set.hpp 52-62, 93-103 *)
  Definition m_incr (fuel : nat) (p : ptr) : HM ptr := next_node fuel p.
  (** iterator::prev, called by operator--: map.hpp 259-271, 75-81, 116-126,
      set.hpp 236-248, 63-69, 104-114 *)
  Definition m_decr (fuel : nat) (n : ptr) : HM ptr :=
    let! p := getf parent n in
    if negb (nonnull p) then ret n else
    let! hd := andM (getf red n) (let! pp := getf parent p in ret (bool_decide (pp = n))) in
    if hd : bool then max_node fuel p else prev_node fuel n.
  (** copy constructor: map.hpp 172-175, set.hpp 160-163 *)
  Definition m_copy (fuel : nat) (other : loc) : HM loc :=
    let! this := rb_new in
    rb_assign fuel this other ;!
    ret this.
  (** operator=: map.hpp 182-187, set.hpp 170-175 *)
  Definition m_assign (fuel : nat) (this other : loc) : HM unit :=
    rb_clear fuel this ;!
    rb_assign fuel this other.
  (** insert(value): map.hpp 189-193, set.hpp 177-181 *)
  Definition m_insert (fuel : nat) (this : loc) (v : V) : HM (ptr * bool) :=
    rb_insert_unique fuel this v.
  (** insert(first, last): map.hpp 251-257, set.hpp 228-234; the range yields
      the values [vs] *)
  Fixpoint m_insert_range (fuel : nat) (this : loc) (vs : list V) : HM unit :=
    match vs with
    | [] => ret tt
    | v :: vs => rb_insert_unique fuel this v ;! m_insert_range fuel this vs
    end.
  (** range constructor: map.hpp 177-180, set.hpp 165-168 *)
  Definition m_new_range (fuel : nat) (vs : list V) : HM loc :=
    let! this := rb_new in
    m_insert_range fuel this vs ;!
    ret this.
  (** map.hpp 209-212, set.hpp 186-189 *)
  Definition m_clear (fuel : nat) (this : loc) : HM unit := rb_clear fuel this.
  (** map.hpp 215, set.hpp 192 *)
  Definition m_empty (this : loc) : HM bool :=
    let! root := getf parent (Some this) in ret (negb (nonnull root)).
  (** erase(key): map.hpp 221-226, set.hpp 198-203 *)
  Definition m_erase (fuel : nat) (this : loc) (key : K) : HM nat :=
    let! n := rb_remove fuel this key in
    delete_rbnode n ;!
    ret (if nonnull n then 1 else 0).
  (** find, count, lower_bound, const and non-const: map.hpp 236-242, set.hpp 213-219 *)
  Definition m_find (fuel : nat) (this : loc) (key : K) : HM ptr := rb_find fuel this key.
  Definition m_count (fuel : nat) (this : loc) (key : K) : HM nat :=
    let! n := rb_find fuel this key in
    ret (if bool_decide (n ≠ Some this) then 1 else 0).
  Definition m_lower_bound (fuel : nat) (this : loc) (key : K) : HM ptr :=
    rb_lower_bound fuel this key.
  (** map.hpp 273-288, set.hpp 250-265 (non-const and const, same text) *)
  Definition m_upper_bound (fuel : nat) (this : loc) (key : K) : HM ptr :=
    let! lo := rb_lower_bound fuel this key in
    if decide (lo = Some this) then ret (m_end this) else next_node fuel lo.
  (** map.hpp 290-309, set.hpp 267-286 (non-const and const, same text) *)
  Definition m_equal_range (fuel : nat) (this : loc) (key : K) : HM (ptr * ptr) :=
    let! lo := rb_lower_bound fuel this key in
    let! up := (if decide (lo ≠ Some this) then next_node fuel lo else ret lo) in
    ret (lo, up).
  (** operator==: map.hpp 314-318, set.hpp 291-295 (operator!=, map.hpp 319-323 and
      set.hpp 296-300, is its negation), i.e. ttl::equal on four iterators
      (algorithm.hpp 238-245) with the element type's == [veqb] *)
  Definition m_eq (veqb : V → V → bool) (fuel : nat) (a b : loc) : HM bool :=
    let! f1 := m_begin fuel a in
    let! f2 := m_begin fuel b in
    loop fuel (λ '(f1, f2),
      if decide (f1 ≠ m_end a ∧ f2 ≠ m_end b) then
        let! v1 := node_data f1 in
        let! v2 := node_data f2 in
        if veqb v1 v2 then
          let! f1' := m_incr fuel f1 in
          let! f2' := m_incr fuel f2 in
          ret (inl (f1', f2'))
        else ret (inr false)
      else ret (inr (bool_decide (f1 = m_end a ∧ f2 = m_end b)))) (f1, f2).
End rb.

Global Arguments rbcell : clear implicits.

(** ** map only: values are key/mapped pairs *)
Section map.
  Context {K T : Type} `{Allocator (rbcell (K * T))} (lt eqb : K → K → bool).
  Notation HM := (M (gmap loc (rbcell (K * T)))).
  (** operator[]: map.hpp 198-204; returns the address of the node whose
      [data.second] the reference denotes. [dflt] is [T()]. *)
  Definition m_index (dflt : T) (fuel : nat) (this : loc) (key : K) : HM ptr :=
    let! n := rb_find fst lt eqb fuel this key in
    if decide (n = Some this) then
      let! (n', _) := rb_insert_unique fst lt eqb fuel this (key, dflt) in ret n'
    else ret n.
  (** at: map.hpp 206-207; no check that the key is present: applied to the
      header it is a bad cast. *)
  Definition m_at (fuel : nat) (this : loc) (key : K) : HM T :=
    let! n := rb_find fst lt eqb fuel this key in
    let! d := node_data n in ret d.2.
  (** client code: [m[key] = v] *)
  Definition m_store (dflt : T) (fuel : nat) (this : loc) (key : K) (v : T) : HM unit :=
    let! n := m_index dflt fuel this key in
    let! d := node_data n in
    setf (set_data (d.1, v)) n.
End map.
