(** Model of the single-linked containers: slist_node.hpp, forward_list.hpp,
    backward_list.hpp and lazy_queue.hpp of /repo/ttl.

    A node (or a list header) is one heap cell: its [next] member and the state
    of its value storage. The header [head_] (and [dead_]) is a bare slist_node,
    so its value state is [Hdr]; a [node] holds a live value ([Live v]) or, in
    lazy_queue's pool, storage whose value has been destroyed ([Raw]). *)
From Verif Require Export Base.

Section slist.
  Context {V : Type}.

  Inductive slot := Hdr | Raw | Live (v : V).
  Record cell := Cell { next : ptr; val : slot }.
  Context `{Allocator cell}.
  Notation heap := (gmap loc cell).
  Notation HM := (M heap).

  (** A [const T &] argument: bound to an object outside the containers, or to
      the value stored in the node at some address (which may be a node of the
      very list being modified). It is read at the point where the C++ code
      copies it. *)
  Inductive vref := ExtVal (v : V) | InNode (l : loc).

  (** [static_cast<node *>(p)->value], read access (forward_list.hpp 50, 77;
      backward_list.hpp 55, 82; lazy_queue.hpp 72, 99). *)
  Definition value_at (p : ptr) : HM V :=
    let! c := loadp p in
    match val c with
    | Live v => ret v
    | Raw => fail NoObject
    | Hdr => fail BadCast
    end.
  Definition deref (r : vref) : HM V :=
    match r with ExtVal v => ret v | InNode l => value_at (Some l) end.

  (** [p->next] and [p->next = q] (slist_node.hpp 16). *)
  Definition get_next (p : ptr) : HM ptr := let! c := loadp p in ret (next c).
  Definition set_next (p q : ptr) : HM unit := modifyp p (λ c, Cell q (val c)).

  (** slist_node.hpp 18-23 *)
  Definition insert_after (this n : ptr) : HM ptr :=
    let! nx := get_next this in
    set_next n nx ;!
    set_next this n ;!
    ret n.

  (** slist_node.hpp 24-29 *)
  Definition unlink_next (this : ptr) : HM ptr :=
    let! n := get_next this in
    let! nn := get_next n in
    set_next this nn ;!
    ret n.

  (** slist_node.hpp 30-36 *)
  Definition splice_after1 (this o : ptr) : HM unit :=
    let! n := get_next o in
    let! nn := get_next n in
    set_next o nn ;!
    let! tn := get_next this in
    set_next n tn ;!
    set_next this n.

  (** slist_node.hpp 37-46 *)
  Definition splice_after2 (fuel : nat) (this f l : ptr) : HM unit :=
    let! n := get_next this in
    let! fn := get_next f in
    set_next this fn ;!
    let! o := loop fuel (λ o,
      let! on := get_next o in
      if decide (on ≠ l) then ret (inl on) else ret (inr o)) f in
    set_next o n ;!
    set_next f l.

  (** slist_node.hpp 47-59; loop variables (reversed, orig). *)
  Definition reverse_nodes (fuel : nat) (this : ptr) : HM unit :=
    let! orig := get_next this in
    let! reversed := loop fuel (λ '(reversed, orig),
      match orig with
      | None => ret (inr reversed)
      | Some _ =>
          let n := orig in
          let! orig' := get_next n in
          set_next n reversed ;!
          ret (inl (n, orig'))
      end) (None, orig) in
    set_next this reversed.

  (** [new node(value)] (forward_list.hpp 28-32, backward_list.hpp 32-36): one
      allocation, then the value is copied from the reference; [next] is left
      uninitialised by the constructor (here: null; every caller overwrites it
      through insert_after before it is read). The reference is read before the
      allocation instead of after it; a fresh cell cannot be the referent. *)
  Definition new_node (r : vref) : HM ptr :=
    let! v := deref r in
    let! l := allocate (Cell None (Live v)) in
    ret (Some l).

  (** [delete static_cast<node *>(p)]: null is allowed; the value is destroyed
      (it must be alive) and the storage released. *)
  Definition delete_node (p : ptr) : HM unit :=
    match p with
    | None => ret tt
    | Some l =>
        let! c := load l in
        match val c with
        | Live _ => deallocate l
        | Raw => fail NoObject
        | Hdr => fail BadCast
        end
    end.

  (** iterator / const_iterator: a pointer to a node, the header
      (before_begin) or null (end). [operator++]: forward_list.hpp 48, 75 *)
  Definition it_incr (p : ptr) : HM ptr := get_next p.
  (** [std::advance]-like client code used by the history theorems only. *)
  Fixpoint it_advance (n : nat) (p : ptr) : HM ptr :=
    match n with 0 => ret p | S n => let! q := it_incr p in it_advance n q end.

  (** ttl::equal(a.begin(), a.end(), b.begin(), b.end()) on these iterators
      (algorithm.hpp 238-245, used by operator==: forward_list.hpp 262-266,
      backward_list.hpp 309-313). *)
  Definition sl_equal (eqb : V → V → bool) (fuel : nat) (f1 l1 f2 l2 : ptr) : HM bool :=
    loop fuel (λ '(f1, f2),
      if decide (f1 ≠ l1 ∧ f2 ≠ l2) then
        let! v1 := value_at f1 in
        let! v2 := value_at f2 in
        if eqb v1 v2 then
          let! f1' := it_incr f1 in
          let! f2' := it_incr f2 in
          ret (inl (f1', f2'))
        else ret (inr false)
      else ret (inr (bool_decide (f1 = l1 ∧ f2 = l2)))) (f1, f2).

  (** ** forward_list; the object is identified with the address of [head_]. *)

  (** default constructor on fresh storage: forward_list.hpp 90 *)
  Definition fl_new : HM loc := allocate (Cell None Hdr).

  (** begin / before_begin / end: forward_list.hpp 116-124 *)
  Definition fl_begin (this : loc) : HM ptr := get_next (Some this).
  Definition fl_before_begin (this : loc) : ptr := Some this.
  Definition fl_end : ptr := None.

  (** forward_list.hpp 126 *)
  Definition fl_empty (this : loc) : HM bool :=
    let! n := get_next (Some this) in ret (bool_decide (n = None)).
  (** forward_list.hpp 129-130 *)
  Definition fl_front (this : loc) : HM V :=
    let! n := get_next (Some this) in value_at n.

  (** forward_list.hpp 145-148 *)
  Definition fl_push_front (this : loc) (r : vref) : HM unit :=
    let! n := new_node r in
    insert_after (Some this) n ;!
    ret tt.
  (** forward_list.hpp 150-153 *)
  Definition fl_pop_front (this : loc) : HM unit :=
    let! n := unlink_next (Some this) in delete_node n.

  (** forward_list.hpp 169-172 *)
  Definition fl_insert_after (pos : ptr) (r : vref) : HM ptr :=
    let! n := new_node r in insert_after pos n.
  (** forward_list.hpp 214-220; returns the last [p] (void in C++). *)
  Fixpoint fl_insert_after_n (pos : ptr) (n : nat) (r : vref) : HM ptr :=
    match n with
    | 0 => ret pos
    | S n =>
        let! x := new_node r in
        let! p := insert_after pos x in
        fl_insert_after_n p n r
    end.
  (** forward_list.hpp 221-228, the range given by iterators into memory outside
      the lists that yields the values [vs]; returns the last [p]. *)
  Fixpoint fl_insert_after_ext (pos : ptr) (vs : list V) : HM ptr :=
    match vs with
    | [] => ret pos
    | v :: vs =>
        let! x := new_node (ExtVal v) in
        let! p := insert_after pos x in
        fl_insert_after_ext p vs
    end.
  (** forward_list.hpp 221-228, the range given by list iterators. *)
  Definition fl_insert_after_its (fuel : nat) (pos first last : ptr) : HM ptr :=
    loop fuel (λ '(p, first),
      if decide (first ≠ last) then
        let! l := addr first in
        let! x := new_node (InNode l) in
        let! p' := insert_after p x in
        let! first' := it_incr first in
        ret (inl (p', first'))
      else ret (inr p)) (pos, first).

  (** forward_list.hpp 177-182 *)
  Definition fl_erase_after (pos : ptr) : HM ptr :=
    let! n := unlink_next pos in
    delete_node n ;!
    get_next pos.
  (** forward_list.hpp 235-242 *)
  Definition fl_erase_after_range (fuel : nat) (pos last : ptr) : HM ptr :=
    loop fuel (λ _ : unit,
      let! pn := get_next pos in
      if decide (pn ≠ last) then
        let! n := unlink_next pos in
        delete_node n ;!
        ret (inl tt)
      else ret (inr tt)) tt ;!
    get_next pos.

  (** forward_list.hpp 229-234 *)
  Definition fl_clear (fuel : nat) (this : loc) : HM unit :=
    loop fuel (λ _ : unit,
      let! n := get_next (Some this) in
      match n with
      | Some _ =>
          let! n := unlink_next (Some this) in
          delete_node n ;!
          ret (inl tt)
      | None => ret (inr tt)
      end) tt.
  (** destructor, then the storage of the object goes away: forward_list.hpp 107 *)
  Definition fl_destroy (fuel : nat) (this : loc) : HM unit :=
    fl_clear fuel this ;! deallocate this.

  (** copy constructor: forward_list.hpp 91-95 *)
  Definition fl_copy (fuel : nat) (other : loc) : HM loc :=
    let! this := fl_new in
    let! b := fl_begin other in
    fl_insert_after_its fuel (Some this) b fl_end ;!
    ret this.
  (** (n, value) constructor: forward_list.hpp 96-100 *)
  Definition fl_new_n (n : nat) (r : vref) : HM loc :=
    let! this := fl_new in
    fl_insert_after_n (Some this) n r ;!
    ret this.
  (** range constructor: forward_list.hpp 101-106 *)
  Definition fl_new_ext (vs : list V) : HM loc :=
    let! this := fl_new in
    fl_insert_after_ext (Some this) vs ;!
    ret this.
  (** operator=: forward_list.hpp 109-114 *)
  Definition fl_assign_from (fuel : nat) (this other : loc) : HM unit :=
    fl_clear fuel this ;!
    let! b := fl_begin other in
    fl_insert_after_its fuel (Some this) b fl_end ;!
    ret tt.
  (** assign: forward_list.hpp 132-143 *)
  Definition fl_assign_ext (fuel : nat) (this : loc) (vs : list V) : HM unit :=
    fl_clear fuel this ;!
    fl_insert_after_ext (Some this) vs ;!
    ret tt.
  Definition fl_assign_n (fuel : nat) (this : loc) (n : nat) (r : vref) : HM unit :=
    fl_clear fuel this ;!
    fl_insert_after_n (Some this) n r ;!
    ret tt.

  (** swap: forward_list.hpp 185-188; ttl::swap of two pointers reads both
      (utility.hpp 39-45) and writes both. *)
  Definition fl_swap (this other : loc) : HM unit :=
    let! a := get_next (Some this) in
    let! b := get_next (Some other) in
    set_next (Some this) b ;!
    set_next (Some other) a.

  (** forward_list.hpp 243-247 *)
  Definition fl_reverse (fuel : nat) (this : loc) : HM unit :=
    reverse_nodes fuel (Some this).

  (** splice_after(pos, other): forward_list.hpp 155-158 *)
  Definition fl_splice_all (fuel : nat) (pos : ptr) (other : loc) : HM unit :=
    splice_after2 fuel pos (Some other) None.
  (** splice_after(pos, other, it): forward_list.hpp 159-166 *)
  Definition fl_splice_one (pos it : ptr) : HM unit :=
    if decide (it = pos) then ret tt else splice_after1 pos it.
  (** splice_after(pos, other, first, last): forward_list.hpp 248-257 *)
  Definition fl_splice_range (fuel : nat) (pos first last : ptr) : HM unit :=
    match first with
    | None => ret tt
    | Some _ => splice_after2 fuel pos first last
    end.

  (** operator==: forward_list.hpp 262-266 *)
  Definition fl_eq (eqb : V → V → bool) (fuel : nat) (a b : loc) : HM bool :=
    let! fa := fl_begin a in
    let! fb := fl_begin b in
    sl_equal eqb fuel fa fl_end fb fl_end.

  (** ** backward_list: [head_] at address [bl_head], member [tail_]. *)
  Record blist := BL { bl_head : loc; bl_tail : ptr }.

  (** backward_list.hpp 95-99 *)
  Definition bl_new : HM blist :=
    let! h := allocate (Cell None Hdr) in ret (BL h (Some h)).
  (** backward_list.hpp 128-131 *)
  Definition bl_begin (b : blist) : HM ptr := get_next (Some (bl_head b)).
  Definition bl_before_begin (b : blist) : ptr := Some (bl_head b).
  Definition bl_before_end (b : blist) : ptr := bl_tail b.
  (** backward_list.hpp 141 *)
  Definition bl_empty (b : blist) : bool := bool_decide (Some (bl_head b) = bl_tail b).
  (** backward_list.hpp 144-147 *)
  Definition bl_front (b : blist) : HM V :=
    let! n := get_next (Some (bl_head b)) in value_at n.
  Definition bl_back (b : blist) : HM V := value_at (bl_tail b).
  (** backward_list.hpp 162-167 *)
  Definition bl_push_front (b : blist) (r : vref) : HM blist :=
    let! x := new_node r in
    let! n := insert_after (Some (bl_head b)) x in
    if decide (bl_tail b = Some (bl_head b)) then ret (BL (bl_head b) n) else ret b.
  (** backward_list.hpp 168-171 *)
  Definition bl_push_back (b : blist) (r : vref) : HM blist :=
    let! x := new_node r in
    let! n := insert_after (bl_tail b) x in
    ret (BL (bl_head b) n).
  (** backward_list.hpp 173-178 *)
  Definition bl_pop_front (b : blist) : HM blist :=
    let! n := unlink_next (Some (bl_head b)) in
    delete_node n ;!
    if bl_empty b then ret (BL (bl_head b) (Some (bl_head b))) else ret b.
  (** backward_list.hpp 195-202 *)
  Definition bl_insert_after (b : blist) (pos : ptr) (r : vref) : HM (blist * ptr) :=
    let! x := new_node r in
    let! n := insert_after pos x in
    if decide (pos = bl_tail b) then ret (BL (bl_head b) n, n) else ret (b, n).
  (** backward_list.hpp 250-259 *)
  Definition bl_insert_after_n (b : blist) (pos : ptr) (n : nat) (r : vref) : HM blist :=
    let! p := fl_insert_after_n pos n r in
    if decide (pos = bl_tail b) then ret (BL (bl_head b) p) else ret b.
  (** backward_list.hpp 260-270: line 269 assigns [pn], not [p]. *)
  Definition bl_insert_after_ext (b : blist) (pos : ptr) (vs : list V) : HM blist :=
    let! p := fl_insert_after_ext pos vs in
    if decide (pos = bl_tail b) then ret (BL (bl_head b) pos) else ret b.
  Definition bl_insert_after_its (fuel : nat) (b : blist) (pos first last : ptr) : HM blist :=
    let! p := fl_insert_after_its fuel pos first last in
    if decide (pos = bl_tail b) then ret (BL (bl_head b) pos) else ret b.
  (** backward_list.hpp 207-215 *)
  Definition bl_erase_after (b : blist) (pos : ptr) : HM (blist * ptr) :=
    let! p := unlink_next pos in
    let b' := if decide (p = bl_tail b) then BL (bl_head b) pos else b in
    delete_node p ;!
    let! n := get_next pos in
    ret (b', n).
  (** backward_list.hpp 278-287 *)
  Definition bl_erase_after_range (fuel : nat) (b : blist) (pos last : ptr) : HM (blist * ptr) :=
    let! n := fl_erase_after_range fuel pos last in
    let b' := if decide (last = None) then BL (bl_head b) pos else b in
    ret (b', n).
  (** backward_list.hpp 271-277 *)
  Definition bl_clear (fuel : nat) (b : blist) : HM blist :=
    fl_clear fuel (bl_head b) ;!
    ret (BL (bl_head b) (Some (bl_head b))).
  (** backward_list.hpp 119 *)
  Definition bl_destroy (fuel : nat) (b : blist) : HM unit :=
    bl_clear fuel b ;! deallocate (bl_head b).
  (** backward_list.hpp 100-105 *)
  Definition bl_copy (fuel : nat) (other : blist) : HM blist :=
    let! b := bl_new in
    let! f := bl_begin other in
    bl_insert_after_its fuel b (bl_before_begin b) f None.
  (** backward_list.hpp 106-111, 112-118 *)
  Definition bl_new_n (n : nat) (r : vref) : HM blist :=
    let! b := bl_new in bl_insert_after_n b (bl_before_begin b) n r.
  Definition bl_new_ext (vs : list V) : HM blist :=
    let! b := bl_new in bl_insert_after_ext b (bl_before_begin b) vs.
  (** backward_list.hpp 121-126 *)
  Definition bl_assign_from (fuel : nat) (b other : blist) : HM blist :=
    let! b := bl_clear fuel b in
    let! f := bl_begin other in
    bl_insert_after_its fuel b (bl_before_begin b) f None.
  (** backward_list.hpp 149-160 *)
  Definition bl_assign_ext (fuel : nat) (b : blist) (vs : list V) : HM blist :=
    let! b := bl_clear fuel b in bl_insert_after_ext b (bl_before_begin b) vs.
  Definition bl_assign_n (fuel : nat) (b : blist) (n : nat) (r : vref) : HM blist :=
    let! b := bl_clear fuel b in bl_insert_after_n b (bl_before_begin b) n r.
  (** backward_list.hpp 218-222 *)
  Definition bl_swap (a b : blist) : HM (blist * blist) :=
    fl_swap (bl_head a) (bl_head b) ;!
    ret (BL (bl_head a) (bl_tail b), BL (bl_head b) (bl_tail a)).
  (** backward_list.hpp 288-293 *)
  Definition bl_reverse (fuel : nat) (b : blist) : HM blist :=
    let! t := get_next (Some (bl_head b)) in
    reverse_nodes fuel (Some (bl_head b)) ;!
    ret (BL (bl_head b) t).
  (** backward_list.hpp 309-313 *)
  Definition bl_eq (eqb : V → V → bool) (fuel : nat) (a b : blist) : HM bool :=
    let! fa := bl_begin a in
    let! fb := bl_begin b in
    sl_equal eqb fuel fa None fb None.

  (** ** lazy_queue: [head_] at [lq_head], [tail_], [dead_] at [lq_dead]. *)
  Record lqueue := LQ { lq_head : loc; lq_tail : ptr; lq_dead : loc }.

  (** lazy_queue.hpp 45-50. [::operator new] gives a cell without a value; the
      placement new runs on storage that must not hold a live value. *)
  Definition get_node (q : lqueue) (r : vref) : HM ptr :=
    let! d := get_next (Some (lq_dead q)) in
    let! n := (match d with
               | Some _ => unlink_next (Some (lq_dead q))
               | None => let! l := allocate (Cell None Raw) in ret (Some l)
               end) in
    let! l := addr n in
    let! v := deref r in
    let! c := load l in
    match val c with
    | Raw => modify l (λ c, Cell (next c) (Live v)) ;! ret n
    | Live _ => fail LiveOverwrite
    | Hdr => fail BadCast
    end.
  (** lazy_queue.hpp 51-55 *)
  Definition put_node (q : lqueue) (n : ptr) : HM unit :=
    let! l := addr n in
    let! c := load l in
    match val c with
    | Live _ =>
        modify l (λ c, Cell (next c) Raw) ;!
        insert_after (Some (lq_dead q)) n ;!
        ret tt
    | Raw => fail NoObject
    | Hdr => fail BadCast
    end.

  (** lazy_queue.hpp 112-117 *)
  Definition lq_new : HM lqueue :=
    let! h := allocate (Cell None Hdr) in
    let! d := allocate (Cell None Hdr) in
    ret (LQ h (Some h) d).
  Definition lq_set_tail (q : lqueue) (t : ptr) : lqueue := LQ (lq_head q) t (lq_dead q).
  (** lazy_queue.hpp 152-163 *)
  Definition lq_begin (q : lqueue) : HM ptr := get_next (Some (lq_head q)).
  Definition lq_before_begin (q : lqueue) : ptr := Some (lq_head q).
  Definition lq_before_end (q : lqueue) : ptr := lq_tail q.
  (** lazy_queue.hpp 165 *)
  Definition lq_empty (q : lqueue) : HM bool :=
    let! n := get_next (Some (lq_head q)) in ret (bool_decide (n = None)).
  (** lazy_queue.hpp 168-171 *)
  Definition lq_front (q : lqueue) : HM V :=
    let! n := get_next (Some (lq_head q)) in value_at n.
  Definition lq_back (q : lqueue) : HM V := value_at (lq_tail q).
  (** lazy_queue.hpp 173-178 *)
  Definition lq_push_front (q : lqueue) (r : vref) : HM lqueue :=
    let! x := get_node q r in
    let! n := insert_after (Some (lq_head q)) x in
    if decide (lq_tail q = Some (lq_head q)) then ret (lq_set_tail q n) else ret q.
  (** lazy_queue.hpp 179-182 *)
  Definition lq_push_back (q : lqueue) (r : vref) : HM lqueue :=
    let! x := get_node q r in
    let! n := insert_after (lq_tail q) x in
    ret (lq_set_tail q n).
  (** lazy_queue.hpp 184-189 *)
  Definition lq_pop_front (q : lqueue) : HM lqueue :=
    let! n := unlink_next (Some (lq_head q)) in
    put_node q n ;!
    let! e := lq_empty q in
    if (e : bool) then ret (lq_set_tail q (Some (lq_head q))) else ret q.
  (** lazy_queue.hpp 191-198 *)
  Definition lq_insert_after (q : lqueue) (pos : ptr) (r : vref) : HM (lqueue * ptr) :=
    let! x := get_node q r in
    let! n := insert_after pos x in
    if decide (pos = lq_tail q) then ret (lq_set_tail q n, n) else ret (q, n).
  (** the loop of lazy_queue.hpp 227-236 *)
  Fixpoint lq_ins_n (q : lqueue) (p : ptr) (n : nat) (r : vref) : HM ptr :=
    match n with
    | 0 => ret p
    | S n =>
        let! x := get_node q r in
        let! p := insert_after p x in
        lq_ins_n q p n r
    end.
  Definition lq_insert_after_n (q : lqueue) (pos : ptr) (n : nat) (r : vref) : HM lqueue :=
    let! p := lq_ins_n q pos n r in
    if decide (pos = lq_tail q) then ret (lq_set_tail q p) else ret q.
  (** lazy_queue.hpp 237-247, range outside the containers *)
  Fixpoint lq_ins_ext (q : lqueue) (p : ptr) (vs : list V) : HM ptr :=
    match vs with
    | [] => ret p
    | v :: vs =>
        let! x := get_node q (ExtVal v) in
        let! p := insert_after p x in
        lq_ins_ext q p vs
    end.
  Definition lq_insert_after_ext (q : lqueue) (pos : ptr) (vs : list V) : HM lqueue :=
    let! p := lq_ins_ext q pos vs in
    if decide (pos = lq_tail q) then ret (lq_set_tail q p) else ret q.
  (** lazy_queue.hpp 237-247, range of list iterators *)
  Definition lq_insert_after_its (fuel : nat) (q : lqueue) (pos first last : ptr) : HM lqueue :=
    let! p := loop fuel (λ '(p, first),
      if decide (first ≠ last) then
        let! l := addr first in
        let! x := get_node q (InNode l) in
        let! p' := insert_after p x in
        let! first' := it_incr first in
        ret (inl (p', first'))
      else ret (inr p)) (pos, first) in
    if decide (pos = lq_tail q) then ret (lq_set_tail q p) else ret q.
  (** lazy_queue.hpp 248-257 *)
  Definition lq_erase_after (q : lqueue) (pos : ptr) : HM (lqueue * ptr) :=
    let! p := unlink_next pos in
    let q' := if decide (p = lq_tail q) then lq_set_tail q pos else q in
    put_node q p ;!
    let! n := get_next pos in
    ret (q', n).
  (** lazy_queue.hpp 258-267 *)
  Definition lq_erase_after_range (fuel : nat) (q : lqueue) (pos last : ptr) : HM (lqueue * ptr) :=
    loop fuel (λ _ : unit,
      let! pn := get_next pos in
      if decide (pn ≠ last) then
        let! n := unlink_next pos in
        put_node q n ;!
        ret (inl tt)
      else ret (inr tt)) tt ;!
    let q' := if decide (last = None) then lq_set_tail q pos else q in
    let! n := get_next pos in
    ret (q', n).
  (** lazy_queue.hpp 268-274 *)
  Definition lq_clear (fuel : nat) (q : lqueue) : HM lqueue :=
    loop fuel (λ _ : unit,
      let! n := get_next (Some (lq_head q)) in
      match n with
      | Some _ =>
          let! n := unlink_next (Some (lq_head q)) in
          put_node q n ;!
          ret (inl tt)
      | None => ret (inr tt)
      end) tt ;!
    ret (lq_set_tail q (Some (lq_head q))).
  (** lazy_queue.hpp 142: [::delete] of a [node *] runs ~T on its value and releases
      the storage. Running ~T where no T lives is undefined, except that for a
      trivially destructible T ([triv]) it does nothing. *)
  Definition delete_pooled (triv : bool) (p : ptr) : HM unit :=
    let! l := addr p in
    let! c := load l in
    match val c with
    | Live _ => deallocate l
    | Raw => if triv then deallocate l else fail NoObject
    | Hdr => fail BadCast
    end.
  (** lazy_queue.hpp 139-143 *)
  Definition lq_cleanup (triv : bool) (fuel : nat) (q : lqueue) : HM unit :=
    loop fuel (λ _ : unit,
      let! n := get_next (Some (lq_dead q)) in
      match n with
      | Some _ =>
          let! n := unlink_next (Some (lq_dead q)) in
          delete_pooled triv n ;!
          ret (inl tt)
      | None => ret (inr tt)
      end) tt.
  (** lazy_queue.hpp 132-137, then the object's storage goes away *)
  Definition lq_destroy (triv : bool) (fuel : nat) (q : lqueue) : HM unit :=
    fl_clear fuel (lq_head q) ;!
    lq_cleanup triv fuel q ;!
    deallocate (lq_head q) ;!
    deallocate (lq_dead q).
  (** lazy_queue.hpp 118-124 *)
  Definition lq_copy (fuel : nat) (other : lqueue) : HM lqueue :=
    let! q := lq_new in
    let! f := lq_begin other in
    lq_insert_after_its fuel q (lq_before_begin q) f None.
  (** lazy_queue.hpp 125-131 *)
  Definition lq_new_n (n : nat) (r : vref) : HM lqueue :=
    let! q := lq_new in lq_insert_after_n q (lq_before_begin q) n r.
  (** lazy_queue.hpp 145-150 *)
  Definition lq_assign_from (fuel : nat) (q other : lqueue) : HM lqueue :=
    let! q := lq_clear fuel q in
    let! f := lq_begin other in
    lq_insert_after_its fuel q (lq_before_begin q) f None.
  (** lazy_queue.hpp 206-210 *)
  Definition lq_swap (a b : lqueue) : HM (lqueue * lqueue) :=
    fl_swap (lq_head a) (lq_head b) ;!
    ret (lq_set_tail a (lq_tail b), lq_set_tail b (lq_tail a)).
  (** lazy_queue.hpp 218-225 *)
  Definition lq_roll_head (q : lqueue) : HM lqueue :=
    let! n0 := get_next (Some (lq_head q)) in
    if decide (n0 ≠ None ∧ n0 ≠ lq_tail q) then
      let! n := unlink_next (Some (lq_head q)) in
      let! t := insert_after (lq_tail q) n in
      ret (lq_set_tail q t)
    else ret q.
End slist.

Global Arguments slot : clear implicits.
Global Arguments cell : clear implicits.
Global Arguments vref : clear implicits.
