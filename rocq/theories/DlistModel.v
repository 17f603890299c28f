(** Model of ttl/list.hpp: the doubly linked list.

    A node (or a list's header [head_]) is one heap cell: its [prev] and [next] members
    (list.hpp 17) and, for a [node] (124-129), the value. A list object is identified
    with the address of its header. *)
From Verif Require Export Base.

Section dlist.
  Context {V : Type}.

  Inductive dslot := DHdr | DLive (v : V).
  Record dcell := DCell { d_prev : ptr; d_next : ptr; d_val : dslot }.
  Context `{Allocator dcell}.
  Notation heap := (gmap loc dcell).
  Notation HM := (M heap).

  (** A [const T &] argument: an object outside the containers, or the value of a node. *)
  Inductive dref := DExt (v : V) | DNode (l : loc).

  (** static_cast<node *>(p)->value: list.hpp 149, 178, 234-237 *)
  Definition d_value (p : ptr) : HM V :=
    let! c := loadp p in
    match d_val c with DLive v => ret v | DHdr => fail BadCast end.
  (** assignment through it *)
  Definition d_assign_value (p : ptr) (v : V) : HM unit :=
    let! c := loadp p in
    match d_val c with
    | DLive _ => modifyp p (λ c, DCell (d_prev c) (d_next c) (DLive v))
    | DHdr => fail BadCast
    end.
  Definition d_deref (r : dref) : HM V :=
    match r with DExt v => ret v | DNode l => d_value (Some l) end.
  Definition get_prev (p : ptr) : HM ptr := let! c := loadp p in ret (d_prev c).
  Definition get_next (p : ptr) : HM ptr := let! c := loadp p in ret (d_next c).
  Definition set_prev (p q : ptr) : HM unit := modifyp p (λ c, DCell q (d_next c) (d_val c)).
  Definition set_next (p q : ptr) : HM unit := modifyp p (λ c, DCell (d_prev c) q (d_val c)).

  (** *** list_node *)

  (** list.hpp 21-28 *)
  Definition insert_before (this n : ptr) : HM ptr :=
    let! prev := get_prev this in
    set_next prev n ;!
    set_next n this ;!
    let! prev := get_prev this in
    set_prev n prev ;!
    set_prev this n ;!
    ret n.
  (** list.hpp 30-34 *)
  Definition unlink (this : ptr) : HM unit :=
    let! next := get_next this in
    let! prev := get_prev this in
    set_prev next prev ;!
    let! prev := get_prev this in
    let! next := get_next this in
    set_next prev next.
  (** list.hpp 36-45 *)
  Definition node_splice (this first last : ptr) : HM unit :=
    let! lp := get_prev last in
    set_next lp this ;!
    let! fp := get_prev first in
    set_next fp last ;!
    let! tp := get_prev this in
    set_next tp first ;!
    let! t := get_prev this in
    let! lp := get_prev last in
    set_prev this lp ;!
    let! fp := get_prev first in
    set_prev last fp ;!
    set_prev first t.
  (** list.hpp 47-58 *)
  Definition node_reverse (fuel : nat) (this : ptr) : HM unit :=
    loop fuel (λ p,
      let! t := get_next p in
      let! pp := get_prev p in
      set_next p pp ;!
      set_prev p t ;!
      if decide (t ≠ this) then ret (inl t) else ret (inr tt)) this.

  (** [x->prev->next = y->next->prev = q] (list.hpp 70, 71, 81). Before C++17 the order of
      the two sides is unspecified: [rfirst] chooses it (C++17: right first). *)
  Definition chain_assign (rfirst : bool) (x y q : ptr) : HM unit :=
    if rfirst then
      let! yn := get_next y in
      set_prev yn q ;!
      let! xp := get_prev x in
      set_next xp q
    else
      let! xp := get_prev x in
      let! yn := get_next y in
      set_prev yn q ;!
      set_next xp q.
  (** list.hpp 79-82 *)
  Definition halfswap (rfirst : bool) (a b : ptr) : HM unit :=
    let! bp := get_prev b in
    set_prev a bp ;!
    let! bn := get_next b in
    set_next a bn ;!
    chain_assign rfirst b b a ;!
    set_next b b ;!
    set_prev b b.
  (** list.hpp 61-83 *)
  Definition node_swap (rfirst : bool) (a b : ptr) : HM unit :=
    let! an := get_next a in
    if decide (a ≠ an) then
      let! bn := get_next b in
      if decide (b ≠ bn) then
        let! t := get_prev a in
        let! bp := get_prev b in
        set_prev a bp ;!
        set_prev b t ;!
        let! t := get_next a in
        let! bn := get_next b in
        set_next a bn ;!
        set_next b t ;!
        chain_assign rfirst a a a ;!
        chain_assign rfirst b b b
      else halfswap rfirst b a
    else halfswap rfirst a b.

  (** *** list *)

  (** new node(value), list.hpp 128: prev and next are left uninitialised (here: null). *)
  Definition new_node (r : dref) : HM ptr :=
    let! v := d_deref r in
    let! l := allocate (DCell None None (DLive v)) in
    ret (Some l).
  (** delete static_cast<node *>(p) *)
  Definition delete_node (p : ptr) : HM unit :=
    match p with
    | None => ret tt
    | Some l =>
        let! c := load l in
        match d_val c with DLive _ => deallocate l | DHdr => fail BadCast end
    end.

  (** list.hpp 191: the header, initialised by init() (19) *)
  Definition dl_new : HM loc :=
    let! l := allocate (DCell None None DHdr) in
    set_prev (Some l) (Some l) ;!
    set_next (Some l) (Some l) ;!
    ret l.
  (** list.hpp 217-222; iterator ++ and --: 145-148, 174-177 *)
  Definition dl_begin (this : loc) : HM ptr := get_next (Some this).
  Definition dl_end (this : loc) : ptr := Some this.
  Definition it_next (p : ptr) : HM ptr := get_next p.
  Definition it_prev (p : ptr) : HM ptr := get_prev p.
  (** list.hpp 224 *)
  Definition dl_empty (this : loc) : HM bool :=
    let! n := get_next (Some this) in ret (bool_decide (n = Some this)).
  (** list.hpp 226-232 *)
  Definition dl_size (fuel : nat) (this : loc) : HM nat :=
    let! n := get_next (Some this) in
    loop fuel (λ '(n, siz),
      if decide (n ≠ Some this) then
        let! n := get_next n in ret (inl (n, S siz))
      else ret (inr siz)) (n, 0).
  (** list.hpp 234-237 *)
  Definition dl_front (this : loc) : HM V := let! n := get_next (Some this) in d_value n.
  Definition dl_back (this : loc) : HM V := let! n := get_prev (Some this) in d_value n.
  (** list.hpp 252-260 *)
  Definition dl_push_front (this : loc) (r : dref) : HM unit :=
    let! x := new_node r in
    let! n := get_next (Some this) in
    insert_before n x ;! ret tt.
  Definition dl_push_back (this : loc) (r : dref) : HM unit :=
    let! x := new_node r in
    insert_before (Some this) x ;! ret tt.
  (** list.hpp 262-274 *)
  Definition dl_pop_front (this : loc) : HM unit :=
    let! p := get_next (Some this) in unlink p ;! delete_node p.
  Definition dl_pop_back (this : loc) : HM unit :=
    let! p := get_prev (Some this) in unlink p ;! delete_node p.
  (** list.hpp 276-292 *)
  Definition dl_splice_all (pos : ptr) (other : loc) : HM unit :=
    let! f := get_next (Some other) in node_splice pos f (Some other).
  Definition dl_splice_one (pos it : ptr) : HM unit :=
    if decide (it ≠ pos) then
      let! n := get_next it in node_splice pos it n
    else ret tt.
  Definition dl_splice_range (pos first last : ptr) : HM unit := node_splice pos first last.
  (** list.hpp 294-298 *)
  Definition dl_insert (pos : ptr) (r : dref) : HM ptr :=
    let! x := new_node r in insert_before pos x.
  (** list.hpp 346-351 *)
  Fixpoint dl_insert_n (pos : ptr) (n : nat) (r : dref) : HM unit :=
    match n with
    | 0 => ret tt
    | S n => let! x := new_node r in insert_before pos x ;! dl_insert_n pos n r
    end.
  (** list.hpp 353-359, the range yielding the values [vs] from memory outside the lists *)
  Fixpoint dl_insert_ext (pos : ptr) (vs : list V) : HM unit :=
    match vs with
    | [] => ret tt
    | v :: vs => let! x := new_node (DExt v) in insert_before pos x ;! dl_insert_ext pos vs
    end.
  (** the same, the range given by two iterators of a list *)
  Definition dl_insert_its (fuel : nat) (pos first last : ptr) : HM unit :=
    loop fuel (λ first,
      if decide (first ≠ last) then
        let! l := addr first in
        let! x := new_node (DNode l) in
        insert_before pos x ;!
        let! first := it_next first in
        ret (inl first)
      else ret (inr tt)) first.
  (** list.hpp 303-310 *)
  Definition dl_erase (pos : ptr) : HM ptr :=
    let! next := get_next pos in
    unlink pos ;!
    delete_node pos ;!
    ret next.
  (** list.hpp 409-420 *)
  Definition dl_erase_range (fuel : nat) (pos last : ptr) : HM ptr :=
    loop fuel (λ p,
      let! n := get_next p in
      if decide (n ≠ last) then
        unlink p ;!
        delete_node p ;!
        ret (inl n)
      else ret (inr n)) pos.
  (** list.hpp 313-316 *)
  Definition dl_swap (rfirst : bool) (this other : loc) : HM unit :=
    node_swap rfirst (Some this) (Some other).
  (** list.hpp 399-407 *)
  Definition dl_clear (fuel : nat) (this : loc) : HM unit :=
    loop fuel (λ _,
      let! p := get_next (Some this) in
      if decide (p ≠ Some this) then
        let! pn := get_next p in
        set_next (Some this) pn ;!
        delete_node p ;!
        ret (inl tt)
      else ret (inr tt)) tt.
  (** list.hpp 208; then the object's storage goes away *)
  Definition dl_destroy (fuel : nat) (this : loc) : HM unit :=
    dl_clear fuel this ;! deallocate this.
  (** list.hpp 192-207 *)
  Definition dl_copy (fuel : nat) (other : loc) : HM loc :=
    let! this := dl_new in
    let! b := dl_begin this in
    let! f := dl_begin other in
    dl_insert_its fuel b f (dl_end other) ;!
    ret this.
  Definition dl_new_n (n : nat) (r : dref) : HM loc :=
    let! this := dl_new in dl_insert_n (dl_end this) n r ;! ret this.
  Definition dl_new_range (vs : list V) : HM loc :=
    let! this := dl_new in dl_insert_ext (dl_end this) vs ;! ret this.
  (** list.hpp 210-215 *)
  Definition dl_assign_from (fuel : nat) (this other : loc) : HM unit :=
    dl_clear fuel this ;!
    let! b := dl_begin this in
    let! f := dl_begin other in
    dl_insert_its fuel b f (dl_end other).
  (** list.hpp 239-250 *)
  Definition dl_assign_range (fuel : nat) (this : loc) (vs : list V) : HM unit :=
    dl_clear fuel this ;! dl_insert_ext (dl_end this) vs.
  Definition dl_assign_n (fuel : nat) (this : loc) (n : nat) (r : dref) : HM unit :=
    dl_clear fuel this ;! dl_insert_n (dl_end this) n r.

  (** while (p->next != &head_) ...: list.hpp 368-373, 387-392 *)
  Definition dl_cut (fuel : nat) (this : loc) (p : ptr) : HM unit :=
    loop fuel (λ _,
      let! n := get_next p in
      if decide (n ≠ Some this) then
        let! e := get_prev (Some this) in
        unlink e ;!
        delete_node e ;!
        ret (inl tt)
      else ret (inr tt)) tt.
  (** list.hpp 361-397; [None]: the return at 374/393 was taken. resize(n) is the same
      with new nodes whose value is default-initialised: [r] is then T() for a class type
      and an indeterminate value for a scalar type (LayoutModel.v, dl_resize_n). *)
  Definition dl_resize (fuel : nat) (this : loc) (newsize : nat) (r : dref) : HM unit :=
    let! p := get_next (Some this) in
    let! s := loop fuel (λ '(p, siz),
      if decide (p ≠ Some this) then
        if decide (S siz = newsize) then
          dl_cut fuel this p ;! ret (inr None)
        else
          let! p := get_next p in ret (inl (p, S siz))
      else ret (inr (Some siz))) (p, 0) in
    match s with
    | None => ret tt
    | Some siz =>
        loop fuel (λ siz,
          if decide (siz < newsize) then
            let! x := new_node r in
            insert_before (Some this) x ;!
            ret (inl (S siz))
          else ret (inr tt)) siz
    end.

  (** list.hpp 431-441; remove (421-430) is the same with a test that reads the
      reference argument each time. *)
  Definition dl_remove_by (fuel : nat) (this : loc) (test : V → HM bool) : HM unit :=
    let! p := get_next (Some this) in
    let! n := get_next p in
    loop fuel (λ '(p, n),
      if decide (p ≠ Some this) then
        let! x := d_value p in
        let! b := test x in
        (if b : bool then unlink p ;! delete_node p else ret tt) ;!
        let! nn := get_next n in
        ret (inl (n, nn))
      else ret (inr tt)) (p, n).
  Definition dl_remove_if (fuel : nat) (this : loc) (pred : V → bool) : HM unit :=
    dl_remove_by fuel this (λ x, ret (pred x)).
  Definition dl_remove (eqb : V → V → bool) (fuel : nat) (this : loc) (r : dref) : HM unit :=
    dl_remove_by fuel this (λ x, let! v := d_deref r in ret (eqb x v)).

  (** list.hpp 442-468 *)
  Definition dl_unique (fuel : nat) (this : loc) (pred : V → V → bool) : HM unit :=
    let! prev := get_next (Some this) in
    let! p := get_next prev in
    let! n := get_next p in
    loop fuel (λ '(prev, p, n),
      if decide (p ≠ Some this) then
        let! x := d_value p in
        let! y := d_value prev in
        let! prev :=
          (if pred x y then unlink p ;! delete_node p ;! ret prev else ret p) in
        let! nn := get_next n in
        ret (inl (prev, n, nn))
      else ret (inr tt)) (prev, p, n).

  (** list.hpp 469-509 *)
  Definition dl_merge (cmp : V → V → bool) (fuel : nat) (this other : loc) : HM unit :=
    let! o := get_next (Some other) in
    let! i := get_next (Some this) in
    let! o := loop fuel (λ '(o, i),
      if decide (o ≠ Some other ∧ i ≠ Some this) then
        let! x := d_value o in
        let! y := d_value i in
        if cmp x y then
          let! on := get_next o in
          unlink o ;!
          insert_before i o ;!
          ret (inl (on, o))
        else
          let! i := get_next i in ret (inl (o, i))
      else ret (inr o)) (o, i) in
    if decide (o ≠ Some other) then
      let! f := get_next (Some other) in node_splice (Some this) f (Some other)
    else ret tt.

  (** list.hpp 340-343 *)
  Definition dl_reverse (fuel : nat) (this : loc) : HM unit := node_reverse fuel (Some this).

  (** list.hpp 514-518 with ttl::equal, algorithm.hpp 238-245 *)
  Definition dl_eq (eqb : V → V → bool) (fuel : nat) (a b : loc) : HM bool :=
    let! f1 := dl_begin a in
    let! f2 := dl_begin b in
    loop fuel (λ '(f1, f2),
      if decide (f1 ≠ Some a ∧ f2 ≠ Some b) then
        let! v1 := d_value f1 in
        let! v2 := d_value f2 in
        if eqb v1 v2 then
          let! f1' := it_next f1 in
          let! f2' := it_next f2 in
          ret (inl (f1', f2'))
        else ret (inr false)
      else ret (inr (bool_decide (f1 = Some a ∧ f2 = Some b)))) (f1, f2).
End dlist.
Global Arguments dslot : clear implicits.
Global Arguments dcell : clear implicits.
Global Arguments dref : clear implicits.
