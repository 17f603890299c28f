(** list.hpp again, with function objects that may throw an exception and that may keep state: the
    answer to a call depends on its number, counted from 0, and on the arguments; [None] means that
    the call throws. The exception leaves the member function at once, so memory stays as it is at
    that moment. A result [None] of a member function says that an exception left it. Otherwise
    everything is as in DlistModel.v. *)
From Verif Require Export DlistModel.

Section pred.
  Context {V : Type} `{Allocator (dcell V)}.
  Notation heap := (gmap loc (dcell V)).
  Notation HM A := (M heap A).

  (** list.hpp 431-441 *)
  Definition xdl_remove_if (fuel : nat) (this : loc) (f : nat → V → option bool) : HM (option unit) :=
    let! p := get_next (Some this) in
    let! n := get_next p in
    loop fuel (λ '(c, p, n),
      if decide (p ≠ Some this) then
        let! x := d_value p in
        match f c x with
        | None => ret (inr None)
        | Some b =>
            (if b : bool then unlink p ;! delete_node p else ret tt) ;!
            let! nn := get_next n in
            ret (inl (S c, n, nn))
        end
      else ret (inr (Some tt))) (0, p, n).

  (** list.hpp 420-430, remove(value) whose operator== is [f]: it may throw too. [r] is the reference
      [value], read again at every comparison. *)
  Definition xdl_remove (fuel : nat) (this : loc) (r : dref V) (f : nat → V → V → option bool) : HM (option unit) :=
    let! p := get_next (Some this) in
    let! n := get_next p in
    loop fuel (λ '(c, p, n),
      if decide (p ≠ Some this) then
        let! x := d_value p in
        let! v := d_deref r in
        match f c x v with
        | None => ret (inr None)
        | Some b =>
            (if b : bool then unlink p ;! delete_node p else ret tt) ;!
            let! nn := get_next n in
            ret (inl (S c, n, nn))
        end
      else ret (inr (Some tt))) (0, p, n).

  (** list.hpp 455-468. unique(), 442-454, is the same text with operator== for [f]. *)
  Definition xdl_unique (fuel : nat) (this : loc) (f : nat → V → V → option bool) : HM (option unit) :=
    let! prev := get_next (Some this) in
    let! p := get_next prev in
    let! n := get_next p in
    loop fuel (λ '(c, prev, p, n),
      if decide (p ≠ Some this) then
        let! x := d_value p in
        let! y := d_value prev in
        match f c x y with
        | None => ret (inr None)
        | Some b =>
            let! prev :=
              (if b : bool then unlink p ;! delete_node p ;! ret prev else ret p) in
            let! nn := get_next n in
            ret (inl (S c, prev, n, nn))
        end
      else ret (inr (Some tt))) (0, prev, p, n).

  (** list.hpp 489-509. merge(list &), 469-488, is the same text with operator< for [f]. *)
  Definition xdl_merge (fuel : nat) (this other : loc) (f : nat → V → V → option bool) : HM (option unit) :=
    let! o := get_next (Some other) in
    let! i := get_next (Some this) in
    let! o := loop fuel (λ '(c, o, i),
      if decide (o ≠ Some other ∧ i ≠ Some this) then
        let! x := d_value o in
        let! y := d_value i in
        match f c x y with
        | None => ret (inr None)
        | Some b =>
            if b : bool then
              let! on := get_next o in
              unlink o ;!
              insert_before i o ;!
              ret (inl (S c, on, o))
            else
              let! i := get_next i in ret (inl (S c, o, i))
        end
      else ret (inr (Some o))) (0, o, i) in
    match o with
    | None => ret None
    | Some o =>
        (if decide (o ≠ Some other) then
           let! fst := get_next (Some other) in node_splice (Some this) fst (Some other)
         else ret tt) ;!
        ret (Some tt)
    end.
End pred.
