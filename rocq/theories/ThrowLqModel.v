(** Element copies that throw: lazy_queue.hpp. The value is copied into storage that get_node has
    already taken from the pool or from operator new, by a placement new: when that copy throws,
    nobody gives the storage back. (The other node based containers use [new node(value)]; a
    new-expression releases the storage itself, see Fault.v.) *)
From Verif Require Export SlistSpec.

Section lazy.
  Context {V : Type} `{Allocator (cell V)}.
  Notation heap := (gmap loc (cell V)).
  Notation HM := (M heap).

  (** lazy_queue.hpp 45-50. [k]: the number of copies that still succeed ([None]: all). The result
      [None]: the exception left the function. *)
  Definition xget_node (k : option nat) (q : lqueue) (r : vref V) : HM (option ptr) :=
    let! d := get_next (Some (lq_dead q)) in
    let! n := (match d with
               | Some _ => unlink_next (Some (lq_dead q))
               | None => let! l := allocate (Cell None Raw) in ret (Some l)
               end) in
    let! l := addr n in
    let! v := deref r in
    match k with
    | Some 0 => ret None
    | _ =>
        let! c := load l in
        match val c with
        | Raw => modify l (λ c, Cell (next c) (Live v)) ;! ret (Some n)
        | Live _ => fail LiveOverwrite
        | Hdr => fail BadCast
        end
    end.
  (** lazy_queue.hpp 173-178; on an exception the members stay as they are *)
  Definition xlq_push_front (k : option nat) (q : lqueue) (r : vref V) : HM (option lqueue) :=
    let! x := xget_node k q r in
    match x with
    | None => ret None
    | Some x =>
        let! n := insert_after (Some (lq_head q)) x in
        if decide (lq_tail q = Some (lq_head q)) then ret (Some (lq_set_tail q n)) else ret (Some q)
    end.
  (** lazy_queue.hpp 179-182 *)
  Definition xlq_push_back (k : option nat) (q : lqueue) (r : vref V) : HM (option lqueue) :=
    let! x := xget_node k q r in
    match x with
    | None => ret None
    | Some x =>
        let! n := insert_after (lq_tail q) x in
        ret (Some (lq_set_tail q n))
    end.
  (** lazy_queue.hpp 191-198 *)
  Definition xlq_insert_after (k : option nat) (q : lqueue) (pos : ptr) (r : vref V) : HM (option (lqueue * ptr)) :=
    let! x := xget_node k q r in
    match x with
    | None => ret None
    | Some x =>
        let! n := insert_after pos x in
        if decide (pos = lq_tail q) then ret (Some (lq_set_tail q n, n)) else ret (Some (q, n))
    end.
  (** the loop of lazy_queue.hpp 227-236 *)
  Fixpoint xlq_ins_n (k : option nat) (q : lqueue) (p : ptr) (n : nat) (r : vref V) : HM (option ptr) :=
    match n with
    | 0 => ret (Some p)
    | S n =>
        let! x := xget_node k q r in
        match x with
        | None => ret None
        | Some x => let! p := insert_after p x in xlq_ins_n (pred <$> k) q p n r
        end
    end.
  Definition xlq_insert_after_n (k : option nat) (q : lqueue) (pos : ptr) (n : nat) (r : vref V) : HM (option lqueue) :=
    let! p := xlq_ins_n k q pos n r in
    match p with
    | None => ret None
    | Some p => if decide (pos = lq_tail q) then ret (Some (lq_set_tail q p)) else ret (Some q)
    end.

  (** A node nobody refers to any more, without a value. *)
  Definition lost_node (h : heap) : Prop := ∃ l nx, h = {[ l := Cell nx Raw ]}.
  (** The members of the queue after the client has caught the exception. *)
  Definition caught_lq (q : lqueue) (p : HM (option lqueue)) : HM lqueue :=
    let! r := p in ret (match r with Some q' => q' | None => q end).
End lazy.
