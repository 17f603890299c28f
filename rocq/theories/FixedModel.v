(** ttl/fixed_vector.hpp.
    Simplification: positions are natural numbers, so that forming the pointer last_ + n
    beyond one past the end of the storage (lines 207, 239) is not undefined behaviour;
    only accesses are checked. *)
From Verif Require Export VecModel.

(** fixed_vector.hpp 37-38: the embedded storage bytes_ (a block of N slots that
    lives as long as the object) and the offset of last_ in it. *)
Record fvec := FVec { fv_buf : loc; fv_last : nat }.

Section fixed.
  Context {V : Type} `{Allocator (list (option V))}.
  Context (N : nat).        (* the template argument *)
  Context (dflt : V).       (* the value of T() *)
  Notation heap := (gmap loc (list (option V))).
  Notation HM A := (M heap A).
  Notation vref := (vref V).
  Notation vrange := (vrange V).

  Definition fv_p (v : fvec) : ptr := Some (fv_buf v).
  Definition fv_set_last (v : fvec) (i : nat) : fvec := FVec (fv_buf v) i.
  Definition fv_size (v : fvec) : nat := fv_last v.                           (* 73 *)
  Definition fv_empty (v : fvec) : bool := bool_decide (fv_last v = 0).       (* 74 *)
  Definition fv_full (v : fvec) : bool := bool_decide (fv_last v = N).        (* 75 *)
  Definition fv_capacity : nat := N.                                          (* 76-77 *)

  (** storage for the object, then fixed_vector.hpp 43 *)
  Definition fv_new : HM fvec :=
    let! l := allocate (replicate N None) in ret (FVec l 0).
  (** while (last_ > pos) ( --last_)->~T();  fixed_vector.hpp 130-134 (pos = elements(),
      where the test is !empty()), 188-189 *)
  Definition fv_clear (fuel : nat) (v : fvec) : HM fvec :=
    loop fuel (λ v,
      if fv_empty v then ret (inr v) else
        let! last := dec_ptr (fv_last v) in
        destroy_at (fv_p v) last ;!
        ret (inl (fv_set_last v last))) v.
  (** fixed_vector.hpp 50-53, then the storage goes away *)
  Definition fv_destroy (fuel : nat) (v : fvec) : HM unit :=
    let! v := fv_clear fuel v in free_buf (fv_p v).

  (** while (n-- && !full()) ::new(last_++) T(value);
      fixed_vector.hpp 141-142, 148-149, 180-181, 223-224 *)
  Definition fv_fill (fuel : nat) (v : fvec) (n : nat) (r : vref) : HM fvec :=
    loop fuel (λ '(n, v),
      match n with
      | S n =>
          if fv_full v then ret (inr v) else
            let! x := deref r in
            construct (fv_p v) (fv_last v) x ;!
            ret (inl (n, fv_set_last v (S (fv_last v))))
      | 0 => ret (inr v)
      end) (n, v).
  (** for (; first != last && !full(); ++first) ::new(last_++) T( *first);
      fixed_vector.hpp 62-63, 155-156, 255-256; also 163-164 (through push_back) *)
  Definition fv_append (fuel : nat) (v : fvec) (g : vrange) : HM fvec :=
    loop fuel (λ '(v, g),
      match rnext g with
      | Some (r, g) =>
          if fv_full v then ret (inr v) else
            let! x := deref r in
            construct (fv_p v) (fv_last v) x ;!
            ret (inl (fv_set_last v (S (fv_last v)), g))
      | None => ret (inr v)
      end) (v, g).

  (** fixed_vector.hpp 137-165 *)
  Definition fv_new_n (fuel : nat) (n : nat) (r : vref) : HM fvec :=
    let! v := fv_new in fv_fill fuel v n r.
  Definition fv_new_dflt (fuel : nat) (n : nat) : HM fvec := fv_new_n fuel n (VExt dflt).
  Definition fv_new_range (fuel : nat) (g : vrange) : HM fvec :=
    let! v := fv_new in fv_append fuel v g.
  Definition fv_copy (fuel : nat) (other : fvec) : HM fvec :=
    let! v := fv_new in fv_append fuel v (RBuf (fv_p other) 0 (fv_last other)).
  (** fixed_vector.hpp 167-174 (no test for full()) *)
  Definition fv_assign (fuel : nat) (v other : fvec) : HM fvec :=
    let! v := fv_clear fuel v in
    let! (_, o) := copy_up fuel (fv_p other) 0 (fv_last other) (fv_p v) (fv_last v) in
    ret (fv_set_last v o).
  (** the same with other == *this *)
  Definition fv_assign_self (fuel : nat) (v : fvec) : HM fvec :=
    let! v := fv_clear fuel v in
    let! (_, o) := copy_up fuel (fv_p v) 0 (fv_last v) (fv_p v) (fv_last v) in
    ret (fv_set_last v o).
  (** fixed_vector.hpp 57-64, 176-182 *)
  Definition fv_assign_n (fuel : nat) (v : fvec) (n : nat) (r : vref) : HM fvec :=
    let! v := fv_clear fuel v in fv_fill fuel v n r.
  Definition fv_assign_range (fuel : nat) (v : fvec) (g : vrange) : HM fvec :=
    let! v := fv_clear fuel v in fv_append fuel v g.

  (** for (o = last_ + n; end_of_elements() < o && i != p; --o) ( --i)->~T();
      fixed_vector.hpp 207-209, 239-241 *)
  Definition fv_cut (fuel : nat) (v : fvec) (o i p : nat) : HM (nat * nat) :=
    loop fuel (λ '(o, i),
      if decide (N < o ∧ i ≠ p) then
        let! i := dec_ptr i in
        destroy_at (fv_p v) i ;!
        let! o := dec_ptr o in
        ret (inl (o, i))
      else ret (inr (o, i))) (o, i).
  (** for (o = p; n-- && o < end_of_elements();) ::new(o++) T(x);  218-219 *)
  Definition fv_put_n (fuel : nat) (v : fvec) (o n : nat) (r : vref) : HM unit :=
    loop fuel (λ '(n, o),
      match n with
      | S n =>
          if decide (o < N) then
            let! x := deref r in
            construct (fv_p v) o x ;!
            ret (inl (n, S o))
          else ret (inr tt)
      | 0 => ret (inr tt)
      end) (n, o).
  (** for (o = p; first != last && o < end_of_elements(); ++first) ::new(o++) T( *first);
      fixed_vector.hpp 250-251 *)
  Definition fv_put_range (fuel : nat) (v : fvec) (o : nat) (g : vrange) : HM unit :=
    loop fuel (λ '(g, o),
      match rnext g with
      | Some (r, g) =>
          if decide (o < N) then
            let! x := deref r in
            construct (fv_p v) o x ;!
            ret (inl (g, S o))
          else ret (inr tt)
      | None => ret (inr tt)
      end) (g, o).
  (** the part of both insert functions that makes room: lines 207-217, 239-249 *)
  Definition fv_make_room (fuel : nat) (v : fvec) (p n : nat) : HM fvec :=
    let! (o, i) := fv_cut fuel v (fv_last v + n) (fv_last v) p in
    let o := if decide (N < o) then N else o in
    let v := fv_set_last v o in
    shift_up fuel (fv_p v) i o p ;!
    ret v.
  (** fixed_vector.hpp 198-228 *)
  Definition fv_insert_n (fuel : nat) (v : fvec) (pos n : nat) (r : vref) : HM (fvec * nat) :=
    if decide (n = 0) then ret (v, pos) else
    if decide (pos < fv_last v) then
      let! v := fv_make_room fuel v pos n in
      fv_put_n fuel v pos n r ;!
      ret (v, pos)
    else
      let! v := fv_fill fuel v n r in ret (v, pos).
  (** fixed_vector.hpp 102-105 *)
  Definition fv_insert (fuel : nat) (v : fvec) (pos : nat) (r : vref) : HM (fvec * nat) :=
    fv_insert_n fuel v pos 1 r.
  (** fixed_vector.hpp 229-260 *)
  Definition fv_insert_range (fuel : nat) (v : fvec) (pos : nat) (g : vrange) : HM (fvec * nat) :=
    let n := rlen g in
    if decide (n = 0) then ret (v, pos) else
    if decide (pos < fv_last v) then
      let! v := fv_make_room fuel v pos n in
      fv_put_range fuel v pos g ;!
      ret (v, pos)
    else
      let! v := fv_append fuel v g in ret (v, pos).
  (** fixed_vector.hpp 110-114 *)
  Definition fv_push_back (v : fvec) (r : vref) : HM fvec :=
    if fv_full v then ret v else
      let! x := deref r in
      construct (fv_p v) (fv_last v) x ;!
      ret (fv_set_last v (S (fv_last v))).
  (** fixed_vector.hpp 116-119 *)
  Definition fv_pop_back (v : fvec) : HM fvec :=
    let! last := dec_ptr (fv_last v) in
    destroy_at (fv_p v) last ;!
    ret (fv_set_last v last).
  (** fixed_vector.hpp 184-196 *)
  Definition fv_resize (fuel : nat) (v : fvec) (new_size : nat) : HM fvec :=
    if decide (new_size < fv_size v) then
      loop fuel (λ last,
        if decide (new_size < last) then
          let! last := dec_ptr last in
          destroy_at (fv_p v) last ;!
          ret (inl last)
        else ret (inr (fv_set_last v last))) (fv_last v)
    else
      let new_size := if decide (N < new_size) then N else new_size in
      let! (v, _) := fv_insert_n fuel v (fv_last v) (new_size - fv_size v) (VExt dflt) in ret v.
  (** fixed_vector.hpp 81-87 *)
  Definition fv_resize_to (fuel : nat) (v : fvec) (new_size : nat) (r : vref) : HM fvec :=
    if decide (new_size < fv_size v) then fv_resize fuel v new_size
    else let! (v, _) := fv_insert_n fuel v (fv_last v) (new_size - fv_size v) r in ret v.
  (** fixed_vector.hpp 262-277 *)
  Definition fv_erase_range (fuel : nat) (v : fvec) (first last : nat) : HM (fvec * nat) :=
    destroy_range fuel (fv_p v) first last ;!
    let! o := shift_down fuel (fv_p v) last first (fv_last v) in
    ret (fv_set_last v o, first).
  (** fixed_vector.hpp 123-126 *)
  Definition fv_erase (fuel : nat) (v : fvec) (pos : nat) : HM (fvec * nat) :=
    fv_erase_range fuel v pos (S pos).

  (** ttl::swap of two elements, utility.hpp 39-45 (through iter_swap) *)
  Definition swap_slots (p : ptr) (i : nat) (q : ptr) (j : nat) : HM unit :=
    let! tmp := rd p i in
    let! y := rd q j in
    assign_at p i y ;!
    assign_at q j tmp.
  (** ttl::swap_ranges(p, p + n, q), algorithm.hpp 306-312 *)
  Definition swap_bufs (fuel : nat) (p : ptr) (n : nat) (q : ptr) : HM unit :=
    loop fuel (λ i,
      if decide (i ≠ n) then
        swap_slots p i q i ;!
        ret (inl (S i))
      else ret (inr tt)) 0.
  (** fixed_vector.hpp 284-293, for given a, b and minsiz; returns (a, b) *)
  Definition fv_swap_ab (fuel : nat) (a b : fvec) (minsiz : nat) : HM (fvec * fvec) :=
    swap_bufs fuel (fv_p a) minsiz (fv_p b) ;!
    let! (e, alast) :=
      loop fuel (λ '(e, alast),
        if decide (e < fv_last b) then
          let! x := rd (fv_p b) e in
          construct (fv_p a) alast x ;!
          ret (inl (S e, S alast))
        else ret (inr (e, alast))) (minsiz, fv_last a) in
    loop fuel (λ e,
      if decide (minsiz < e) then
        let! e := dec_ptr e in
        destroy_at (fv_p b) e ;!
        ret (inl e)
      else ret (inr tt)) e ;!
    ret (fv_set_last a alast, fv_set_last b minsiz).
  (** fixed_vector.hpp 279-293; returns ( *this, x) *)
  Definition fv_swap (fuel : nat) (this x : fvec) : HM (fvec * fvec) :=
    let this_a := bool_decide (fv_size this < fv_size x) in
    let a := if this_a then this else x in
    let b := if this_a then x else this in
    let minsiz := if this_a then fv_size a else fv_size b in
    let! (a, b) := fv_swap_ab fuel a b minsiz in
    ret (if this_a then (a, b) else (b, a)).

  (** fixed_vector.hpp 89-96 *)
  Definition fv_at (v : fvec) (n : nat) : HM V := rd (fv_p v) n.
  Definition fv_set_at (v : fvec) (n : nat) (x : V) : HM unit := assign_at (fv_p v) n x.
  Definition fv_front (v : fvec) : HM V := rd (fv_p v) 0.
  Definition fv_back (v : fvec) : HM V :=
    let! i := dec_ptr (fv_last v) in rd (fv_p v) i.
  Definition fv_contents (fuel : nat) (v : fvec) : HM (list V) :=
    loop fuel (λ '(i, acc),
      if decide (i ≠ fv_last v) then
        let! x := rd (fv_p v) i in ret (inl (S i, acc ++ [x]))
      else ret (inr acc)) (0, []).
  (** fixed_vector.hpp 295-304 *)
  Definition fv_eq (eqb : V → V → bool) (fuel : nat) (a b : fvec) : HM bool :=
    buf_equal eqb fuel (fv_p a) (fv_last a) (fv_p b) (fv_last b).
End fixed.
