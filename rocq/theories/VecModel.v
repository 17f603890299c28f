(** ttl/vector.hpp. *)
From Verif Require Export BlockModel.

(** vector.hpp 33: elements_, and the offsets of last_ and end_of_elements_ from it.
    Iterators into the vector are offsets from elements_ as well. *)
Record tvec := Vec { v_buf : ptr; v_last : nat; v_end : nat }.

Section vector.
  Context {V : Type} `{Allocator (list (option V))}.
  Context (dflt : V).       (* the value of T() *)
  Notation heap := (gmap loc (list (option V))).
  Notation HM A := (M heap A).
  Notation vref := (vref V).
  Notation vrange := (vrange V).

  Definition v_size (v : tvec) : nat := v_last v.                          (* vector.hpp 94 *)
  Definition v_empty (v : tvec) : bool := bool_decide (v_size v = 0).      (* vector.hpp 95 *)
  Definition v_capacity (v : tvec) : nat := v_end v.                       (* vector.hpp 97 *)
  Definition v_set_last (v : tvec) (i : nat) : tvec := Vec (v_buf v) i (v_end v).

  (** vector.hpp 63 *)
  Definition v_new : HM tvec := ret (Vec None 0 0).

  (** while (last_ > pos) ( --last_)->~T();  vector.hpp 168-172 (pos = elements_),
      229-230 (pos = elements_ + new_size) *)
  Definition v_truncate (fuel : nat) (v : tvec) (pos : nat) : HM tvec :=
    loop fuel (λ last,
      if decide (pos < last) then
        let! last := dec_ptr last in
        destroy_at (v_buf v) last ;!
        ret (inl last)
      else ret (inr (v_set_last v last))) (v_last v).
  Definition v_clear (fuel : nat) (v : tvec) : HM tvec := v_truncate fuel v 0.
  (** vector.hpp 70-74 *)
  Definition v_destroy (fuel : nat) (v : tvec) : HM unit :=
    let! v := v_clear fuel v in free_buf (v_buf v).

  (** for (; i != e; ++i) ::new(o++) T( *i);  from block [p] to block [q]
      vector.hpp 196-197, 213-214, 241-242, 266-267, 270-271 *)
  Definition copy_up (fuel : nat) (p : ptr) (i e : nat) (q : ptr) (o : nat) : HM (nat * nat) :=
    loop fuel (λ '(i, o),
      if decide (i ≠ e) then
        let! x := rd p i in
        construct q o x ;!
        ret (inl (S i, S o))
      else ret (inr (i, o))) (i, o).
  (** for (; i > elements_; ) ( --i)->~T();  vector.hpp 243-244, 272-273 *)
  Definition destroy_down (fuel : nat) (p : ptr) (i : nat) : HM unit :=
    loop fuel (λ i,
      if decide (0 < i) then
        let! i := dec_ptr i in
        destroy_at p i ;!
        ret (inl i)
      else ret (inr tt)) i.
  (** while (n--) ::new(last_++) T(value);  vector.hpp 180-181, 188-189, 222-223 *)
  Definition fill_up (fuel : nat) (v : tvec) (n : nat) (r : vref) : HM tvec :=
    loop fuel (λ '(n, last),
      match n with
      | S n =>
          let! x := deref r in
          construct (v_buf v) last x ;!
          ret (inl (n, S last))
      | 0 => ret (inr (v_set_last v last))
      end) (n, v_last v).

  (** vector.hpp 234-249 *)
  Definition v_reserve (fuel : nat) (v : tvec) (n : nat) : HM tvec :=
    if decide (n < v_end v) then ret v else
    let! q := new_buf n in
    let! (i, o) := copy_up fuel (v_buf v) 0 (v_last v) q 0 in
    destroy_down fuel (v_buf v) i ;!
    free_buf (v_buf v) ;!
    ret (Vec q o n).

  (** The value constructors, vector.hpp 37-59: vc_counter copies the referenced
      value each time, vc_iterator copies *first and increments first. *)
  Inductive vc_args := VcCounter (r : vref) | VcIterator (g : vrange).
  Definition vc (p : ptr) (o : nat) (args : vc_args) : HM vc_args :=
    match args with
    | VcCounter r => let! x := deref r in construct p o x ;! ret (VcCounter r)
    | VcIterator g =>
        match rnext g with
        | Some (r, g) => let! x := deref r in construct p o x ;! ret (VcIterator g)
        | None => fail OutOfBounds
        end
    end.
  (** while (n-- > 0) vc(o++, args)  vector.hpp 268-269, 290-291, 295-296 *)
  Definition vc_loop (fuel : nat) (p : ptr) (o n : nat) (args : vc_args) : HM nat :=
    loop fuel (λ '(n, o, args),
      match n with
      | S n => let! args := vc p o args in ret (inl (n, S o, args))
      | 0 => ret (inr o)
      end) (n, o, args).
  (** for (o = last_; i != pos; ) (::new( --o) T( *--i); i->~T();)
      vector.hpp 283-289, fixed_vector.hpp 213-217, 245-249 *)
  Definition shift_up (fuel : nat) (p : ptr) (i o pos : nat) : HM unit :=
    loop fuel (λ '(i, o),
      if decide (i ≠ pos) then
        let! o := dec_ptr o in
        let! i := dec_ptr i in
        let! x := rd p i in
        construct p o x ;!
        destroy_at p i ;!
        ret (inl (i, o))
      else ret (inr tt)) (i, o).

  (** vector.hpp 251-301. [pos] is the offset of the iterator argument; the result is
      the offset of the returned iterator. *)
  Definition v_insert_values (fuel : nat) (v : tvec) (pos n : nat) (args : vc_args) : HM (tvec * nat) :=
    if decide (0 < n) then
      if decide (v_end v - v_last v < n) then
        let newcapacity := v_size v + n in
        let! q := new_buf newcapacity in
        let! (i, o) := copy_up fuel (v_buf v) 0 pos q 0 in
        let! o := vc_loop fuel q o n args in
        let! (i, o) := copy_up fuel (v_buf v) i (v_last v) q o in
        destroy_down fuel (v_buf v) i ;!
        free_buf (v_buf v) ;!
        ret (Vec q o newcapacity, pos)
      else if decide (pos < v_last v) then
        shift_up fuel (v_buf v) (v_last v) (v_last v + n) pos ;!
        vc_loop fuel (v_buf v) pos n args ;!
        ret (v_set_last v (v_last v + n), pos)
      else
        let! last := vc_loop fuel (v_buf v) (v_last v) n args in
        ret (v_set_last v last, pos)
    else ret (v, pos).
  (** vector.hpp 122-132 *)
  Definition v_insert_n (fuel : nat) (v : tvec) (pos n : nat) (r : vref) : HM (tvec * nat) :=
    v_insert_values fuel v pos n (VcCounter r).
  Definition v_insert (fuel : nat) (v : tvec) (pos : nat) (r : vref) : HM (tvec * nat) :=
    v_insert_values fuel v pos 1 (VcCounter r).
  (** vector.hpp 134-139 *)
  Definition v_insert_range (fuel : nat) (v : tvec) (pos : nat) (g : vrange) : HM (tvec * nat) :=
    v_insert_values fuel v pos (rlen g) (VcIterator g).
  (** vector.hpp 141-147 *)
  Definition v_push_back (fuel : nat) (v : tvec) (r : vref) : HM tvec :=
    if decide (v_last v < v_end v) then
      let! x := deref r in
      construct (v_buf v) (v_last v) x ;!
      ret (v_set_last v (S (v_last v)))
    else let! (v, _) := v_insert_n fuel v (v_last v) 1 r in ret v.
  (** vector.hpp 149-152 *)
  Definition v_pop_back (v : tvec) : HM tvec :=
    let! last := dec_ptr (v_last v) in
    destroy_at (v_buf v) last ;!
    ret (v_set_last v last).

  (** while (first != last) push_back( *first++)  vector.hpp 83-84, 205-206 *)
  Definition v_append (fuel : nat) (v : tvec) (g : vrange) : HM tvec :=
    loop fuel (λ '(v, g),
      match rnext g with
      | Some (r, g) => let! v := v_push_back fuel v r in ret (inl (v, g))
      | None => ret (inr v)
      end) (v, g).
  (** vector.hpp 80-85 *)
  Definition v_assign_range (fuel : nat) (v : tvec) (g : vrange) : HM tvec :=
    let! v := v_clear fuel v in v_append fuel v g.
  (** vector.hpp 217-224 *)
  Definition v_assign_n (fuel : nat) (v : tvec) (n : nat) (r : vref) : HM tvec :=
    let! v := v_clear fuel v in
    let! v := v_reserve fuel v n in
    fill_up fuel v n r.
  (** vector.hpp 175-190 *)
  Definition v_new_n (fuel : nat) (n : nat) (r : vref) : HM tvec :=
    let! q := new_buf n in
    fill_up fuel (Vec q 0 n) n r.
  Definition v_new_dflt (fuel : nat) (n : nat) : HM tvec := v_new_n fuel n (VExt dflt).
  (** vector.hpp 191-198 *)
  Definition v_copy (fuel : nat) (other : tvec) : HM tvec :=
    let! q := new_buf (v_size other) in
    let! (_, o) := copy_up fuel (v_buf other) 0 (v_last other) q 0 in
    ret (Vec q o (v_size other)).
  (** vector.hpp 199-207 *)
  Definition v_new_range (fuel : nat) (g : vrange) : HM tvec :=
    let! v := v_reserve fuel (Vec None 0 0) (rlen g) in
    v_append fuel v g.
  (** vector.hpp 208-216, with other != *this *)
  Definition v_assign (fuel : nat) (v other : tvec) : HM tvec :=
    let! v := v_clear fuel v in
    let! v := v_reserve fuel v (v_capacity other) in
    let! (_, o) := copy_up fuel (v_buf other) 0 (v_last other) (v_buf v) (v_last v) in
    ret (v_set_last v o).
  (** operator= with other == *this: cbegin(), cend() and capacity() are those of the
      cleared, reserved object *)
  Definition v_assign_self (fuel : nat) (v : tvec) : HM tvec :=
    let! v := v_clear fuel v in
    let! v := v_reserve fuel v (v_capacity v) in
    let! (_, o) := copy_up fuel (v_buf v) 0 (v_last v) (v_buf v) (v_last v) in
    ret (v_set_last v o).
  (** vector.hpp 225-233 *)
  Definition v_resize (fuel : nat) (v : tvec) (new_size : nat) : HM tvec :=
    if decide (new_size < v_size v) then v_truncate fuel v new_size
    else let! (v, _) := v_insert_n fuel v (v_last v) (new_size - v_size v) (VExt dflt) in ret v.
  (** vector.hpp 101-107 *)
  Definition v_resize_to (fuel : nat) (v : tvec) (new_size : nat) (r : vref) : HM tvec :=
    if decide (new_size < v_size v) then v_resize fuel v new_size
    else let! (v, _) := v_insert_n fuel v (v_last v) (new_size - v_size v) r in ret v.

  (** for (f, l; f != l;) ( --l)->~T();  vector.hpp 308-309, fixed_vector.hpp 267-268 *)
  Definition destroy_range (fuel : nat) (p : ptr) (f l : nat) : HM unit :=
    loop fuel (λ l,
      if decide (f ≠ l) then
        let! l := dec_ptr l in
        destroy_at p l ;!
        ret (inl l)
      else ret (inr tt)) l.
  (** for (; i != last_; ++i) (::new(o++) T( *i); i->~T();)
      vector.hpp 311-315, fixed_vector.hpp 270-274 *)
  Definition shift_down (fuel : nat) (p : ptr) (i o last : nat) : HM nat :=
    loop fuel (λ '(i, o),
      if decide (i ≠ last) then
        let! x := rd p i in
        construct p o x ;!
        destroy_at p i ;!
        ret (inl (S i, S o))
      else ret (inr o)) (i, o).
  (** vector.hpp 303-318 *)
  Definition v_erase_range (fuel : nat) (v : tvec) (first last : nat) : HM (tvec * nat) :=
    destroy_range fuel (v_buf v) first last ;!
    let! o := shift_down fuel (v_buf v) last first (v_last v) in
    ret (v_set_last v o, first).
  (** vector.hpp 156-159 *)
  Definition v_erase (fuel : nat) (v : tvec) (pos : nat) : HM (tvec * nat) :=
    v_erase_range fuel v pos (S pos).
  (** vector.hpp 161-166 *)
  Definition v_swap (a b : tvec) : HM (tvec * tvec) := ret (b, a).

  (** vector.hpp 111-118 *)
  Definition v_at (v : tvec) (n : nat) : HM V := rd (v_buf v) n.
  Definition v_set_at (v : tvec) (n : nat) (x : V) : HM unit := assign_at (v_buf v) n x.
  Definition v_front (v : tvec) : HM V := rd (v_buf v) 0.
  Definition v_back (v : tvec) : HM V :=
    let! i := dec_ptr (v_last v) in rd (v_buf v) i.
  (** for (i = v.begin(); i != v.end(); ++i) use( *i) *)
  Definition v_contents (fuel : nat) (v : tvec) : HM (list V) :=
    loop fuel (λ '(i, acc),
      if decide (i ≠ v_last v) then
        let! x := rd (v_buf v) i in ret (inl (S i, acc ++ [x]))
      else ret (inr acc)) (0, []).

  (** ttl::equal over two arrays, algorithm.hpp 238-245 *)
  Definition buf_equal (eqb : V → V → bool) (fuel : nat)
      (p : ptr) (e1 : nat) (q : ptr) (e2 : nat) : HM bool :=
    loop fuel (λ '(i, j),
      if decide (i ≠ e1 ∧ j ≠ e2) then
        let! x := rd p i in
        let! y := rd q j in
        if eqb x y then ret (inl (S i, S j)) else ret (inr false)
      else ret (inr (bool_decide (i = e1 ∧ j = e2)))) (0, 0).
  (** vector.hpp 319-328 *)
  Definition v_eq (eqb : V → V → bool) (fuel : nat) (a b : tvec) : HM bool :=
    buf_equal eqb fuel (v_buf a) (v_last a) (v_buf b) (v_last b).
End vector.
Global Arguments vc_args : clear implicits.
