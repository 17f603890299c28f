(** ttl/sorted_vector_map.hpp: a sorted array of pointers to key-value pairs.

    Not modelled, because the header declares but never defines them: the range
    constructor (100-101), operator= (110), insert with a hint (147) or of a range
    (149-150), erase (152-154), swap (156).
    Simplifications: copying keys and values and comparing keys neither fail nor have
    side effects; operator new always succeeds; sizes are natural numbers, except that
    bsearch works in [unsigned], which has [ulim] values. *)
From Verif Require Export Base.

(** A memory cell is an array of pointer slots ([None] in a slot: never written) or one
    element. *)
Inductive svcell (K T : Type) :=
  | CArr (b : list (option ptr))
  | CEnt (e : K * T).
Global Arguments CArr {_ _} _.
Global Arguments CEnt {_ _} _.

(** sorted_vector_map.hpp 218: elements_, and the offsets of last_ and end_of_elements_
    from it. Iterators are offsets from elements_ too. *)
Record svm := Svm { sv_arr : ptr; sv_last : nat; sv_end : nat }.

Section svmap.
  Context {K T : Type} `{Allocator (svcell K T)}.
  Context (keq : K → K → bool)     (* operator== of the key type *)
          (comp : K → K → bool)    (* Compare *)
          (dfltT : T)              (* T() *)
          (ulim : nat).            (* number of values of unsigned *)
  Notation heap := (gmap loc (svcell K T)).
  Notation HM A := (M heap A).

  (** *** Language primitives used below: array access, element access, new, delete *)
  Definition slot_rd (p : ptr) (i : nat) : HM ptr :=
    let! l := addr p in
    let! c := load l in
    match c with
    | CArr b => match b !! i with
                | Some (Some q) => ret q
                | Some None => fail NoObject
                | None => fail OutOfBounds
                end
    | CEnt _ => fail BadCast
    end.
  Definition slot_wr (p : ptr) (i : nat) (q : ptr) : HM unit :=
    let! l := addr p in
    let! c := load l in
    match c with
    | CArr b => if decide (i < length b) then modify l (λ _, CArr (<[i := Some q]> b)) else fail OutOfBounds
    | CEnt _ => fail BadCast
    end.
  Definition ent_rd (q : ptr) : HM (K * T) :=
    let! l := addr q in
    let! c := load l in
    match c with CEnt e => ret e | CArr _ => fail BadCast end.
  (** q->second = x *)
  Definition ent_wr (q : ptr) (x : T) : HM unit :=
    let! l := addr q in
    let! c := load l in
    match c with CEnt e => modify l (λ _, CEnt (e.1, x)) | CArr _ => fail BadCast end.
  Definition new_arr (n : nat) : HM ptr :=
    let! l := allocate (CArr (replicate n None)) in ret (Some l).
  Definition del_arr (p : ptr) : HM unit :=
    match p with
    | None => ret tt
    | Some l => let! c := load l in
                match c with CArr _ => deallocate l | CEnt _ => fail BadCast end
    end.
  Definition new_ent (e : K * T) : HM ptr := let! l := allocate (CEnt e) in ret (Some l).
  Definition del_ent (q : ptr) : HM unit :=
    match q with
    | None => ret tt
    | Some l => let! c := load l in
                match c with CEnt _ => deallocate l | CArr _ => fail BadCast end
    end.
  (** A "const value_type &" argument: an object elsewhere, or an element. *)
  Inductive eref := EVal (e : K * T) | ERef (q : ptr).
  Definition ederef (r : eref) : HM (K * T) :=
    match r with EVal e => ret e | ERef q => ent_rd q end.

  (** sorted_vector_map.hpp 91-93 *)
  Definition sv_new : HM svm := ret (Svm None 0 0).
  (** 95-99 *)
  Definition sv_new_n (n : nat) : HM svm := let! q := new_arr n in ret (Svm q 0 n).
  (** 103-108 *)
  Definition sv_destroy (fuel : nat) (v : svm) : HM unit :=
    loop fuel (λ i,
      if decide (i ≠ sv_last v) then
        let! q := slot_rd (sv_arr v) i in
        del_ent q ;!
        ret (inl (S i))
      else ret (inr tt)) 0 ;!
    del_arr (sv_arr v).
  (** 130-131 *)
  Definition sv_size (v : svm) : nat := sv_last v.
  Definition sv_empty (v : svm) : bool := bool_decide (sv_last v = 0).
  (** 134-138 *)
  Definition sv_clear (fuel : nat) (v : svm) : HM svm :=
    loop fuel (λ last,
      if decide (0 < last) then
        let last := last - 1 in
        let! q := slot_rd (sv_arr v) last in
        del_ent q ;!
        ret (inl last)
      else ret (inr (Svm (sv_arr v) last (sv_end v)))) (sv_last v).

  (** 234-250; m does not overflow, as it is less than H *)
  Definition sv_bsearch (fuel : nat) (v : svm) (key : K) : HM (nat * bool) :=
    loop fuel (λ '(L, H),
      if decide (L < H) then
        let m := L + (H - L) / 2 in
        let! q := slot_rd (sv_arr v) m in
        let! e := ent_rd q in
        if keq e.1 key then ret (inr (m, true)) else
        let! q := slot_rd (sv_arr v) m in
        let! e := ent_rd q in
        if comp e.1 key then ret (inl (S m, H)) else ret (inl (L, m))
      else ret (inr (L, false))) (0, sv_size v mod ulim).
  (** 252-265 *)
  Definition sv_find (fuel : nat) (v : svm) (key : K) : HM nat :=
    let! (i, found) := sv_bsearch fuel v key in
    ret (if found : bool then i else sv_last v).
  (** 266-272 *)
  Definition sv_find_insert_pos (fuel : nat) (v : svm) (key : K) : HM nat :=
    let! (i, _) := sv_bsearch fuel v key in ret i.

  (** for (; i != e;) *o++ = *i++;   286-287, 290-291 *)
  Definition copy_slots (fuel : nat) (p : ptr) (i e : nat) (q : ptr) (o : nat) : HM (nat * nat) :=
    loop fuel (λ '(i, o),
      if decide (i ≠ e) then
        let! x := slot_rd p i in
        slot_wr q o x ;!
        ret (inl (S i, S o))
      else ret (inr (i, o))) (i, o).
  (** while (o < end) *o++ = 0;   296-297 *)
  Definition null_slots (fuel : nat) (q : ptr) (o e : nat) : HM unit :=
    loop fuel (λ o,
      if decide (o < e) then slot_wr q o None ;! ret (inl (S o))
      else ret (inr tt)) o.
  (** while (i != pos) *--o = *--i;   302-303 *)
  Definition shift_slots (fuel : nat) (p : ptr) (i o pos : nat) : HM unit :=
    loop fuel (λ '(i, o),
      if decide (i ≠ pos) then
        match i, o with
        | S i, S o =>
            let! x := slot_rd p i in
            slot_wr p o x ;!
            ret (inl (i, o))
        | _, _ => fail OutOfBounds
        end
      else ret (inr tt)) (i, o).
  (** 273-306; the result: the object and the position of the returned iterator *)
  Definition sv_insert_before (fuel : nat) (v : svm) (pos : nat) (r : eref) : HM (svm * nat) :=
    if decide (sv_end v - sv_last v < 1) then
      let newcapacity := sv_end v in
      let newcapacity := newcapacity + newcapacity / 2 in
      let newcapacity := if decide (newcapacity = 0) then 2 else newcapacity in
      let! q := new_arr newcapacity in
      let! (i, o) := copy_slots fuel (sv_arr v) 0 pos q 0 in
      let! e := ederef r in
      let! n := new_ent e in
      slot_wr q o n ;!
      let pos := o in
      let! (i, o) := copy_slots fuel (sv_arr v) i (sv_last v) q (S o) in
      del_arr (sv_arr v) ;!
      null_slots fuel q o newcapacity ;!
      ret (Svm q o newcapacity, pos)
    else
      shift_slots fuel (sv_arr v) (sv_last v) (S (sv_last v)) pos ;!
      let! e := ederef r in
      let! n := new_ent e in
      slot_wr (sv_arr v) pos n ;!
      ret (Svm (sv_arr v) (S (sv_last v)) (sv_end v), pos).

  (** i != end() && i->first == key   115, 143, 186, 193 *)
  Definition key_at (v : svm) (i : nat) (key : K) : HM bool :=
    if decide (i ≠ sv_last v) then
      let! q := slot_rd (sv_arr v) i in
      let! e := ent_rd q in
      ret (keq e.1 key)
    else ret false.
  (** 112-118; the result: the object and the element of the returned reference *)
  Definition sv_index (fuel : nat) (v : svm) (key : K) : HM (svm * ptr) :=
    let! i := sv_find_insert_pos fuel v key in
    let! b := key_at v i key in
    if b : bool then let! q := slot_rd (sv_arr v) i in ret (v, q)
    else
      let! (v, i) := sv_insert_before fuel v i (EVal (key, dfltT)) in
      let! q := slot_rd (sv_arr v) i in ret (v, q).
  (** 120-121; the element of the returned reference *)
  Definition sv_at (fuel : nat) (v : svm) (key : K) : HM ptr :=
    let! i := sv_find fuel v key in slot_rd (sv_arr v) i.
  (** 140-146 *)
  Definition sv_insert (fuel : nat) (v : svm) (r : eref) : HM (svm * nat * bool) :=
    let! x := ederef r in
    let! i := sv_find_insert_pos fuel v x.1 in
    let! b := key_at v i x.1 in
    if b : bool then ret (v, i, false)
    else let! (v, i) := sv_insert_before fuel v i r in ret (v, i, true).
  (** 161 *)
  Definition sv_count (fuel : nat) (v : svm) (key : K) : HM nat :=
    let! i := sv_find fuel v key in
    ret (if decide (i = sv_last v) then 1 else 0).
  (** 163-178 *)
  Definition sv_equal_range (fuel : nat) (v : svm) (key : K) : HM (nat * nat) :=
    let! i1 := sv_find fuel v key in
    ret (i1, if decide (i1 ≠ sv_last v) then S i1 else i1).
  (** 180-181 *)
  Definition sv_lower_bound (fuel : nat) (v : svm) (key : K) : HM nat :=
    sv_find_insert_pos fuel v key.
  (** 183-196 *)
  Definition sv_upper_bound (fuel : nat) (v : svm) (key : K) : HM nat :=
    let! i := sv_find_insert_pos fuel v key in
    loop fuel (λ i,
      let! b := key_at v i key in
      if b : bool then ret (inl (S i)) else ret (inr i)) i.
  (** 224-233 *)
  Definition sv_copy (fuel : nat) (other : svm) : HM svm :=
    let prealloc := sv_end other in
    let! q := new_arr prealloc in
    loop fuel (λ '(i, last),
      if decide (i ≠ sv_last other) then
        let! p := slot_rd (sv_arr other) i in
        let! e := ent_rd p in
        let! n := new_ent e in
        slot_wr q last n ;!
        ret (inl (S i, S last))
      else ret (inr (Svm q last prealloc))) (0, 0).

  (** A client's loop over [begin(), end()), 37-60, 123-124 *)
  Definition sv_contents (fuel : nat) (v : svm) : HM (list (K * T)) :=
    loop fuel (λ '(i, acc),
      if decide (i ≠ sv_last v) then
        let! q := slot_rd (sv_arr v) i in
        let! e := ent_rd q in
        ret (inl (S i, acc ++ [e]))
      else ret (inr acc)) (0, []).
End svmap.
Global Arguments eref : clear implicits.
