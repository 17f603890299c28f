(** bitset (/repo/ttl/bitset.hpp).

    The objects of a program live in a pool: object [o] is the array bits_ of a bitset<n>;
    the template argument [n] is passed to every function. A word is a natural number below
    2^W (unsigned long, modulo 2^W), [None] is a word that was not initialised. Accesses
    outside bits_ and reads of uninitialised words are undefined behaviour.
    Temporaries and locals are pushed onto the pool and cut off at the end of the client's
    full expression.

    Simplifications: memory is not addressed across objects; `unsigned' loop counters count
    modulo [ulim]; size_t counters do not wrap around (they count to at most N or the string's
    length). *)
From Verif Require Export Base.
From Coq Require Export NArith.

Definition pool := list (list (option N)).

Section pool_ops.
  Definition bit_rd (o i : nat) : M pool N := λ p,
    match p !! o with
    | None => UB Dangling
    | Some ws =>
        match ws !! i with
        | None => UB OutOfBounds
        | Some None => UB NoObject
        | Some (Some w) => Ok (w, p)
        end
    end.
  Definition bit_wr (o i : nat) (w : N) : M pool unit := λ p,
    match p !! o with
    | None => UB Dangling
    | Some ws => if decide (i < length ws) then Ok (tt, <[o := <[i := Some w]> ws]> p) else UB OutOfBounds
    end.
  (** the number of objects, to cut off temporaries at the end of a full expression *)
  Definition bit_mark : M pool nat := λ p, Ok (length p, p).
  Definition bit_cut (k : nat) : M pool unit := λ p, Ok (tt, take k p).
End pool_ops.

Section bitset.
  (** W = sizeof(slot_type) * CHAR_BIT; LLW = bits of unsigned long long; ulim = UINT_MAX + 1;
      [gnuc]: __GNUC__ is defined; [long_lt]: __SIZEOF_LONG__ < __SIZEOF_LONG_LONG__;
      [fresh i]: what word i of an uninitialised object contains. *)
  Context (W LLW ulim : nat) (gnuc long_lt : bool) (fresh : nat → option N).

  (** sizeof(bits_)/sizeof( *bits_), bitset.hpp:22 *)
  Definition nwords (n : nat) : nat := (n + W - 1) / W.
  (** bits_slot (as an index) and bits_bit, bitset.hpp:19-21; for bitset<0> the non-const
      bits_slot is specialised to return bits_, 374 *)
  Definition slot_of (pos : nat) : nat := pos / W.
  Definition slot_nc (n pos : nat) : nat := if decide (n = 0) then 0 else pos / W.
  Definition bit_of (pos : nat) : N := N.of_nat (pos mod W).
  (** (slot_type)-1; ~w; x << b (modulo 2^W) *)
  Definition all1 : N := N.ones (N.of_nat W).
  Definition wnot (w : N) : N := N.lxor w all1.
  Definition wshl (x b : N) : N := N.modulo (N.shiftl x b) (2 ^ N.of_nat W).
  (** an unsigned long from a bool, and -v for a bool v (an int) converted to unsigned long *)
  Definition wbool (b : bool) : N := if b then 1%N else 0%N.
  Definition wneg (b : bool) : N := if b then all1 else 0%N.

  (** last_bits, bitset.hpp:25-28 *)
  Definition last_bits (n : nat) : N :=
    if decide (nwords n * W = n) then all1 else N.sub (wshl 1 (N.of_nat (n mod W))) 1.
  (** last_slot_index, bitset.hpp:29 *)
  Definition last_slot (n : nat) : nat := if decide (n = 0) then 0 else nwords n - 1.
  (** size and capacity, bitset.hpp:100-101 *)
  Definition b_size (n : nat) : nat := n.
  Definition b_capacity (n : nat) : nat := nwords n * W.

  (** bitset(const bitset &, bool), bitset.hpp:32: an uninitialised object *)
  Definition b_uninit (n : nat) : M pool nat := λ p,
    Ok (length p, p ++ [fresh <$> seq 0 (nwords n)]).

  (** for (unsigned i = from; i < e; ++i) body(i), as used throughout *)
  Definition for_u (fuel from e : nat) (body : nat → M pool unit) : M pool nat :=
    loop fuel (λ i, if decide (i < e) then body i ;! ret (inl (S i mod ulim)) else ret (inr i)) from.
  (** for (i = 0; i < e; ++i) if (body(i)) return r; -- true: returned *)
  Definition find_u (fuel e : nat) (body : nat → M pool bool) : M pool bool :=
    loop fuel (λ i, if decide (i < e) then
        let! b := body i in
        if b then ret (inr true) else ret (inl (S i mod ulim))
      else ret (inr false)) 0.

  Definition upd (o i : nat) (f : N → N) : M pool unit :=
    let! w := bit_rd o i in bit_wr o i (f w).

  (** set(), bitset.hpp:113-118; bitset<0>: 376 *)
  Definition b_set_all (fuel n o : nat) : M pool unit :=
    if decide (n = 0) then ret tt else for_u fuel 0 (nwords n) (λ i, bit_wr o i all1) ;! ret tt.
  (** set(pos), bitset.hpp:119-123; bitset<0>: 377 *)
  Definition b_set (n o pos : nat) : M pool unit :=
    if decide (n = 0) then ret tt else upd o (slot_nc n pos) (λ w, N.lor w (wshl 1 (bit_of pos))).
  (** set(pos, value), bitset.hpp:124-129; bitset<0>: 378 *)
  Definition b_put (n o pos : nat) (v : bool) : M pool unit :=
    if decide (n = 0) then ret tt else
      let mask := wshl (wbool v) (bit_of pos) in
      upd o (slot_nc n pos) (λ w, N.lor (N.land w (wnot mask)) mask).
  (** reset(), bitset.hpp:131-136; bitset<0>: 379 *)
  Definition b_reset_all (fuel n o : nat) : M pool unit :=
    if decide (n = 0) then ret tt else for_u fuel 0 (nwords n) (λ i, bit_wr o i 0%N) ;! ret tt.
  (** reset(pos), bitset.hpp:137-141; bitset<0>: 380 *)
  Definition b_reset (n o pos : nat) : M pool unit :=
    if decide (n = 0) then ret tt else upd o (slot_nc n pos) (λ w, N.land w (wnot (wshl 1 (bit_of pos)))).
  (** flip(), bitset.hpp:143-148; bitset<0>: 381 *)
  Definition b_flip_all (fuel n o : nat) : M pool unit :=
    if decide (n = 0) then ret tt else for_u fuel 0 (nwords n) (λ i, upd o i wnot) ;! ret tt.
  (** flip(pos), bitset.hpp:149-153; bitset<0>: 382 *)
  Definition b_flip (n o pos : nat) : M pool unit :=
    if decide (n = 0) then ret tt else upd o (slot_nc n pos) (λ w, N.lxor w (wshl 1 (bit_of pos))).

  (** test, bitset.hpp:91-94 (bitset<0>: 375), and operator[] const, 82-85 *)
  Definition b_test (n o pos : nat) : M pool bool :=
    if decide (pos < n) then
      let! w := bit_rd o (slot_of pos) in
      ret (negb (N.eqb (N.land w (wshl 1 (bit_of pos))) 0))
    else ret false.

  (** reference: a word of an object and a mask, bitset.hpp:57-80; operator[], 86-89 *)
  Record bref := BRef { rf_obj : nat; rf_word : nat; rf_mask : N }.
  Definition b_ref (n o pos : nat) : bref :=
    BRef o (slot_nc n pos) (wshl (wbool (bool_decide (pos < n))) (bit_of pos)).
  (** reference::operator=(bool), 66-70 *)
  Definition ref_assign (r : bref) (v : bool) : M pool unit :=
    upd (rf_obj r) (rf_word r) (λ w, N.lor (N.land w (wnot (rf_mask r))) (N.land (wneg v) (rf_mask r))).
  (** reference::operator bool, 77 *)
  Definition ref_bool (r : bref) : M pool bool :=
    let! w := bit_rd (rf_obj r) (rf_word r) in ret (negb (N.eqb (N.land w (rf_mask r)) 0)).
  (** reference::operator=(const reference &), 72-76. The operands of | are unsequenced, but
      both only read. *)
  Definition ref_copy (r r2 : bref) : M pool unit :=
    let! w := bit_rd (rf_obj r) (rf_word r) in
    let! v := ref_bool r2 in
    bit_wr (rf_obj r) (rf_word r) (N.lor (N.land w (rf_mask r)) (N.land (wneg v) (rf_mask r))).
  (** reference::operator~, 78 *)
  Definition ref_not (r : bref) : M pool bool :=
    let! w := bit_rd (rf_obj r) (rf_word r) in ret (N.eqb (N.land w (rf_mask r)) 0).
  (** reference::flip, 79 *)
  Definition ref_flip (r : bref) : M pool unit :=
    upd (rf_obj r) (rf_word r) (λ w, N.lxor w (rf_mask r)).

  (** operator==, bitset.hpp:214-222; bitset<0>: 400 *)
  Definition b_eq (fuel n o q : nat) : M pool bool :=
    if decide (n = 0) then ret true else
      let! early := find_u fuel (last_slot n) (λ i,
        let! a := bit_rd o i in let! b := bit_rd q i in ret (negb (N.eqb a b))) in
      if (early : bool) then ret false else
        let! a := bit_rd o (last_slot n) in let! b := bit_rd q (last_slot n) in
        ret (N.eqb (N.land (N.lxor a b) (last_bits n)) 0).
  (** operator!=, bitset.hpp:55 *)
  Definition b_ne (fuel n o q : nat) : M pool bool := let! b := b_eq fuel n o q in ret (negb b).
  (** all, bitset.hpp:224-232; bitset<0>: 383 *)
  Definition b_all (fuel n o : nat) : M pool bool :=
    if decide (n = 0) then ret false else
      let! early := find_u fuel (last_slot n) (λ i, let! a := bit_rd o i in ret (negb (N.eqb a all1))) in
      if (early : bool) then ret false else
        let! a := bit_rd o (last_slot n) in ret (N.eqb (N.land a (last_bits n)) (last_bits n)).
  (** any, bitset.hpp:233-241; bitset<0>: 384 *)
  Definition b_any (fuel n o : nat) : M pool bool :=
    if decide (n = 0) then ret false else
      let! early := find_u fuel (last_slot n) (λ i, let! a := bit_rd o i in ret (negb (N.eqb a 0))) in
      if (early : bool) then ret true else
        let! a := bit_rd o (last_slot n) in ret (negb (N.eqb (N.land a (last_bits n)) 0)).
  (** none, bitset.hpp:242-250; bitset<0>: 385 *)
  Definition b_none (fuel n o : nat) : M pool bool :=
    if decide (n = 0) then ret true else
      let! early := find_u fuel (last_slot n) (λ i, let! a := bit_rd o i in ret (negb (N.eqb a 0))) in
      if (early : bool) then ret false else
        let! a := bit_rd o (last_slot n) in ret (N.eqb (N.land a (last_bits n)) 0).
  (** bitset<0> == b and b == bitset<0>, bitset.hpp:396-397; !=, 398-399 *)
  Definition b_eq0 (fuel n o : nat) : M pool bool := b_none fuel n o.

  (** __builtin_popcountl *)
  Definition popcount (w : N) : nat := length (filter (λ i, N.testbit w (N.of_nat i) = true) (seq 0 W)).
  (** while (b) { ++c; b &= b - 1; }, bitset.hpp:263-267 *)
  Definition popcount_loop (fuel : nat) (w : N) : M pool nat :=
    loop fuel (λ '(b, c), if N.eqb b 0 then ret (inr c) else ret (inl (N.land b (N.sub b 1), S c))) (w, 0).
  (** count, bitset.hpp:251-271; bitset<0>: 386 *)
  Definition b_count (fuel n o : nat) : M pool nat :=
    if decide (n = 0) then ret 0 else
      loop fuel (λ '(i, c),
        if decide (i < nwords n) then
          let! w := bit_rd o i in
          let b := if decide (i = last_slot n) then N.land w (last_bits n) else w in
          let! k := (if gnuc then ret (popcount b) else popcount_loop fuel b) in
          ret (inl (S i mod ulim, c + k))
        else ret (inr c)) (0, 0).

  (** operator=(const bitset &), bitset.hpp:272-278; the copy constructor 36 *)
  Definition b_assign (fuel n o q : nat) : M pool unit :=
    for_u fuel 0 (nwords n) (λ i, let! w := bit_rd q i in bit_wr o i w) ;! ret tt.
  Definition b_copy (fuel n q : nat) : M pool nat :=
    let! t := b_uninit n in b_assign fuel n t q ;! ret t.
  (** operator=(const bitset<M> &), bitset.hpp:279-290; bitset(const bitset<M> &), 191-196.
      The object is a bitset<n>, the other one a bitset<m>. *)
  Definition b_convert (fuel n m o q : nat) : M pool unit :=
    let k := if decide (n < m) then b_capacity n / W else b_capacity m / W in
    let! i := for_u fuel 0 k (λ i, let! w := bit_rd q i in bit_wr o i w) in
    for_u fuel i (nwords n) (λ i, bit_wr o i 0%N) ;! ret tt.
  Definition b_from (fuel n m q : nat) : M pool nat :=
    let! t := b_uninit n in b_convert fuel n m t q ;! ret t.

  (** operator&=, |=, ^=, bitset.hpp:292-312; bitset<0>: 389-391 *)
  Definition b_op_eq (f : N → N → N) (fuel n o q : nat) : M pool unit :=
    if decide (n = 0) then ret tt else
      for_u fuel 0 (nwords n) (λ i,
        let! b := bit_rd q i in
        upd o i (λ a, f a b)) ;! ret tt.
  Definition b_and_eq := b_op_eq N.land.
  Definition b_or_eq := b_op_eq N.lor.
  Definition b_xor_eq := b_op_eq N.lxor.
  (** operator&, |, ^, bitset.hpp:356-372: bitset<N>(a) &= b, copied into the result *)
  Definition b_binop (f : N → N → N) (fuel n o q : nat) : M pool nat :=
    let! t := b_copy fuel n o in
    b_op_eq f fuel n t q ;!
    b_copy fuel n t.
  (** default constructor, bitset.hpp:35 *)
  Definition b_new (fuel n : nat) : M pool nat :=
    let! t := b_uninit n in b_reset_all fuel n t ;! ret t.
  (** operator~, bitset.hpp:313-320; bitset<0>: 392 *)
  Definition b_not (fuel n o : nat) : M pool nat :=
    if decide (n = 0) then b_new fuel n else
      let! t := b_uninit n in
      for_u fuel 0 (nwords n) (λ i, let! w := bit_rd o i in bit_wr t i (wnot w)) ;! ret t.
  (** operator<<, bitset.hpp:322-330 (bitset<0>: 393); <<=, 332-337 *)
  Definition b_shl (fuel n o pos : nat) : M pool nat :=
    let! t := b_new fuel n in
    if decide (n = 0) then ret t else
      loop fuel (λ '(i, pos),
        if decide (pos < n) then
          let! b := b_test n o i in
          (if (b : bool) then b_set n t pos else ret tt) ;!
          ret (inl (S i mod ulim, S pos))
        else ret (inr t)) (0, pos).
  Definition b_shl_eq (fuel n o pos : nat) : M pool unit :=
    let! t := b_shl fuel n o pos in b_assign fuel n o t.
  (** operator>>, bitset.hpp:339-347 (bitset<0>: 394); >>=, 349-354 *)
  Definition b_shr (fuel n o pos : nat) : M pool nat :=
    let! t := b_new fuel n in
    if decide (n = 0) then ret t else
      loop fuel (λ '(i, pos),
        if decide (pos < n) then
          let! b := b_test n o pos in
          (if (b : bool) then b_set n t i else ret tt) ;!
          ret (inl (S i mod ulim, S pos))
        else ret (inr t)) (0, pos).
  Definition b_shr_eq (fuel n o pos : nat) : M pool unit :=
    let! t := b_shr fuel n o pos in b_assign fuel n o t.

  (** bitset(unsigned long), bitset.hpp:169-175 *)
  Definition b_of_ulong (fuel n : nat) (u : N) : M pool nat :=
    let! t := b_uninit n in
    bit_wr t 0 u ;!
    for_u fuel 1 (nwords n) (λ i, bit_wr t i 0%N) ;! ret t.
  (** bitset(unsigned long long), bitset.hpp:176-190 *)
  Definition b_of_ullong (fuel n : nat) (u : N) : M pool nat :=
    let! t := b_uninit n in
    if long_lt then
      loop fuel (λ '(i, u),
        if decide (i < nwords n) then
          bit_wr t i (N.land u all1) ;!
          ret (inl (S i mod ulim, N.shiftr u (N.of_nat W)))
        else ret (inr t)) (0, u)
    else
      bit_wr t 0 (N.modulo u (2 ^ N.of_nat W)) ;!
      for_u fuel 1 (nwords n) (λ i, bit_wr t i 0%N) ;! ret t.

  (** to_ulong, bitset.hpp:155; bitset<0>: 388 *)
  Definition b_to_ulong (n o : nat) : M pool N :=
    if decide (n = 0) then ret 0%N else
      let! w := bit_rd o 0 in
      ret (N.land (if decide (n < W) then last_bits n else all1) w).
  (** to_ullong, bitset.hpp:156-166; bitset<0>: 387 *)
  Definition b_to_ullong (n o : nat) : M pool N :=
    if decide (n = 0) then ret 0%N else
      if long_lt then
        let! lo := b_to_ulong n o in
        if decide (n < W + 1) then ret lo else
          let! w := bit_rd o 1 in
          ret (N.lor lo (N.modulo (N.shiftl (N.land w (if decide (n < W * 2) then last_bits n else all1)) (N.of_nat W))
                                  (2 ^ N.of_nat LLW)))
      else b_to_ulong n o.

  (** bitset(const char *, size_t n, char zero, char one), bitset.hpp:197-213: [cs] is the
      character array, [len] the parameter n, characters are numbers. *)
  Definition ch_rd (cs : list nat) (i : nat) : M pool nat :=
    match cs !! i with Some c => ret c | None => fail OutOfBounds end.
  Definition b_of_string (fuel n : nat) (cs : list nat) (len zero one : nat) : M pool nat :=
    let! t := b_uninit n in
    let! i := loop fuel (λ i,
        if decide (i < len) then
          let! c := ch_rd cs i in
          if decide (c = zero ∨ c = one) then ret (inl (S i)) else ret (inr i)
        else ret (inr i)) 0 in
    loop fuel (λ s,
        if decide (s < nwords n) then bit_wr t s 0%N ;! ret (inl (S s)) else ret (inr tt)) (i / W) ;!
    loop fuel (λ '(i, k),                       (* k: how far bits was advanced *)
        if decide (i = 0) then ret (inr t) else
          let i := i - 1 in
          let! c := ch_rd cs k in
          if decide (c = zero) then b_reset n t i ;! ret (inl (i, S k))
          else if decide (c = one) then b_set n t i ;! ret (inl (i, S k))
          else ret (inr t)) (i, 0).
End bitset.
