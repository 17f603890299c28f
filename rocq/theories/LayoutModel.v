(** Bytes: where the elements of a fixed_vector lie, how much storage vector asks for, and
    which elements a size argument creates. Everything here is about quantities that the
    models of the containers take for granted (element slots, sizes without bounds, T()). *)
From Verif Require Export DlistSpec FixedSpec VecSpec.

(** ** fixed_vector: sizes and alignments of the members (fixed_vector.hpp 36-40) *)
Section fixed_layout.
  Context (sz : nat)          (* sizeof(T) *)
          (palign psize : nat) (* alignof(T * ), sizeof(T * ) *)
          (n : nat).          (* N *)

  (** fixed_vector.hpp 37: union (char b[sizeof(T)];) has the size of its only member and the
      alignment of char; bytes_ is the first member, an array of [n] of them. *)
  Definition union_size : nat := sz.
  Definition union_align : nat := 1.
  Definition bytes_off : nat := 0.
  (** the least multiple of [a] that is not below [x] *)
  Definition round_up (x a : nat) : nat := (x + a - 1) `div` a * a.
  (** fixed_vector.hpp 38: last_ comes after bytes_, at the next multiple of its alignment *)
  Definition last_off : nat := round_up (bytes_off + n * union_size) palign.
  (** alignment and size of the class *)
  Definition fv_align : nat := union_align `max` palign.
  Definition fv_sizeof : nat := round_up (last_off + psize) fv_align.
  (** elements() + i: 39, of an object at address [base] *)
  Definition elem_addr (base i : nat) : nat := base + bytes_off + i * sz.
  (** end_of_elements(): 40; bytes_ + N counts in unions *)
  Definition end_addr (base : nat) : nat := base + bytes_off + n * union_size.
End fixed_layout.

(** ** vector: arithmetic in size_t and ptrdiff_t ([B] bits) *)
Section vector_bytes.
  Context (B : nat) (sz : nat).
  (** n * sizeof(T) in size_t: vector.hpp 178, 186, 194, 239, 265 *)
  Definition request (n : nat) : nat := (n * sz) `mod` 2 ^ B.
  (** vector(n), vector(n, value): vector.hpp 175-190, on a buffer of exactly the requested
      number of bytes; the loop variable is the number of bytes below last_. Constructing an
      object that does not lie inside the buffer is undefined behaviour. The result is
      last_ - elements_ in bytes. *)
  Definition vec_new_bytes (fuel : nat) (n : nat) : M () nat :=
    let bytes := request n in
    loop fuel (λ '(n, last),
      match n with
      | 0 => ret (inr last)
      | S n => if decide (last + sz ≤ bytes) then ret (inl (n, last + sz)) else fail OutOfBounds
      end) (n, 0).

  (** a size_t passed as ptrdiff_t (two's complement) *)
  Definition to_diff (n : nat) : Z :=
    if decide (n < 2 ^ (B - 1)) then Z.of_nat n else (Z.of_nat n - 2 ^ Z.of_nat B)%Z.
  Context {V : Type} `{Allocator (list (option V))}.
  (** insert(pos, n, x) with the conversion of [n] to the parameter type of insert_values
      (vector.hpp 122-126, 252-253), which does nothing unless it is positive (258) *)
  Definition v_insert_size (fuel : nat) (v : tvec) (pos n : nat) (r : vref V) :
      M (gmap loc (list (option V))) (tvec * nat) :=
    v_insert_values fuel v pos (Z.to_nat (to_diff n)) (VcCounter r).
End vector_bytes.

(** ** The value of new elements. An element of type T is [Some x], or [None]: an object whose
    value is indeterminate. *)
Section init.
  Context {V : Type} (scalar : bool) (* T is an arithmetic, enumeration or pointer type *)
          (zero : V).                (* T() *)
  (** T(), as in vector.hpp 181, 232, fixed_vector.hpp 142 *)
  Definition value_init : option V := Some zero.
  (** a member that is not mentioned in its constructor: list.hpp 126-127 *)
  Definition default_init : option V := if scalar then None else Some zero.
  Context `{Allocator (dcell (option V))}.
  (** list::resize(n): list.hpp 360-378 *)
  Definition dl_resize_n (fuel : nat) (this : loc) (newsize : nat) : M (gmap loc (dcell (option V))) () :=
    dl_resize fuel this newsize (DExt default_init).
End init.
