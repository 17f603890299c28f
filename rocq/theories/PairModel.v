(** pair, make_pair and the selectors of /repo/ttl/utility.hpp, and the function objects of
    /repo/ttl/functional.hpp.

    The objects of type pair<T1,T2> of a program are the cells of one sequence; an object (or a
    reference to it) is its position, a reference to a member is the position of the pair and the
    member. Using a position outside the sequence is undefined behaviour.
    Simplifications: copying and comparing members neither fail nor have side effects. *)
From Verif Require Export Base.

Section pair.
  Context {T1 T2 : Type}.
  Definition pairs := list (T1 * T2).
  Notation PM := (M pairs).

  (** The members of the pair at [o]: read and assign (utility.hpp:53-54). *)
  Definition rd_first (o : nat) : PM T1 := λ m,
    match m !! o with Some p => Ok (p.1, m) | None => UB Dangling end.
  Definition rd_second (o : nat) : PM T2 := λ m,
    match m !! o with Some p => Ok (p.2, m) | None => UB Dangling end.
  Definition wr_first (o : nat) (x : T1) : PM unit := λ m,
    match m !! o with Some p => Ok (tt, <[o := (x, p.2)]> m) | None => UB Dangling end.
  Definition wr_second (o : nat) (y : T2) : PM unit := λ m,
    match m !! o with Some p => Ok (tt, <[o := (p.1, y)]> m) | None => UB Dangling end.
  (** A new object (appended to the sequence). *)
  Definition pr_object (x : T1) (y : T2) : PM nat := λ m, Ok (length m, m ++ [(x, y)]).

  (** pair(), utility.hpp:56; [d1], [d2] are the values of T1() and T2() *)
  Definition pr_new (d1 : T1) (d2 : T2) : PM nat := pr_object d1 d2.
  (** pair(first, second), 57, and make_pair, 92-96 *)
  Definition pr_make (x : T1) (y : T2) : PM nat := pr_object x y.
  (** pair(const pair &), 58 *)
  Definition pr_copy (other : nat) : PM nat :=
    let! x := rd_first other in
    let! y := rd_second other in
    pr_object x y.
  (** pair(const pair<U1,U2> &), 59-60; [c1], [c2] are the conversions, the other pair has the
      value [u] *)
  Definition pr_convert {U1 U2} (c1 : U1 → T1) (c2 : U2 → T2) (u : U1 * U2) : PM nat :=
    pr_object (c1 u.1) (c2 u.2).
  (** operator=(const pair &), 61-66 *)
  Definition pr_assign (this other : nat) : PM unit :=
    let! x := rd_first other in
    wr_first this x ;!
    let! y := rd_second other in
    wr_second this y.
  (** operator=(const pair<U1,U2> &), 67-73 *)
  Definition pr_assign_convert {U1 U2} (c1 : U1 → T1) (c2 : U2 → T2) (this : nat) (u : U1 * U2) : PM unit :=
    wr_first this (c1 u.1) ;!
    wr_second this (c2 u.2).
  (** swap, 75-79, with ttl::swap of the members, 39-45 *)
  Definition pr_swap (this other : nat) : PM unit :=
    (let! tmp := rd_first this in
     let! b := rd_first other in
     wr_first this b ;!
     wr_first other tmp) ;!
    (let! tmp := rd_second this in
     let! b := rd_second other in
     wr_second this b ;!
     wr_second other tmp).
  (** operator==, 81-85, and !=, 86-90 *)
  Definition pr_eq (eq1 : T1 → T1 → bool) (eq2 : T2 → T2 → bool) (x y : nat) : PM bool :=
    let! a := rd_first x in
    let! b := rd_first y in
    if eq1 a b then
      let! c := rd_second x in
      let! d := rd_second y in
      ret (eq2 c d)
    else ret false.
  Definition pr_ne (eq1 : T1 → T1 → bool) (eq2 : T2 → T2 → bool) (x y : nat) : PM bool :=
    let! b := pr_eq eq1 eq2 x y in ret (negb b).
End pair.
Global Arguments pairs : clear implicits.

(** less, greater, equal_to, not_equal_to, functional.hpp:12-46: [lt], [gt], [eq], [ne] are the
    operators <, >, ==, != of T. *)
Section functional.
  Context {T : Type} (lt gt eq ne : T → T → bool).
  Definition f_less (a b : T) : bool := lt a b.
  Definition f_greater (a b : T) : bool := gt a b.
  Definition f_equal_to (a b : T) : bool := eq a b.
  Definition f_not_equal_to (a b : T) : bool := ne a b.
End functional.

(** distance and advance, utility.hpp:28-37, for pointers into one array: a pointer is an index (a
    signed number), last - first is a ptrdiff_t, which distance converts to int. The conversion of
    a value that int cannot hold is implementation-defined: modulo 2^[w] as on the usual
    compilers. *)
Section distance.
  Context (w : Z). (* the width of int *)
  Definition to_int (z : Z) : Z :=
    let r := (z mod 2 ^ w)%Z in if decide (r < 2 ^ (w - 1))%Z then r else (r - 2 ^ w)%Z.
  Definition u_distance (first last : Z) : Z := to_int (last - first).
  Definition u_advance (i d : Z) : Z := (i + d)%Z.
End distance.
