(** The algorithms of /repo/ttl/algorithm.hpp and numeric.hpp, and swap of utility.hpp.

    Memory is one sequence of cells; an iterator is a position in it, so that all ranges of a
    call live in the same memory and may overlap. A cell is [Some x] (an object of value [x])
    or [None] (no object). Reading or assigning a cell without an object, or a position outside
    the memory, is undefined behaviour: a theorem that a call has a result therefore also says
    that it touches nothing outside its ranges when these are surrounded by such cells.
    A reference argument [const T &] is a [cref]: it is read again at every use, so aliasing
    with the range is visible.

    Simplifications: one element type for all ranges of a call; == and < of the elements, and
    predicates, are functions without side effects and only return booleans; iterators are
    positions for every iterator category (only the operations used in the source are used);
    copying never fails. *)
From Verif Require Export Base.
From Coq Require Export ZArith.

(** A reference to a value: an object elsewhere, or the cell at a position. *)
Inductive cref (A : Type) := Val (x : A) | At (i : nat).
Global Arguments Val {_} _.
Global Arguments At {_} _.

Section memory.
  Context {A : Type}.
  Definition amem := list (option A).
  (** *i *)
  Definition ard (i : nat) : M amem A := λ m,
    match m !! i with
    | None => UB OutOfBounds
    | Some None => UB NoObject
    | Some (Some x) => Ok (x, m)
    end.
  (** *i = x *)
  Definition awr (i : nat) (x : A) : M amem unit := λ m,
    match m !! i with
    | None => UB OutOfBounds
    | Some None => UB NoObject
    | Some (Some _) => Ok (tt, <[i := Some x]> m)
    end.
  (** use of a reference *)
  Definition cget (r : cref A) : M amem A :=
    match r with Val x => ret x | At i => ard i end.
End memory.
Global Arguments amem : clear implicits.

Section algorithms.
  Context {A : Type}.
  (** [aeq]: operator== of the elements; [alt]: operator<; [moved x]: what a moved-from element
      of value [x] holds; [imax]: INT_MAX (int is two's complement). *)
  Context (aeq alt : A → A → bool) (moved : A → A) (imax : Z).
  Notation amem := (amem A).
  Notation cref := (cref A).

  (** swap, utility.hpp:39-45 *)
  Definition a_swap (a b : nat) : M amem unit :=
    let! tmp := ard a in
    let! y := ard b in
    awr a y ;!
    awr b tmp.

  (** *** Non-modifying sequence operations *)

  (** find, algorithm.hpp:34-41 *)
  Definition a_find (fuel first last : nat) (value : cref) : M amem nat :=
    loop fuel (λ first,
      if decide (first = last) then ret (inr last) else
      let! x := ard first in
      let! v := cget value in
      if aeq x v then ret (inr first) else ret (inl (S first))) first.
  (** find_if, algorithm.hpp:43-50 *)
  Definition a_find_if (fuel first last : nat) (p : A → bool) : M amem nat :=
    loop fuel (λ first,
      if decide (first = last) then ret (inr last) else
      let! x := ard first in
      if p x then ret (inr first) else ret (inl (S first))) first.
  (** find_if_not, algorithm.hpp:52-59 *)
  Definition a_find_if_not (fuel first last : nat) (p : A → bool) : M amem nat :=
    loop fuel (λ first,
      if decide (first = last) then ret (inr last) else
      let! x := ard first in
      if negb (p x) then ret (inr first) else ret (inl (S first))) first.

  (** search with a predicate, algorithm.hpp:83-103; the inner loop ends with Some r (return r)
      or None (break) *)
  Definition a_search_p (pred : A → A → bool) (fuel first last subfirst sublast : nat) : M amem nat :=
    loop fuel (λ first,
      let! r := loop fuel (λ '(i, s),
        if decide (s = sublast) then ret (inr (Some first)) else
        if decide (i = last) then ret (inr (Some last)) else
        let! x := ard i in
        let! y := ard s in
        if negb (pred x y) then ret (inr None) else ret (inl (S i, S s))) (first, subfirst) in
      match r with Some r => ret (inr r) | None => ret (inl (S first)) end) first.
  (** search, algorithm.hpp:61-81: the same text with == *)
  Definition a_search := a_search_p aeq.

  (** search_n, algorithm.hpp:105-128. The inner loop (for c) returns [inl first] (break) or
      [inr r] (return r). *)
  Definition a_search_n (fuel first last : nat) (count : Z) (value : cref) : M amem nat :=
    if decide (count <= 0)%Z then ret first else
    loop fuel (λ first,
      if decide (first = last) then ret (inr last) else
      let! x := ard first in
      let! v := cget value in
      if aeq x v then
        let candidate := first in
        let! r := loop fuel (λ '(first, c),
          if decide (c = count) then ret (inr (inr candidate)) else
          let first := S first in
          if decide (first = last) then ret (inr (inr last)) else
          let! x := ard first in
          let! v := cget value in
          if negb (aeq x v) then ret (inr (inl first)) else ret (inl (first, c + 1)%Z)) (first, 1%Z) in
        match r with inr r => ret (inr r) | inl first => ret (inl (S first)) end
      else ret (inl (S first))) first.
  (** search_n with a predicate, algorithm.hpp:130-153: the first element of a run is compared
      with ==, the others with the predicate *)
  Definition a_search_n_p (pred : A → A → bool) (fuel first last : nat) (count : Z) (value : cref) : M amem nat :=
    if decide (count <= 0)%Z then ret first else
    loop fuel (λ first,
      if decide (first = last) then ret (inr last) else
      let! x := ard first in
      let! v := cget value in
      if aeq x v then
        let candidate := first in
        let! r := loop fuel (λ '(first, c),
          if decide (c = count) then ret (inr (inr candidate)) else
          let first := S first in
          if decide (first = last) then ret (inr (inr last)) else
          let! x := ard first in
          let! v := cget value in
          if negb (pred x v) then ret (inr (inl first)) else ret (inl (first, c + 1)%Z)) (first, 1%Z) in
        match r with inr r => ret (inr r) | inl first => ret (inl (S first)) end
      else ret (inl (S first))) first.

  (** ++c for int c *)
  Definition int_incr (c : Z) : M amem Z := if decide (c < imax)%Z then ret (c + 1)%Z else fail IntOverflow.
  (** count, algorithm.hpp:155-163 *)
  Definition a_count (fuel first last : nat) (value : cref) : M amem Z :=
    loop fuel (λ '(first, c),
      if decide (first = last) then ret (inr c) else
      let! x := ard first in
      let! v := cget value in
      if aeq x v then let! c := int_incr c in ret (inl (S first, c)) else ret (inl (S first, c))) (first, 0%Z).
  (** count_if, algorithm.hpp:165-173 *)
  Definition a_count_if (fuel first last : nat) (p : A → bool) : M amem Z :=
    loop fuel (λ '(first, c),
      if decide (first = last) then ret (inr c) else
      let! x := ard first in
      if p x then let! c := int_incr c in ret (inl (S first, c)) else ret (inl (S first, c))) (first, 0%Z).

  (** all_of, any_of, none_of, algorithm.hpp:175-191 *)
  Definition a_all_of (fuel first last : nat) (p : A → bool) : M amem bool :=
    let! r := a_find_if_not fuel first last p in ret (bool_decide (r = last)).
  Definition a_any_of (fuel first last : nat) (p : A → bool) : M amem bool :=
    let! r := a_find_if fuel first last p in ret (negb (bool_decide (r = last))).
  Definition a_none_of (fuel first last : nat) (p : A → bool) : M amem bool :=
    let! r := a_find_if fuel first last p in ret (bool_decide (r = last)).

  (** adjacent_find with a predicate, algorithm.hpp:207-218 *)
  Definition a_adjacent_find_p (p : A → A → bool) (fuel first last : nat) : M amem nat :=
    if decide (first = last) then ret last else
    loop fuel (λ '(first, next),
      if decide (next = last) then ret (inr last) else
      let! x := ard first in
      let! y := ard next in
      if p x y then ret (inr first) else ret (inl (S first, S next))) (first, S first).
  (** adjacent_find, algorithm.hpp:194-205: the same text with == *)
  Definition a_adjacent_find := a_adjacent_find_p aeq.

  (** equal, three iterators and a predicate, algorithm.hpp:229-236 *)
  Definition a_equal3_p (pred : A → A → bool) (fuel first1 last1 first2 : nat) : M amem bool :=
    loop fuel (λ '(first1, first2),
      if decide (first1 = last1) then ret (inr true) else
      let! x := ard first1 in
      let! y := ard first2 in
      if negb (pred x y) then ret (inr false) else ret (inl (S first1, S first2))) (first1, first2).
  (** equal, three iterators, algorithm.hpp:220-227: the same text with == *)
  Definition a_equal3 := a_equal3_p aeq.
  (** equal, four iterators and a predicate, algorithm.hpp:247-254 *)
  Definition a_equal4_p (pred : A → A → bool) (fuel first1 last1 first2 last2 : nat) : M amem bool :=
    loop fuel (λ '(first1, first2),
      if decide (first1 ≠ last1 ∧ first2 ≠ last2) then
        let! x := ard first1 in
        let! y := ard first2 in
        if negb (pred x y) then ret (inr false) else ret (inl (S first1, S first2))
      else ret (inr (bool_decide (first1 = last1) && bool_decide (first2 = last2)))) (first1, first2).
  (** equal, four iterators, algorithm.hpp:238-245: the same text with == *)
  Definition a_equal4 := a_equal4_p aeq.

  (** mismatch, three iterators and a predicate, algorithm.hpp:264-270 *)
  Definition a_mismatch3_p (pred : A → A → bool) (fuel first1 last1 first2 : nat) : M amem (nat * nat) :=
    loop fuel (λ '(first1, first2),
      if decide (first1 = last1) then ret (inr (first1, first2)) else
      let! x := ard first1 in
      let! y := ard first2 in
      if pred x y then ret (inl (S first1, S first2)) else ret (inr (first1, first2))) (first1, first2).
  (** mismatch, three iterators, algorithm.hpp:256-262: the same text with == *)
  Definition a_mismatch3 := a_mismatch3_p aeq.
  (** mismatch, four iterators and a predicate, algorithm.hpp:280-286 *)
  Definition a_mismatch4_p (pred : A → A → bool) (fuel first1 last1 first2 last2 : nat) : M amem (nat * nat) :=
    loop fuel (λ '(first1, first2),
      if decide (first1 = last1) then ret (inr (first1, first2)) else
      if decide (first2 = last2) then ret (inr (first1, first2)) else
      let! x := ard first1 in
      let! y := ard first2 in
      if pred x y then ret (inl (S first1, S first2)) else ret (inr (first1, first2))) (first1, first2).
  (** mismatch, four iterators, algorithm.hpp:272-278: the same text with == *)
  Definition a_mismatch4 := a_mismatch4_p aeq.

  (** for_each, algorithm.hpp:288-294. The function object has a state; a call gives its new
      state and the new value of the element (passed by reference). *)
  Definition a_for_each {St} (f : St → A → St * A) (fuel first last : nat) (s : St) : M amem St :=
    loop fuel (λ '(first, s),
      if decide (first = last) then ret (inr s) else
      let! x := ard first in
      let (s', y) := f s x in
      awr first y ;!
      ret (inl (S first, s'))) (first, s).

  (** *** Modifying sequence operations *)

  (** iter_swap, algorithm.hpp:300-304 *)
  Definition a_iter_swap (a b : nat) : M amem unit := a_swap a b.
  (** swap_ranges, algorithm.hpp:306-312 *)
  Definition a_swap_ranges (fuel first1 last1 first2 : nat) : M amem nat :=
    loop fuel (λ '(first1, first2),
      if decide (first1 = last1) then ret (inr first2) else
      a_iter_swap first1 first2 ;! ret (inl (S first1, S first2))) (first1, first2).
  (** fill, algorithm.hpp:314-319 *)
  Definition a_fill (fuel first last : nat) (value : cref) : M amem unit :=
    loop fuel (λ first,
      if decide (first = last) then ret (inr tt) else
      let! v := cget value in
      awr first v ;! ret (inl (S first))) first.
  (** fill_n, algorithm.hpp:321-327 *)
  Definition a_fill_n (fuel first : nat) (count : Z) (value : cref) : M amem nat :=
    loop fuel (λ '(first, count),
      if decide (count > 0)%Z then
        let! v := cget value in
        awr first v ;! ret (inl (S first, count - 1)%Z)
      else ret (inr first)) (first, count).
  (** copy, algorithm.hpp:329-338 *)
  Definition a_copy (fuel first last d_first : nat) : M amem nat :=
    loop fuel (λ '(first, d_first),
      if decide (first = last) then ret (inr d_first) else
      let! x := ard first in
      awr d_first x ;! ret (inl (S first, S d_first))) (first, d_first).
  (** copy_if, algorithm.hpp:340-350 *)
  Definition a_copy_if (p : A → bool) (fuel first last d_first : nat) : M amem nat :=
    loop fuel (λ '(first, d_first),
      if decide (first = last) then ret (inr d_first) else
      let! x := ard first in
      if p x then
        let! x := ard first in
        awr d_first x ;! ret (inl (S first, S d_first))
      else ret (inl (S first, d_first))) (first, d_first).
  (** copy_n, algorithm.hpp:352-358 *)
  Definition a_copy_n (fuel first : nat) (count : Z) (result : nat) : M amem nat :=
    loop fuel (λ '(first, count, result),
      if decide (count > 0)%Z then
        let! x := ard first in
        awr result x ;! ret (inl (S first, count - 1, S result)%Z)
      else ret (inr result)) (first, count, result).
  (** copy_backward, algorithm.hpp:360-366 *)
  Definition a_copy_backward (fuel first last d_last : nat) : M amem nat :=
    loop fuel (λ '(last, d_last),
      if decide (first = last) then ret (inr d_last) else
      let d_last := d_last - 1 in
      let last := last - 1 in
      let! x := ard last in
      awr d_last x ;! ret (inl (last, d_last))) (last, d_last).
  (** generate, algorithm.hpp:368-373; the generator is a function object with a state *)
  Definition a_generate {St} (g : St → St * A) (fuel first last : nat) (s : St) : M amem unit :=
    loop fuel (λ '(first, s),
      if decide (first = last) then ret (inr tt) else
      let (s', y) := g s in
      awr first y ;! ret (inl (S first, s'))) (first, s).
  (** generate_n, algorithm.hpp:375-381 *)
  Definition a_generate_n {St} (g : St → St * A) (fuel first : nat) (count : Z) (s : St) : M amem nat :=
    loop fuel (λ '(first, count, s),
      if decide (count > 0)%Z then
        let (s', y) := g s in
        awr first y ;! ret (inl (S first, count - 1, s')%Z)
      else ret (inr first)) (first, count, s).
  (** replace, algorithm.hpp:383-389 *)
  Definition a_replace (fuel first last : nat) (oldval newval : cref) : M amem unit :=
    loop fuel (λ first,
      if decide (first = last) then ret (inr tt) else
      let! x := ard first in
      let! o := cget oldval in
      (if aeq x o then let! n := cget newval in awr first n else ret tt) ;!
      ret (inl (S first))) first.
  (** replace_if, algorithm.hpp:391-397 *)
  Definition a_replace_if (p : A → bool) (fuel first last : nat) (newval : cref) : M amem unit :=
    loop fuel (λ first,
      if decide (first = last) then ret (inr tt) else
      let! x := ard first in
      (if p x then let! n := cget newval in awr first n else ret tt) ;!
      ret (inl (S first))) first.
  (** replace_copy, algorithm.hpp:399-405 *)
  Definition a_replace_copy (fuel first last d_first : nat) (oldval newval : cref) : M amem nat :=
    loop fuel (λ '(first, d_first),
      if decide (first = last) then ret (inr d_first) else
      let! x := ard first in
      let! o := cget oldval in
      let! y := (if aeq x o then cget newval else ard first) in
      awr d_first y ;! ret (inl (S first, S d_first))) (first, d_first).
  (** replace_copy_if, algorithm.hpp:407-413 *)
  Definition a_replace_copy_if (p : A → bool) (fuel first last d_first : nat) (newval : cref) : M amem nat :=
    loop fuel (λ '(first, d_first),
      if decide (first = last) then ret (inr d_first) else
      let! x := ard first in
      let! y := (if p x then cget newval else ard first) in
      awr d_first y ;! ret (inl (S first, S d_first))) (first, d_first).
  (** remove_copy, algorithm.hpp:415-425 *)
  Definition a_remove_copy (fuel first last d_first : nat) (value : cref) : M amem nat :=
    loop fuel (λ '(first, d_first),
      if decide (first = last) then ret (inr d_first) else
      let! x := ard first in
      let! v := cget value in
      if negb (aeq x v) then
        let! x := ard first in
        awr d_first x ;! ret (inl (S first, S d_first))
      else ret (inl (S first, d_first))) (first, d_first).
  (** remove_copy_if, algorithm.hpp:427-437 *)
  Definition a_remove_copy_if (p : A → bool) (fuel first last d_first : nat) : M amem nat :=
    loop fuel (λ '(first, d_first),
      if decide (first = last) then ret (inr d_first) else
      let! x := ard first in
      if negb (p x) then
        let! x := ard first in
        awr d_first x ;! ret (inl (S first, S d_first))
      else ret (inl (S first, d_first))) (first, d_first).
  (** *a = ttl::move( *b): the assignment reads [b] and leaves it moved from, then gives [a] the
      value *)
  Definition a_move (a b : nat) : M amem unit :=
    let! x := ard b in
    awr b (moved x) ;!
    awr a x.
  (** remove, algorithm.hpp:439-451 *)
  Definition a_remove (fuel first last : nat) (value : cref) : M amem nat :=
    let! first := a_find fuel first last value in
    if decide (first = last) then ret first else
    loop fuel (λ '(first, i),
      let i := S i in
      if decide (i = last) then ret (inr first) else
      let! x := ard i in
      let! v := cget value in
      if negb (aeq x v) then
        a_move first i ;! ret (inl (S first, i))
      else ret (inl (first, i))) (first, first).
  (** remove_if, algorithm.hpp:453-465 *)
  Definition a_remove_if (p : A → bool) (fuel first last : nat) : M amem nat :=
    let! first := a_find_if fuel first last p in
    if decide (first = last) then ret first else
    loop fuel (λ '(first, i),
      let i := S i in
      if decide (i = last) then ret (inr first) else
      let! x := ard i in
      if negb (p x) then
        a_move first i ;! ret (inl (S first, i))
      else ret (inl (first, i))) (first, first).
  (** transform, one range, algorithm.hpp:467-473 *)
  Definition a_transform1 (op : A → A) (fuel first1 last1 d_first : nat) : M amem nat :=
    loop fuel (λ '(first1, d_first),
      if decide (first1 = last1) then ret (inr d_first) else
      let! x := ard first1 in
      awr d_first (op x) ;! ret (inl (S first1, S d_first))) (first1, d_first).
  (** transform, two ranges, algorithm.hpp:475-481 *)
  Definition a_transform2 (op : A → A → A) (fuel first1 last1 first2 d_first : nat) : M amem nat :=
    loop fuel (λ '(first1, first2, d_first),
      if decide (first1 = last1) then ret (inr d_first) else
      let! x := ard first1 in
      let! y := ard first2 in
      awr d_first (op x y) ;! ret (inl (S first1, S first2, S d_first))) (first1, first2, d_first).
  (** reverse, algorithm.hpp:483-488 *)
  Definition a_reverse (fuel first last : nat) : M amem unit :=
    loop fuel (λ '(first, last),
      if decide (first = last) then ret (inr tt) else
      let last := last - 1 in
      if decide (first = last) then ret (inr tt) else
      a_swap first last ;! ret (inl (S first, last))) (first, last).
  (** reverse_copy, algorithm.hpp:490-496 *)
  Definition a_reverse_copy (fuel first last d_first : nat) : M amem nat :=
    loop fuel (λ '(last, d_first),
      if decide (first = last) then ret (inr d_first) else
      let last := last - 1 in
      let! x := ard last in
      awr d_first x ;! ret (inl (last, S d_first))) (last, d_first).

  (** *** Binary search operations on sorted ranges *)

  (** conversion of a ptrdiff_t to int (two's complement wrap around) *)
  Definition to_int (z : Z) : Z := ((z + (imax + 1)) mod (2 * (imax + 1)) - (imax + 1))%Z.
  (** lower_bound with a comparison, algorithm.hpp:521-538 *)
  Definition a_lower_bound_c (comp : A → A → bool) (fuel first last : nat) (value : cref) : M amem nat :=
    loop fuel (λ '(first, count),
      if decide (count > 0)%Z then
        let step := Z.quot count 2 in
        let it := (first + Z.to_nat step)%nat in
        let! x := ard it in
        let! v := cget value in
        if comp x v then ret (inl (S it, count - (step + 1))%Z) else ret (inl (first, step))
      else ret (inr first)) (first, to_int (Z.of_nat last - Z.of_nat first)).
  (** lower_bound, algorithm.hpp:502-519: the same text with <, and `it = first + step' *)
  Definition a_lower_bound := a_lower_bound_c alt.
  (** upper_bound with a comparison, algorithm.hpp:559-576 *)
  Definition a_upper_bound_c (comp : A → A → bool) (fuel first last : nat) (value : cref) : M amem nat :=
    loop fuel (λ '(first, count),
      if decide (count > 0)%Z then
        let step := Z.quot count 2 in
        let it := (first + Z.to_nat step)%nat in
        let! x := ard it in
        let! v := cget value in
        if negb (comp v x) then ret (inl (S it, count - (step + 1))%Z) else ret (inl (first, step))
      else ret (inr first)) (first, to_int (Z.of_nat last - Z.of_nat first)).
  (** upper_bound, algorithm.hpp:540-557: the same text with < *)
  Definition a_upper_bound := a_upper_bound_c alt.
  (** binary_search with a comparison, algorithm.hpp:585-590 *)
  Definition a_binary_search_c (comp : A → A → bool) (fuel first last : nat) (value : cref) : M amem bool :=
    let! first := a_lower_bound_c comp fuel first last value in
    if decide (first = last) then ret false else
    let! v := cget value in
    let! x := ard first in
    ret (negb (comp v x)).
  (** binary_search, algorithm.hpp:578-583 *)
  Definition a_binary_search := a_binary_search_c alt.
  (** equal_range with a comparison, algorithm.hpp:599-604 *)
  Definition a_equal_range_c (comp : A → A → bool) (fuel first last : nat) (value : cref) : M amem (nat * nat) :=
    let! low := a_lower_bound_c comp fuel first last value in
    let! up := a_upper_bound_c comp fuel low last value in
    ret (low, up).
  (** equal_range, algorithm.hpp:592-597 *)
  Definition a_equal_range := a_equal_range_c alt.

  (** *** Sorting and set operations *)

  (** is_sorted_until, algorithm.hpp:610-624 *)
  Definition a_is_sorted_until (fuel first last : nat) : M amem nat :=
    if decide (first = last) then ret last else
    loop fuel (λ '(first, next),
      let next := S next in
      if decide (next = last) then ret (inr last) else
      let! y := ard next in
      let! x := ard first in
      if alt y x then ret (inr next) else ret (inl (next, next))) (first, first).
  (** is_sorted, algorithm.hpp:626-630 *)
  Definition a_is_sorted (fuel first last : nat) : M amem bool :=
    let! r := a_is_sorted_until fuel first last in ret (bool_decide (r = last)).

  (** merge, algorithm.hpp:636-655; the loop ends with [inl out] (return out) or
      [inr (first2, output)] (the loop is over) *)
  Definition a_merge (fuel first1 last1 first2 last2 output : nat) : M amem nat :=
    let! r := loop fuel (λ '(first1, first2, output),
      if decide (first1 = last1) then ret (inr (inr (first2, output))) else
      if decide (first2 = last2) then let! o := a_copy fuel first1 last1 output in ret (inr (inl o)) else
      let! y := ard first2 in
      let! x := ard first1 in
      if alt y x then
        let! y := ard first2 in
        awr output y ;! ret (inl (first1, S first2, S output))
      else
        let! x := ard first1 in
        awr output x ;! ret (inl (S first1, first2, S output))) (first1, first2, output) in
    match r with
    | inl o => ret o
    | inr (first2, output) => a_copy fuel first2 last2 output
    end.

  (** *** Minimum/maximum operations *)

  (** min, algorithm.hpp:660-670 (with < or a comparison); a reference is returned *)
  Definition a_min_c (comp : A → A → bool) (a b : cref) : M amem cref :=
    let! x := cget a in let! y := cget b in ret (if comp x y then a else b).
  Definition a_min := a_min_c alt.
  (** max, algorithm.hpp:672-682 *)
  Definition a_max_c (comp : A → A → bool) (a b : cref) : M amem cref :=
    let! x := cget a in let! y := cget b in ret (if comp x y then b else a).
  Definition a_max := a_max_c alt.
  (** minmax, algorithm.hpp:684-694 *)
  Definition a_minmax_c (comp : A → A → bool) (a b : cref) : M amem (cref * cref) :=
    let! y := cget b in let! x := cget a in ret (if comp y x then (b, a) else (a, b)).
  Definition a_minmax := a_minmax_c alt.
  (** min_element, algorithm.hpp:696-706 *)
  Definition a_min_element (fuel first last : nat) : M amem nat :=
    if decide (first = last) then ret last else
    loop fuel (λ '(first, smallest),
      if decide (first = last) then ret (inr smallest) else
      let! x := ard first in
      let! y := ard smallest in
      ret (inl (S first, if alt x y then first else smallest))) (S first, first).
  (** max_element, algorithm.hpp:708-718 *)
  Definition a_max_element (fuel first last : nat) : M amem nat :=
    if decide (first = last) then ret last else
    loop fuel (λ '(first, largest),
      if decide (first = last) then ret (inr largest) else
      let! y := ard largest in
      let! x := ard first in
      ret (inl (S first, if alt y x then first else largest))) (S first, first).
  (** minmax_element, algorithm.hpp:720-725 *)
  Definition a_minmax_element (fuel first last : nat) : M amem (nat * nat) :=
    let! a := a_min_element fuel first last in
    let! b := a_max_element fuel first last in
    ret (a, b).

  (** *** numeric.hpp *)

  (** iota, numeric.hpp:13-17; [incr]: ++ of the value *)
  Definition a_iota (incr : A → A) (fuel first last : nat) (value : A) : M amem unit :=
    loop fuel (λ '(first, value),
      if decide (first = last) then ret (inr tt) else
      awr first value ;! ret (inl (S first, incr value))) (first, value).
  (** accumulate, numeric.hpp:19-25; [add]: + of an accumulator and an element *)
  Definition a_accumulate {B} (add : B → A → B) (fuel first last : nat) (value : B) : M amem B :=
    loop fuel (λ '(first, value),
      if decide (first = last) then ret (inr value) else
      let! x := ard first in
      ret (inl (S first, add value x))) (first, value).

  (** distance, utility.hpp:28-32: the difference converted to int *)
  Definition a_distance (first last : nat) : Z := to_int (Z.of_nat last - Z.of_nat first).

  (** *** array.hpp: an array<T, n> whose elements_ start at position [a] *)
  (** elements_[N ? N : 1], array.hpp:29: the number of cells of the object *)
  Definition arr_cells (n : nat) : nat := if decide (n = 0) then 1 else n.
  (** begin and end, array.hpp:41-46 *)
  Definition arr_begin (a : nat) : nat := a.
  Definition arr_end (n a : nat) : nat := a + n.
  (** size, max_size, empty, array.hpp:48-50 *)
  Definition arr_size (n : nat) : nat := n.
  Definition arr_empty (n : nat) : bool := bool_decide (arr_size n = 0).
  (** fill, array.hpp:31-34 *)
  Definition arr_fill (fuel n a : nat) (v : cref) : M amem unit :=
    a_fill_n fuel (arr_begin a) (Z.of_nat (arr_size n)) v ;! ret tt.
  (** swap, array.hpp:36-39 *)
  Definition arr_swap (fuel n a other : nat) : M amem unit :=
    a_swap_ranges fuel (arr_begin a) (arr_end n a) (arr_begin other) ;! ret tt.
  (** operator[] and at, array.hpp:52-55: a reference (the position) *)
  Definition arr_at (n a i : nat) : nat := a + i.
  (** front and back, array.hpp:56-59 *)
  Definition arr_front (n a : nat) : nat := arr_begin a.
  Definition arr_back (n a : nat) : nat := if decide (n = 0) then arr_end n a else arr_end n a - 1.
  (** operator== and !=, array.hpp:65-74 *)
  Definition arr_eq (fuel n a b : nat) : M amem bool :=
    a_equal4 fuel (arr_begin a) (arr_end n a) (arr_begin b) (arr_end n b).
  Definition arr_ne (fuel n a b : nat) : M amem bool := let! r := arr_eq fuel n a b in ret (negb r).
End algorithms.
