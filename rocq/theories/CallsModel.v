(** The algorithms of /repo/ttl/algorithm.hpp that call a function object or an operator of the
    client, with the calls made visible.

    The state of a run is the memory and the sequence of calls made so far, each recorded with its
    arguments. The answer to a call may depend on all the calls before it: this is a predicate,
    comparison or operation with a state of its own (reached through a reference, so that copying
    the function object, as all_of or remove_if do when they pass it on, does not copy the state).
    Otherwise the definitions are those of AlgModel.v, statement by statement; C89_same_programs
    says that they compute the same as those when the answers depend on the arguments only.

    Simplifications: those of AlgModel.v. A call does not touch the memory of the ranges. In the
    versions without a function object the calls are those of operator== or operator< of the
    elements. *)
From Verif Require Export AlgModel.

Section calls.
  Context {A B : Type}.
  (** memory, and the calls made so far *)
  Definition cmem : Type := amem A * list B.
  (** an access to memory, which makes no call *)
  Definition qui {X} (m : M (amem A) X) : M cmem X := λ '(s, h),
    match m s with Ok (x, s') => Ok (x, (s', h)) | UB u => UB u | NoFuel => NoFuel end.
  (** the call f(b) *)
  Definition call {X} (f : list B → B → X) (b : B) : M cmem X := λ '(s, h), Ok (f h b, (s, h ++ [b])).
End calls.
Global Arguments cmem : clear implicits.

Section unary.
  Context {A : Type} (moved : A → A) (imax : Z).
  Notation cmem := (cmem A A).
  Implicit Types p : list A → A → bool.

  (** find_if, algorithm.hpp:43-50 *)
  Definition c_find_if p (fuel first last : nat) : M cmem nat :=
    loop fuel (λ first,
      if decide (first = last) then ret (inr last) else
      let! x := qui (ard first) in
      let! b := call p x in
      if b : bool then ret (inr first) else ret (inl (S first))) first.
  (** find_if_not, algorithm.hpp:52-59 *)
  Definition c_find_if_not p (fuel first last : nat) : M cmem nat :=
    loop fuel (λ first,
      if decide (first = last) then ret (inr last) else
      let! x := qui (ard first) in
      let! b := call p x in
      if negb b then ret (inr first) else ret (inl (S first))) first.
  (** count_if, algorithm.hpp:165-173 *)
  Definition c_count_if p (fuel first last : nat) : M cmem Z :=
    loop fuel (λ '(first, c),
      if decide (first = last) then ret (inr c) else
      let! x := qui (ard first) in
      let! b := call p x in
      if b : bool then let! c := qui (int_incr imax c) in ret (inl (S first, c)) else ret (inl (S first, c))) (first, 0%Z).
  (** all_of, any_of, none_of, algorithm.hpp:175-191 *)
  Definition c_all_of p (fuel first last : nat) : M cmem bool :=
    let! r := c_find_if_not p fuel first last in ret (bool_decide (r = last)).
  Definition c_any_of p (fuel first last : nat) : M cmem bool :=
    let! r := c_find_if p fuel first last in ret (negb (bool_decide (r = last))).
  Definition c_none_of p (fuel first last : nat) : M cmem bool :=
    let! r := c_find_if p fuel first last in ret (bool_decide (r = last)).
  (** copy_if, algorithm.hpp:340-350 *)
  Definition c_copy_if p (fuel first last d_first : nat) : M cmem nat :=
    loop fuel (λ '(first, d_first),
      if decide (first = last) then ret (inr d_first) else
      let! x := qui (ard first) in
      let! b := call p x in
      if b : bool then
        let! x := qui (ard first) in
        qui (awr d_first x) ;! ret (inl (S first, S d_first))
      else ret (inl (S first, d_first))) (first, d_first).
  (** replace_if, algorithm.hpp:391-397 *)
  Definition c_replace_if p (fuel first last : nat) (newval : cref A) : M cmem unit :=
    loop fuel (λ first,
      if decide (first = last) then ret (inr tt) else
      let! x := qui (ard first) in
      let! b := call p x in
      (if b : bool then let! n := qui (cget newval) in qui (awr first n) else ret tt) ;!
      ret (inl (S first))) first.
  (** replace_copy_if, algorithm.hpp:407-413 *)
  Definition c_replace_copy_if p (fuel first last d_first : nat) (newval : cref A) : M cmem nat :=
    loop fuel (λ '(first, d_first),
      if decide (first = last) then ret (inr d_first) else
      let! x := qui (ard first) in
      let! b := call p x in
      let! y := qui (if b : bool then cget newval else ard first) in
      qui (awr d_first y) ;! ret (inl (S first, S d_first))) (first, d_first).
  (** remove_copy_if, algorithm.hpp:427-437 *)
  Definition c_remove_copy_if p (fuel first last d_first : nat) : M cmem nat :=
    loop fuel (λ '(first, d_first),
      if decide (first = last) then ret (inr d_first) else
      let! x := qui (ard first) in
      let! b := call p x in
      if negb b then
        let! x := qui (ard first) in
        qui (awr d_first x) ;! ret (inl (S first, S d_first))
      else ret (inl (S first, d_first))) (first, d_first).
  (** remove_if, algorithm.hpp:453-465 *)
  Definition c_remove_if p (fuel first last : nat) : M cmem nat :=
    let! first := c_find_if p fuel first last in
    if decide (first = last) then ret first else
    loop fuel (λ '(first, i),
      let i := S i in
      if decide (i = last) then ret (inr first) else
      let! x := qui (ard i) in
      let! b := call p x in
      if negb b then
        qui (a_move moved first i) ;! ret (inl (S first, i))
      else ret (inl (first, i))) (first, first).
  (** transform, one range, algorithm.hpp:467-473 *)
  Definition c_transform1 (op : list A → A → A) (fuel first1 last1 d_first : nat) : M cmem nat :=
    loop fuel (λ '(first1, d_first),
      if decide (first1 = last1) then ret (inr d_first) else
      let! x := qui (ard first1) in
      let! y := call op x in
      qui (awr d_first y) ;! ret (inl (S first1, S d_first))) (first1, d_first).
End unary.

Section binary.
  Context {A : Type} (moved : A → A) (imax : Z).
  Notation cmem := (cmem A (A * A)).
  (** a binary predicate or comparison; in the versions without one, operator== or operator< *)
  Implicit Types p : list (A * A) → A * A → bool.

  (** find, algorithm.hpp:34-41 *)
  Definition c_find p (fuel first last : nat) (value : cref A) : M cmem nat :=
    loop fuel (λ first,
      if decide (first = last) then ret (inr last) else
      let! x := qui (ard first) in
      let! v := qui (cget value) in
      let! b := call p (x, v) in
      if b : bool then ret (inr first) else ret (inl (S first))) first.
  (** count, algorithm.hpp:155-163 *)
  Definition c_count p (fuel first last : nat) (value : cref A) : M cmem Z :=
    loop fuel (λ '(first, c),
      if decide (first = last) then ret (inr c) else
      let! x := qui (ard first) in
      let! v := qui (cget value) in
      let! b := call p (x, v) in
      if b : bool then let! c := qui (int_incr imax c) in ret (inl (S first, c)) else ret (inl (S first, c))) (first, 0%Z).
  (** search, algorithm.hpp:61-103 *)
  Definition c_search p (fuel first last subfirst sublast : nat) : M cmem nat :=
    loop fuel (λ first,
      let! r := loop fuel (λ '(i, s),
        if decide (s = sublast) then ret (inr (Some first)) else
        if decide (i = last) then ret (inr (Some last)) else
        let! x := qui (ard i) in
        let! y := qui (ard s) in
        let! b := call p (x, y) in
        if negb b then ret (inr None) else ret (inl (S i, S s))) (first, subfirst) in
      match r with Some r => ret (inr r) | None => ret (inl (S first)) end) first.
  (** search_n with a predicate, algorithm.hpp:130-153: the first element of a run is compared with
      == ([q]), the others with the predicate [p] *)
  Definition c_search_n_p (q : list (A * A) → A * A → bool) p (fuel first last : nat) (count : Z) (value : cref A) : M cmem nat :=
    if decide (count <= 0)%Z then ret first else
    loop fuel (λ first,
      if decide (first = last) then ret (inr last) else
      let! x := qui (ard first) in
      let! v := qui (cget value) in
      let! b := call q (x, v) in
      if b : bool then
        let candidate := first in
        let! r := loop fuel (λ '(first, c),
          if decide (c = count) then ret (inr (inr candidate)) else
          let first := S first in
          if decide (first = last) then ret (inr (inr last)) else
          let! x := qui (ard first) in
          let! v := qui (cget value) in
          let! b := call p (x, v) in
          if negb b then ret (inr (inl first)) else ret (inl (first, c + 1)%Z)) (first, 1%Z) in
        match r with inr r => ret (inr r) | inl first => ret (inl (S first)) end
      else ret (inl (S first))) first.
  (** search_n, algorithm.hpp:105-128: the same text with == in both places *)
  Definition c_search_n p := c_search_n_p p p.
  (** adjacent_find, algorithm.hpp:194-218 *)
  Definition c_adjacent_find p (fuel first last : nat) : M cmem nat :=
    if decide (first = last) then ret last else
    loop fuel (λ '(first, next),
      if decide (next = last) then ret (inr last) else
      let! x := qui (ard first) in
      let! y := qui (ard next) in
      let! b := call p (x, y) in
      if b : bool then ret (inr first) else ret (inl (S first, S next))) (first, S first).
  (** equal, three iterators, algorithm.hpp:220-236 *)
  Definition c_equal3 p (fuel first1 last1 first2 : nat) : M cmem bool :=
    loop fuel (λ '(first1, first2),
      if decide (first1 = last1) then ret (inr true) else
      let! x := qui (ard first1) in
      let! y := qui (ard first2) in
      let! b := call p (x, y) in
      if negb b then ret (inr false) else ret (inl (S first1, S first2))) (first1, first2).
  (** equal, four iterators, algorithm.hpp:238-254 *)
  Definition c_equal4 p (fuel first1 last1 first2 last2 : nat) : M cmem bool :=
    loop fuel (λ '(first1, first2),
      if decide (first1 ≠ last1 ∧ first2 ≠ last2) then
        let! x := qui (ard first1) in
        let! y := qui (ard first2) in
        let! b := call p (x, y) in
        if negb b then ret (inr false) else ret (inl (S first1, S first2))
      else ret (inr (bool_decide (first1 = last1) && bool_decide (first2 = last2)))) (first1, first2).
  (** mismatch, three iterators, algorithm.hpp:256-270 *)
  Definition c_mismatch3 p (fuel first1 last1 first2 : nat) : M cmem (nat * nat) :=
    loop fuel (λ '(first1, first2),
      if decide (first1 = last1) then ret (inr (first1, first2)) else
      let! x := qui (ard first1) in
      let! y := qui (ard first2) in
      let! b := call p (x, y) in
      if b : bool then ret (inl (S first1, S first2)) else ret (inr (first1, first2))) (first1, first2).
  (** mismatch, four iterators, algorithm.hpp:272-286 *)
  Definition c_mismatch4 p (fuel first1 last1 first2 last2 : nat) : M cmem (nat * nat) :=
    loop fuel (λ '(first1, first2),
      if decide (first1 = last1) then ret (inr (first1, first2)) else
      if decide (first2 = last2) then ret (inr (first1, first2)) else
      let! x := qui (ard first1) in
      let! y := qui (ard first2) in
      let! b := call p (x, y) in
      if b : bool then ret (inl (S first1, S first2)) else ret (inr (first1, first2))) (first1, first2).
  (** replace, algorithm.hpp:383-389 *)
  Definition c_replace p (fuel first last : nat) (oldval newval : cref A) : M cmem unit :=
    loop fuel (λ first,
      if decide (first = last) then ret (inr tt) else
      let! x := qui (ard first) in
      let! o := qui (cget oldval) in
      let! b := call p (x, o) in
      (if b : bool then let! n := qui (cget newval) in qui (awr first n) else ret tt) ;!
      ret (inl (S first))) first.
  (** replace_copy, algorithm.hpp:399-405 *)
  Definition c_replace_copy p (fuel first last d_first : nat) (oldval newval : cref A) : M cmem nat :=
    loop fuel (λ '(first, d_first),
      if decide (first = last) then ret (inr d_first) else
      let! x := qui (ard first) in
      let! o := qui (cget oldval) in
      let! b := call p (x, o) in
      let! y := qui (if b : bool then cget newval else ard first) in
      qui (awr d_first y) ;! ret (inl (S first, S d_first))) (first, d_first).
  (** remove_copy, algorithm.hpp:415-425 *)
  Definition c_remove_copy p (fuel first last d_first : nat) (value : cref A) : M cmem nat :=
    loop fuel (λ '(first, d_first),
      if decide (first = last) then ret (inr d_first) else
      let! x := qui (ard first) in
      let! v := qui (cget value) in
      let! b := call p (x, v) in
      if negb b then
        let! x := qui (ard first) in
        qui (awr d_first x) ;! ret (inl (S first, S d_first))
      else ret (inl (S first, d_first))) (first, d_first).
  (** remove, algorithm.hpp:439-451 *)
  Definition c_remove p (fuel first last : nat) (value : cref A) : M cmem nat :=
    let! first := c_find p fuel first last value in
    if decide (first = last) then ret first else
    loop fuel (λ '(first, i),
      let i := S i in
      if decide (i = last) then ret (inr first) else
      let! x := qui (ard i) in
      let! v := qui (cget value) in
      let! b := call p (x, v) in
      if negb b then
        qui (a_move moved first i) ;! ret (inl (S first, i))
      else ret (inl (first, i))) (first, first).
  (** transform, two ranges, algorithm.hpp:475-481 *)
  Definition c_transform2 (op : list (A * A) → A * A → A) (fuel first1 last1 first2 d_first : nat) : M cmem nat :=
    loop fuel (λ '(first1, first2, d_first),
      if decide (first1 = last1) then ret (inr d_first) else
      let! x := qui (ard first1) in
      let! y := qui (ard first2) in
      let! z := call op (x, y) in
      qui (awr d_first z) ;! ret (inl (S first1, S first2, S d_first))) (first1, first2, d_first).
  (** lower_bound, algorithm.hpp:502-538 *)
  Definition c_lower_bound p (fuel first last : nat) (value : cref A) : M cmem nat :=
    loop fuel (λ '(first, count),
      if decide (count > 0)%Z then
        let step := Z.quot count 2 in
        let it := (first + Z.to_nat step)%nat in
        let! x := qui (ard it) in
        let! v := qui (cget value) in
        let! b := call p (x, v) in
        if b : bool then ret (inl (S it, count - (step + 1))%Z) else ret (inl (first, step))
      else ret (inr first)) (first, to_int imax (Z.of_nat last - Z.of_nat first)).
  (** upper_bound, algorithm.hpp:540-576 *)
  Definition c_upper_bound p (fuel first last : nat) (value : cref A) : M cmem nat :=
    loop fuel (λ '(first, count),
      if decide (count > 0)%Z then
        let step := Z.quot count 2 in
        let it := (first + Z.to_nat step)%nat in
        let! x := qui (ard it) in
        let! v := qui (cget value) in
        let! b := call p (v, x) in
        if negb b then ret (inl (S it, count - (step + 1))%Z) else ret (inl (first, step))
      else ret (inr first)) (first, to_int imax (Z.of_nat last - Z.of_nat first)).
  (** binary_search, algorithm.hpp:578-590 *)
  Definition c_binary_search p (fuel first last : nat) (value : cref A) : M cmem bool :=
    let! first := c_lower_bound p fuel first last value in
    if decide (first = last) then ret false else
    let! v := qui (cget value) in
    let! x := qui (ard first) in
    let! b := call p (v, x) in
    ret (negb b).
  (** equal_range, algorithm.hpp:592-604 *)
  Definition c_equal_range p (fuel first last : nat) (value : cref A) : M cmem (nat * nat) :=
    let! low := c_lower_bound p fuel first last value in
    let! up := c_upper_bound p fuel low last value in
    ret (low, up).
  (** is_sorted_until, algorithm.hpp:610-624 *)
  Definition c_is_sorted_until p (fuel first last : nat) : M cmem nat :=
    if decide (first = last) then ret last else
    loop fuel (λ '(first, next),
      let next := S next in
      if decide (next = last) then ret (inr last) else
      let! y := qui (ard next) in
      let! x := qui (ard first) in
      let! b := call p (y, x) in
      if b : bool then ret (inr next) else ret (inl (next, next))) (first, first).
  (** is_sorted, algorithm.hpp:626-630 *)
  Definition c_is_sorted p (fuel first last : nat) : M cmem bool :=
    let! r := c_is_sorted_until p fuel first last in ret (bool_decide (r = last)).
  (** merge, algorithm.hpp:636-655 *)
  Definition c_merge p (fuel first1 last1 first2 last2 output : nat) : M cmem nat :=
    let! r := loop fuel (λ '(first1, first2, output),
      if decide (first1 = last1) then ret (inr (inr (first2, output))) else
      if decide (first2 = last2) then let! o := qui (a_copy fuel first1 last1 output) in ret (inr (inl o)) else
      let! y := qui (ard first2) in
      let! x := qui (ard first1) in
      let! b := call p (y, x) in
      if b : bool then
        let! y := qui (ard first2) in
        qui (awr output y) ;! ret (inl (first1, S first2, S output))
      else
        let! x := qui (ard first1) in
        qui (awr output x) ;! ret (inl (S first1, first2, S output))) (first1, first2, output) in
    match r with
    | inl o => ret o
    | inr (first2, output) => qui (a_copy fuel first2 last2 output)
    end.
  (** min, max, minmax, algorithm.hpp:660-694 *)
  Definition c_min p (a b : cref A) : M cmem (cref A) :=
    let! x := qui (cget a) in let! y := qui (cget b) in let! c := call p (x, y) in ret (if c : bool then a else b).
  Definition c_max p (a b : cref A) : M cmem (cref A) :=
    let! x := qui (cget a) in let! y := qui (cget b) in let! c := call p (x, y) in ret (if c : bool then b else a).
  Definition c_minmax p (a b : cref A) : M cmem (cref A * cref A) :=
    let! y := qui (cget b) in let! x := qui (cget a) in let! c := call p (y, x) in ret (if c : bool then (b, a) else (a, b)).
  (** min_element, algorithm.hpp:696-706 *)
  Definition c_min_element p (fuel first last : nat) : M cmem nat :=
    if decide (first = last) then ret last else
    loop fuel (λ '(first, smallest),
      if decide (first = last) then ret (inr smallest) else
      let! x := qui (ard first) in
      let! y := qui (ard smallest) in
      let! b := call p (x, y) in
      ret (inl (S first, if b : bool then first else smallest))) (S first, first).
  (** max_element, algorithm.hpp:708-718 *)
  Definition c_max_element p (fuel first last : nat) : M cmem nat :=
    if decide (first = last) then ret last else
    loop fuel (λ '(first, largest),
      if decide (first = last) then ret (inr largest) else
      let! y := qui (ard largest) in
      let! x := qui (ard first) in
      let! b := call p (y, x) in
      ret (inl (S first, if b : bool then first else largest))) (S first, first).
  (** minmax_element, algorithm.hpp:720-725 *)
  Definition c_minmax_element p (fuel first last : nat) : M cmem (nat * nat) :=
    let! a := c_min_element p fuel first last in
    let! b := c_max_element p fuel first last in
    ret (a, b).
End binary.
