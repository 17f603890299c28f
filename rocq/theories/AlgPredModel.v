(** The algorithms of algorithm.hpp that take one function object, again, with function objects that
    may throw an exception and that may keep state: the answer to a call depends on its number and on
    the element; [None] means that the call throws. Function objects are passed by value: each
    algorithm works on its own copy, whose calls are counted from 0. An exception leaves the algorithm
    at once, so memory stays as it is at that moment; a result [None] of an algorithm says that an
    exception left it. Otherwise everything is as in AlgModel.v. *)
From Verif Require Export AlgModel.
From Coq Require Import ZArith.

Section algorithms.
  Context {A : Type} (moved : A → A) (imax : Z).
  Notation amem := (amem A).
  Notation cref := (cref A).

  (** find_if, algorithm.hpp:43-50 *)
  Definition x_find_if (fuel first last : nat) (p : nat → A → option bool) : M amem (option nat) :=
    loop fuel (λ '(c, first),
      if decide (first = last) then ret (inr (Some last)) else
      let! x := ard first in
      match p c x with
      | None => ret (inr None)
      | Some b => if b : bool then ret (inr (Some first)) else ret (inl (S c, S first))
      end) (0, first).
  (** find_if_not, algorithm.hpp:52-59 *)
  Definition x_find_if_not (fuel first last : nat) (p : nat → A → option bool) : M amem (option nat) :=
    loop fuel (λ '(c, first),
      if decide (first = last) then ret (inr (Some last)) else
      let! x := ard first in
      match p c x with
      | None => ret (inr None)
      | Some b => if negb b then ret (inr (Some first)) else ret (inl (S c, S first))
      end) (0, first).
  (** count_if, algorithm.hpp:165-173 *)
  Definition x_count_if (fuel first last : nat) (p : nat → A → option bool) : M amem (option Z) :=
    loop fuel (λ '(k, first, c),
      if decide (first = last) then ret (inr (Some c)) else
      let! x := ard first in
      match p k x with
      | None => ret (inr None)
      | Some b =>
          if b : bool then let! c := int_incr imax c in ret (inl (S k, S first, c))
          else ret (inl (S k, S first, c))
      end) (0, first, 0%Z).
  (** all_of, any_of, none_of, algorithm.hpp:175-191 *)
  Definition x_all_of (fuel first last : nat) (p : nat → A → option bool) : M amem (option bool) :=
    let! i := x_find_if_not fuel first last p in
    ret (match i with None => None | Some i => Some (bool_decide (i = last)) end).
  Definition x_any_of (fuel first last : nat) (p : nat → A → option bool) : M amem (option bool) :=
    let! i := x_find_if fuel first last p in
    ret (match i with None => None | Some i => Some (bool_decide (i ≠ last)) end).
  Definition x_none_of (fuel first last : nat) (p : nat → A → option bool) : M amem (option bool) :=
    let! i := x_find_if fuel first last p in
    ret (match i with None => None | Some i => Some (bool_decide (i = last)) end).
  (** copy_if, algorithm.hpp:340-350 *)
  Definition x_copy_if (p : nat → A → option bool) (fuel first last d_first : nat) : M amem (option nat) :=
    loop fuel (λ '(c, first, d_first),
      if decide (first = last) then ret (inr (Some d_first)) else
      let! x := ard first in
      match p c x with
      | None => ret (inr None)
      | Some b =>
          if b : bool then
            let! x := ard first in
            awr d_first x ;! ret (inl (S c, S first, S d_first))
          else ret (inl (S c, S first, d_first))
      end) (0, first, d_first).
  (** replace_if, algorithm.hpp:391-397 *)
  Definition x_replace_if (p : nat → A → option bool) (fuel first last : nat) (newval : cref) : M amem (option unit) :=
    loop fuel (λ '(c, first),
      if decide (first = last) then ret (inr (Some tt)) else
      let! x := ard first in
      match p c x with
      | None => ret (inr None)
      | Some b =>
          (if b : bool then let! n := cget newval in awr first n else ret tt) ;!
          ret (inl (S c, S first))
      end) (0, first).
  (** remove_copy_if, algorithm.hpp:427-437 *)
  Definition x_remove_copy_if (p : nat → A → option bool) (fuel first last d_first : nat) : M amem (option nat) :=
    loop fuel (λ '(c, first, d_first),
      if decide (first = last) then ret (inr (Some d_first)) else
      let! x := ard first in
      match p c x with
      | None => ret (inr None)
      | Some b =>
          if negb b then
            let! x := ard first in
            awr d_first x ;! ret (inl (S c, S first, S d_first))
          else ret (inl (S c, S first, d_first))
      end) (0, first, d_first).
  (** remove_if, algorithm.hpp:453-465: find_if works on a copy of [p] *)
  Definition x_remove_if (p : nat → A → option bool) (fuel first last : nat) : M amem (option nat) :=
    let! first := x_find_if fuel first last p in
    match first with
    | None => ret None
    | Some first =>
        if decide (first = last) then ret (Some first) else
        loop fuel (λ '(c, first, i),
          let i := S i in
          if decide (i = last) then ret (inr (Some first)) else
          let! x := ard i in
          match p c x with
          | None => ret (inr None)
          | Some b =>
              if negb b then a_move moved first i ;! ret (inl (S c, S first, i))
              else ret (inl (S c, first, i))
          end) (0, first, first)
    end.
End algorithms.
