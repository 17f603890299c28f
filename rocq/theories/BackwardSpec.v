(** A client program using two backward_lists, and what it must observe.

    [bl_step] is client code written against the modelled API; [bl_spec] is the
    corresponding operation on two plain sequences. [bl_ok] singles out the calls
    on which backward_list.hpp keeps [tail_] right; the others are the defects
    shown in BackwardExamples.v. *)
From Verif Require Export ForwardSpec HistoryV.

Section backward.
  Context {V : Type} (eqb : V → V → bool) `{Allocator (cell V)}.
  Notation heap := (gmap loc (cell V)).

  (** One call on a list ("this"), possibly involving another one ("other").
      Positions count increments from before_begin(). *)
  Inductive bl_op :=
    | BPushFront (v : V)
    | BPushFrontOwn (i : nat)            (* push_front(reference to own element i) *)
    | BPushBack (v : V)
    | BPushBackOwn (i : nat)
    | BPopFront
    | BInsertAfter (i : nat) (v : V)
    | BInsertAfterN (i n : nat) (v : V)
    | BInsertAfterOwn (i n j : nat)      (* insert_after(pos i, n, own element j) *)
    | BInsertAfterRange (i : nat) (vs : list V)
    | BEraseAfter (i : nat)
    | BEraseAfterRange (i j : nat)
    | BAssignN (n : nat) (v : V)
    | BAssign (vs : list V)
    | BClear
    | BReverse
    | BFront
    | BBack
    | BEmpty
    | BContents                          (* for (x : list) ... *)
    | BSwap
    | BAssignFrom                        (* this = other *)
    | BRecopy                            (* other is destroyed and re-created as a copy of this *)
    | BEqual.

  Definition bdone (o : blist) (m : M heap blist) : M heap (blist * blist * fl_out V) :=
    let! b := m in ret (b, o, ODone).

  Definition bl_step (fuel : nat) (this other : blist) (op : bl_op)
      : M heap (blist * blist * fl_out V) :=
    match op with
    | BPushFront v => bdone other (bl_push_front this (ExtVal v))
    | BPushFrontOwn i =>
        let! r := own_ref (bl_head this) i in bdone other (bl_push_front this r)
    | BPushBack v => bdone other (bl_push_back this (ExtVal v))
    | BPushBackOwn i =>
        let! r := own_ref (bl_head this) i in bdone other (bl_push_back this r)
    | BPopFront => bdone other (bl_pop_front this)
    | BInsertAfter i v =>
        let! p := fl_at (bl_head this) i in
        let! (b, q) := bl_insert_after this p (ExtVal v) in
        let! o := show_it q in ret (b, other, o)
    | BInsertAfterN i n v =>
        let! p := fl_at (bl_head this) i in
        bdone other (bl_insert_after_n this p n (ExtVal v))
    | BInsertAfterOwn i n j =>
        let! p := fl_at (bl_head this) i in
        let! r := own_ref (bl_head this) j in
        bdone other (bl_insert_after_n this p n r)
    | BInsertAfterRange i vs =>
        let! p := fl_at (bl_head this) i in
        bdone other (bl_insert_after_ext this p vs)
    | BEraseAfter i =>
        let! p := fl_at (bl_head this) i in
        let! (b, q) := bl_erase_after this p in
        let! o := show_it q in ret (b, other, o)
    | BEraseAfterRange i j =>
        let! p := fl_at (bl_head this) i in
        let! l := fl_at (bl_head this) j in
        let! (b, q) := bl_erase_after_range fuel this p l in
        let! o := show_it q in ret (b, other, o)
    | BAssignN n v => bdone other (bl_assign_n fuel this n (ExtVal v))
    | BAssign vs => bdone other (bl_assign_ext fuel this vs)
    | BClear => bdone other (bl_clear fuel this)
    | BReverse => bdone other (bl_reverse fuel this)
    | BFront => let! v := bl_front this in ret (this, other, OVal v)
    | BBack => let! v := bl_back this in ret (this, other, OVal v)
    | BEmpty => ret (this, other, OBool (bl_empty this))
    | BContents =>
        let! vs := fl_contents fuel (bl_head this) in ret (this, other, OSeq vs)
    | BSwap => let! (a, b) := bl_swap this other in ret (a, b, ODone)
    | BAssignFrom => bdone other (bl_assign_from fuel this other)
    | BRecopy =>
        bl_destroy fuel other ;!
        let! o := bl_copy fuel this in ret (this, o, ODone)
    | BEqual => let! b := bl_eq eqb fuel this other in ret (this, other, OBool b)
    end.

  (** The abstract operation; [None]: outside the documented preconditions. *)
  Definition bl_spec (xs ys : list V) (op : bl_op) : option (list V * list V * fl_out V) :=
    match op with
    | BPushFront v => Some (v :: xs, ys, ODone)
    | BPushFrontOwn i => v ← xs !! i; Some (v :: xs, ys, ODone)
    | BPushBack v => Some (xs ++ [v], ys, ODone)
    | BPushBackOwn i => v ← xs !! i; Some (xs ++ [v], ys, ODone)
    | BPopFront => match xs with [] => None | _ :: xs' => Some (xs', ys, ODone) end
    | BInsertAfter i v =>
        if decide (i ≤ length xs) then Some (take i xs ++ v :: drop i xs, ys, OVal v) else None
    | BInsertAfterN i n v =>
        if decide (i ≤ length xs)
        then Some (take i xs ++ replicate n v ++ drop i xs, ys, ODone) else None
    | BInsertAfterOwn i n j =>
        v ← xs !! j;
        if decide (i ≤ length xs)
        then Some (take i xs ++ replicate n v ++ drop i xs, ys, ODone) else None
    | BInsertAfterRange i vs =>
        if decide (i ≤ length xs) then Some (take i xs ++ vs ++ drop i xs, ys, ODone) else None
    | BEraseAfter i =>
        if decide (i < length xs)
        then Some (take i xs ++ drop (S i) xs, ys, show_nth xs (S i)) else None
    | BEraseAfterRange i j =>    (* the elements at positions i+1 .. j-1 *)
        if decide (i < j ≤ S (length xs))
        then Some (take i xs ++ drop (j - 1) xs, ys, show_nth xs (j - 1)) else None
    | BAssignN n v => Some (replicate n v, ys, ODone)
    | BAssign vs => Some (vs, ys, ODone)
    | BClear => Some ([], ys, ODone)
    | BReverse => Some (reverse xs, ys, ODone)
    | BFront => v ← head xs; Some (xs, ys, OVal v)
    | BBack => v ← last xs; Some (xs, ys, OVal v)
    | BEmpty => Some (xs, ys, OBool (bool_decide (xs = [])))
    | BContents => Some (xs, ys, OSeq xs)
    | BSwap => Some (ys, xs, ODone)
    | BAssignFrom => Some (ys, ys, ODone)
    | BRecopy => Some (xs, xs, ODone)
    | BEqual => Some (xs, ys, OBool (bool_decide (Forall2 (λ x y, eqb x y = true) xs ys)))
    end.

  (** The calls that leave [tail_] on the last node. *)
  Definition bl_ok (xs ys : list V) (op : bl_op) : Prop :=
    match op with
    | BPopFront => 2 ≤ length xs
    | BInsertAfterRange i vs => i < length xs ∨ vs = []
    | BAssign vs => vs = []
    | BReverse => xs ≠ []
    | BSwap => xs ≠ [] ∧ ys ≠ []
    | BAssignFrom => ys = []
    | BRecopy => xs = []
    | _ => True
    end.
  Global Instance bl_ok_dec xs ys op : Decision (bl_ok xs ys op).
  Proof. destruct op; simpl; try apply _; destruct xs, ys; solve_decision || apply _. Defined.
  Definition bl_spec_ok (xs ys : list V) (op : bl_op) : option (list V * list V * fl_out V) :=
    if decide (bl_ok xs ys op) then bl_spec xs ys op else None.
End backward.
Global Arguments bl_op : clear implicits.
