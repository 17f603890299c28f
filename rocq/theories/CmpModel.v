(** rbtree.hpp, map.hpp and set.hpp again, with a Compare and a == of the keys that may throw an
    exception. The calls of both are numbered; the answer to a call may depend on its number, [None]
    means that it throws. The exception leaves the member function at once, so memory stays as it is at
    that moment. Otherwise everything is as in RbModel.v. *)
From Verif Require Export RbModel.

Section monad.
  Context {S : Type}.
  (** Member functions that call function objects: from the number of calls made so far to the
      result, [None] if an exception left the function, and the number of calls made. *)
  Definition T (A : Type) := nat → M S (option (A * nat)).
  Definition tret {A} (a : A) : T A := λ c, ret (Some (a, c)).
  Definition tbind {A B} (p : T A) (k : A → T B) : T B := λ c,
    let! r := p c in
    match r with None => ret None | Some (a, c) => k a c end.
  (** statements that call no function object *)
  Definition tdo {A} (m : M S A) : T A := λ c, let! a := m in ret (Some (a, c)).
  (** a call of a function object, [f] being its answers *)
  Definition tcall {A} (f : nat → option A) : T A := λ c,
    ret (match f c with None => None | Some a => Some (a, Datatypes.S c) end).
  Fixpoint tloop {A B} (fuel : nat) (body : A → T (A + B)) (a : A) : T B :=
    match fuel with
    | 0 => λ _ _, NoFuel
    | Datatypes.S fuel => tbind (body a) (λ r, match r with inl a => tloop fuel body a | inr b => tret b end)
    end.
End monad.
Global Arguments T : clear implicits.
Notation "'let@' x := m 'in' k" := (tbind m (λ x, k))
  (at level 200, x pattern, m at level 100, k at level 200, right associativity).
Notation "m ;@ k" := (tbind m (λ _, k)) (at level 100, k at level 200, right associativity).

Section rb.
  Context {K V : Type} `{Allocator (rbcell V)}.
  Context (keyof : V → K) (ltf eqf : nat → K → K → option bool).
  Notation heap := (gmap loc (rbcell V)).
  Notation TM := (T heap).

  (** rbtree.hpp 370-386 *)
  Definition xrb_find (fuel : nat) (hdr : loc) (key : K) : TM ptr :=
    let@ root := tdo (getf parent (Some hdr)) in
    let@ n := tloop fuel (λ n,
      match n with
      | None => tret (inr None)
      | Some _ =>
          let@ d := tdo (node_data n) in
          let nkey := keyof d in
          let@ isless := tcall (λ c, ltf c key nkey) in
          if isless : bool then let@ l := tdo (getf left n) in tret (inl l)
          else
            let@ e := tcall (λ c, eqf c key nkey) in
            if e : bool then tret (inr n)
            else let@ r := tdo (getf right n) in tret (inl r)
      end) root in
    tret (if nonnull n then n else Some hdr).

  (** rbtree.hpp 388-402 *)
  Definition xrb_lower_bound (fuel : nat) (hdr : loc) (key : K) : TM ptr :=
    let@ root := tdo (getf parent (Some hdr)) in
    tloop fuel (λ '(n, prev),
      match n with
      | None => tret (inr prev)
      | Some _ =>
          let@ d := tdo (node_data n) in
          let@ isless := tcall (λ c, ltf c (keyof d) key) in
          if isless : bool then let@ r := tdo (getf right n) in tret (inl (r, prev))
          else let@ l := tdo (getf left n) in tret (inl (l, n))
      end) (root, Some hdr).

  (** rbtree.hpp 440-461 *)
  Definition xrb_insert_unique (fuel : nat) (hdr : loc) (v : V) : TM (ptr * bool) :=
    let key := keyof v in
    let@ r := tloop fuel (λ '(par, e),
      let@ p := tdo (get_edge e) in
      match p with
      | None => tret (inr (inl (par, e)))
      | Some a =>
          let@ d := tdo (node_data p) in
          let ekey := keyof d in
          let@ isless := tcall (λ c, ltf c key ekey) in
          if isless : bool then tret (inl (p, ELeft a))
          else
            let@ eq := tcall (λ c, eqf c key ekey) in
            if eq : bool then tret (inr (inr p)) else tret (inl (p, ERight a))
      end) (Some hdr, EParent hdr) in
    match r with
    | inr p => tret (p, false)
    | inl (par, e) => let@ n := tdo (rb_attach fuel hdr e par v) in tret (n, true)
    end.

  (** rbtree.hpp 463-527; the comparison after move_right (496) is made although its result is not
      used. *)
  Definition xrb_remove (fuel : nat) (hdr : loc) (key : K) : TM ptr :=
    let@ (par, deleted) := tloop fuel (λ '(root, par),
      let@ r := tdo (get_edge root) in
      match r with
      | None => tret (inr (par, None))
      | Some _ =>
          let@ par := tdo (getf parent r) in
          let@ d := tdo (node_data r) in
          let@ isless := tcall (λ c, ltf c key (keyof d)) in
          if isless : bool then
            let@ l := tdo (getf left r) in
            let@ b := tdo (some_both_black l) in
            tdo (if b : bool then let! r' := move_left r in set_edge root r' else ret tt) ;@
            let@ r := tdo (get_edge root) in
            let@ a := tdo (addr r) in
            tret (inl (ELeft a, par))
          else
            let@ l := tdo (getf left r) in
            let@ lr := tdo (is_red l) in
            let@ isless :=
              (if lr : bool then
                 let@ r' := tdo (rotate_right r) in
                 tdo (set_edge root r') ;@
                 let@ r := tdo (get_edge root) in
                 let@ d := tdo (node_data r) in
                 tcall (λ c, ltf c key (keyof d))
               else tret isless) in
            let@ r := tdo (get_edge root) in
            let@ found :=
              (if negb isless then
                 let@ d := tdo (node_data r) in
                 let@ eq := tcall (λ c, eqf c key (keyof d)) in
                 if eq : bool then let@ rr := tdo (getf right r) in tret (negb (nonnull rr))
                 else tret false
               else tret false) in
            if found : bool then
              let@ deleted := tdo (get_edge root) in
              tdo (set_edge root None) ;@
              tret (inr (par, deleted))
            else
              let@ rr := tdo (getf right r) in
              let@ b := tdo (some_both_black rr) in
              (if b : bool then
                 let@ r' := tdo (move_right r) in
                 tdo (set_edge root r') ;@
                 let@ r := tdo (get_edge root) in
                 let@ d := tdo (node_data r) in
                 tcall (λ c, ltf c key (keyof d))
               else tret false) ;@
              let@ r := tdo (get_edge root) in
              let@ d := tdo (node_data r) in
              let@ eq := tcall (λ c, eqf c key (keyof d)) in
              if eq : bool then
                let@ deleted := tdo (rb_replace_by_min fuel hdr root) in
                let@ par := tdo (get_edge root) in
                tret (inr (par, deleted))
              else
                let@ a := tdo (addr r) in
                tret (inl (ERight a, par))
      end) (EParent hdr, Some hdr) in
    tdo (climb_fixup fuel hdr par) ;@
    let@ root := tdo (getf parent (Some hdr)) in
    tdo (if nonnull root then setf (set_red false) root else ret tt) ;@
    tret deleted.

  (** map.hpp 189-193, set.hpp 177-181 *)
  Definition xm_insert (fuel : nat) (this : loc) (v : V) : TM (ptr * bool) := xrb_insert_unique fuel this v.
  (** map.hpp 251-257, set.hpp 228-234 *)
  Fixpoint xm_insert_range (fuel : nat) (this : loc) (vs : list V) : TM unit :=
    match vs with
    | [] => tret tt
    | v :: vs => xrb_insert_unique fuel this v ;@ xm_insert_range fuel this vs
    end.
  (** map.hpp 221-226, set.hpp 198-203 *)
  Definition xm_erase (fuel : nat) (this : loc) (key : K) : TM nat :=
    let@ n := xrb_remove fuel this key in
    tdo (delete_rbnode n) ;@
    tret (if nonnull n then 1 else 0).
  (** map.hpp 236-242, set.hpp 213-219 *)
  Definition xm_find (fuel : nat) (this : loc) (key : K) : TM ptr := xrb_find fuel this key.
  Definition xm_count (fuel : nat) (this : loc) (key : K) : TM nat :=
    let@ n := xrb_find fuel this key in
    tret (if bool_decide (n ≠ Some this) then 1 else 0).
  Definition xm_lower_bound (fuel : nat) (this : loc) (key : K) : TM ptr := xrb_lower_bound fuel this key.
  (** map.hpp 273-288, set.hpp 250-265 *)
  Definition xm_upper_bound (fuel : nat) (this : loc) (key : K) : TM ptr :=
    let@ lo := xrb_lower_bound fuel this key in
    tdo (if decide (lo = Some this) then ret (m_end this) else next_node fuel lo).
  (** map.hpp 290-309, set.hpp 267-286 *)
  Definition xm_equal_range (fuel : nat) (this : loc) (key : K) : TM (ptr * ptr) :=
    let@ lo := xrb_lower_bound fuel this key in
    let@ up := tdo (if decide (lo ≠ Some this) then next_node fuel lo else ret lo) in
    tret (lo, up).
End rb.

Section map.
  Context {K M : Type} `{Allocator (rbcell (K * M))} (ltf eqf : nat → K → K → option bool).
  (** operator[]: map.hpp 198-204 *)
  Definition xm_index (dflt : M) (fuel : nat) (this : loc) (key : K) : T (gmap loc (rbcell (K * M))) ptr :=
    let@ n := xrb_find fst ltf eqf fuel this key in
    if decide (n = Some this) then
      let@ (n', _) := xrb_insert_unique fst ltf eqf fuel this (key, dflt) in tret n'
    else tret n.
  (** at: map.hpp 206-207 *)
  Definition xm_at (fuel : nat) (this : loc) (key : K) : T (gmap loc (rbcell (K * M))) M :=
    let@ n := xrb_find fst ltf eqf fuel this key in
    let@ d := tdo (node_data n) in tret d.2.
End map.
