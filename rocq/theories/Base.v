(** Outcomes, the state/error monad, fuelled loops and the node heap.

    This file models no particular source line of /repo: it is the vocabulary in
    which the C++ functions are transcribed (see DESIGN.md, section 1). *)
From stdpp Require Export prelude gmap list.

(** Kinds of undefined behaviour / lifetime violations that the model reports. *)
Inductive ub :=
  | NullDeref        (* dereference of a null pointer *)
  | Dangling         (* access to a cell that is not allocated (freed or never there) *)
  | NoObject         (* read/assign/destroy of storage that holds no live object *)
  | LiveOverwrite    (* placement new over a live object *)
  | LeakedObject     (* release of storage that still holds a live object *)
  | OutOfBounds      (* access outside an array / range *)
  | BadCast          (* a bare header used as a value-carrying node *)
  | IntOverflow      (* overflow of a signed integer *).

(** Outcome of running a model function. [NoFuel] is "has not terminated within
    the given number of loop iterations". *)
Inductive res (A : Type) :=
  | Ok (a : A)
  | UB (u : ub)
  | NoFuel.
Global Arguments Ok {_} _.
Global Arguments UB {_} _.
Global Arguments NoFuel {_}.

Definition rbind {A B} (m : res A) (k : A → res B) : res B :=
  match m with Ok a => k a | UB u => UB u | NoFuel => NoFuel end.
Notation "'let?' x := m 'in' k" := (rbind m (λ x, k))
  (at level 200, x pattern, m at level 100, k at level 200, right associativity).

(** Stateful computations. *)
Definition M (S A : Type) := S → res (A * S).
Definition ret {S A} (a : A) : M S A := λ s, Ok (a, s).
Definition bind {S A B} (m : M S A) (k : A → M S B) : M S B :=
  λ s, match m s with Ok (a, s') => k a s' | UB u => UB u | NoFuel => NoFuel end.
Definition fail {S A} (u : ub) : M S A := λ _, UB u.
Notation "'let!' x := m 'in' k" := (bind m (λ x, k))
  (at level 200, x pattern, m at level 100, k at level 200, right associativity).
Notation "m ;! k" := (bind m (λ _, k)) (at level 100, k at level 200, right associativity).

(** [loop fuel body a]: run [body] repeatedly; [inl a'] = another iteration with
    loop variables [a'], [inr b] = leave the loop with [b]. *)
Fixpoint loop {S A B} (fuel : nat) (body : A → M S (A + B)) (a : A) : M S B :=
  match fuel with
  | 0 => λ _, NoFuel
  | Datatypes.S f =>
      let! r := body a in
      match r with inl a' => loop f body a' | inr b => ret b end
  end.

(** The same for computations without state. *)
Fixpoint rloop {A B} (fuel : nat) (body : A → res (A + B)) (a : A) : res B :=
  match fuel with
  | 0 => NoFuel
  | S f =>
      let? r := body a in
      match r with inl a' => rloop f body a' | inr b => Ok b end
  end.

(** Addresses and pointers. *)
Notation loc := positive.
Notation ptr := (option positive).      (* None is the null pointer *)

(** An allocator returns some address that is not in use. Which one is left
    open: the theorems quantify over all of them (address reuse included). *)
Class Allocator (C : Type) := {
  alloc_addr : gmap loc C → loc;
  alloc_addr_fresh : ∀ h, h !! alloc_addr h = None
}.

(** One concrete allocator, used only by examples and counterexamples. *)
Definition bump_addr {C} (h : gmap loc C) : loc :=
  Pos.succ (map_fold (λ l _ m, Pos.max l m) 1%positive h).
Lemma bump_addr_fresh {C} (h : gmap loc C) : h !! bump_addr h = None.
Proof.
  unfold bump_addr.
  assert (∀ l, is_Some (h !! l) →
     (l <= map_fold (λ l _ m, Pos.max l m) 1%positive h)%positive) as Hmax.
  { apply (map_fold_ind (λ m (h : gmap loc C), ∀ l, is_Some (h !! l) → (l <= m)%positive)).
    - intros l [x Hx]. by rewrite lookup_empty in Hx.
    - intros l x m r Hl IH l' [x' Hx'].
      destruct (decide (l = l')) as [->|Hne]; [lia|].
      rewrite lookup_insert_ne in Hx' by done.
      specialize (IH l' ltac:(eauto)). lia. }
  destruct (h !! _) eqn:E; [|done].
  specialize (Hmax _ ltac:(eauto)). lia.
Qed.
Definition bump_allocator C : Allocator C :=
  {| alloc_addr := bump_addr; alloc_addr_fresh := bump_addr_fresh |}.

Section heap_ops.
  Context {C : Type}.
  Notation heap := (gmap loc C).

  (** Read the cell at [l]. *)
  Definition load (l : loc) : M heap C := λ h,
    match h !! l with Some c => Ok (c, h) | None => UB Dangling end.
  (** Write (part of) the cell at [l]: the cell must exist. *)
  Definition modify (l : loc) (f : C → C) : M heap unit := λ h,
    match h !! l with Some c => Ok (tt, <[l := f c]> h) | None => UB Dangling end.
  (** [new]: a new cell with content [c]. *)
  Definition allocate `{Allocator C} (c : C) : M heap loc := λ h,
    Ok (alloc_addr h, <[alloc_addr h := c]> h).
  (** [delete]: the cell must exist. *)
  Definition deallocate (l : loc) : M heap unit := λ h,
    match h !! l with Some c => Ok (tt, delete l h) | None => UB Dangling end.
  (** The address a pointer designates, if it is not null. *)
  Definition addr (p : ptr) : M heap loc :=
    match p with Some l => ret l | None => fail NullDeref end.
  Definition loadp (p : ptr) : M heap C := let! l := addr p in load l.
  Definition modifyp (p : ptr) (f : C → C) : M heap unit := let! l := addr p in modify l f.
End heap_ops.
