(** Threads: programs as sequences of memory accesses, and what it means for several of them to run
    at the same time. Models no line of /repo: it is the environment a client program runs in.

    One step of a thread is one access to one cell of memory, one [new] or one [delete]; the steps
    of the threads are interleaved in any order (sequential consistency, which C++ guarantees to
    programs without data races - and that there are none is part of the theorems). [new] may
    return any address that is not in use, a different one at each call: unlike [Allocator], it is
    not a function of the memory. *)
From Verif Require Export Triple.

Inductive prog (C A : Type) : Type :=
  | PRet (a : A)                              (* finished with result a *)
  | PUB (u : ub)                              (* undefined behaviour other than a bad access *)
  | PNoFuel                                   (* a loop has used up its fuel *)
  | PLoad (l : loc) (k : C → prog C A)
  | PModify (l : loc) (f : C → C) (k : prog C A)
  | PAlloc (c : C) (k : loc → prog C A)
  | PFree (l : loc) (k : prog C A).
Global Arguments PRet {_ _} _.
Global Arguments PUB {_ _} _.
Global Arguments PNoFuel {_ _}.
Global Arguments PLoad {_ _} _ _.
Global Arguments PModify {_ _} _ _ _.
Global Arguments PAlloc {_ _} _ _.
Global Arguments PFree {_ _} _ _.

(** First [p], then [k] with its result. *)
Fixpoint pbind {C A B} (p : prog C A) (k : A → prog C B) : prog C B :=
  match p with
  | PRet a => k a
  | PUB u => PUB u
  | PNoFuel => PNoFuel
  | PLoad l q => PLoad l (λ c, pbind (q c) k)
  | PModify l f q => PModify l f (pbind q k)
  | PAlloc c q => PAlloc c (λ l, pbind (q l) k)
  | PFree l q => PFree l (pbind q k)
  end.

(** [performs m p]: the program [p] is the model function [m] (for any allocator), access by
    access. *)
Inductive performs {C : Type} : ∀ {A : Type}, (Allocator C → M (gmap loc C) A) → prog C A → Prop :=
  | perf_ret A (a : A) : performs (λ _, ret a) (PRet a)
  | perf_fail A u : performs (λ _, fail (A:=A) u) (PUB u)
  | perf_nofuel A : performs (λ _ _, NoFuel (A:=A * gmap loc C)) PNoFuel
  | perf_load l : performs (λ _, load l) (PLoad l PRet)
  | perf_modify l f : performs (λ _, modify l f) (PModify l f (PRet tt))
  | perf_alloc c : performs (λ al, @allocate C al c) (PAlloc c PRet)
  | perf_free l : performs (λ _, deallocate l) (PFree l (PRet tt))
  | perf_bind A B (m : Allocator C → M (gmap loc C) A) (k : Allocator C → A → M (gmap loc C) B) p q :
      performs m p → (∀ a, performs (λ al, k al a) (q a)) →
      performs (λ al, bind (m al) (k al)) (pbind p q).

Section threads.
  Context {C A : Type}.
  Notation heap := (gmap loc C).
  Notation prog := (prog C A).

  (** One step of one thread. *)
  Inductive pstep : heap → prog → heap → prog → Prop :=
    | ps_load h l k c : h !! l = Some c → pstep h (PLoad l k) h (k c)
    | ps_modify h l f k c : h !! l = Some c → pstep h (PModify l f k) (<[l := f c]> h) k
    | ps_alloc h c k l : h !! l = None → pstep h (PAlloc c k) (<[l := c]> h) (k l)
    | ps_free h l k c : h !! l = Some c → pstep h (PFree l k) (delete l h) k.
  (** One step of some thread of the pool. *)
  Inductive tstep : heap * list prog → heap * list prog → Prop :=
    | ts i h p h' p' ps : ps !! i = Some p → pstep h p h' p' → tstep (h, ps) (h', <[i := p']> ps).

  (** The cell the next step of a thread accesses, and whether it only reads. *)
  Definition next_access (p : prog) : option (loc * bool) :=
    match p with
    | PLoad l _ => Some (l, true)
    | PModify l _ _ | PFree l _ => Some (l, false)
    | PRet _ | PUB _ | PNoFuel | PAlloc _ _ => None
    end.
  (** Two threads are about to access the same cell, and not both to read it. *)
  Definition data_race (ps : list prog) : Prop :=
    ∃ i j p q l r r', i ≠ j ∧ ps !! i = Some p ∧ ps !! j = Some q ∧
      next_access p = Some (l, r) ∧ next_access q = Some (l, r') ∧ (r && r' = false).
  Definition finished (p : prog) : Prop := ∃ a, p = PRet a.
  (** Neither finished nor able to go on: undefined behaviour (or out of fuel). *)
  Definition stuck (h : heap) (p : prog) : Prop :=
    ¬ finished p ∧ ∀ h' p', ¬ pstep h p h' p'.

  (** Whatever the schedule and the addresses chosen by [new]: no data race, no undefined behaviour, all
      threads terminate, and then thread number i has the result number i and the memory is [Q]. *)
  Definition every_schedule (h0 : heap) (ps : list prog) (rs : list A) (Q : heap → Prop) : Prop :=
    Acc (λ c' c, tstep c c') (h0, ps) ∧
    ∀ h ps', rtc tstep (h0, ps) (h, ps') →
      ¬ data_race ps' ∧
      (∀ i p, ps' !! i = Some p → ¬ stuck h p) ∧
      (Forall finished ps' → ps' = PRet <$> rs ∧ Q h).
End threads.
