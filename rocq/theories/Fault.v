(** Running out of memory. Models no line of /repo: it is the environment a client program runs in.

    Any [new] (or [operator new]) inside a call may throw std::bad_alloc instead of returning, and so
    may the copy constructor of T that a [new node(value)] runs - in that case the new-expression
    gives the storage back, so the effect is the same (not so in the placement new of vector,
    fixed_vector and lazy_queue: see ThrowModel.v and ThrowLqModel.v). The containers contain no handlers: the
    exception leaves the call at once and memory stays as it was at that point. The client catches
    the exception and goes on using the two containers. README: "designed to work in conditions of
    constrained resources". *)
From Verif Require Export Clients.

(** A program (Threads.v) that is about to execute a [new]. *)
Definition at_new {C A} (p : prog C A) : Prop := ∃ c k, p = PAlloc c k.
(** Any number of steps of one program that runs alone. *)
Definition psteps {C A} (h : gmap loc C) (p : prog C A) (h' : gmap loc C) (p' : prog C A) : Prop :=
  rtc (λ x y, pstep x.1 x.2 y.1 y.2) (h, p) (h', p').

(** [runs_or_throws P m Q X]: the model function [m], run from any memory with a part satisfying [P],
    whatever addresses [new] returns: never has undefined behaviour; if it returns, the part has been
    replaced by one that satisfies [Q] with the result; if one of its [new]s throws, by one that
    satisfies [X]; and the rest of the memory ([hf]) is untouched in both cases. (A program is a
    well-founded tree of accesses, so it cannot run forever; running out of fuel would be [stuck].) *)
Definition runs_or_throws {C A} (P : gmap loc C → Prop) (m : Allocator C → M (gmap loc C) A)
    (Q : A → gmap loc C → Prop) (X : gmap loc C → Prop) : Prop :=
  ∃ p, performs m p ∧
    ∀ h hf h1 p', P h → h ##ₘ hf → psteps (h ∪ hf) p h1 p' →
      ¬ stuck h1 p' ∧
      (∀ r, p' = PRet r → ∃ h', h1 = h' ∪ hf ∧ h' ##ₘ hf ∧ Q r h') ∧
      (at_new p' → ∃ h', h1 = h' ∪ hf ∧ h' ##ₘ hf ∧ X h').

(** [can_throw P m X]: from every memory that satisfies [P], some execution of [m] reaches a [new]
    (which may throw) with a memory that satisfies [X]. Used to show that a contract is violated. *)
Definition can_throw {C A} (P : gmap loc C → Prop) (m : Allocator C → M (gmap loc C) A)
    (X : gmap loc C → Prop) : Prop :=
  ∃ p, performs m p ∧ ∀ h, P h → ∃ h1 p', psteps h p h1 p' ∧ at_new p' ∧ X h1.

Section fault.
  Context {C Hd St Op Out : Type}.
  Notation heap := (gmap loc C).
  Context (new : Allocator C → M heap Hd) (destroy : Allocator C → nat → Hd → M heap unit)
          (step : Allocator C → nat → Hd → Hd → Op → M heap (Hd * Hd * Out))
          (init : St) (spec : St → St → Op → option (St * St * Out)) (fin : St → Prop).
  (** [aborted s o op s' o']: what the two containers may hold after the call has thrown;
      [members a b op]: the members of the two objects (outside the heap) at that point. *)
  Context (aborted : St → St → Op → St → St → Prop) (members : Hd → Hd → Op → Hd * Hd).

  (** The objects [a] and [b], holding [s] and [o], own the memory [h]; the calls [ops] follow, each
      of which may throw. Every call that returns observes what [spec] prescribes; if it throws
      instead, the containers hold contents allowed by [aborted]; there is no undefined behaviour;
      and when both are destroyed at the end, nothing is left in memory. *)
  Fixpoint survives (ops : list (bool * Op)) (h : heap) (a b : Hd) (s o : St) : Prop :=
    match ops with
    | [] => fin s → fin o → ∃ F, ∀ fuel al, F ≤ fuel →
        runs (λ h', h' = h) (destroy al fuel a ;! destroy al fuel b) (λ _, nothing)
    | (false, op) :: ops =>
        ∀ s' o' out, spec s o op = Some (s', o', out) →
          ∃ F, ∀ fuel, F ≤ fuel →
            runs_or_throws (λ h', h' = h) (λ al, step al fuel a b op)
              (λ r h', r.2 = out ∧ survives ops h' r.1.1 r.1.2 s' o')
              (λ h', ∃ s1 o1, aborted s o op s1 o1 ∧
                 survives ops h' (members a b op).1 (members a b op).2 s1 o1)
    | (true, op) :: ops =>
        ∀ o' s' out, spec o s op = Some (o', s', out) →
          ∃ F, ∀ fuel, F ≤ fuel →
            runs_or_throws (λ h', h' = h) (λ al, step al fuel b a op)
              (λ r h', r.2 = out ∧ survives ops h' r.1.2 r.1.1 s' o')
              (λ h', ∃ o1 s1, aborted o s op o1 s1 ∧
                 survives ops h' (members b a op).2 (members b a op).1 s1 o1)
    end.
  (** A program that constructs two containers and then makes the calls [ops]. *)
  Definition survives_failures (ops : list (bool * Op)) : Prop :=
    ∀ al, runs nothing (let! a := new al in let! b := new al in ret (a, b))
      (λ '(a, b) h, survives ops h a b init init).
End fault.
