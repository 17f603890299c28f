(** The number of memory accesses of a call. Models no line of /repo: it is the measure in which the
    complexity claims are stated.

    One access is one read or one write of one cell of memory (a node of a list or tree with its
    links and its value, an element of an array, the members of an object), one [new] or one
    [delete]. Every pass of a loop of the containers makes at least one, every comparison of keys is
    preceded by at least one, so the running time of a call is this number up to a constant factor
    (and the cost of the client's comparisons, copies and destructors). *)
From Verif Require Export Threads.

(** The number of accesses the program [p] (Threads.v) makes when it runs alone from memory [h]. *)
Fixpoint accesses {C A} (al : Allocator C) (p : prog C A) (h : gmap loc C) : nat :=
  match p with
  | PRet _ | PUB _ | PNoFuel => 0
  | PLoad l k => S (match h !! l with Some c => accesses al (k c) h | None => 0 end)
  | PModify l f k => S (match h !! l with Some c => accesses al k (<[l := f c]> h) | None => 0 end)
  | PAlloc c k => let l := @alloc_addr _ al h in S (accesses al (k l) (<[l := c]> h))
  | PFree l k => S (match h !! l with Some c => accesses al k (delete l h) | None => 0 end)
  end.

(** [takes_at_most n P m]: from any memory with a part satisfying [P], wherever [new] puts new cells,
    [m] returns - it has no undefined behaviour and does not hang - after at most [n] accesses. (What
    it returns and what is in memory then is the subject of other theorems.) *)
Definition takes_at_most {C A} (n : nat) (P : gmap loc C → Prop) (m : Allocator C → M (gmap loc C) A) : Prop :=
  ∃ p, performs m p ∧
    ∀ al h hf, P h → h ##ₘ hf → ∃ r h', m al (h ∪ hf) = Ok (r, h') ∧ accesses al p (h ∪ hf) ≤ n.
(** [takes_at_least n P m]: no execution from such a memory makes fewer than [n] accesses. *)
Definition takes_at_least {C A} (n : nat) (P : gmap loc C → Prop) (m : Allocator C → M (gmap loc C) A) : Prop :=
  ∃ p, performs m p ∧ ∀ al h hf, P h → h ##ₘ hf → n ≤ accesses al p (h ∪ hf).
