(** The two notions the heap theorems are stated with. Nothing here refers to
    the models or to the proof machinery of Sep.v. *)
From Verif Require Export Base.

Section triple.
  Context {C : Type}.
  Notation heap := (gmap loc C).

  (** [runs P m Q]: from every memory that contains a part [h] satisfying [P],
      whatever else ([hf]) it contains, [m] terminates without undefined
      behaviour, leaves all of [hf] untouched, and leaves in place of [h] a part
      [h'] that satisfies [Q] with the result of [m]. *)
  Definition runs {A} (P : heap → Prop) (m : M heap A) (Q : A → heap → Prop) : Prop :=
    ∀ h hf, P h → h ##ₘ hf →
      ∃ a h', m (h ∪ hf) = Ok (a, h' ∪ hf) ∧ h' ##ₘ hf ∧ Q a h'.

  (** [fails P m u]: from every such memory [m] has the undefined behaviour [u]. *)
  Definition fails {A} (P : heap → Prop) (m : M heap A) (u : ub) : Prop :=
    ∀ h hf, P h → h ##ₘ hf → m (h ∪ hf) = UB u.

  (** [hangs P m]: from every such memory [m] has not terminated when its fuel is used up
      (used with [m] a function of the fuel, for all large enough amounts). *)
  Definition hangs {A} (P : heap → Prop) (m : M heap A) : Prop :=
    ∀ h hf, P h → h ##ₘ hf → m (h ∪ hf) = NoFuel.

  (** Two disjoint pieces of memory. *)
  Definition both (P Q : heap → Prop) (h : heap) : Prop :=
    ∃ h1 h2, h = h1 ∪ h2 ∧ h1 ##ₘ h2 ∧ P h1 ∧ Q h2.

  (** No memory at all. *)
  Definition nothing (h : heap) : Prop := h = ∅.

  (** What a concrete run returns, and the number of cells it leaves behind. *)
  Definition outcome {A} (r : res (A * heap)) : res (A * nat) :=
    match r with Ok (a, h) => Ok (a, size h) | UB u => UB u | NoFuel => NoFuel end.
End triple.
