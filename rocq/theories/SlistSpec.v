(** What the single-linked containers look like in memory, as exact heaps. *)
From Verif Require Export SlistModel Triple.

Section spec.
  Context {V : Type}.
  Notation heap := (gmap loc (cell V)).

  (** Address of the first node of [ns], or [q] if there is none. *)
  Definition first {A} (ns : list (loc * A)) (q : ptr) : ptr :=
    match ns with [] => q | (l, _) :: _ => Some l end.

  (** The memory made of the nodes [ns] (address and value state), each linked
      to the following one and the last one to [q] - and of nothing else. *)
  Fixpoint list_heap (ns : list (loc * slot V)) (q : ptr) : heap :=
    match ns with
    | [] => ∅
    | (l, s) :: r => <[l := Cell (first r q) s]> (list_heap r q)
    end.

  Definition live (xs : list (loc * V)) : list (loc * slot V) :=
    (λ x, (x.1, Live x.2)) <$> xs.

  (** A forward_list object at [this] that holds the elements [xs], given as
      (address of the node, value): exactly these pairwise distinct cells. *)
  Definition is_flist (this : loc) (xs : list (loc * V)) (h : heap) : Prop :=
    NoDup (this :: xs.*1) ∧ h = list_heap ((this, Hdr) :: live xs) None.

  (** The iterator reached from before_begin() by [i] increments:
      0 is before_begin(), [length xs + 1] is end() (null). *)
  Definition pos_at (this : loc) (xs : list (loc * V)) (i : nat) : ptr :=
    (this :: xs.*1) !! i.

  (** The reference argument [r] denotes the value [v]: an object elsewhere, or
      one of the elements [xs]. *)
  Definition refers (xs : list (loc * V)) (r : vref V) (v : V) : Prop :=
    match r with ExtVal v' => v' = v | InNode l => (l, v) ∈ xs end.

  Definition last_loc (this : loc) (xs : list (loc * V)) : loc :=
    default this (last xs.*1).

  (** A backward_list object (header address and [tail_]) in a usable state:
      [tail_] designates the last node, or the header when empty. *)
  Definition is_blist (b : blist) (xs : list (loc * V)) (h : heap) : Prop :=
    bl_tail b = Some (last_loc (bl_head b) xs) ∧ is_flist (bl_head b) xs h.

  (** A lazy_queue object with elements [xs] and pooled nodes [ds]. *)
  Definition dead (ds : list loc) : list (loc * slot V) := (λ l, (l, Raw)) <$> ds.
  Definition is_lqueue (q : lqueue) (xs : list (loc * V)) (ds : list loc) (h : heap) : Prop :=
    lq_tail q = Some (last_loc (lq_head q) xs) ∧
    NoDup (lq_head q :: xs.*1 ++ lq_dead q :: ds) ∧
    h = list_heap ((lq_head q, Hdr) :: live xs) None ∪
        list_heap ((lq_dead q, Hdr) :: dead ds) None.
End spec.
