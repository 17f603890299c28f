(** What a map / set / red-black tree object looks like in memory, and the
    order-theoretic vocabulary of the map properties. *)
From Verif Require Export RbModel Triple.
From Coq Require Export Sorted.

Section spec.
  Context {V : Type}.
  Notation heap := (gmap loc (rbcell V)).

  (** A binary tree of nodes: colour (true = red), address, stored value. *)
  Inductive tree := Leaf | Node (c : bool) (l : tree) (n : loc) (v : V) (r : tree).

  (** Its nodes from left to right: (address, value). *)
  Fixpoint elems (t : tree) : list (loc * V) :=
    match t with
    | Leaf => []
    | Node _ l n v r => elems l ++ (n, v) :: elems r
    end.
  Definition rootp (t : tree) : ptr := match t with Leaf => None | Node _ _ n _ _ => Some n end.
  Definition isred (t : tree) : bool := match t with Leaf => false | Node c _ _ _ _ => c end.

  (** The memory made of exactly the nodes of [t], properly linked in both
      directions, the root pointing back to [par]. *)
  Fixpoint tree_heap (par : loc) (t : tree) : heap :=
    match t with
    | Leaf => ∅
    | Node c l n v r =>
        <[n := Rb (Some par) (rootp l) (rootp r) c (Some v)]>
          (tree_heap n l ∪ tree_heap n r)
    end.

  (** Left-leaning red-black tree with [n] black nodes on every path: no red
      right child, no red node with a red child. *)
  Fixpoint balanced (t : tree) (n : nat) : Prop :=
    match t with
    | Leaf => n = 0
    | Node true l _ _ r => isred l = false ∧ isred r = false ∧ balanced l n ∧ balanced r n
    | Node false l _ _ r =>
        isred r = false ∧ match n with 0 => False | S m => balanced l m ∧ balanced r m end
    end.

  (** Longest path. *)
  Fixpoint height (t : tree) : nat :=
    match t with Leaf => 0 | Node _ l _ _ r => S (Nat.max (height l) (height r)) end.

  (** The container object at [this] stores the tree [t], and owns exactly its
      header and the nodes of [t]. *)
  Definition holds_tree (this : loc) (t : tree) (h : heap) : Prop :=
    isred t = false ∧ (∃ n, balanced t n) ∧
    NoDup (this :: (elems t).*1) ∧
    h = <[this := Rb (rootp t) None None true None]> (tree_heap this t).

  (** ... stores the elements [xs], from left to right. *)
  Definition is_rbtree (this : loc) (xs : list (loc * V)) (h : heap) : Prop :=
    ∃ t, elems t = xs ∧ holds_tree this t h.

  (** The iterator to element number [i]; end() (the header) beyond the last. *)
  Definition iter_at (this : loc) (xs : list (loc * V)) (i : nat) : ptr :=
    Some (default this (xs.*1 !! i)).
End spec.
Global Arguments tree : clear implicits.

Section order.
  Context {K V : Type} (keyof : V → K) (lt eqb : K → K → bool).

  (** A Compare that is a strict weak order and agrees with the key type's ==. *)
  Record key_order : Prop := {
    ko_irrefl : ∀ x, lt x x = false;
    ko_trans : ∀ x y z, lt x y = true → lt y z = true → lt x z = true;
    ko_ntrans : ∀ x y z, lt x y = false → lt y z = false → lt x z = false;
    ko_eqb : ∀ x y, eqb x y = true ↔ lt x y = false ∧ lt y x = false
  }.

  (** Ascending, without equivalent keys / with equivalent keys allowed. *)
  Definition ascending (vs : list V) : Prop :=
    StronglySorted (λ x y, lt (keyof x) (keyof y) = true) vs.
  Definition nondescending (vs : list V) : Prop :=
    StronglySorted (λ x y, lt (keyof y) (keyof x) = false) vs.

  (** A map/set object holding the elements [xs]. *)
  Definition is_map (this : loc) (xs : list (loc * V)) (h : gmap loc (rbcell V)) : Prop :=
    ascending xs.*2 ∧ is_rbtree this xs h.
  (** A tree used with duplicate keys. *)
  Definition is_multi (this : loc) (xs : list (loc * V)) (h : gmap loc (rbcell V)) : Prop :=
    nondescending xs.*2 ∧ is_rbtree this xs h.
End order.
