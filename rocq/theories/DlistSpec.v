(** What a list looks like in memory, and client programs on two lists. *)
From stdpp Require Export sorting.
From Verif Require Export DlistModel Triple History.

Section spec.
  Context {V : Type}.
  Notation heap := (gmap loc (dcell V)).

  (** Address of the first / last node of [ns], or [q] if there is none. *)
  Definition dfirst {A} (ns : list (loc * A)) (q : ptr) : ptr :=
    match ns with [] => q | (l, _) :: _ => Some l end.
  Definition dlast {A} (ns : list (loc * A)) (q : ptr) : ptr :=
    match last ns with None => q | Some (l, _) => Some l end.

  (** The memory made of the nodes [ns] (address and value state), linked forwards and
      backwards; the first one's prev is [p], the last one's next is [q]. *)
  Fixpoint seg_heap (p : ptr) (ns : list (loc * dslot V)) (q : ptr) : heap :=
    match ns with
    | [] => ∅
    | (l, s) :: r => <[l := DCell p (dfirst r q) s]> (seg_heap (Some l) r q)
    end.
  (** ... and closed to a ring. *)
  Definition ring_heap (ns : list (loc * dslot V)) : heap :=
    seg_heap (dlast ns None) ns (dfirst ns None).

  Definition dlive (xs : list (loc * V)) : list (loc * dslot V) :=
    (λ x, (x.1, DLive x.2)) <$> xs.

  (** A list object at [this] that holds the elements [xs], given as (address of the
      node, value): exactly these pairwise distinct cells, forming a ring with the header. *)
  Definition is_dlist (this : loc) (xs : list (loc * V)) (h : heap) : Prop :=
    NoDup (this :: xs.*1) ∧ h = ring_heap ((this, DHdr) :: dlive xs).
  (** What clear() leaves behind if the list was not empty: an empty list whose header
      still points back at the deleted node [d]. *)
  Definition is_cleared (this d : loc) (h : heap) : Prop :=
    d ≠ this ∧ h = {[ this := DCell (Some d) (Some this) DHdr ]}.

  (** The iterator reached from begin() by [i] increments; [length xs] is end(). *)
  Definition dpos (this : loc) (xs : list (loc * V)) (i : nat) : ptr :=
    (xs.*1 ++ [this]) !! i.
  Definition drefers (xs : list (loc * V)) (r : dref V) (v : V) : Prop :=
    match r with DExt v' => v' = v | DNode l => (l, v) ∈ xs end.
End spec.

Section ops.
  Context {V : Type}.
  (** One call on a list, possibly involving another one. Positions count increments
      from begin(). *)
  Inductive dl_op :=
    | DPushFront (v : V) | DPushFrontOwn (i : nat) | DPushBack (v : V) | DPushBackOwn (i : nat)
    | DPopFront | DPopBack
    | DInsert (i : nat) (v : V)
    | DInsertN (i n : nat) (v : V)
    | DInsertOwn (i n j : nat)            (* insert(pos i, n, own element j) *)
    | DInsertRange (i : nat) (vs : list V)
    | DInsertOther (i j k : nat)          (* insert(pos i, iterators j, k of other) *)
    | DErase (i : nat)
    | DEraseRange (i j : nat)
    | DRemove (v : V)
    | DRemoveOwn (i : nat)                (* remove(own element i) *)
    | DRemoveIf (f : V → bool)
    | DUnique (f : V → V → bool)          (* f(element, its predecessor) *)
    | DReverse
    | DResize (n : nat) (v : V)
    | DResizeOwn (n i : nat)
    | DClear
    | DAssign (vs : list V) | DAssignN (n : nat) (v : V) | DAssignFrom
    | DRecopy                             (* other is destroyed and re-created as a copy *)
    | DRecreateN (n : nat) (v : V)        (* other is destroyed and re-created: list(n, v) *)
    | DRecreateRange (vs : list V)
    | DSwap
    | DSpliceAll (i : nat) | DSpliceOne (i j : nat) | DSpliceRange (i j k : nat)
    | DMove (i j : nat)                   (* splice(pos i, *this, own position j) *)
    | DMoveRange (i j k : nat)            (* splice(pos i, *this, own positions j, k) *)
    | DMerge (cmp : V → V → bool)
    | DSet (i : nat) (v : V)
    | DFront | DBack | DSize | DEmpty
    | DContents                           (* for (x : list) ... *)
    | DBackwards                          (* from end() with -- to begin() *)
    | DEqual.
  Inductive dl_out := DDone | DVal (v : V) | DNat (n : nat) | DBool (b : bool) | DSeq (vs : list V) | DEnd.
End ops.
Global Arguments dl_op : clear implicits.
Global Arguments dl_out : clear implicits.

Section client.
  Context {V : Type} (eqb : V → V → bool) `{Allocator (dcell V)} (rfirst : bool).
  Notation heap := (gmap loc (dcell V)).

  Fixpoint it_go (n : nat) (p : ptr) : M heap ptr :=
    match n with 0 => ret p | S n => let! q := it_next p in it_go n q end.
  Definition dl_at (this : loc) (i : nat) : M heap ptr :=
    let! b := dl_begin this in it_go i b.
  Definition dl_own (this : loc) (i : nat) : M heap (dref V) :=
    let! p := dl_at this i in let! l := addr p in ret (DNode l).
  (** [*it], or "end" *)
  Definition dshow (this : loc) (p : ptr) : M heap (dl_out V) :=
    if decide (p = dl_end this) then ret DEnd else let! v := d_value p in ret (DVal v).
  Definition dl_contents (fuel : nat) (this : loc) : M heap (list V) :=
    let! b := dl_begin this in
    loop fuel (λ '(p, acc),
      if decide (p ≠ dl_end this) then
        let! v := d_value p in
        let! p' := it_next p in
        ret (inl (p', acc ++ [v]))
      else ret (inr acc)) (b, []).
  (** it = end(); while (it != begin()) out.push_back( *--it); *)
  Definition dl_backwards (fuel : nat) (this : loc) : M heap (list V) :=
    loop fuel (λ '(p, acc),
      let! b := dl_begin this in
      if decide (p ≠ b) then
        let! p' := it_prev p in
        let! v := d_value p' in
        ret (inl (p', acc ++ [v]))
      else ret (inr acc)) (dl_end this, []).

  Definition ddone {A} (m : M heap A) : M heap (dl_out V) := m ;! ret DDone.
  Definition dobs {A} (f : A → dl_out V) (m : M heap A) : M heap (dl_out V) := let! a := m in ret (f a).
  Definition dl_step (fuel : nat) (this other : loc) (op : dl_op V) : M heap (loc * dl_out V) :=
    let! r :=
      match op with
      | DPushFront v => ddone (dl_push_front this (DExt v))
      | DPushFrontOwn i => let! r := dl_own this i in ddone (dl_push_front this r)
      | DPushBack v => ddone (dl_push_back this (DExt v))
      | DPushBackOwn i => let! r := dl_own this i in ddone (dl_push_back this r)
      | DPopFront => ddone (dl_pop_front this)
      | DPopBack => ddone (dl_pop_back this)
      | DInsert i v =>
          let! p := dl_at this i in
          let! q := dl_insert p (DExt v) in dshow this q
      | DInsertN i n v => let! p := dl_at this i in ddone (dl_insert_n p n (DExt v))
      | DInsertOwn i n j =>
          let! p := dl_at this i in
          let! r := dl_own this j in ddone (dl_insert_n p n r)
      | DInsertRange i vs => let! p := dl_at this i in ddone (dl_insert_ext p vs)
      | DInsertOther i j k =>
          let! p := dl_at this i in
          let! f := dl_at other j in
          let! l := dl_at other k in ddone (dl_insert_its fuel p f l)
      | DErase i => let! p := dl_at this i in let! q := dl_erase p in dshow this q
      | DEraseRange i j =>
          let! p := dl_at this i in
          let! l := dl_at this j in
          let! q := dl_erase_range fuel p l in dshow this q
      | DRemove v => ddone (dl_remove eqb fuel this (DExt v))
      | DRemoveOwn i => let! r := dl_own this i in ddone (dl_remove eqb fuel this r)
      | DRemoveIf f => ddone (dl_remove_if fuel this f)
      | DUnique f => ddone (dl_unique fuel this f)
      | DReverse => ddone (dl_reverse fuel this)
      | DResize n v => ddone (dl_resize fuel this n (DExt v))
      | DResizeOwn n i => let! r := dl_own this i in ddone (dl_resize fuel this n r)
      | DClear => ddone (dl_clear fuel this)
      | DAssign vs => ddone (dl_assign_range fuel this vs)
      | DAssignN n v => ddone (dl_assign_n fuel this n (DExt v))
      | DAssignFrom => ddone (dl_assign_from fuel this other)
      | DRecopy | DRecreateN _ _ | DRecreateRange _ => ret DDone
      | DSwap => ddone (dl_swap rfirst this other)
      | DSpliceAll i => let! p := dl_at this i in ddone (dl_splice_all p other)
      | DSpliceOne i j =>
          let! p := dl_at this i in
          let! q := dl_at other j in ddone (dl_splice_one p q)
      | DSpliceRange i j k =>
          let! p := dl_at this i in
          let! f := dl_at other j in
          let! l := dl_at other k in ddone (dl_splice_range p f l)
      | DMove i j =>
          let! p := dl_at this i in
          let! q := dl_at this j in ddone (dl_splice_one p q)
      | DMoveRange i j k =>
          let! p := dl_at this i in
          let! f := dl_at this j in
          let! l := dl_at this k in ddone (dl_splice_range p f l)
      | DMerge cmp => ddone (dl_merge cmp fuel this other)
      | DSet i v => let! p := dl_at this i in ddone (d_assign_value p v)
      | DFront => dobs DVal (dl_front this)
      | DBack => dobs DVal (dl_back this)
      | DSize => dobs DNat (dl_size fuel this)
      | DEmpty => dobs DBool (dl_empty this)
      | DContents => dobs DSeq (dl_contents fuel this)
      | DBackwards => dobs DSeq (dl_backwards fuel this)
      | DEqual => dobs DBool (dl_eq eqb fuel this other)
      end in
    match op with
    | DRecopy => dl_destroy fuel other ;! let! o := dl_copy fuel this in ret (o, r)
    | DRecreateN n v => dl_destroy fuel other ;! let! o := dl_new_n n (DExt v) in ret (o, r)
    | DRecreateRange vs => dl_destroy fuel other ;! let! o := dl_new_range vs in ret (o, r)
    | _ => ret (other, r)
    end.

  (** *** The calls on plain sequences, as std::list defines them; [None]: outside the
      preconditions. *)
  Definition dshow_nth (xs : list V) (i : nat) : dl_out V :=
    match xs !! i with Some v => DVal v | None => DEnd end.
  (** the elements [i, j) *)
  Definition dslice {A} (i j : nat) (xs : list A) : list A := take (j - i) (drop i xs).
  Definition dins {A} (i : nat) (vs xs : list A) : list A := take i xs ++ vs ++ drop i xs.
  Definition dcut {A} (i j : nat) (xs : list A) : list A := take i xs ++ drop j xs.
  (** drops every element for which f(element, last kept element) *)
  Fixpoint uniq_from (f : V → V → bool) (y : V) (xs : list V) : list V :=
    match xs with
    | [] => []
    | x :: xs => if f x y then uniq_from f y xs else x :: uniq_from f x xs
    end.
  Definition uniq (f : V → V → bool) (xs : list V) : list V :=
    match xs with [] => [] | x :: xs => x :: uniq_from f x xs end.
  (** stable merge: elements of [xs] first among equivalent ones *)
  Fixpoint merge_into (cmp : V → V → bool) (xs ys : list V) : list V :=
    match xs with
    | [] => ys
    | x :: xs' =>
        (fix go ys := match ys with
          | [] => x :: xs'
          | y :: ys' => if cmp y x then y :: go ys' else x :: merge_into cmp xs' (y :: ys')
          end) ys
    end.
  (** no later element is less than an earlier one *)
  Definition dsorted (cmp : V → V → bool) (xs : list V) : Prop :=
    StronglySorted (λ x y, cmp y x = false) xs.
  (** [xs] without the element at [j], then that element before what was position [i] *)
  Definition dmove {A} (i j : nat) (x : A) (xs : list A) : list A :=
    if decide (i ≤ j) then dins i [x] (dcut j (S j) xs) else dins (i - 1) [x] (dcut j (S j) xs).
  (** the same for the elements from [j] up to [k] *)
  Definition dmove_range {A} (i j k : nat) (xs : list A) : list A :=
    if decide (i ≤ j) then dins i (dslice j k xs) (dcut j k xs)
    else dins (i - (k - j)) (dslice j k xs) (dcut j k xs).

  Definition dl_seq (xs ys : list V) (op : dl_op V) : option (list V * list V * dl_out V) :=
    match op with
    | DPushFront v => Some (v :: xs, ys, DDone)
    | DPushFrontOwn i => v ← xs !! i; Some (v :: xs, ys, DDone)
    | DPushBack v => Some (xs ++ [v], ys, DDone)
    | DPushBackOwn i => v ← xs !! i; Some (xs ++ [v], ys, DDone)
    | DPopFront => if decide (xs = []) then None else Some (drop 1 xs, ys, DDone)
    | DPopBack => if decide (xs = []) then None else Some (take (length xs - 1) xs, ys, DDone)
    | DInsert i v => if decide (i ≤ length xs) then Some (dins i [v] xs, ys, DVal v) else None
    | DInsertN i n v =>
        if decide (i ≤ length xs) then Some (dins i (replicate n v) xs, ys, DDone) else None
    | DInsertOwn i n j =>
        v ← xs !! j;
        if decide (i ≤ length xs) then Some (dins i (replicate n v) xs, ys, DDone) else None
    | DInsertRange i vs => if decide (i ≤ length xs) then Some (dins i vs xs, ys, DDone) else None
    | DInsertOther i j k =>
        if decide (i ≤ length xs ∧ j ≤ k ≤ length ys)
        then Some (dins i (dslice j k ys) xs, ys, DDone) else None
    | DErase i =>
        if decide (i < length xs) then Some (dcut i (S i) xs, ys, dshow_nth xs (S i)) else None
    | DEraseRange i j =>
        if decide (i ≤ j ≤ length xs) then Some (dcut i j xs, ys, dshow_nth xs j) else None
    | DRemove v => Some (filter (λ x, eqb x v = false) xs, ys, DDone)
    | DRemoveOwn i => v ← xs !! i; Some (filter (λ x, eqb x v = false) xs, ys, DDone)
    | DRemoveIf f => Some (filter (λ x, f x = false) xs, ys, DDone)
    | DUnique f => Some (uniq f xs, ys, DDone)
    | DReverse => Some (reverse xs, ys, DDone)
    | DResize n v => Some (take n xs ++ replicate (n - length xs) v, ys, DDone)
    | DResizeOwn n i => v ← xs !! i; Some (take n xs ++ replicate (n - length xs) v, ys, DDone)
    | DClear => Some ([], ys, DDone)
    | DAssign vs => Some (vs, ys, DDone)
    | DAssignN n v => Some (replicate n v, ys, DDone)
    | DAssignFrom => Some (ys, ys, DDone)
    | DRecopy => Some (xs, xs, DDone)
    | DRecreateN n v => Some (xs, replicate n v, DDone)
    | DRecreateRange vs => Some (xs, vs, DDone)
    | DSwap => Some (ys, xs, DDone)
    | DSpliceAll i => if decide (i ≤ length xs) then Some (dins i ys xs, [], DDone) else None
    | DSpliceOne i j =>
        v ← ys !! j;
        if decide (i ≤ length xs) then Some (dins i [v] xs, dcut j (S j) ys, DDone) else None
    | DSpliceRange i j k =>
        if decide (i ≤ length xs ∧ j ≤ k ≤ length ys)
        then Some (dins i (dslice j k ys) xs, dcut j k ys, DDone) else None
    | DMove i j =>
        v ← xs !! j; if decide (i ≤ length xs) then Some (dmove i j v xs, ys, DDone) else None
    | DMoveRange i j k =>
        if decide (i ≤ length xs ∧ j ≤ k ≤ length xs ∧ ¬ j ≤ i < k)
        then Some (dmove_range i j k xs, ys, DDone) else None
    | DMerge cmp => Some (merge_into cmp xs ys, [], DDone)
    | DSet i v => if decide (i < length xs) then Some (<[i := v]> xs, ys, DDone) else None
    | DFront => v ← head xs; Some (xs, ys, DVal v)
    | DBack => v ← last xs; Some (xs, ys, DVal v)
    | DSize => Some (xs, ys, DNat (length xs))
    | DEmpty => Some (xs, ys, DBool (bool_decide (xs = [])))
    | DContents => Some (xs, ys, DSeq xs)
    | DBackwards => Some (xs, ys, DSeq (reverse xs))
    | DEqual => Some (xs, ys, DBool (bool_decide (Forall2 (λ x y, eqb x y = true) xs ys)))
    end.

  (** The state of a list: its elements, and whether its header still points back at a
      node deleted by clear() ("cleared"; then it has no elements). *)
  Definition dl_state : Type := list V * bool.
  (** The memory of such a list. *)
  Definition dl_holds (this : loc) (s : dl_state) (h : heap) : Prop :=
    if s.2 then s.1 = [] ∧ ∃ d, is_cleared this d h
    else ∃ xs, xs.*2 = s.1 ∧ is_dlist this xs h.
  (** The calls on which list.hpp is right. *)
  Definition dl_ok (s o : dl_state) (op : dl_op V) : Prop :=
    match op with
    | DPushFront _ | DPushFrontOwn _ | DPushBack _ | DPushBackOwn _
    | DInsert _ _ | DInsertN _ _ _ | DInsertOwn _ _ _ | DInsertRange _ _ | DInsertOther _ _ _
    | DReverse | DBackwards => s.2 = false
    | DEraseRange i j => i = j ∧ s.1 = []
    | DRemoveOwn i => S i = length s.1
    | DResize n _ | DResizeOwn n _ => if decide (n = 0) then s.1 = [] else s.2 = false
    | DAssign vs => vs = [] ∨ (s.1 = [] ∧ s.2 = false)
    | DAssignN n _ => n = 0 ∨ (s.1 = [] ∧ s.2 = false)
    | DAssignFrom => o.1 = [] ∨ (s.1 = [] ∧ s.2 = false)
    | DSwap => s.1 ≠ [] ∨ o.1 ≠ []
    | DSpliceAll _ => s.2 = false ∧ o.1 ≠ []
    | DSpliceOne _ _ => s.2 = false
    | DSpliceRange _ j k => s.2 = false ∧ j < k
    | DMove i j => i ≠ S j
    | DMoveRange i j k => (j = k → i = j ∧ s.2 = false) ∧ (j < k → i ≠ k)
    | DMerge cmp => s.2 = false ∧ dsorted cmp s.1 ∧ dsorted cmp o.1
    | _ => True
    end.
  (** The "cleared" marks after a call that is right. *)
  Definition dl_marks (s o : dl_state) (op : dl_op V) : bool * bool :=
    match op with
    | DClear => (s.2 || bool_decide (s.1 ≠ []), o.2)
    | DAssign vs => (s.2 || bool_decide (s.1 ≠ []), o.2)
    | DAssignN _ _ => (s.2 || bool_decide (s.1 ≠ []), o.2)
    | DAssignFrom => (s.2 || bool_decide (s.1 ≠ []), o.2)
    | DRecopy | DRecreateN _ _ | DRecreateRange _ => (s.2, false)
    | DSwap => (false, false)
    | _ => (s.2, o.2)
    end.
  Global Instance dl_ok_dec s o op : Decision (dl_ok s o op).
  Proof. destruct op; simpl; unfold dsorted; try apply _; case_decide; apply _. Defined.
  Definition dl_spec (s o : dl_state) (op : dl_op V) : option (dl_state * dl_state * dl_out V) :=
    if decide (dl_ok s o op) then
      '(xs', ys', out) ← dl_seq s.1 o.1 op;
      Some ((xs', (dl_marks s o op).1), (ys', (dl_marks s o op).2), out)
    else None.

  (** The calls of C29: everything but clear and assignment, swap, splice, merge,
      erase(first, last), remove(own element), and shrinking to 0. *)
  Definition dl_basic (xs : list V) (op : dl_op V) : Prop :=
    match op with
    | DEraseRange _ _ | DRemoveOwn _ | DClear | DAssign _ | DAssignN _ _ | DAssignFrom | DSwap
    | DSpliceAll _ | DSpliceOne _ _ | DSpliceRange _ _ _ | DMove _ _ | DMoveRange _ _ _ | DMerge _ => False
    | DResize n _ | DResizeOwn n _ => n = 0 → xs = []
    | _ => True
    end.
  Global Instance dl_basic_dec xs op : Decision (dl_basic xs op).
  Proof. destruct op; simpl; apply _. Defined.
  Definition dl_basic_spec (xs ys : list V) (op : dl_op V) : option (list V * list V * dl_out V) :=
    if decide (dl_basic xs op) then dl_seq xs ys op else None.

  (** For C33: strict weak orders, and what a stable merge of two sequences is. *)
  Record weak_order (cmp : V → V → bool) : Prop := {
    wo_irrefl : ∀ x, cmp x x = false;
    wo_trans : ∀ x y z, cmp x y = true → cmp y z = true → cmp x z = true;
    wo_incomp : ∀ x y z, cmp x y = false → cmp y z = false → cmp x z = false }.
  (** neither is less than the other *)
  Definition alike (cmp : V → V → bool) (x y : V) : Prop := cmp x y = false ∧ cmp y x = false.
  Global Instance alike_dec cmp x y : Decision (alike cmp x y).
  Proof. apply _. Defined.
  (** [rs] holds the elements of [xs] and [ys], sorted; among alike elements those of
      [xs] come first, each in their original order. *)
  Definition stable_merge (cmp : V → V → bool) (xs ys rs : list V) : Prop :=
    Permutation rs (xs ++ ys) ∧ dsorted cmp rs ∧
    ∀ x, filter (alike cmp x) rs = filter (alike cmp x) xs ++ filter (alike cmp x) ys.
End client.
