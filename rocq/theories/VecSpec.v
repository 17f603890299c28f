(** What a vector looks like in memory, and client programs on two vectors. *)
From Verif Require Export VecModel Triple HistoryV.

Section spec.
  Context {V : Type}.
  Notation heap := (gmap loc (list (option V))).

  (** A vector object that holds the values [xs]: its buffer - and nothing else -
      is in memory; the first [length xs] slots hold live objects with these values,
      the remaining slots up to the capacity are raw. *)
  Definition is_vec (v : tvec) (xs : list V) (h : heap) : Prop :=
    v_last v = length xs ∧ length xs ≤ v_end v ∧
    match v_buf v with
    | None => v_end v = 0 ∧ h = ∅
    | Some l => h = {[ l := (Some <$> xs) ++ replicate (v_end v - length xs) None ]}
    end.

  (** The argument [r] of a call on [v] denotes [x]: it refers to an object elsewhere,
      or to one of the elements [xs] of [v]. *)
  Definition vrefers (v : tvec) (xs : list V) (r : vref V) (x : V) : Prop :=
    match r with VExt y => y = x | VSlot p i => p = v_buf v ∧ xs !! i = Some x end.

  (** *** Client programs *)
  Inductive ve_op :=
    | EPushBack (x : V)
    | EPushBackOwn (i : nat)              (* v.push_back(v[i]) *)
    | EPopBack
    | EInsert (i : nat) (x : V)
    | EInsertN (i n : nat) (x : V)
    | EInsertOwn (i n j : nat)            (* v.insert(begin() + i, n, v[j]) *)
    | EInsertRange (i : nat) (xs : list V)
    | EInsertOther (i j k : nat)          (* v.insert(begin() + i, other.begin() + j, other.begin() + k) *)
    | EErase (i : nat)
    | EEraseRange (i j : nat)
    | EResize (n : nat)
    | EResizeTo (n : nat) (x : V)
    | EResizeOwn (n i : nat)              (* v.resize(n, v[i]) *)
    | EAssignN (n : nat) (x : V)
    | EAssignRange (xs : list V)
    | EAssignOther (j k : nat)            (* v.assign(other.begin() + j, other.begin() + k) *)
    | EAssignFrom                         (* this = other *)
    | EReserve (n : nat)
    | EClear
    | ESwap
    | ERecopy                             (* other is destroyed and re-created as vector(this) *)
    | ERecreate (n : nat)                 (* this is destroyed and re-created as vector(n) *)
    | ERecreateN (n : nat) (x : V)        (* ... vector(n, x) *)
    | ERecreateRange (xs : list V)        (* ... vector(first, last) *)
    | ESet (i : nat) (x : V)              (* v[i] = x *)
    | EAt (i : nat)
    | EFront
    | EBack
    | ESize
    | EEmpty
    | ECapacity
    | EContents
    | EEqual.

  Inductive ve_out :=
    | VDone | VVal (x : V) | VNat (n : nat) | VBool (b : bool) | VSeq (xs : list V).
End spec.
Global Arguments ve_op : clear implicits.
Global Arguments ve_out : clear implicits.

Section client.
  Context {V : Type} `{Allocator (list (option V))}.
  Context (dflt : V) (eqb : V → V → bool).
  Notation heap := (gmap loc (list (option V))).
  Notation block := (list (option V)).

  Definition vdone (o : tvec) (m : M heap tvec) : M heap (tvec * tvec * ve_out V) :=
    let! v := m in ret (v, o, VDone).
  (** the returned iterator is observed as its distance from begin() *)
  Definition vpos (o : tvec) (m : M heap (tvec * nat)) : M heap (tvec * tvec * ve_out V) :=
    let! (v, i) := m in ret (v, o, VNat i).
  Definition vobs (v o : tvec) {A} (f : A → ve_out V) (m : M heap A) : M heap (tvec * tvec * ve_out V) :=
    let! x := m in ret (v, o, f x).
  (** the reference v[i] *)
  Definition vown (v : tvec) (i : nat) : vref V := VSlot (v_buf v) i.

  Definition ve_step (fuel : nat) (this other : tvec) (op : ve_op V)
      : M heap (tvec * tvec * ve_out V) :=
    match op with
    | EPushBack x => vdone other (v_push_back fuel this (VExt x))
    | EPushBackOwn i => vdone other (v_push_back fuel this (vown this i))
    | EPopBack => vdone other (v_pop_back this)
    | EInsert i x => vpos other (v_insert fuel this i (VExt x))
    | EInsertN i n x => vpos other (v_insert_n fuel this i n (VExt x))
    | EInsertOwn i n j => vpos other (v_insert_n fuel this i n (vown this j))
    | EInsertRange i xs => vpos other (v_insert_range fuel this i (RVals xs))
    | EInsertOther i j k => vpos other (v_insert_range fuel this i (RBuf (v_buf other) j k))
    | EErase i => vpos other (v_erase fuel this i)
    | EEraseRange i j => vpos other (v_erase_range fuel this i j)
    | EResize n => vdone other (v_resize dflt fuel this n)
    | EResizeTo n x => vdone other (v_resize_to dflt fuel this n (VExt x))
    | EResizeOwn n i => vdone other (v_resize_to dflt fuel this n (vown this i))
    | EAssignN n x => vdone other (v_assign_n fuel this n (VExt x))
    | EAssignRange xs => vdone other (v_assign_range fuel this (RVals xs))
    | EAssignOther j k => vdone other (v_assign_range fuel this (RBuf (v_buf other) j k))
    | EAssignFrom => vdone other (v_assign fuel this other)
    | EReserve n => vdone other (v_reserve fuel this n)
    | EClear => vdone other (v_clear fuel this)
    | ESwap => let! (a, b) := v_swap this other in ret (a, b, VDone)
    | ERecopy => v_destroy fuel other ;! let! o := v_copy fuel this in ret (this, o, VDone)
    | ERecreate n => v_destroy fuel this ;! vdone other (v_new_dflt dflt fuel n)
    | ERecreateN n x => v_destroy fuel this ;! vdone other (v_new_n fuel n (VExt x))
    | ERecreateRange xs => v_destroy fuel this ;! vdone other (v_new_range fuel (RVals xs))
    | ESet i x => vobs this other (λ _, VDone) (v_set_at this i x)
    | EAt i => vobs this other VVal (v_at this i)
    | EFront => vobs this other VVal (v_front this)
    | EBack => vobs this other VVal (v_back this)
    | ESize => ret (this, other, VNat (v_size this))
    | EEmpty => ret (this, other, VBool (v_empty this))
    | ECapacity => ret (this, other, VNat (v_capacity this))
    | EContents => vobs this other VSeq (v_contents fuel this)
    | EEqual => vobs this other VBool (v_eq eqb fuel this other)
    end.

  (** *** The abstract vector: the sequence and the capacity *)
  Definition ve_state : Type := list V * nat.
  Definition ins (i : nat) (ys xs : list V) : list V := take i xs ++ ys ++ drop i xs.
  Definition slice (i j : nat) (xs : list V) : list V := take (j - i) (drop i xs).
  (** capacity after inserting [n] elements into [xs] at capacity [c] *)
  Definition grown (xs : list V) (c n : nat) : nat := if decide (c < length xs + n) then length xs + n else c.
  (** capacity after appending [n] elements one by one *)
  Definition grown1 (len c n : nat) : nat := c `max` (len + n).
  Definition reserved (c n : nat) : nat := c `max` n.

  (** The sequence after the call and the observation; [None]: outside the documented
      preconditions. *)
  Definition ve_seq (xs ys : list V) (op : ve_op V) : option (list V * ve_out V) :=
    match op with
    | EPushBack x => Some (xs ++ [x], VDone)
    | EPushBackOwn i => x ← xs !! i; Some (xs ++ [x], VDone)
    | EPopBack => if decide (xs = []) then None else Some (take (length xs - 1) xs, VDone)
    | EInsert i x => if decide (i ≤ length xs) then Some (ins i [x] xs, VNat i) else None
    | EInsertN i n x =>
        if decide (i ≤ length xs) then Some (ins i (replicate n x) xs, VNat i) else None
    | EInsertOwn i n j =>
        x ← xs !! j;
        if decide (i ≤ length xs) then Some (ins i (replicate n x) xs, VNat i) else None
    | EInsertRange i zs => if decide (i ≤ length xs) then Some (ins i zs xs, VNat i) else None
    | EInsertOther i j k =>
        if decide (i ≤ length xs ∧ j ≤ k ≤ length ys)
        then Some (ins i (slice j k ys) xs, VNat i) else None
    | EErase i =>
        if decide (i < length xs) then Some (take i xs ++ drop (S i) xs, VNat i) else None
    | EEraseRange i j =>
        if decide (i ≤ j ≤ length xs) then Some (take i xs ++ drop j xs, VNat i) else None
    | EResize n => Some (take n xs ++ replicate (n - length xs) dflt, VDone)
    | EResizeTo n x => Some (take n xs ++ replicate (n - length xs) x, VDone)
    | EResizeOwn n i => x ← xs !! i; Some (take n xs ++ replicate (n - length xs) x, VDone)
    | EAssignN n x => Some (replicate n x, VDone)
    | EAssignRange zs => Some (zs, VDone)
    | EAssignOther j k => if decide (j ≤ k ≤ length ys) then Some (slice j k ys, VDone) else None
    | EAssignFrom => Some (ys, VDone)
    | EReserve n => Some (xs, VDone)
    | EClear => Some ([], VDone)
    | ESwap => Some (ys, VDone)
    | ERecopy => Some (xs, VDone)
    | ERecreate n => Some (replicate n dflt, VDone)
    | ERecreateN n x => Some (replicate n x, VDone)
    | ERecreateRange zs => Some (zs, VDone)
    | ESet i x => if decide (i < length xs) then Some (<[i := x]> xs, VDone) else None
    | EAt i => x ← xs !! i; Some (xs, VVal x)
    | EFront => x ← head xs; Some (xs, VVal x)
    | EBack => x ← last xs; Some (xs, VVal x)
    | ESize => Some (xs, VNat (length xs))
    | EEmpty => Some (xs, VBool (bool_decide (xs = [])))
    | ECapacity => Some (xs, VDone)      (* the value is given by [ve_spec] *)
    | EContents => Some (xs, VSeq xs)
    | EEqual => Some (xs, VBool (bool_decide (Forall2 (λ x y, eqb x y = true) xs ys)))
    end.
  (** The capacity after the call. *)
  Definition ve_cap (xs : list V) (c : nat) (ys : list V) (d : nat) (op : ve_op V) : nat :=
    match op with
    | EPushBack _ | EPushBackOwn _ | EInsert _ _ => grown xs c 1
    | EInsertN _ n _ | EInsertOwn _ n _ => grown xs c n
    | EInsertRange _ zs => grown xs c (length zs)
    | EInsertOther _ j k => grown xs c (k - j)
    | EResize n | EResizeTo n _ | EResizeOwn n _ => grown xs c (n - length xs)
    | EAssignN n _ => reserved c n
    | EAssignRange zs => grown1 0 c (length zs)
    | EAssignOther j k => grown1 0 c (k - j)
    | EAssignFrom => reserved c d
    | EReserve n => reserved c n
    | ERecreate n | ERecreateN n _ => n
    | ERecreateRange zs => length zs
    | _ => c
    end.
  Definition ve_spec (s o : ve_state) (op : ve_op V) : option (ve_state * ve_state * ve_out V) :=
    let '((xs, c), (ys, d)) := (s, o) in
    '(xs', out) ← ve_seq xs ys op;
    match op with
    | ESwap => Some (o, s, out)
    | ERecopy => Some (s, (xs, length xs), out)
    | ECapacity => Some (s, o, VNat c)
    | _ => Some ((xs', ve_cap xs c ys d op), o, out)
    end.

  (** The calls on which vector.hpp is right: erase(p, p) only at the end, and an
      argument that refers to an own element at or after the insertion point only if the
      call reallocates or inserts nothing. *)
  Definition ve_ok (s : ve_state) (op : ve_op V) : Prop :=
    match op with
    | EEraseRange i j => i < j ∨ i = length s.1
    | EInsertOwn i n j => n = 0 ∨ j < i ∨ s.2 < length s.1 + n
    | _ => True
    end.
  Global Instance ve_ok_dec s op : Decision (ve_ok s op).
  Proof. destruct op; simpl; apply _. Defined.
  Definition ve_spec_ok (s o : ve_state) (op : ve_op V) : option (ve_state * ve_state * ve_out V) :=
    if decide (ve_ok s op) then ve_spec s o op else None.
End client.
Global Arguments ve_state : clear implicits.
