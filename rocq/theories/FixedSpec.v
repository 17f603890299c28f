(** What a fixed_vector looks like in memory, and client programs on two of them. *)
From Verif Require Export FixedModel VecSpec HistoryX.

Section spec.
  Context {V : Type}.
  Notation heap := (gmap loc (list (option V))).

  (** A fixed_vector<T, N> object that holds the values [xs]: its storage of N slots -
      and nothing else - is in memory; the first [length xs] slots hold live objects
      with these values, the others are raw. *)
  Definition is_fvec (N : nat) (v : fvec) (xs : list V) (h : heap) : Prop :=
    fv_last v = length xs ∧ length xs ≤ N ∧
    h = {[ fv_buf v := (Some <$> xs) ++ replicate (N - length xs) None ]}.
  Definition frefers (v : fvec) (xs : list V) (r : vref V) (x : V) : Prop :=
    match r with VExt y => y = x | VSlot p i => p = Some (fv_buf v) ∧ xs !! i = Some x end.

  (** The calls are those of vector (reserve excepted) and full(). *)
  Inductive fx_op := FOp (op : ve_op V) | FFull.
End spec.
Global Arguments fx_op : clear implicits.

Section client.
  Context {V : Type} `{Allocator (list (option V))}.
  Context (N : nat) (dflt : V) (eqb : V → V → bool).
  Notation heap := (gmap loc (list (option V))).

  Definition fdone (o : fvec) (m : M heap fvec) : M heap (fvec * fvec * ve_out V) :=
    let! v := m in ret (v, o, VDone).
  Definition fpos (o : fvec) (m : M heap (fvec * nat)) : M heap (fvec * fvec * ve_out V) :=
    let! (v, i) := m in ret (v, o, VNat i).
  Definition fobs (v o : fvec) {A} (f : A → ve_out V) (m : M heap A) : M heap (fvec * fvec * ve_out V) :=
    let! x := m in ret (v, o, f x).
  Definition fown (v : fvec) (i : nat) : vref V := VSlot (fv_p v) i.

  Definition fx_step (fuel : nat) (this other : fvec) (op : fx_op V)
      : M heap (fvec * fvec * ve_out V) :=
    match op with
    | FFull => ret (this, other, VBool (fv_full N this))
    | FOp op =>
    match op with
    | EPushBack x => fdone other (fv_push_back N this (VExt x))
    | EPushBackOwn i => fdone other (fv_push_back N this (fown this i))
    | EPopBack => fdone other (fv_pop_back this)
    | EInsert i x => fpos other (fv_insert N fuel this i (VExt x))
    | EInsertN i n x => fpos other (fv_insert_n N fuel this i n (VExt x))
    | EInsertOwn i n j => fpos other (fv_insert_n N fuel this i n (fown this j))
    | EInsertRange i xs => fpos other (fv_insert_range N fuel this i (RVals xs))
    | EInsertOther i j k => fpos other (fv_insert_range N fuel this i (RBuf (fv_p other) j k))
    | EErase i => fpos other (fv_erase fuel this i)
    | EEraseRange i j => fpos other (fv_erase_range fuel this i j)
    | EResize n => fdone other (fv_resize N dflt fuel this n)
    | EResizeTo n x => fdone other (fv_resize_to N dflt fuel this n (VExt x))
    | EResizeOwn n i => fdone other (fv_resize_to N dflt fuel this n (fown this i))
    | EAssignN n x => fdone other (fv_assign_n N fuel this n (VExt x))
    | EAssignRange xs => fdone other (fv_assign_range N fuel this (RVals xs))
    | EAssignOther j k => fdone other (fv_assign_range N fuel this (RBuf (fv_p other) j k))
    | EAssignFrom => fdone other (fv_assign fuel this other)
    | EReserve n => fail OutOfBounds      (* no such function; see [fx_spec] *)
    | EClear => fdone other (fv_clear fuel this)
    | ESwap => let! (a, b) := fv_swap fuel this other in ret (a, b, VDone)
    | ERecopy => fv_destroy fuel other ;! let! o := fv_copy N fuel this in ret (this, o, VDone)
    | ERecreate n => fv_destroy fuel this ;! fdone other (fv_new_dflt N dflt fuel n)
    | ERecreateN n x => fv_destroy fuel this ;! fdone other (fv_new_n N fuel n (VExt x))
    | ERecreateRange xs => fv_destroy fuel this ;! fdone other (fv_new_range N fuel (RVals xs))
    | ESet i x => fobs this other (λ _, VDone) (fv_set_at this i x)
    | EAt i => fobs this other VVal (fv_at this i)
    | EFront => fobs this other VVal (fv_front this)
    | EBack => fobs this other VVal (fv_back this)
    | ESize => ret (this, other, VNat (fv_size this))
    | EEmpty => ret (this, other, VBool (fv_empty this))
    | ECapacity => ret (this, other, VNat (fv_capacity N))
    | EContents => fobs this other VSeq (fv_contents fuel this)
    | EEqual => fobs this other VBool (fv_eq eqb fuel this other)
    end
    end.

  (** *** The abstract fixed_vector: a sequence. After a call it holds the first N elements
      of what vector would hold ([ve_seq], VecSpec.v). *)
  Definition fx_spec (xs ys : list V) (op : fx_op V) : option (list V * list V * ve_out V) :=
    match op with
    | FFull => Some (xs, ys, VBool (bool_decide (length xs = N)))
    | FOp (EReserve _) => None
    | FOp ECapacity => Some (xs, ys, VNat N)
    | FOp ESwap => Some (ys, xs, VDone)
    | FOp ERecopy => Some (xs, xs, VDone)
    | FOp op => '(xs', out) ← ve_seq dflt eqb xs ys op; Some (take N xs', ys, out)
    end.
  (** The calls on which fixed_vector.hpp is right. *)
  Definition fx_ok (xs ys : list V) (op : fx_op V) : Prop :=
    match op with
    | FOp (EEraseRange i j) => i < j ∨ i = length xs
    | FOp (EInsertOwn i n j) => n = 0 ∨ j < i ∨ i = length xs
    | FOp ESwap => length xs ≤ length ys
    | _ => True
    end.
  Global Instance fx_ok_dec xs ys op : Decision (fx_ok xs ys op).
  Proof. destruct op as [[]|]; simpl; apply _. Defined.
  Definition fx_spec_ok (xs ys : list V) (op : fx_op V) : option (list V * list V * ve_out V) :=
    if decide (fx_ok xs ys op) then fx_spec xs ys op else None.

  (** What the code really does, on every call within the documented preconditions:
      erase(p,p) before the end constructs an element over itself; swap with a shorter
      vector reads raw slots; an own element that is moved to make room is read from
      where it was. *)
  Definition fx_code (xs ys : list V) (op : fx_op V) : option (res (list V * list V * ve_out V)) :=
    r ← fx_spec xs ys op;
    if decide (fx_ok xs ys op) then Some (Ok r) else
    match op with
    | FOp (EEraseRange _ _) => Some (UB LiveOverwrite)
    | FOp (EInsertOwn i n j) =>
        if decide (j < i + n) then Some (UB NoObject)
        else y ← xs !! (j - n); Some (Ok (take N (ins i (replicate n y) xs), ys, VNat i))
    | _ => Some (UB NoObject)
    end.
  (** ... and only the calls that complete. *)
  Definition fx_does (xs ys : list V) (op : fx_op V) : option (list V * list V * ve_out V) :=
    match fx_code xs ys op with Some (Ok r) => Some r | _ => None end.
End client.
