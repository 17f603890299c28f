(** Arrays of element slots in memory: raw storage obtained from operator new (or
    embedded in an object), placement new, explicit destructor calls.

    Models no line of /repo by itself: it is the vocabulary in which vector.hpp and
    fixed_vector.hpp are transcribed. A block is one memory cell whose content is a
    list of slots: [Some v] holds a live object of value [v], [None] is raw storage.
    Pointers into a block are (block, offset); only offsets inside the block can be
    dereferenced. Simplification: the elements are copied and destroyed without
    exceptions (ThrowModel.v is the same code with copies that throw), sizes are natural numbers (no wrap-around of size_t/ptrdiff_t) and
    operator new always succeeds. *)
From Verif Require Export Base.

Section block.
  Context {V : Type} `{Allocator (list (option V))}.
  Notation block := (list (option V)).
  Notation heap := (gmap loc block).
  Notation HM A := (M heap A).

  (** The slot at offset [i] of block [p]. *)
  Definition slot_at (p : ptr) (i : nat) : HM (option V) :=
    let! l := addr p in
    let! b := load l in
    match b !! i with Some s => ret s | None => fail OutOfBounds end.
  Definition put_slot (p : ptr) (i : nat) (s : option V) : HM unit :=
    let! l := addr p in modify l (λ b, <[i := s]> b).
  (** *p : needs a live object *)
  Definition rd (p : ptr) (i : nat) : HM V :=
    let! s := slot_at p i in
    match s with Some v => ret v | None => fail NoObject end.
  (** ::new(p) T(v) : needs raw storage *)
  Definition construct (p : ptr) (i : nat) (v : V) : HM unit :=
    let! s := slot_at p i in
    match s with Some _ => fail LiveOverwrite | None => put_slot p i (Some v) end.
  (** p->~T() : needs a live object *)
  Definition destroy_at (p : ptr) (i : nat) : HM unit :=
    let! s := slot_at p i in
    match s with Some _ => put_slot p i None | None => fail NoObject end.
  (** *p = v : needs a live object *)
  Definition assign_at (p : ptr) (i : nat) (v : V) : HM unit :=
    let! s := slot_at p i in
    match s with Some _ => put_slot p i (Some v) | None => fail NoObject end.
  (** --p on a pointer at offset [i] of its block *)
  Definition dec_ptr (i : nat) : HM nat :=
    match i with S i => ret i | 0 => fail OutOfBounds end.

  (** ::operator new(n * sizeof(T)) *)
  Definition new_buf (n : nat) : HM ptr :=
    let! l := allocate (replicate n None) in ret (Some l).
  (** ::operator delete(p): a no-op on a null pointer; all objects must be gone *)
  Definition free_buf (p : ptr) : HM unit :=
    match p with
    | None => ret tt
    | Some l =>
        let! b := load l in
        if forallb (λ s, match s with None => true | Some _ => false end) b
        then deallocate l else fail LeakedObject
    end.

  (** A "const T &" argument: an object elsewhere, or the object in a slot. *)
  Inductive vref := VExt (v : V) | VSlot (p : ptr) (i : nat).
  Definition deref (r : vref) : HM V :=
    match r with VExt v => ret v | VSlot p i => rd p i end.

  (** A range [first, last) of input iterators: over values elsewhere, or over the
      slots [i, j) of a block. *)
  Inductive vrange := RVals (vs : list V) | RBuf (p : ptr) (i j : nat).
  (** first != last ? Some( *first, ++first) : None *)
  Definition rnext (g : vrange) : option (vref * vrange) :=
    match g with
    | RVals [] => None
    | RVals (v :: vs) => Some (VExt v, RVals vs)
    | RBuf p i j => if decide (i = j) then None else Some (VSlot p i, RBuf p (S i) j)
    end.
  (** last - first (for a valid range) *)
  Definition rlen (g : vrange) : nat :=
    match g with RVals vs => length vs | RBuf _ i j => j - i end.
End block.
Global Arguments vref : clear implicits.
Global Arguments vrange : clear implicits.
