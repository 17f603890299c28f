(** What the containers may hold after a call that ran out of memory. Models no line of /repo: it is
    the contract. A call missing from these lists never throws. *)
From Verif Require Export Fault ThreadSpec ForwardSpec.

Section forward.
  Context {V : Type} (eqb : V → V → bool).
  (** [FRecopy] constructs a new list; constructors that throw are treated separately (C82). *)
  Definition fl_fault_spec (xs ys : list V) (op : fl_op V) : option (list V * list V * fl_out V) :=
    match op with FRecopy => None | _ => fl_spec eqb xs ys op end.
  Definition fl_aborted (xs ys : list V) (op : fl_op V) (xs' ys' : list V) : Prop :=
    ys' = ys ∧
    match op with
    | FPushFront _ | FPushFrontOwn _ | FInsertAfter _ _ => xs' = xs
    | FInsertAfterOwn i n j =>
        ∃ v k, xs !! j = Some v ∧ k < n ∧ xs' = take i xs ++ replicate k v ++ drop i xs
    | FInsertAfterN i n v => ∃ k, k < n ∧ xs' = take i xs ++ replicate k v ++ drop i xs
    | FInsertAfterRange i vs => ∃ k, k < length vs ∧ xs' = take i xs ++ take k vs ++ drop i xs
    | FAssign vs => ∃ k, k < length vs ∧ xs' = take k vs
    | FAssignN n v => ∃ k, k < n ∧ xs' = replicate k v
    | FAssignFrom => ∃ k, k < length ys ∧ xs' = take k ys
    | _ => False
    end.
End forward.
(** memory that belongs to no container: any cells at all; exactly one cell *)
Definition whatever {C : Type} (h : gmap loc C) : Prop := True.
Definition one_cell {C : Type} (h : gmap loc C) : Prop := ∃ l c, h = {[ l := c ]}.
(** containers that live in the heap only *)
Definition same_members {Hd Op : Type} (a b : Hd) (_ : Op) : Hd * Hd := (a, b).

From Verif Require DlistSpec.
Section dlist.
  Import DlistSpec.
  Context {V : Type} (eqb : V → V → bool).
  Notation state := (list V * bool)%type.
  (** the re-creations construct a new list (C82) *)
  Definition dl_fault_spec (s o : state) (op : dl_op V) : option (state * state * dl_out V) :=
    match op with DRecopy | DRecreateN _ _ | DRecreateRange _ => None | _ => dl_spec eqb s o op end.
  Definition dl_aborted (s o : state) (op : dl_op V) (s' o' : state) : Prop :=
    o' = o ∧
    match op with
    | DPushFront _ | DPushFrontOwn _ | DPushBack _ | DPushBackOwn _ | DInsert _ _ => s' = s
    | DInsertN i n v => ∃ k, k < n ∧ s' = (dins i (replicate k v) s.1, s.2)
    | DInsertOwn i n j => ∃ v k, s.1 !! j = Some v ∧ k < n ∧ s' = (dins i (replicate k v) s.1, s.2)
    | DInsertRange i vs => ∃ k, k < length vs ∧ s' = (dins i (take k vs) s.1, s.2)
    | DInsertOther i j l => ∃ k, k < l - j ∧ s' = (dins i (take k (dslice j l o.1)) s.1, s.2)
    | DResize n v => ∃ k, k < n - length s.1 ∧ s' = (s.1 ++ replicate k v, s.2)
    | DResizeOwn n i => ∃ v k, s.1 !! i = Some v ∧ k < n - length s.1 ∧ s' = (s.1 ++ replicate k v, s.2)
    | DAssign vs => ∃ k, k < length vs ∧ s' = (take k vs, s.2)
    | DAssignN n v => ∃ k, k < n ∧ s' = (replicate k v, s.2)
    | DAssignFrom => ∃ k, k < length o.1 ∧ s' = (take k o.1, s.2)
    | _ => False
    end.
End dlist.

From Verif Require MapSpec.
Section ordered.
  Import MapSpec.
  Context {K V : Type} (keyof : V → K) (lt eqb : K → K → bool) (veqb : V → V → bool).
  (** operator= and the copy constructor are treated separately (C82) *)
  Definition set_fault_spec (xs ys : list V) (op : m_op K V) : option (list V * list V * m_out V) :=
    match op with MAssignFrom | MRecopy => None | _ => m_spec keyof lt eqb veqb xs ys op end.
  (** only the insertion of a new key throws *)
  Definition set_aborted (xs ys : list V) (op : m_op K V) (xs' ys' : list V) : Prop :=
    ys' = ys ∧
    match op with
    | MInsert v => xs' = xs ∧ has keyof eqb (keyof v) xs = false
    | MInsertRange vs =>
        ∃ k v, vs !! k = Some v ∧ xs' = foldl (λ xs v, s_insert keyof lt eqb v xs) xs (take k vs) ∧
          has keyof eqb (keyof v) xs' = false
    | _ => False
    end.
End ordered.
Section map.
  Import MapSpec.
  Context {K T : Type} (lt eqb : K → K → bool) (veqb : K * T → K * T → bool) (dflt : T).
  Definition map_fault_spec (xs ys : list (K * T)) (op : map_op K T)
      : option (list (K * T) * list (K * T) * map_out K T) :=
    match op with
    | MapGen MAssignFrom | MapGen MRecopy => None
    | _ => map_spec lt eqb veqb dflt xs ys op
    end.
  Definition map_aborted (xs ys : list (K * T)) (op : map_op K T) (xs' ys' : list (K * T)) : Prop :=
    match op with
    | MapGen op => set_aborted fst lt eqb xs ys op xs' ys'
    | MapGet k | MapStore k _ => xs' = xs ∧ ys' = ys ∧ has fst eqb k xs = false
    | MapAt _ => False
    end.
End map.

From Verif Require VecSpec VmapSpec.
Section vector.
  Import VecSpec.
  Context {V : Type} (dflt : V) (eqb : V → V → bool).
  (** assign(first, last) is clear() and push_back calls (vector.hpp 80-85), which are covered one by
      one; the re-creations construct a new vector (C82). *)
  Definition ve_fault_spec (s o : ve_state V) (op : ve_op V) : option (ve_state V * ve_state V * ve_out V) :=
    match op with
    | EAssignRange _ | EAssignOther _ _ | ERecopy | ERecreate _ | ERecreateN _ _ | ERecreateRange _ => None
    | _ => ve_spec_ok dflt eqb s o op
    end.
  (** A call throws only if the capacity does not suffice. *)
  Definition ve_aborted (s o : ve_state V) (op : ve_op V) (s' o' : ve_state V) : Prop :=
    o' = o ∧
    match op with
    | EPushBack _ | EPushBackOwn _ | EInsert _ _ => s' = s ∧ s.2 < length s.1 + 1
    | EInsertN _ n _ | EInsertOwn _ n _ => s' = s ∧ s.2 < length s.1 + n
    | EInsertRange _ vs => s' = s ∧ s.2 < length s.1 + length vs
    | EInsertOther _ j k => s' = s ∧ s.2 < length s.1 + (k - j)
    | EResize n | EResizeTo n _ | EResizeOwn n _ => s' = s ∧ s.2 < n
    | EReserve n => s' = s ∧ s.2 ≤ n
    | EAssignN n _ => s' = ([], s.2) ∧ s.2 ≤ n
    | EAssignFrom => s' = ([], s.2) ∧ s.2 ≤ o.2
    | _ => False
    end.
  (** the members at the throw: assign and operator= have already run clear(), i.e. last_ = elements_ *)
  Definition ve_members (this other : tvec) (op : ve_op V) : tvec * tvec :=
    match op with
    | EAssignN _ _ | EAssignFrom => (Vec (v_buf this) 0 (v_end this), other)
    | _ => (this, other)
    end.
End vector.
Section vmap.
  Import VecSpec VmapSpec.
  Context {K T : Type} (keq : K → K → bool) (dfltK : K) (dfltT : T) (eqb : K * T → K * T → bool).
  Definition vm_fault_spec (s o : ve_state (K * T)) (op : vm_op K T) : option (ve_state (K * T) * ve_state (K * T) * vm_out K T) :=
    match op with
    | MBase op => '(s', o', r) ← ve_fault_spec (dfltK, dfltT) eqb s o op; Some (s', o', OBase r)
    | _ => vm_spec keq dfltK dfltT eqb s o op
    end.
  Definition vm_aborted (s o : ve_state (K * T)) (op : vm_op K T) (s' o' : ve_state (K * T)) : Prop :=
    match op with
    | MBase op => ve_aborted s o op s' o'
    | MInsert k _ | MIndex k | MPut k _ => s' = s ∧ o' = o ∧ s.2 < length s.1 + 1 ∧ vm_new keq k s.1 = true
    | MInsertOwn j => s' = s ∧ o' = o ∧ s.2 < length s.1 + 1 ∧ ∃ e, s.1 !! j = Some e ∧ vm_new keq e.1 s.1 = true
    | _ => False
    end.
  Definition vm_members (this other : tvec) (op : vm_op K T) : tvec * tvec :=
    match op with MBase op => ve_members this other op | _ => (this, other) end.
End vmap.

From Verif Require SvmSpec.
Section sorted.
  Import SvmSpec.
  Context {K T : Type}.
  (** A sorted_vector_map [v] whose insertion threw after it had counted the element and made room for
      it at position [pos]: [last_] is one past the elements [les], the pointers from [pos] on have
      moved up by one, and slot [pos] still holds what it held before: the pointer of the element that
      was there. *)
  Definition sv_torn (v : svm) (les : list (loc * (K * T))) (pos : nat) (h : gmap loc (svcell K T)) : Prop :=
    ∃ a r rest,
      sv_arr v = Some a ∧ sv_last v = S (length les) ∧ sv_end v = S (length les) + length rest ∧
      NoDup les.*1 ∧ a ∉ les.*1 ∧
      (∀ le, les !! pos = Some le → r = Some (Some le.1)) ∧
      h = <[a := CArr (((λ le, Some (Some le.1)) <$> take pos les) ++ r ::
                       ((λ le, Some (Some le.1)) <$> drop pos les) ++ rest)]> (ent_heap les).
End sorted.
