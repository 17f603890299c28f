(** vector_map: client programs on two of them and the abstract map. *)
From Verif Require Export VmapModel VecSpec.

Section ops.
  Context {K T : Type}.
  Inductive vm_op :=
    | MBase (op : ve_op (K * T))          (* a call inherited from vector<pair<K,T>> *)
    | MInsert (k : K) (x : T)
    | MInsertOwn (i : nat)                (* m.insert( *(m.begin() + i)) *)
    | MIndex (k : K)                      (* read m[k] *)
    | MPut (k : K) (x : T)                (* m[k] = x *)
    | MFind (k : K)                       (* m.find(k) - m.begin() *)
    | MAt (k : K)
    | MCount (k : K).
  Inductive vm_out :=
    | OBase (o : ve_out (K * T)) | OIns (i : nat) (fresh : bool) | OVal (x : T) | OPos (i : nat) | ODone.
End ops.
Global Arguments vm_op : clear implicits.
Global Arguments vm_out : clear implicits.

Section client.
  Context {K T : Type} `{Allocator (list (option (K * T)))}.
  Context (keq : K → K → bool) (dfltK : K) (dfltT : T) (eqb : K * T → K * T → bool).
  Notation heap := (gmap loc (list (option (K * T)))).
  Notation E := (K * T)%type.

  Definition vm_step (fuel : nat) (this other : tvec) (op : vm_op K T)
      : M heap (tvec * tvec * vm_out K T) :=
    match op with
    | MBase op => let! (v, o, r) := ve_step (dfltK, dfltT) eqb fuel this other op in ret (v, o, OBase r)
    | MInsert k x =>
        let! (v, i, b) := vm_insert keq fuel this (VExt (k, x)) in ret (v, other, OIns i b)
    | MInsertOwn j =>
        let! (v, i, b) := vm_insert keq fuel this (vown this j) in ret (v, other, OIns i b)
    | MIndex k =>
        let! (v, i) := vm_index keq dfltT fuel this k in
        let! e := rd (v_buf v) i in ret (v, other, OVal e.2)
    | MPut k x =>
        let! (v, i) := vm_index keq dfltT fuel this k in
        let! e := rd (v_buf v) i in
        assign_at (v_buf v) i (e.1, x) ;! ret (v, other, ODone)
    | MFind k => let! i := vm_find keq fuel this k in ret (this, other, OPos i)
    | MAt k => let! x := vm_at keq fuel this k in ret (this, other, OVal x)
    | MCount k => let! n := vm_count keq fuel this k in ret (this, other, OPos n)
    end.

  (** *** The abstract map: a sequence of entries (and the capacity) *)
  (** position of the first entry with key [k]; the length if there is none *)
  Fixpoint kpos (k : K) (xs : list E) : nat :=
    match xs with [] => 0 | e :: xs => if keq k e.1 then 0 else S (kpos k xs) end.
  Definition vm_add (k : K) (x : T) (s : ve_state E) : ve_state E :=
    if decide (kpos k s.1 < length s.1) then s else (s.1 ++ [(k, x)], grown s.1 s.2 1).
  Definition vm_new (k : K) (xs : list E) : bool := bool_decide (kpos k xs = length xs).
  Definition set_val (i : nat) (x : T) (xs : list E) : list E := alter (λ e, (e.1, x)) i xs.

  Definition vm_spec (s o : ve_state E) (op : vm_op K T) : option (ve_state E * ve_state E * vm_out K T) :=
    match op with
    | MBase op => '(s', o', r) ← ve_spec_ok (dfltK, dfltT) eqb s o op; Some (s', o', OBase r)
    | MInsert k x => Some (vm_add k x s, o, OIns (kpos k s.1) (vm_new k s.1))
    | MInsertOwn j => e ← s.1 !! j; Some (vm_add e.1 e.2 s, o, OIns (kpos e.1 s.1) (vm_new e.1 s.1))
    | MIndex k =>
        let s' := vm_add k dfltT s in
        e ← s'.1 !! kpos k s.1; Some (s', o, OVal e.2)
    | MPut k x =>
        let s' := vm_add k dfltT s in
        Some ((set_val (kpos k s.1) x s'.1, s'.2), o, ODone)
    | MFind k => Some (s, o, OPos (kpos k s.1))
    | MAt k => e ← s.1 !! kpos k s.1; Some (s, o, OVal e.2)
    | MCount k =>
        (* count(k) never returns if k is present *)
        if decide (kpos k s.1 = length s.1) then Some (s, o, OPos 0) else None
    end.

  (** *** The map seen as a map: what the sequence means (C36) *)
  (** equality of keys is an equivalence *)
  Record key_equiv : Prop := {
    ke_refl : ∀ k, keq k k = true;
    ke_sym : ∀ k l, keq k l = true → keq l k = true;
    ke_trans : ∀ k l m, keq k l = true → keq l m = true → keq k m = true }.
  (** the value stored for [k]: that of the only entry with an equal key *)
  Definition holds_key (xs : list E) (k : K) (x : T) : Prop :=
    ∃ e, e ∈ xs ∧ keq k e.1 = true ∧ e.2 = x.
  Definition distinct_keys (xs : list E) : Prop :=
    ∀ i j e f, xs !! i = Some e → xs !! j = Some f → keq e.1 f.1 = true → i = j.

  (** Calls of a plain map history on one of the two containers. *)
  Definition map_call (op : vm_op K T) : Prop :=
    match op with
    | MInsert _ _ | MInsertOwn _ | MIndex _ | MPut _ _ | MFind _ | MAt _ | MCount _ => True
    | MBase (EContents | ESize | EEmpty | ECapacity | EReserve _ | EFront | EBack | EAt _ | EEqual) => True
    | MBase _ => False
    end.
  (** keys in order of first insertion *)
  Fixpoint first_keys (seen : list K) (ks : list K) : list K :=
    match ks with
    | [] => seen
    | k :: ks => if existsb (λ l, keq k l) seen then first_keys seen ks else first_keys (seen ++ [k]) ks
    end.
  (** the keys a history inserts, in order: only those of insert and operator[]
      (insert of an own element never inserts a new key) *)
  Definition inserted (t : bool) (ops : list (bool * vm_op K T)) : list K :=
    omap (λ o, if Bool.eqb o.1 t then
      match o.2 with MInsert k _ | MIndex k | MPut k _ => Some k | _ => None end else None) ops.
  (** the value of [k] after a history: insert and operator[] create it, only
      assignment through operator[] changes it *)
  Definition value_after (t : bool) (k : K) (ops : list (bool * vm_op K T)) : option T :=
    foldl (λ cur o, if Bool.eqb o.1 t then
      match o.2 with
      | MInsert l x => if keq k l then Some (default x cur) else cur
      | MIndex l => if keq k l then Some (default dfltT cur) else cur
      | MPut l x => if keq k l then Some x else cur
      | _ => cur
      end else cur) None ops.
End client.
