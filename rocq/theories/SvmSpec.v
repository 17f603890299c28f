(** sorted_vector_map: client programs on two of them, the abstract ordered map, and what
    the object looks like in memory. *)
From Verif Require Export SvmModel HistoryV.

Section ops.
  Context {K T : Type}.
  Inductive sv_op :=
    | QInsert (k : K) (x : T)
    | QInsertOwn (i : nat)                (* m.insert( *(m.begin() + i)) *)
    | QIndex (k : K)                      (* read m[k] *)
    | QPut (k : K) (x : T)                (* m[k] = x *)
    | QAt (k : K)                         (* read m.at(k) *)
    | QAtPut (k : K) (x : T)              (* m.at(k) = x *)
    | QFind (k : K) | QCount (k : K) | QEqualRange (k : K)
    | QLower (k : K) | QUpper (k : K)     (* positions: iterator - m.begin() *)
    | QSize | QEmpty | QClear | QContents
    | QRecreate (n : nat)                 (* destroy m, construct it with preallocation n *)
    | QRecopy.                            (* destroy m, construct it as a copy of the other one *)
  Inductive sv_out :=
    | AIns (i : nat) (fresh : bool) | AVal (x : T) | APos (i : nat) | ARange (i j : nat)
    | ABool (b : bool) | ASeq (xs : list (K * T)) | ADone.
End ops.
Global Arguments sv_op : clear implicits.
Global Arguments sv_out : clear implicits.

Section client.
  Context {K T : Type} `{Allocator (svcell K T)}.
  Context (keq comp : K → K → bool) (dfltT : T) (ulim : nat).
  Notation heap := (gmap loc (svcell K T)).
  Notation E := (K * T)%type.

  Definition sv_step (fuel : nat) (this other : svm) (op : sv_op K T)
      : M heap (svm * svm * sv_out K T) :=
    match op with
    | QInsert k x =>
        let! (v, i, b) := sv_insert keq comp ulim fuel this (EVal (k, x)) in ret (v, other, AIns i b)
    | QInsertOwn j =>
        let! q := slot_rd (sv_arr this) j in
        let! (v, i, b) := sv_insert keq comp ulim fuel this (ERef q) in ret (v, other, AIns i b)
    | QIndex k =>
        let! (v, q) := sv_index keq comp dfltT ulim fuel this k in
        let! e := ent_rd q in ret (v, other, AVal e.2)
    | QPut k x =>
        let! (v, q) := sv_index keq comp dfltT ulim fuel this k in
        ent_wr q x ;! ret (v, other, ADone)
    | QAt k =>
        let! q := sv_at keq comp ulim fuel this k in
        let! e := ent_rd q in ret (this, other, AVal e.2)
    | QAtPut k x =>
        let! q := sv_at keq comp ulim fuel this k in
        ent_wr q x ;! ret (this, other, ADone)
    | QFind k => let! i := sv_find keq comp ulim fuel this k in ret (this, other, APos i)
    | QCount k => let! n := sv_count keq comp ulim fuel this k in ret (this, other, APos n)
    | QEqualRange k =>
        let! (i, j) := sv_equal_range keq comp ulim fuel this k in ret (this, other, ARange i j)
    | QLower k => let! i := sv_lower_bound keq comp ulim fuel this k in ret (this, other, APos i)
    | QUpper k => let! i := sv_upper_bound keq comp ulim fuel this k in ret (this, other, APos i)
    | QSize => ret (this, other, APos (sv_size this))
    | QEmpty => ret (this, other, ABool (sv_empty this))
    | QClear => let! v := sv_clear fuel this in ret (v, other, ADone)
    | QContents => let! xs := sv_contents fuel this in ret (this, other, ASeq xs)
    | QRecreate n =>
        sv_destroy fuel this ;!
        let! v := sv_new_n n in ret (v, other, ADone)
    | QRecopy =>
        sv_destroy fuel this ;!
        let! v := sv_copy fuel other in ret (v, other, ADone)
    end.

  (** *** The abstract map: entries in ascending order, and the capacity *)
  (** Compare is a strict weak order and == is its equivalence. *)
  Record key_order : Prop := {
    ko_irrefl : ∀ a, comp a a = false;
    ko_trans : ∀ a b c, comp a b = true → comp b c = true → comp a c = true;
    ko_weak : ∀ a b c, comp a b = true → comp a c = true ∨ comp c b = true;
    ko_eq : ∀ a b, keq a b = true ↔ comp a b = false ∧ comp b a = false }.
  (** strictly ascending keys *)
  Definition ascending (xs : list E) : Prop :=
    ∀ i j e f, xs !! i = Some e → xs !! j = Some f → i < j → comp e.1 f.1 = true.

  Definition below (k : K) (xs : list E) : list E := filter (λ e, comp e.1 k = true) xs.
  Definition not_below (k : K) (xs : list E) : list E := filter (λ e, comp e.1 k = false) xs.
  Definition not_above (k : K) (xs : list E) : list E := filter (λ e, comp k e.1 = false) xs.
  (** is there an entry with key [k], and the value of the first one *)
  Definition present (k : K) (xs : list E) : bool := existsb (λ e, keq e.1 k) xs.
  Fixpoint value_of (k : K) (xs : list E) : option T :=
    match xs with [] => None | e :: xs => if keq e.1 k then Some e.2 else value_of k xs end.

  Definition sv_state : Type := list E * nat.
  (** the capacity after an insertion into a full array *)
  Definition enlarged (c : nat) : nat := if decide (c = 0) then 2 else c + c / 2.
  Definition sv_add (k : K) (x : T) (s : sv_state) : sv_state :=
    if present k s.1 then s
    else (below k s.1 ++ (k, x) :: not_below k s.1,
          if decide (length s.1 = s.2) then enlarged s.2 else s.2).
  (** assignment to the value of [k] *)
  Definition sv_set (k : K) (x : T) (xs : list E) : list E :=
    (λ e, if keq e.1 k then (e.1, x) else e) <$> xs.
  Definition pos_of (k : K) (xs : list E) : nat :=
    if present k xs then length (below k xs) else length xs.

  (** What the calls may do. Lookups: fewer entries than [unsigned] has values (C53 has the
      same restriction for the algorithms). Insertion of a new key: the array is not full
      with capacity 1 (C39). *)
  Definition sv_fits (s : sv_state) : Prop := length s.1 < ulim.
  Definition sv_room (k : K) (s : sv_state) : Prop :=
    sv_fits s ∧ (present k s.1 = true ∨ ¬ (length s.1 = 1 ∧ s.2 = 1)).
  Global Instance sv_room_dec k s : Decision (sv_room k s).
  Proof. unfold sv_room, sv_fits. apply _. Defined.

  (** count is inverted (C40), equal_range of an absent key is [end(), end()) (C61) *)
  Definition sv_spec (s o : sv_state) (op : sv_op K T) : option (sv_state * sv_state * sv_out K T) :=
    match op with
    | QInsert k x =>
        if decide (sv_room k s) then
          Some (sv_add k x s, o, AIns (length (below k s.1)) (negb (present k s.1))) else None
    | QInsertOwn j =>
        e ← s.1 !! j;
        if decide (sv_fits s) then Some (s, o, AIns j false) else None
    | QIndex k =>
        if decide (sv_room k s) then
          Some (sv_add k dfltT s, o, AVal (default dfltT (value_of k s.1))) else None
    | QPut k x =>
        if decide (sv_room k s) then
          Some ((sv_set k x (sv_add k dfltT s).1, (sv_add k dfltT s).2), o, ADone) else None
    | QAt k =>
        if decide (sv_fits s) then x ← value_of k s.1; Some (s, o, AVal x) else None
    | QAtPut k x =>
        if decide (sv_fits s) then
          if present k s.1 then Some ((sv_set k x s.1, s.2), o, ADone) else None
        else None
    | QFind k => if decide (sv_fits s) then Some (s, o, APos (pos_of k s.1)) else None
    | QCount k => if decide (sv_fits s) then Some (s, o, APos (if present k s.1 then 0 else 1)) else None
    | QEqualRange k =>
        if decide (sv_fits s) then
          Some (s, o, ARange (pos_of k s.1) (if present k s.1 then length (not_above k s.1) else length s.1))
        else None
    | QLower k => if decide (sv_fits s) then Some (s, o, APos (length (below k s.1))) else None
    | QUpper k => if decide (sv_fits s) then Some (s, o, APos (length (not_above k s.1))) else None
    | QSize => Some (s, o, APos (length s.1))
    | QEmpty => Some (s, o, ABool (bool_decide (s.1 = [])))
    | QClear => Some (([], s.2), o, ADone)
    | QContents => Some (s, o, ASeq s.1)
    | QRecreate n => Some (([], n), o, ADone)
    | QRecopy => Some (o, o, ADone)
    end.
  (** *** The meaning of a history as a map (C38) *)
  (** the value of [k] in container [t] after a history: insert and operator[] create it, only
      assignment through operator[] and at changes it, clear and reconstruction remove it,
      copying takes the other one's *)
  Definition value_step (k : K) (cur oth : option T) (op : sv_op K T) : option T :=
    match op with
    | QInsert l x => if keq l k then Some (default x cur) else cur
    | QIndex l => if keq l k then Some (default dfltT cur) else cur
    | QPut l x => if keq l k then Some x else cur
    | QAtPut l x => if keq l k then Some x else cur
    | QClear | QRecreate _ => None
    | QRecopy => oth
    | _ => cur
    end.
  Fixpoint values_after (k : K) (a b : option T) (ops : list (bool * sv_op K T)) : option T * option T :=
    match ops with
    | [] => (a, b)
    | (false, op) :: ops => values_after k (value_step k a b op) b ops
    | (true, op) :: ops => values_after k a (value_step k b a op) ops
    end.

  (** *** Memory *)
  (** The elements [les] (address, entry), in exactly these cells. *)
  Definition ent_heap (les : list (loc * E)) : heap := list_to_map ((λ le, (le.1, CEnt le.2)) <$> les).
  (** A sorted_vector_map object with the elements [les]: its pointer array starts with their
      addresses and has [sv_end] slots (no array: capacity 0). *)
  Definition is_svm (v : svm) (les : list (loc * E)) (h : heap) : Prop :=
    sv_last v = length les ∧ length les ≤ sv_end v ∧ NoDup les.*1 ∧
    match sv_arr v with
    | None => sv_end v = 0 ∧ h = ∅
    | Some a => a ∉ les.*1 ∧ ∃ rest,
        sv_end v = length les + length rest ∧
        h = <[a := CArr (((λ le, Some (Some le.1)) <$> les) ++ rest)]> (ent_heap les)
    end.
End client.

(** Calls that remove nothing: all but clear and reconstruction. *)
Definition keeps_elements {K T} (op : sv_op K T) : Prop :=
  match op with QClear | QRecreate _ | QRecopy => False | _ => True end.
(** Every element of [les] is still there: at the same address, with the same key. *)
Definition still_there {K T} (les les' : list (loc * (K * T))) : Prop :=
  ∀ l k x, (l, (k, x)) ∈ les → ∃ y, (l, (k, y)) ∈ les'.
