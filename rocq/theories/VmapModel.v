(** ttl/vector_map.hpp: a vector of key-value pairs used as a map. *)
From Verif Require Export VecModel.

Section vmap.
  Context {K T : Type} `{Allocator (list (option (K * T)))}.
  Context (keq : K → K → bool)     (* operator== of the key type *)
          (dfltT : T).             (* T() *)
  Notation heap := (gmap loc (list (option (K * T)))).
  Notation HM A := (M heap A).

  (** vector_map.hpp 86-92. Keys are passed by value: no function below reads its key
      argument after changing the vector (operator[] builds its pair first). *)
  Definition vm_find_key (fuel : nat) (v : tvec) (i : nat) (key : K) : HM nat :=
    loop fuel (λ i,
      if decide (i ≠ v_last v) then
        let! e := rd (v_buf v) i in
        if keq key e.1 then ret (inr i) else ret (inl (S i))
      else ret (inr i)) i.
  (** vector_map.hpp 66-67 *)
  Definition vm_find (fuel : nat) (v : tvec) (key : K) : HM nat := vm_find_key fuel v 0 key.
  (** vector_map.hpp 63-64: the referenced object is slot [i] of the buffer *)
  Definition vm_at (fuel : nat) (v : tvec) (key : K) : HM T :=
    let! i := vm_find fuel v key in
    let! e := rd (v_buf v) i in ret e.2.
  (** vector_map.hpp 55-61; the result: the vector and the slot of the returned reference *)
  Definition vm_index (fuel : nat) (v : tvec) (key : K) : HM (tvec * nat) :=
    let! i := vm_find fuel v key in
    if decide (i ≠ v_last v) then ret (v, i)
    else v_insert fuel v i (VExt (key, dfltT)).
  (** vector_map.hpp 77-83; the argument may be an element of the map *)
  Definition vm_insert (fuel : nat) (v : tvec) (r : vref (K * T)) : HM (tvec * nat * bool) :=
    let! x := deref r in
    let! i := vm_find fuel v x.1 in
    if decide (i ≠ v_last v) then ret (v, i, false)
    else let! (v, i) := v_insert fuel v i r in ret (v, i, true).
  (** vector_map.hpp 69-75: the loop has no increment *)
  Definition vm_count (fuel : nat) (v : tvec) (key : K) : HM nat :=
    loop fuel (λ '(i, n),
      let! i := vm_find_key fuel v i key in
      if decide (i ≠ v_last v) then ret (inl (i, S n)) else ret (inr n)) (0, 0).
End vmap.
