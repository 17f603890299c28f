(** Client programs used in the statements about access counts. Models no line of /repo. *)
From Verif Require Export VecModel RbModel.

(** for (x of xs) v.push_back(x); *)
Fixpoint push_backs {V} `{Allocator (list (option V))} (fuel : nat) (v : tvec) (xs : list V) : M (gmap loc (list (option V))) tvec :=
  match xs with
  | [] => ret v
  | x :: xs => let! v := v_push_back fuel v (VExt x) in push_backs fuel v xs
  end.

(** for (it = end(), b = begin(); it != b; ) visit( *--it); *)
Definition walk_back {V} (fuel : nat) (this : loc) : M (gmap loc (rbcell V)) (list V) :=
  let! b := m_begin fuel this in
  loop fuel (λ '(p, acc),
    if decide (p ≠ b) then
      let! p' := m_decr fuel p in
      let! v := node_data p' in
      ret (inl (p', acc ++ [v]))
    else ret (inr acc)) (m_end this, []).
