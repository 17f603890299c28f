(** sorted_vector_map.hpp and vector_map.hpp again, with a Compare and a == of the keys that may throw,
    in the monad of CmpModel.v. Otherwise everything is as in SvmModel.v and VmapModel.v, whose
    simplifications apply. The references an iterator in 252-265 and 183-196 returns are positions,
    as there. *)
From Verif Require Export CmpModel SvmModel VmapModel.

Section svmap.
  Context {K T0 : Type} `{Allocator (svcell K T0)}.
  Context (keqf compf : nat → K → K → option bool) (dfltT : T0) (ulim : nat).
  Notation heap := (gmap loc (svcell K T0)).
  Notation TM := (T heap).

  (** sorted_vector_map.hpp 234-250 *)
  Definition xsv_bsearch (fuel : nat) (v : svm) (key : K) : TM (nat * bool) :=
    tloop fuel (λ '(L, H),
      if decide (L < H) then
        let m := L + (H - L) / 2 in
        let@ q := tdo (slot_rd (sv_arr v) m) in
        let@ e := tdo (ent_rd q) in
        let@ eq := tcall (λ c, keqf c e.1 key) in
        if eq : bool then tret (inr (m, true)) else
        let@ q := tdo (slot_rd (sv_arr v) m) in
        let@ e := tdo (ent_rd q) in
        let@ isless := tcall (λ c, compf c e.1 key) in
        if isless : bool then tret (inl (S m, H)) else tret (inl (L, m))
      else tret (inr (L, false))) (0, sv_size v mod ulim).
  (** 252-265 *)
  Definition xsv_find (fuel : nat) (v : svm) (key : K) : TM nat :=
    let@ (i, found) := xsv_bsearch fuel v key in
    tret (if found : bool then i else sv_last v).
  (** 266-272 *)
  Definition xsv_find_insert_pos (fuel : nat) (v : svm) (key : K) : TM nat :=
    let@ (i, _) := xsv_bsearch fuel v key in tret i.
  (** i != end() && i->first == key   115, 143, 186, 193 *)
  Definition xkey_at (v : svm) (i : nat) (key : K) : TM bool :=
    if decide (i ≠ sv_last v) then
      let@ q := tdo (slot_rd (sv_arr v) i) in
      let@ e := tdo (ent_rd q) in
      tcall (λ c, keqf c e.1 key)
    else tret false.
  (** 112-118 *)
  Definition xsv_index (fuel : nat) (v : svm) (key : K) : TM (svm * ptr) :=
    let@ i := xsv_find_insert_pos fuel v key in
    let@ b := xkey_at v i key in
    if b : bool then let@ q := tdo (slot_rd (sv_arr v) i) in tret (v, q)
    else
      let@ (v, i) := tdo (sv_insert_before fuel v i (EVal (key, dfltT))) in
      let@ q := tdo (slot_rd (sv_arr v) i) in tret (v, q).
  (** 120-121 *)
  Definition xsv_at (fuel : nat) (v : svm) (key : K) : TM ptr :=
    let@ i := xsv_find fuel v key in tdo (slot_rd (sv_arr v) i).
  (** 140-146 *)
  Definition xsv_insert (fuel : nat) (v : svm) (r : eref K T0) : TM (svm * nat * bool) :=
    let@ x := tdo (ederef r) in
    let@ i := xsv_find_insert_pos fuel v x.1 in
    let@ b := xkey_at v i x.1 in
    if b : bool then tret (v, i, false)
    else let@ (v, i) := tdo (sv_insert_before fuel v i r) in tret (v, i, true).
  (** 161 *)
  Definition xsv_count (fuel : nat) (v : svm) (key : K) : TM nat :=
    let@ i := xsv_find fuel v key in
    tret (if decide (i = sv_last v) then 1 else 0).
  (** 163-178 *)
  Definition xsv_equal_range (fuel : nat) (v : svm) (key : K) : TM (nat * nat) :=
    let@ i1 := xsv_find fuel v key in
    tret (i1, if decide (i1 ≠ sv_last v) then S i1 else i1).
  (** 180-181 *)
  Definition xsv_lower_bound (fuel : nat) (v : svm) (key : K) : TM nat :=
    xsv_find_insert_pos fuel v key.
  (** 183-196 *)
  Definition xsv_upper_bound (fuel : nat) (v : svm) (key : K) : TM nat :=
    let@ i := xsv_find_insert_pos fuel v key in
    tloop fuel (λ i,
      let@ b := xkey_at v i key in
      if b : bool then tret (inl (S i)) else tret (inr i)) i.
End svmap.

Section vmap.
  Context {K T0 : Type} `{Allocator (list (option (K * T0)))}.
  Context (keqf : nat → K → K → option bool) (dfltT : T0).
  Notation heap := (gmap loc (list (option (K * T0)))).
  Notation TM := (T heap).

  (** vector_map.hpp 86-92 *)
  Definition xvm_find_key (fuel : nat) (v : tvec) (i : nat) (key : K) : TM nat :=
    tloop fuel (λ i,
      if decide (i ≠ v_last v) then
        let@ e := tdo (rd (v_buf v) i) in
        let@ eq := tcall (λ c, keqf c key e.1) in
        if eq : bool then tret (inr i) else tret (inl (S i))
      else tret (inr i)) i.
  (** vector_map.hpp 66-67 *)
  Definition xvm_find (fuel : nat) (v : tvec) (key : K) : TM nat := xvm_find_key fuel v 0 key.
  (** vector_map.hpp 63-64 *)
  Definition xvm_at (fuel : nat) (v : tvec) (key : K) : TM T0 :=
    let@ i := xvm_find fuel v key in
    let@ e := tdo (rd (v_buf v) i) in tret e.2.
  (** vector_map.hpp 55-61 *)
  Definition xvm_index (fuel : nat) (v : tvec) (key : K) : TM (tvec * nat) :=
    let@ i := xvm_find fuel v key in
    if decide (i ≠ v_last v) then tret (v, i)
    else tdo (v_insert fuel v i (VExt (key, dfltT))).
  (** vector_map.hpp 77-83 *)
  Definition xvm_insert (fuel : nat) (v : tvec) (r : vref (K * T0)) : TM (tvec * nat * bool) :=
    let@ x := tdo (deref r) in
    let@ i := xvm_find fuel v x.1 in
    if decide (i ≠ v_last v) then tret (v, i, false)
    else let@ (v, i) := tdo (v_insert fuel v i r) in tret (v, i, true).
  (** vector_map.hpp 69-75 *)
  Definition xvm_count (fuel : nat) (v : tvec) (key : K) : TM nat :=
    tloop fuel (λ '(i, n),
      let@ i := xvm_find_key fuel v i key in
      if decide (i ≠ v_last v) then tret (inl (i, S n)) else tret (inr n)) (0, 0).
End vmap.
