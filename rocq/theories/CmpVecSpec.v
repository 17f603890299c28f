(** sorted_vector_map and vector_map whose Compare or == may throw: clients that catch the exceptions
    (CatchSpec.v). *)
From Verif Require Export CmpVecModel CatchSpec SvmSpec VmapSpec.

Section sv.
  Context {K T0 : Type} `{Allocator (svcell K T0)}.
  Context (keq comp : K → K → bool) (keqf compf : nat → K → K → option bool) (dfltT : T0) (ulim : nat).
  Notation heap := (gmap loc (svcell K T0)).

  (** The calls of [sv_step]. *)
  Definition xsv_step (fuel : nat) (this other : svm) (op : sv_op K T0) : T heap (svm * svm * sv_out K T0) :=
    match op with
    | QInsert k x =>
        let@ (v, i, b) := xsv_insert keqf compf ulim fuel this (EVal (k, x)) in tret (v, other, AIns i b)
    | QInsertOwn j =>
        let@ q := tdo (slot_rd (sv_arr this) j) in
        let@ (v, i, b) := xsv_insert keqf compf ulim fuel this (ERef q) in tret (v, other, AIns i b)
    | QIndex k =>
        let@ (v, q) := xsv_index keqf compf dfltT ulim fuel this k in
        let@ e := tdo (ent_rd q) in tret (v, other, AVal e.2)
    | QPut k x =>
        let@ (v, q) := xsv_index keqf compf dfltT ulim fuel this k in
        tdo (ent_wr q x) ;@ tret (v, other, ADone)
    | QAt k =>
        let@ q := xsv_at keqf compf ulim fuel this k in
        let@ e := tdo (ent_rd q) in tret (this, other, AVal e.2)
    | QAtPut k x =>
        let@ q := xsv_at keqf compf ulim fuel this k in
        tdo (ent_wr q x) ;@ tret (this, other, ADone)
    | QFind k => let@ i := xsv_find keqf compf ulim fuel this k in tret (this, other, APos i)
    | QCount k => let@ n := xsv_count keqf compf ulim fuel this k in tret (this, other, APos n)
    | QEqualRange k =>
        let@ (i, j) := xsv_equal_range keqf compf ulim fuel this k in tret (this, other, ARange i j)
    | QLower k => let@ i := xsv_lower_bound keqf compf ulim fuel this k in tret (this, other, APos i)
    | QUpper k => let@ i := xsv_upper_bound keqf compf ulim fuel this k in tret (this, other, APos i)
    | QSize | QEmpty | QClear | QContents | QRecreate _ | QRecopy =>
        tdo (sv_step keq comp dfltT ulim fuel this other op)
    end.
End sv.

Section vm.
  Context {K T0 : Type} `{Allocator (list (option (K * T0)))}.
  Context (keq : K → K → bool) (keqf : nat → K → K → option bool) (dfltK : K) (dfltT : T0)
          (eqb : K * T0 → K * T0 → bool).
  Notation heap := (gmap loc (list (option (K * T0)))).

  (** The calls of [vm_step]; those inherited from vector compare no keys (its == compares whole
      elements, by a function that does not throw here). *)
  Definition xvm_step (fuel : nat) (this other : tvec) (op : vm_op K T0) : T heap (tvec * tvec * vm_out K T0) :=
    match op with
    | MBase _ => tdo (vm_step keq dfltK dfltT eqb fuel this other op)
    | MInsert k x =>
        let@ (v, i, b) := xvm_insert keqf fuel this (VExt (k, x)) in tret (v, other, OIns i b)
    | MInsertOwn j =>
        let@ (v, i, b) := xvm_insert keqf fuel this (vown this j) in tret (v, other, OIns i b)
    | MIndex k =>
        let@ (v, i) := xvm_index keqf dfltT fuel this k in
        let@ e := tdo (rd (v_buf v) i) in tret (v, other, OVal e.2)
    | MPut k x =>
        let@ (v, i) := xvm_index keqf dfltT fuel this k in
        let@ e := tdo (rd (v_buf v) i) in
        tdo (assign_at (v_buf v) i (e.1, x)) ;@ tret (v, other, ODone)
    | MFind k => let@ i := xvm_find keqf fuel this k in tret (this, other, OPos i)
    | MAt k => let@ x := xvm_at keqf fuel this k in tret (this, other, OVal x)
    | MCount k => let@ n := xvm_count keqf fuel this k in tret (this, other, OPos n)
    end.
End vm.
