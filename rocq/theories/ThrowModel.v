(** Element copies that throw: vector.hpp and fixed_vector.hpp again, with a copy constructor of T
    that may throw an exception.

    BlockModel.v lets placement new always succeed. Here [::new(p) T(x)] may throw instead: nothing is
    constructed at [p], the exception leaves the running member function, and the object keeps its
    members and the memory as they are at that moment. So, unlike in VecModel.v, the members are
    changed at exactly the point where the source changes them: [new(last_++) T(x)] increments last_
    before the constructor runs. T(), ~T() and operator new do not throw here (for operator new see
    Fault.v). *)
From Verif Require Export FixedModel.

(** The result of a member function: it returned [a], or an exception left it; [m] are the members
    of the object afterwards. The [option nat] is the number of element copies that will still
    succeed; the next one throws ([None]: none ever throws). *)
Inductive xres (Mb A : Type) :=
  | XDone (m : Mb) (left : option nat) (a : A)
  | XThrew (m : Mb).
Global Arguments XDone {_ _} _ _ _.
Global Arguments XThrew {_ _} _.

Section monad.
  Context {V Mb : Type}.
  Notation heap := (gmap loc (list (option V))).
  Notation HM A := (M heap A).

  (** Member functions that may throw: from the members and the number of successful copies. *)
  Definition X (A : Type) := Mb → option nat → HM (xres Mb A).
  Definition xret {A} (a : A) : X A := λ m f, ret (XDone m f a).
  Definition xbind {A B} (p : X A) (k : A → X B) : X B := λ m f,
    let! r := p m f in
    match r with XDone m f a => k a m f | XThrew m => ret (XThrew m) end.
  (** statements that cannot throw *)
  Definition xdo {A} (p : HM A) : X A := λ m f, let! a := p in ret (XDone m f a).
  (** reading and writing the data members *)
  Definition xthis : X Mb := λ m f, ret (XDone m f m).
  Definition xset (m : Mb) : X unit := λ _ f, ret (XDone m f tt).
  (** ::new(p) T(x) *)
  Definition xcopy (p : ptr) (i : nat) (x : V) : X unit := λ m f,
    match f with
    | Some 0 => ret (XThrew m)
    | _ => construct p i x ;! ret (XDone m (pred <$> f) tt)
    end.
  Fixpoint xloop {A B} (fuel : nat) (body : A → X (A + B)) (a : A) : X B :=
    match fuel with
    | 0 => λ _ _ _, NoFuel
    | S fuel => xbind (body a) (λ r, match r with inl a => xloop fuel body a | inr b => xret b end)
    end.

  (** try ( p; ) catch (...) ( ) - the members of the object afterwards *)
  Definition caught {A} (p : X A) (m : Mb) (f : option nat) : HM Mb :=
    let! r := p m f in ret (match r with XDone m _ _ => m | XThrew m => m end).
End monad.
Global Arguments X : clear implicits.
Notation "'let$' x := m 'in' k" := (xbind m (λ x, k))
  (at level 200, x pattern, m at level 100, k at level 200, right associativity).
Notation "m ;$ k" := (xbind m (λ _, k)) (at level 100, k at level 200, right associativity).

Section loops.
  Context {V Mb : Type} `{Allocator (list (option V))}.
  Notation X A := (X V Mb A).
  Notation vref := (vref V).
  Notation vc_args := (vc_args V).

  (** for (; i != e; ++i) ::new(o++) T( *i);  vector.hpp 241-242, 266-267, 270-271 (o is a local) *)
  Definition xcopy_up (fuel : nat) (p : ptr) (i e : nat) (q : ptr) (o : nat) : X (nat * nat) :=
    xloop fuel (λ '(i, o),
      if decide (i ≠ e) then
        let$ x := xdo (rd p i) in
        xcopy q o x ;$
        xret (inl (S i, S o))
      else xret (inr (i, o))) (i, o).
  (** vector.hpp 44-59 *)
  Definition xvc (p : ptr) (o : nat) (args : vc_args) : X vc_args :=
    match args with
    | VcCounter r => let$ x := xdo (deref r) in xcopy p o x ;$ xret (VcCounter r)
    | VcIterator g =>
        match rnext g with
        | Some (r, g) => let$ x := xdo (deref r) in xcopy p o x ;$ xret (VcIterator g)
        | None => xdo (fail OutOfBounds)
        end
    end.
  (** while (n-- > 0) vc(o++, args), o a local variable  vector.hpp 268-269, 290-291 *)
  Definition xvc_loop (fuel : nat) (p : ptr) (o n : nat) (args : vc_args) : X nat :=
    xloop fuel (λ '(n, o, args),
      match n with
      | S n => let$ args := xvc p o args in xret (inl (n, S o, args))
      | 0 => xret (inr o)
      end) (n, o, args).
  (** for (o = last_; i != pos; ) (::new( --o) T( *--i); i->~T();)
      vector.hpp 285-289, fixed_vector.hpp 213-217, 245-249 *)
  Definition xshift_up (fuel : nat) (p : ptr) (i o pos : nat) : X unit :=
    xloop fuel (λ '(i, o),
      if decide (i ≠ pos) then
        let$ o := xdo (dec_ptr o) in
        let$ i := xdo (dec_ptr i) in
        let$ x := xdo (rd p i) in
        xcopy p o x ;$
        xdo (destroy_at p i) ;$
        xret (inl (i, o))
      else xret (inr tt)) (i, o).
  (** for (; i != last_; ++i) (::new(o++) T( *i); i->~T();)
      vector.hpp 311-315, fixed_vector.hpp 270-274 *)
  Definition xshift_down (fuel : nat) (p : ptr) (i o last : nat) : X nat :=
    xloop fuel (λ '(i, o),
      if decide (i ≠ last) then
        let$ x := xdo (rd p i) in
        xcopy p o x ;$
        xdo (destroy_at p i) ;$
        xret (inl (S i, S o))
      else xret (inr o)) (i, o).
End loops.

Section vector.
  Context {V : Type} `{Allocator (list (option V))}.
  Context (dflt : V).       (* the value of T() *)
  Notation X A := (X V tvec A).
  Notation vref := (vref V).
  Notation vrange := (vrange V).
  Notation vc_args := (vc_args V).

  (** last_++ *)
  Definition xlast : X nat :=
    let$ v := xthis in xset (v_set_last v (S (v_last v))) ;$ xret (v_last v).
  (** ::new(last_++) T(x) with x = *r *)
  Definition xpush (r : vref) : X unit :=
    let$ o := xlast in
    let$ v := xthis in
    let$ x := xdo (deref r) in
    xcopy (v_buf v) o x.
  (** while (n--) ::new(last_++) T(value);  vector.hpp 180-181, 188-189, 222-223 *)
  Definition xfill_up (fuel : nat) (n : nat) (r : vref) : X unit :=
    xloop fuel (λ n,
      match n with
      | S n => xpush r ;$ xret (inl n)
      | 0 => xret (inr tt)
      end) n.
  (** for (; i != e; ++i) ::new(last_++) T( *i);  vector.hpp 196-197, 213-214 *)
  Definition xcopy_end (fuel : nat) (p : ptr) (i e : nat) : X unit :=
    xloop fuel (λ i,
      if decide (i ≠ e) then xpush (VSlot p i) ;$ xret (inl (S i))
      else xret (inr tt)) i.
  (** for (o = last_; n-- > 0;) vc(last_++, args);  vector.hpp 295-296 *)
  Definition xvc_end (fuel : nat) (n : nat) (args : vc_args) : X unit :=
    xloop fuel (λ '(n, args),
      match n with
      | S n =>
          let$ o := xlast in
          let$ v := xthis in
          let$ args := xvc (v_buf v) o args in
          xret (inl (n, args))
      | 0 => xret (inr tt)
      end) (n, args).

  (** vector.hpp 168-172 *)
  Definition xv_clear (fuel : nat) : X unit :=
    let$ v := xthis in let$ v := xdo (v_clear fuel v) in xset v.
  (** vector.hpp 234-249 *)
  Definition xv_reserve (fuel : nat) (n : nat) : X unit :=
    let$ v := xthis in
    if decide (n < v_end v) then xret tt else
    let$ q := xdo (new_buf n) in
    let$ (i, o) := xcopy_up fuel (v_buf v) 0 (v_last v) q 0 in
    xdo (destroy_down fuel (v_buf v) i) ;$
    xdo (free_buf (v_buf v)) ;$
    xset (Vec q o n).
  (** vector.hpp 251-301 *)
  Definition xv_insert_values (fuel : nat) (pos n : nat) (args : vc_args) : X nat :=
    let$ v := xthis in
    if decide (0 < n) then
      if decide (v_end v - v_last v < n) then
        let newcapacity := v_size v + n in
        let$ q := xdo (new_buf newcapacity) in
        let$ (i, o) := xcopy_up fuel (v_buf v) 0 pos q 0 in
        let$ o := xvc_loop fuel q o n args in
        let$ (i, o) := xcopy_up fuel (v_buf v) i (v_last v) q o in
        xdo (destroy_down fuel (v_buf v) i) ;$
        xdo (free_buf (v_buf v)) ;$
        xset (Vec q o newcapacity) ;$
        xret pos
      else if decide (pos < v_last v) then
        xset (v_set_last v (v_last v + n)) ;$
        xshift_up fuel (v_buf v) (v_last v) (v_last v + n) pos ;$
        xvc_loop fuel (v_buf v) pos n args ;$
        xret pos
      else
        xvc_end fuel n args ;$
        xret pos
    else xret pos.
  (** vector.hpp 122-139 *)
  Definition xv_insert_n (fuel : nat) (pos n : nat) (r : vref) : X nat :=
    xv_insert_values fuel pos n (VcCounter r).
  Definition xv_insert (fuel : nat) (pos : nat) (r : vref) : X nat :=
    xv_insert_values fuel pos 1 (VcCounter r).
  Definition xv_insert_range (fuel : nat) (pos : nat) (g : vrange) : X nat :=
    xv_insert_values fuel pos (rlen g) (VcIterator g).
  (** vector.hpp 141-147 *)
  Definition xv_push_back (fuel : nat) (r : vref) : X unit :=
    let$ v := xthis in
    if decide (v_last v < v_end v) then xpush r
    else xv_insert_n fuel (v_last v) 1 r ;$ xret tt.
  (** while (first != last) push_back( *first++)  vector.hpp 83-84, 205-206 *)
  Definition xv_append (fuel : nat) (g : vrange) : X unit :=
    xloop fuel (λ g,
      match rnext g with
      | Some (r, g) => xv_push_back fuel r ;$ xret (inl g)
      | None => xret (inr tt)
      end) g.
  (** vector.hpp 80-85 *)
  Definition xv_assign_range (fuel : nat) (g : vrange) : X unit :=
    xv_clear fuel ;$ xv_append fuel g.
  (** vector.hpp 217-224 *)
  Definition xv_assign_n (fuel : nat) (n : nat) (r : vref) : X unit :=
    xv_clear fuel ;$
    xv_reserve fuel n ;$
    xfill_up fuel n r.
  (** vector.hpp 208-216, with other != *this *)
  Definition xv_assign (fuel : nat) (other : tvec) : X unit :=
    xv_clear fuel ;$
    xv_reserve fuel (v_capacity other) ;$
    xcopy_end fuel (v_buf other) 0 (v_last other).
  (** vector.hpp 175-190. An exception that leaves a constructor ends the lifetime of the object:
      its destructor does not run. *)
  Definition xv_new_n (fuel : nat) (n : nat) (r : vref) : X unit :=
    let$ q := xdo (new_buf n) in
    xset (Vec q 0 n) ;$
    xfill_up fuel n r.
  (** vector.hpp 191-198 *)
  Definition xv_copy (fuel : nat) (other : tvec) : X unit :=
    let$ q := xdo (new_buf (v_size other)) in
    xset (Vec q 0 (v_size other)) ;$
    xcopy_end fuel (v_buf other) 0 (v_last other).
  (** vector.hpp 199-207 *)
  Definition xv_new_range (fuel : nat) (g : vrange) : X unit :=
    xset (Vec None 0 0) ;$
    xv_reserve fuel (rlen g) ;$
    xv_append fuel g.
  (** vector.hpp 225-233 *)
  Definition xv_resize (fuel : nat) (new_size : nat) : X unit :=
    let$ v := xthis in
    if decide (new_size < v_size v) then
      let$ v := xdo (v_truncate fuel v new_size) in xset v
    else xv_insert_n fuel (v_last v) (new_size - v_size v) (VExt dflt) ;$ xret tt.
  (** vector.hpp 101-107 *)
  Definition xv_resize_to (fuel : nat) (new_size : nat) (r : vref) : X unit :=
    let$ v := xthis in
    if decide (new_size < v_size v) then xv_resize fuel new_size
    else xv_insert_n fuel (v_last v) (new_size - v_size v) r ;$ xret tt.
  (** vector.hpp 303-318 *)
  Definition xv_erase_range (fuel : nat) (first last : nat) : X nat :=
    let$ v := xthis in
    xdo (destroy_range fuel (v_buf v) first last) ;$
    let$ o := xshift_down fuel (v_buf v) last first (v_last v) in
    xset (v_set_last v o) ;$
    xret first.
  (** vector.hpp 156-159 *)
  Definition xv_erase (fuel : nat) (pos : nat) : X nat := xv_erase_range fuel pos (S pos).
End vector.

Section fixed.
  Context {V : Type} `{Allocator (list (option V))}.
  Context (N : nat).        (* the template argument *)
  Context (dflt : V).       (* the value of T() *)
  Notation X A := (X V fvec A).
  Notation vref := (vref V).
  Notation vrange := (vrange V).

  (** ::new(last_++) T(x) with x = *r *)
  Definition xf_push (r : vref) : X unit :=
    let$ v := xthis in
    xset (fv_set_last v (S (fv_last v))) ;$
    let$ x := xdo (deref r) in
    xcopy (fv_p v) (fv_last v) x.
  (** fixed_vector.hpp 130-134 *)
  Definition xf_clear (fuel : nat) : X unit :=
    let$ v := xthis in let$ v := xdo (fv_clear fuel v) in xset v.
  (** while (n-- && !full()) ::new(last_++) T(value);
      fixed_vector.hpp 148-149, 180-181, 223-224 *)
  Definition xf_fill (fuel : nat) (n : nat) (r : vref) : X unit :=
    xloop fuel (λ n,
      match n with
      | S n =>
          let$ v := xthis in
          if fv_full N v then xret (inr tt) else xf_push r ;$ xret (inl n)
      | 0 => xret (inr tt)
      end) n.
  (** for (; first != last && !full(); ++first) ::new(last_++) T( *first);
      fixed_vector.hpp 62-63, 155-156, 255-256; also 163-164 (through push_back) *)
  Definition xf_append (fuel : nat) (g : vrange) : X unit :=
    xloop fuel (λ g,
      match rnext g with
      | Some (r, g) =>
          let$ v := xthis in
          if fv_full N v then xret (inr tt) else xf_push r ;$ xret (inl g)
      | None => xret (inr tt)
      end) g.
  (** for (; i != other.cend(); ++i) ::new(last_++) T( *i);  fixed_vector.hpp 171-172 *)
  Definition xf_copy_end (fuel : nat) (p : ptr) (i e : nat) : X unit :=
    xloop fuel (λ i,
      if decide (i ≠ e) then xf_push (VSlot p i) ;$ xret (inl (S i))
      else xret (inr tt)) i.
  (** fixed_vector.hpp 137-165. The storage is part of the object. *)
  Definition xf_new_n (fuel : nat) (n : nat) (r : vref) : X unit :=
    let$ v := xdo (fv_new N) in xset v ;$ xf_fill fuel n r.
  Definition xf_copy (fuel : nat) (other : fvec) : X unit :=
    let$ v := xdo (fv_new N) in xset v ;$ xf_append fuel (RBuf (fv_p other) 0 (fv_last other)).
  (** fixed_vector.hpp 167-174 *)
  Definition xf_assign (fuel : nat) (other : fvec) : X unit :=
    xf_clear fuel ;$ xf_copy_end fuel (fv_p other) 0 (fv_last other).
  (** fixed_vector.hpp 57-64, 176-182 *)
  Definition xf_assign_n (fuel : nat) (n : nat) (r : vref) : X unit :=
    xf_clear fuel ;$ xf_fill fuel n r.
  Definition xf_assign_range (fuel : nat) (g : vrange) : X unit :=
    xf_clear fuel ;$ xf_append fuel g.
  (** for (o = p; n-- && o < end_of_elements();) ::new(o++) T(x);  218-219 *)
  Definition xf_put_n (fuel : nat) (v : fvec) (o n : nat) (r : vref) : X unit :=
    xloop fuel (λ '(n, o),
      match n with
      | S n =>
          if decide (o < N) then
            let$ x := xdo (deref r) in
            xcopy (fv_p v) o x ;$
            xret (inl (n, S o))
          else xret (inr tt)
      | 0 => xret (inr tt)
      end) (n, o).
  (** for (o = p; first != last && o < end_of_elements(); ++first) ::new(o++) T( *first);  250-251 *)
  Definition xf_put_range (fuel : nat) (v : fvec) (o : nat) (g : vrange) : X unit :=
    xloop fuel (λ '(g, o),
      match rnext g with
      | Some (r, g) =>
          if decide (o < N) then
            let$ x := xdo (deref r) in
            xcopy (fv_p v) o x ;$
            xret (inl (g, S o))
          else xret (inr tt)
      | None => xret (inr tt)
      end) (g, o).
  (** the part of both insert functions that makes room: 207-217, 239-249; last_ is set before the
      elements are moved *)
  Definition xf_make_room (fuel : nat) (p n : nat) : X unit :=
    let$ v := xthis in
    let$ (o, i) := xdo (fv_cut N fuel v (fv_last v + n) (fv_last v) p) in
    let o := if decide (N < o) then N else o in
    xset (fv_set_last v o) ;$
    xshift_up fuel (fv_p v) i o p.
  (** fixed_vector.hpp 198-228 *)
  Definition xf_insert_n (fuel : nat) (pos n : nat) (r : vref) : X nat :=
    if decide (n = 0) then xret pos else
    let$ v := xthis in
    if decide (pos < fv_last v) then
      xf_make_room fuel pos n ;$
      let$ v := xthis in
      xf_put_n fuel v pos n r ;$
      xret pos
    else xf_fill fuel n r ;$ xret pos.
  (** fixed_vector.hpp 229-260 *)
  Definition xf_insert_range (fuel : nat) (pos : nat) (g : vrange) : X nat :=
    if decide (rlen g = 0) then xret pos else
    let$ v := xthis in
    if decide (pos < fv_last v) then
      xf_make_room fuel pos (rlen g) ;$
      let$ v := xthis in
      xf_put_range fuel v pos g ;$
      xret pos
    else xf_append fuel g ;$ xret pos.
  (** fixed_vector.hpp 110-114 *)
  Definition xf_push_back (r : vref) : X unit :=
    let$ v := xthis in
    if fv_full N v then xret tt else xf_push r.
  (** fixed_vector.hpp 184-196 *)
  Definition xf_resize (fuel : nat) (new_size : nat) : X unit :=
    let$ v := xthis in
    if decide (new_size < fv_size v) then
      let$ v := xdo (fv_resize N dflt fuel v new_size) in xset v
    else
      let new_size := if decide (N < new_size) then N else new_size in
      xf_insert_n fuel (fv_last v) (new_size - fv_size v) (VExt dflt) ;$ xret tt.
  (** fixed_vector.hpp 262-277 *)
  Definition xf_erase_range (fuel : nat) (first last : nat) : X nat :=
    let$ v := xthis in
    xdo (destroy_range fuel (fv_p v) first last) ;$
    let$ o := xshift_down fuel (fv_p v) last first (fv_last v) in
    xset (fv_set_last v o) ;$
    xret first.
End fixed.
