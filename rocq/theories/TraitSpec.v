(** What the type traits are about: cv-qualified types and the classification of the types
    ([basic.type.qualifier], [basic.fundamental], [basic.compound]), in terms of the representation of
    types only. *)
From Verif Require Export TraitModel.

(** The type is const (volatile): the elements of a const array are, references and functions never
    are. *)
Inductive is_c : ty → Prop :=
  | C_base v b : is_c (TBase true v b)
  | C_ptr v t : is_c (TPtr true v t)
  | C_arr t n : is_c t → is_c (TArr t n).
Inductive is_v : ty → Prop :=
  | V_base c b : is_v (TBase c true b)
  | V_ptr c t : is_v (TPtr c true t)
  | V_arr t n : is_v t → is_v (TArr t n).

(** "const T" and "volatile T", written by a program *)
Fixpoint const_of (t : ty) : ty :=
  match t with
  | TBase _ v b => TBase true v b
  | TPtr _ v u => TPtr true v u
  | TArr u n => TArr (const_of u) n
  | TLRef _ | TRRef _ | TFun _ _ => t
  end.
Fixpoint volatile_of (t : ty) : ty :=
  match t with
  | TBase c _ b => TBase c true b
  | TPtr c _ u => TPtr c true u
  | TArr u n => TArr (volatile_of u) n
  | TLRef _ | TRRef _ | TFun _ _ => t
  end.

(** [u] is [t] up to cv-qualification. *)
Inductive cv_variant : ty → ty → Prop :=
  | CV_base c v c' v' b : cv_variant (TBase c v b) (TBase c' v' b)
  | CV_ptr c v c' v' t : cv_variant (TPtr c v t) (TPtr c' v' t)
  | CV_arr t t' n : cv_variant t t' → cv_variant (TArr t n) (TArr t' n)
  | CV_lref t : cv_variant (TLRef t) (TLRef t)
  | CV_rref t : cv_variant (TRRef t) (TRRef t)
  | CV_fun q i : cv_variant (TFun q i) (TFun q i).

(** The (possibly cv-qualified) types of the given lists *)
Definition one_of (bs : list base) (t : ty) : Prop := ∃ c v b, t = TBase c v b ∧ b ∈ bs.
Definition signed_integers := [SChar; SShort; SInt; SLong; SLongLong].
Definition unsigned_integers := [UChar; UShort; UInt; ULong; ULongLong].
Definition integers := Bool :: Char :: WChar :: signed_integers ++ unsigned_integers.
Definition floats := [Float; Double; LongDouble].
Definition is_ptr (t : ty) : Prop := ∃ c v u, t = TPtr c v u.
Definition is_arr (t : ty) : Prop := ∃ u n, t = TArr u n.
Definition is_ref (t : ty) : Prop := ∃ u, t = TLRef u ∨ t = TRRef u.
(** a type T for which T* exists *)
Definition pointable (t : ty) : Prop := ¬ is_ref t ∧ ∀ i, t ≠ TFun true i.
