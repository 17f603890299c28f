(** /repo/ttl/type_traits.hpp and move of /repo/ttl/utility.hpp: compile-time functions on types.

    C++ types are represented canonically: a cv-qualifier sits on the type it applies to, and the
    qualifiers of an array type are those of its elements ([basic.type.qualifier]). References and
    functions have no cv-qualifiers. A trait whose instantiation is ill-formed gives None.
    Simplifications: enumerations, classes, pointers to members and functions are atoms with an
    identity; function types with a cv/ref qualifier-seq are [TFun true _]. *)
From Verif Require Export Base.

(** the types without structure: the fundamental types and the named ones *)
Inductive base :=
  | Void | NullPtr
  | Bool | Char | WChar | Char16 | Char32
  | SChar | SShort | SInt | SLong | SLongLong
  | UChar | UShort | UInt | ULong | ULongLong
  | Float | Double | LongDouble
  | Enum (id : nat) | Class (id : nat) | MemPtr (id : nat).

(** [c], [v]: const, volatile *)
Inductive ty :=
  | TBase (c v : bool) (b : base)
  | TPtr (c v : bool) (t : ty)
  | TArr (t : ty) (n : option nat)
  | TLRef (t : ty)
  | TRRef (t : ty)
  | TFun (qualified : bool) (id : nat).

Global Instance base_eq_dec : EqDecision base.
Proof. solve_decision. Defined.
Global Instance ty_eq_dec : EqDecision ty.
Proof. solve_decision. Defined.

(** *** Matching of the patterns of the partial specialisations: what T is deduced to *)
(** const T *)
Fixpoint match_const (t : ty) : option ty :=
  match t with
  | TBase true v b => Some (TBase false v b)
  | TPtr true v u => Some (TPtr false v u)
  | TArr u n => match match_const u with Some u' => Some (TArr u' n) | None => None end
  | _ => None
  end.
(** volatile T *)
Fixpoint match_volatile (t : ty) : option ty :=
  match t with
  | TBase c true b => Some (TBase c false b)
  | TPtr c true u => Some (TPtr c false u)
  | TArr u n => match match_volatile u with Some u' => Some (TArr u' n) | None => None end
  | _ => None
  end.
(** const volatile T *)
Definition match_cv (t : ty) : option ty :=
  match match_const t with Some u => match_volatile u | None => None end.
(** T&, T&&, T* (of a pointer without cv-qualifiers), T[], T[N] *)
Definition match_lref (t : ty) : option ty := match t with TLRef u => Some u | _ => None end.
Definition match_rref (t : ty) : option ty := match t with TRRef u => Some u | _ => None end.
Definition match_ptr (t : ty) : option ty := match t with TPtr false false u => Some u | _ => None end.
Definition match_arr (t : ty) : option ty := match t with TArr u None => Some u | _ => None end.
Definition match_arrn (t : ty) : option (ty * nat) := match t with TArr u (Some n) => Some (u, n) | _ => None end.

(** The type T*: there are no pointers to references and to functions with a qualifier-seq
    ([dcl.ptr]). *)
Definition mkptr (t : ty) : option ty :=
  match t with
  | TLRef _ | TRRef _ | TFun true _ => None
  | _ => Some (TPtr false false t)
  end.

Definition is_some {A} (o : option A) : bool := match o with Some _ => true | None => false end.
Definition or_else {A} (o : option A) (d : A) : A := match o with Some x => x | None => d end.

Section traits.
  (** The platform: CHAR_MAX == SCHAR_MAX (63), CHAR_MAX == UCHAR_MAX (76), the WCHAR_MAX conditions of
      66 and 79; the language is C++11 or later (25). *)
  Context (char_signed char_unsigned wchar_signed wchar_unsigned cxx11 : bool).

  (** remove_const, type_traits.hpp:15-16 *)
  Definition t_remove_const (t : ty) : ty := or_else (match_const t) t.
  (** remove_volatile, 17-18 *)
  Definition t_remove_volatile (t : ty) : ty := or_else (match_volatile t) t.
  (** remove_cv, 19-23 *)
  Definition t_remove_cv (t : ty) : ty := t_remove_volatile (t_remove_const t).
  (** remove_reference, 24-28 *)
  Definition t_remove_reference (t : ty) : ty :=
    match match_lref t with
    | Some u => u
    | None => if cxx11 then or_else (match_rref t) t else t
    end.
  (** is_same, 41-42 *)
  Definition t_is_same (t u : ty) : bool := bool_decide (t = u).
  (** is_const_value, 45-47: the patterns are const T*, const volatile T* *)
  Definition t_is_const_value (t : ty) : bool :=
    match match_ptr t with
    | Some u => is_some (match_const u) || is_some (match_cv u)
    | None => false
    end.
  (** is_const, 48-50 *)
  Definition t_is_const (t : ty) : option bool :=
    match match_lref t with
    | Some _ => Some false
    | None => match mkptr t with Some p => Some (t_is_const_value p) | None => None end
    end.
  (** is_volatile_value, 53-55 *)
  Definition t_is_volatile_value (t : ty) : bool :=
    match match_ptr t with
    | Some u => is_some (match_volatile u) || is_some (match_cv u)
    | None => false
    end.
  (** is_volatile, 56-58 *)
  Definition t_is_volatile (t : ty) : option bool :=
    match match_lref t with
    | Some _ => Some false
    | None => match mkptr t with Some p => Some (t_is_volatile_value p) | None => None end
    end.

  (** is_same<b, typename remove_cv<T>::type>::value *)
  Definition same_cv (b : base) (t : ty) : bool := t_is_same (TBase false false b) (t_remove_cv t).
  (** is_signed, 61-72 *)
  Definition t_is_signed (t : ty) : bool :=
    (char_signed && same_cv Char t) ||
    (wchar_signed && same_cv WChar t) ||
    same_cv SChar t || same_cv SShort t || same_cv SInt t || same_cv SLong t || same_cv SLongLong t.
  (** is_unsigned, 75-86 *)
  Definition t_is_unsigned (t : ty) : bool :=
    (char_unsigned && same_cv Char t) ||
    (wchar_unsigned && same_cv WChar t) ||
    same_cv UChar t || same_cv UShort t || same_cv UInt t || same_cv ULong t || same_cv ULongLong t.
  (** is_void, 89-90 *)
  Definition t_is_void (t : ty) : bool := same_cv Void t.
  (** is_integral, 95-110 *)
  Definition t_is_integral (t : ty) : bool :=
    same_cv UChar t || same_cv UShort t || same_cv UInt t || same_cv ULong t || same_cv ULongLong t ||
    same_cv SChar t || same_cv SShort t || same_cv SInt t || same_cv SLong t || same_cv SLongLong t ||
    same_cv Bool t || same_cv Char t || same_cv WChar t.
  (** is_floating_point, 113-116 *)
  Definition t_is_floating_point (t : ty) : bool :=
    same_cv Float t || same_cv Double t || same_cv LongDouble t.
  (** is_arithmetic, 121-124 *)
  Definition t_is_arithmetic (t : ty) : bool := t_is_integral t || t_is_floating_point t.
  (** is_fundamental, 131-135 *)
  Definition t_is_fundamental (t : ty) : bool := t_is_void t || t_is_integral t || t_is_floating_point t.
  (** is_pointer, 137-139 *)
  Definition t_is_pointer (t : ty) : bool := is_some (match_ptr (t_remove_cv t)).
  (** is_scalar, 146-153 *)
  Definition t_is_scalar (t : ty) : bool := t_is_arithmetic t || t_is_pointer t.
  (** is_array, 155-157 *)
  Definition t_is_array (t : ty) : bool := is_some (match_arr t) || is_some (match_arrn t).

  (** Reference collapsing of the forwarding reference T&& for a deduced T, and of T & / T &&. *)
  Definition add_lref (t : ty) : ty :=
    match t with TLRef u => TLRef u | TRRef u => TLRef u | _ => TLRef t end.
  Definition add_rref (t : ty) : ty :=
    match t with TLRef u => TLRef u | TRRef u => TRRef u | _ => TRRef t end.
  (** move, utility.hpp:120-128, applied to an expression of type [t] that is an lvalue or not: the
      type of the parameter and of the result. In C++11, T is deduced to t& for an lvalue and to t
      otherwise; before, an rvalue cannot be passed (None). *)
  Definition t_move (t : ty) (lvalue : bool) : option (ty * ty) :=
    if cxx11 then
      let T := if lvalue then TLRef t else t in
      Some (add_rref T, add_rref (t_remove_reference T))
    else if lvalue then Some (add_lref t, add_lref (t_remove_reference t)) else None.
End traits.
