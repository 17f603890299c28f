(** GENERATED by tools/genprops.py from TraitRuns.v: property theorems only.
    Every proof is the lemma of the same statement proved there. *)
From Verif Require Import TraitSpec TraitRuns.

  (** remove_const gives the type T such that the argument is T or const T, and T is not const:
   it strips const at the top level only (at the elements of an array) and nothing else. *)
  Theorem C70_remove_const_exact :
    ∀ t u,
  t_remove_const t = u ↔ ¬ is_c u ∧ (t = u ∨ t = const_of u).
  Proof. first [exact remove_const_exact | apply remove_const_exact | intros; eapply remove_const_exact; eassumption]. Qed.

  (** The same for remove_volatile. *)
  Theorem C70_remove_volatile_exact :
    ∀ t u,
  t_remove_volatile t = u ↔ ¬ is_v u ∧ (t = u ∨ t = volatile_of u).
  Proof. first [exact remove_volatile_exact | apply remove_volatile_exact | intros; eapply remove_volatile_exact; eassumption]. Qed.

  (** remove_cv gives the one type that differs from the argument only in cv-qualifiers at the top
   level and has none. *)
  Theorem C70_remove_cv_exact :
    ∀ t u,
 t_remove_cv t = u ↔ cv_variant t u ∧ ¬ is_c u ∧ ¬ is_v u.
  Proof. first [exact remove_cv_exact | apply remove_cv_exact | intros; eapply remove_cv_exact; eassumption]. Qed.

  (** remove_reference takes exactly one reference away, from the other types nothing. *)
  Theorem C70_remove_reference_exact :
    ∀ t u,
  (t_remove_reference true t = u ↔ t = TLRef u ∨ t = TRRef u ∨ (¬ is_ref t ∧ t = u)) ∧
  ((∀ w, t ≠ TRRef w) → t_remove_reference false t = t_remove_reference true t).
  Proof. first [exact remove_reference_exact | apply remove_reference_exact | intros; eapply remove_reference_exact; eassumption]. Qed.

  (** move applied to an lvalue or rvalue of type T takes a reference to T and returns T&& (before
   C++11: takes and returns T&, lvalues only). *)
  Theorem C70_move_type :
    ∀ t lvalue,
 ¬ is_ref t →
  t_move true t lvalue = Some (if lvalue then TLRef t else TRRef t, TRRef t) ∧
  t_move false t true = Some (TLRef t, TLRef t) ∧ t_move false t false = None.
  Proof. first [exact move_type | apply move_type | intros; eapply move_type; eassumption]. Qed.

  (** is_same is true exactly for one and the same type. *)
  Theorem C71_is_same_exact :
    ∀ t u,
 t_is_same t u = true ↔ t = u.
  Proof. first [exact is_same_exact | apply is_same_exact | intros; eapply is_same_exact; eassumption]. Qed.

  (** is_const is true exactly for the const types, false exactly for the others, except that it
   cannot be instantiated for rvalue references and for function types with a qualifier. *)
  Theorem C71_is_const_exact :
    ∀ t,
  (t_is_const t = Some true ↔ is_c t) ∧
  (t_is_const t = Some false ↔ ¬ is_c t ∧ (pointable t ∨ ∃ u, t = TLRef u)) ∧
  (t_is_const t = None ↔ (∃ u, t = TRRef u) ∨ ∃ i, t = TFun true i).
  Proof. first [exact is_const_exact | apply is_const_exact | intros; eapply is_const_exact; eassumption]. Qed.

  (** The same for is_volatile. *)
  Theorem C71_is_volatile_exact :
    ∀ t,
  (t_is_volatile t = Some true ↔ is_v t) ∧
  (t_is_volatile t = Some false ↔ ¬ is_v t ∧ (pointable t ∨ ∃ u, t = TLRef u)) ∧
  (t_is_volatile t = None ↔ (∃ u, t = TRRef u) ∨ ∃ i, t = TFun true i).
  Proof. first [exact is_volatile_exact | apply is_volatile_exact | intros; eapply is_volatile_exact; eassumption]. Qed.

  (** is_void, is_integral, is_floating_point, is_arithmetic and is_fundamental are true exactly for
   the types the header lists, with any cv-qualification; in particular for no pointer, array,
   reference, function, class or enumeration. *)
  Theorem C72_fundamental_exact :
    ∀ t,
  (t_is_void t = true ↔ one_of [Void] t) ∧
  (t_is_integral t = true ↔ one_of integers t) ∧
  (t_is_floating_point t = true ↔ one_of floats t) ∧
  (t_is_arithmetic t = true ↔ one_of (integers ++ floats) t) ∧
  (t_is_fundamental t = true ↔ one_of (Void :: integers ++ floats) t).
  Proof. first [exact fundamental_exact | apply fundamental_exact | intros; eapply fundamental_exact; eassumption]. Qed.

  (** is_signed and is_unsigned are true exactly for the signed and unsigned integer types, and for
   char and wchar_t according to the platform (but never for bool and the floating point types). *)
  Theorem C72_signedness_exact :
    ∀ (char_signed char_unsigned wchar_signed wchar_unsigned : bool) t,
  (t_is_signed char_signed wchar_signed t = true ↔
     one_of (signed_integers ++ (if char_signed then [Char] else []) ++ (if wchar_signed then [WChar] else [])) t) ∧
  (t_is_unsigned char_unsigned wchar_unsigned t = true ↔
     one_of (unsigned_integers ++ (if char_unsigned then [Char] else []) ++ (if wchar_unsigned then [WChar] else [])) t).
  Proof. first [exact signedness_exact | apply signedness_exact | intros; eapply signedness_exact; eassumption]. Qed.

  (** is_pointer is true exactly for object and function pointers, is_array exactly for arrays with or
   without a bound, is_scalar exactly for arithmetic types and pointers. *)
  Theorem C72_compound_exact :
    ∀ t,
  (t_is_pointer t = true ↔ is_ptr t) ∧
  (t_is_array t = true ↔ is_arr t) ∧
  (t_is_scalar t = true ↔ one_of (integers ++ floats) t ∨ is_ptr t).
  Proof. first [exact compound_exact | apply compound_exact | intros; eapply compound_exact; eassumption]. Qed.

  (** All of them depend on the type without its cv-qualifiers only. *)
  Theorem C72_classification_ignores_cv :
    ∀ (cs cu ws wu : bool) t u,
 cv_variant t u →
  t_is_void t = t_is_void u ∧ t_is_integral t = t_is_integral u ∧
  t_is_floating_point t = t_is_floating_point u ∧ t_is_arithmetic t = t_is_arithmetic u ∧
  t_is_fundamental t = t_is_fundamental u ∧ t_is_pointer t = t_is_pointer u ∧
  t_is_scalar t = t_is_scalar u ∧ t_is_array t = t_is_array u ∧
  t_is_signed cs ws t = t_is_signed cs ws u ∧ t_is_unsigned cu wu t = t_is_unsigned cu wu u.
  Proof. first [exact classification_ignores_cv | apply classification_ignores_cv | intros; eapply classification_ignores_cv; eassumption]. Qed.

  (** The primary categories exclude each other: no type is two of void, integral, floating point,
   pointer, array; and none is both signed and unsigned if char and wchar_t are not. *)
  Theorem C72_categories_disjoint :
    ∀ (cs cu ws wu : bool) t,
  (length (filter (λ b, b = true)
     [t_is_void t; t_is_integral t; t_is_floating_point t; t_is_pointer t; t_is_array t]) ≤ 1) ∧
  (cs && cu = false → ws && wu = false →
   ¬ (t_is_signed cs ws t = true ∧ t_is_unsigned cu wu t = true)) ∧
  (t_is_signed cs ws t = true ∨ t_is_unsigned cu wu t = true → t_is_integral t = true).
  Proof. first [exact categories_disjoint | apply categories_disjoint | intros; eapply categories_disjoint; eassumption]. Qed.

  (** Where they differ from the traits of <type_traits> with the same names: the floating point types
   are not signed, bool is not unsigned, char16_t and char32_t are not integral, nullptr_t is not
   fundamental, and enumerations, pointers to members and nullptr_t are not scalar. *)
  Theorem C72_differs_from_std :
    ∀ (cs cu ws wu : bool) c v b,
  let t := TBase c v b in
  (b ∈ floats → t_is_signed cs ws t = false) ∧
  (b = Bool → t_is_unsigned cu wu t = false) ∧
  (b ∈ [Char16; Char32] → t_is_integral t = false) ∧
  (b = NullPtr → t_is_fundamental t = false) ∧
  ((b = NullPtr ∨ ∃ i, b = Enum i ∨ b = MemPtr i) → t_is_scalar t = false).
  Proof. first [exact differs_from_std | apply differs_from_std | intros; eapply differs_from_std; eassumption]. Qed.



Print Assumptions C70_remove_const_exact.
Print Assumptions C70_remove_volatile_exact.
Print Assumptions C70_remove_cv_exact.
Print Assumptions C70_remove_reference_exact.
Print Assumptions C70_move_type.
Print Assumptions C71_is_same_exact.
Print Assumptions C71_is_const_exact.
Print Assumptions C71_is_volatile_exact.
Print Assumptions C72_fundamental_exact.
Print Assumptions C72_signedness_exact.
Print Assumptions C72_compound_exact.
Print Assumptions C72_classification_ignores_cv.
Print Assumptions C72_categories_disjoint.
Print Assumptions C72_differs_from_std.
