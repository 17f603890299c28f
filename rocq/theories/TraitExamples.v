(** Type traits: concrete instances and types that meet the hypotheses of the theorems in
    PropsTrait.v (C70, C71, C72). *)
From Verif Require Import TraitSpec.

Section ex.
  Notation int_ := (TBase false false SInt).
  (** const volatile int[2][3], int const * volatile *)
  Definition cv_arr := TArr (TArr (TBase true true SInt) (Some 3)) (Some 2).
  Definition v_ptr := TPtr false true (TBase true false SInt).
  Example trait_types : is_c cv_arr ∧ is_v cv_arr ∧ ¬ is_c v_ptr ∧ is_v v_ptr ∧ pointable cv_arr ∧ ¬ is_ref v_ptr.
  Proof.
    split_and!; try (repeat constructor; fail).
    - inversion 1.
    - split; [|done]. intros [u [?|?]]; done.
    - intros [u [?|?]]; done.
  Qed.
  Example trait_variant : cv_variant cv_arr (TArr (TArr int_ (Some 3)) (Some 2)).
  Proof. repeat constructor. Qed.
  Example trait_run :
    t_remove_cv cv_arr = TArr (TArr int_ (Some 3)) (Some 2) ∧
    t_remove_const cv_arr = TArr (TArr (TBase false true SInt) (Some 3)) (Some 2) ∧
    t_remove_const v_ptr = v_ptr ∧ t_remove_cv v_ptr = TPtr false false (TBase true false SInt) ∧
    t_is_const cv_arr = Some true ∧ t_is_const v_ptr = Some false ∧ t_is_volatile v_ptr = Some true ∧
    t_is_const (TLRef (TBase true false SInt)) = Some false ∧ t_is_const (TRRef int_) = None ∧
    t_is_array cv_arr = true ∧ t_is_pointer v_ptr = true ∧ t_is_integral v_ptr = false ∧
    t_is_integral (TBase true true WChar) = true ∧ t_is_signed true true (TBase true false Char) = true ∧
    t_remove_reference true (TRRef int_) = int_ ∧ t_remove_reference false (TRRef int_) = TRRef int_ ∧
    t_move true int_ true = Some (TLRef int_, TRRef int_).
  Proof. vm_compute. done. Qed.
End ex.
