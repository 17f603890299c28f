(** Concrete sizes for the theorems of PropsLayout.v. *)
From Verif Require Import LayoutModel State.

(** A fixed_vector<T, 3> of a 16-byte type with 16-byte alignment (long double, SSE types) and
    8-byte pointers: placed at address 8, its elements are at 8, 24, 40. *)
Example fixed_misaligned_16 :
  fv_align 8 = 8 ∧ map (elem_addr 16 8) [0; 1; 2] = [8; 24; 40] ∧ fv_sizeof 16 8 8 3 = 56 ∧
  Forall (λ i, elem_addr 16 8 i `mod` 16 ≠ 0) [0; 1; 2].
Proof. split_and!; [reflexivity..|]. repeat constructor; discriminate. Qed.
Example fixed_aligned_4 : Nat.divide 4 12 ∧ Nat.divide 4 8 ∧ Nat.divide (fv_align 8) 24 ∧ elem_addr 12 24 2 = 48.
Proof. split_and!; [by exists 3|by exists 2|by exists 3|reflexivity]. Qed.

(** With an 8-bit size_t and 16-byte elements vector(17) asks for 16 bytes. *)
Example request_wraps : request 8 16 17 = 16 ∧ vec_new_bytes 8 16 100 17 () = UB OutOfBounds.
Proof. split; reflexivity. Qed.
Example request_fits : request 8 16 15 = 240 ∧ vec_new_bytes 8 16 100 15 () = Ok (240, ()).
Proof. split; reflexivity. Qed.
Example to_diff_negative : to_diff 8 200 = (-56)%Z ∧ to_diff 8 100 = 100%Z.
Proof. split; reflexivity. Qed.

Section ex.
  Local Existing Instance bump_allocator.
  (** list<int> l(2, 7); l.resize(4): two indeterminate values; resize(1) keeps the first. *)
  Example list_int_resize :
    outcome ((let! l := dl_new_n 2 (DExt (Some 7)) in
              dl_resize_n true 0 100 l 4 ;! dl_contents 100 l) ∅) = Ok ([Some 7; Some 7; None; None], 5).
  Proof. vm_compute. reflexivity. Qed.
  (** A vector of int. *)
  Example vector_int_resize :
    outcome ((let! v := v_new_n 100 2 (VExt (Some 7)) in
              let! v := v_resize (value_init 0) 100 v 4 in v_contents 100 v) ∅)
    = Ok ([Some 7; Some 7; Some 0; Some 0], 1).
  Proof. vm_compute. reflexivity. Qed.
End ex.
Print Assumptions fixed_misaligned_16.
Print Assumptions list_int_resize.
