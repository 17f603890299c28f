(** Type traits: the property lemmas, in the vocabulary of TraitSpec.v. *)
From Coq Require Import ssreflect.
From Verif Require Import TraitSpec.
Local Open Scope general_if_scope.
(*@HEADER
From Verif Require Import TraitSpec TraitRuns.
@*)

Lemma match_const_spec t u : match_const t = Some u ↔ is_c t ∧ ¬ is_c u ∧ t = const_of u.
Proof.
  revert u. induction t as [c v b|c v t IH|t IH n|t IH|t IH|q i]; intros u; simpl.
  - destruct c; split; try done.
    + intros [= <-]. split_and!; [constructor| |done]. inversion 1.
    + intros (_&Hu&E). destruct u as [[]|[]| | | |]; simplify_eq/=; try done. destruct Hu. constructor.
    + intros (H&_). inversion H.
  - destruct c; split; try done.
    + intros [= <-]. split_and!; [constructor| |done]. inversion 1.
    + intros (_&Hu&E). destruct u as [[]|[]| | | |]; simplify_eq/=; try done. destruct Hu. constructor.
    + intros (H&_). inversion H.
  - destruct (match_const t) as [t'|] eqn:E.
    + split.
      * intros [= <-]. destruct (proj1 (IH t') eq_refl) as (H1&H2&->). split_and!; [by constructor| |done]. by inversion 1.
      * intros (H1&H2&H3). destruct u as [| |u m| | |]; simplify_eq/=. repeat f_equal.
        assert (Some t' = Some u) as [= <-]; [|done]. apply IH.
        split_and!; [by inversion H1| |done]. intros Hu. destruct H2. by constructor.
    + split; [done|]. intros (H1&H2&H3). destruct u as [| |u m| | |]; simplify_eq/=.
      assert (None = Some u) as HH; [|done]. apply IH. split_and!; [by inversion H1| |done].
      intros Hu. destruct H2. by constructor.
  - split; [done|]. intros (H&_). inversion H.
  - split; [done|]. intros (H&_). inversion H.
  - split; [done|]. intros (H&_). inversion H.
Qed.
Lemma match_volatile_spec t u : match_volatile t = Some u ↔ is_v t ∧ ¬ is_v u ∧ t = volatile_of u.
Proof.
  revert u. induction t as [c v b|c v t IH|t IH n|t IH|t IH|q i]; intros u; simpl.
  - destruct v; split; try done.
    + intros [= <-]. split_and!; [constructor| |done]. inversion 1.
    + intros (_&Hu&E). destruct u as [? []|? []| | | |]; simplify_eq/=; try done. destruct Hu. constructor.
    + intros (H&_). inversion H.
  - destruct v; split; try done.
    + intros [= <-]. split_and!; [constructor| |done]. inversion 1.
    + intros (_&Hu&E). destruct u as [? []|? []| | | |]; simplify_eq/=; try done. destruct Hu. constructor.
    + intros (H&_). inversion H.
  - destruct (match_volatile t) as [t'|] eqn:E.
    + split.
      * intros [= <-]. destruct (proj1 (IH t') eq_refl) as (H1&H2&->). split_and!; [by constructor| |done]. by inversion 1.
      * intros (H1&H2&H3). destruct u as [| |u m| | |]; simplify_eq/=. repeat f_equal.
        assert (Some t' = Some u) as [= <-]; [|done]. apply IH.
        split_and!; [by inversion H1| |done]. intros Hu. destruct H2. by constructor.
    + split; [done|]. intros (H1&H2&H3). destruct u as [| |u m| | |]; simplify_eq/=.
      assert (None = Some u) as HH; [|done]. apply IH. split_and!; [by inversion H1| |done].
      intros Hu. destruct H2. by constructor.
  - split; [done|]. intros (H&_). inversion H.
  - split; [done|]. intros (H&_). inversion H.
  - split; [done|]. intros (H&_). inversion H.
Qed.
Lemma match_const_none t : match_const t = None ↔ ¬ is_c t.
Proof.
  induction t as [[] v b|[] v t IH|t IH n|t IH|t IH|q i]; simpl; split; try done; try (intros; by inversion 1).
  - intros H. destruct H. constructor.
  - intros H. destruct H. constructor.
  - destruct (match_const t) eqn:E; [done|]. intros _. inversion 1; subst. by apply (proj1 IH).
  - intros H. destruct (match_const t) eqn:E; [|done]. apply match_const_spec in E as (?&_).
    destruct H. by constructor.
Qed.
Lemma match_volatile_none t : match_volatile t = None ↔ ¬ is_v t.
Proof.
  induction t as [? [] b|? [] t IH|t IH n|t IH|t IH|q i]; simpl; split; try done; try (intros; by inversion 1).
  - intros H. destruct H. constructor.
  - intros H. destruct H. constructor.
  - destruct (match_volatile t) eqn:E; [done|]. intros _. inversion 1; subst. by apply (proj1 IH).
  - intros H. destruct (match_volatile t) eqn:E; [|done]. apply match_volatile_spec in E as (?&_).
    destruct H. by constructor.
Qed.
(** cv-variants *)
Lemma const_of_variant t : cv_variant t (const_of t).
Proof. induction t; simpl; constructor; done. Qed.
Lemma volatile_of_variant t : cv_variant t (volatile_of t).
Proof. induction t; simpl; constructor; done. Qed.
Lemma variant_refl t : cv_variant t t.
Proof. induction t; constructor; done. Qed.
Lemma variant_sym t u : cv_variant t u → cv_variant u t.
Proof. induction 1; constructor; done. Qed.
Lemma variant_trans t u w : cv_variant t u → cv_variant u w → cv_variant t w.
Proof. intros H. revert w. induction H; intros w Hw; inversion Hw; subst; constructor; auto. Qed.
Lemma is_c_volatile_of t : is_c (volatile_of t) ↔ is_c t.
Proof. induction t; simpl; split; inversion 1; subst; constructor; tauto. Qed.
Lemma variant_unqualified t u : cv_variant t u → ¬ is_c t → ¬ is_v t → ¬ is_c u → ¬ is_v u → t = u.
Proof.
  induction 1 as [c v c' v' b|c v c' v' b|t t' n H IH| | |]; intros Ht Ht' Hu Hu'; try done.
  - destruct c, c', v, v'; try done; exfalso;
      first [by apply Ht; constructor|by apply Ht'; constructor|by apply Hu; constructor|by apply Hu'; constructor].
  - destruct c, c', v, v'; try done; exfalso;
      first [by apply Ht; constructor|by apply Ht'; constructor|by apply Hu; constructor|by apply Hu'; constructor].
  - f_equal. apply IH; intros Hx; [apply Ht|apply Ht'|apply Hu|apply Hu']; by constructor.
Qed.
Lemma remove_const_var t : cv_variant t (t_remove_const t) ∧ ¬ is_c (t_remove_const t) ∧
  (is_v (t_remove_const t) ↔ is_v t).
Proof.
  unfold t_remove_const. destruct (match_const t) as [u|] eqn:E; simpl.
  - apply match_const_spec in E as (_&Hu&->). split_and!; [apply variant_sym, const_of_variant|done|].
    clear Hu. induction u; simpl; split; inversion 1; subst; constructor; tauto.
  - apply match_const_none in E. split_and!; [apply variant_refl|done|done].
Qed.
Lemma remove_volatile_var t : cv_variant t (t_remove_volatile t) ∧ ¬ is_v (t_remove_volatile t) ∧
  (is_c (t_remove_volatile t) ↔ is_c t).
Proof.
  unfold t_remove_volatile. destruct (match_volatile t) as [u|] eqn:E; simpl.
  - apply match_volatile_spec in E as (_&Hu&->). split_and!; [apply variant_sym, volatile_of_variant|done|].
    clear Hu. induction u; simpl; split; inversion 1; subst; constructor; tauto.
  - apply match_volatile_none in E. split_and!; [apply variant_refl|done|done].
Qed.
Lemma remove_cv_var t : cv_variant t (t_remove_cv t) ∧ ¬ is_c (t_remove_cv t) ∧ ¬ is_v (t_remove_cv t).
Proof.
  unfold t_remove_cv. destruct (remove_const_var t) as (H1&H2&_).
  destruct (remove_volatile_var (t_remove_const t)) as (H3&H4&H5). split_and!; [by eapply variant_trans| |done].
  by rewrite H5.
Qed.
Lemma remove_cv_variant t u : cv_variant t u → t_remove_cv t = t_remove_cv u.
Proof.
  intros H. destruct (remove_cv_var t) as (H1&H2&H3), (remove_cv_var u) as (H4&H5&H6).
  apply variant_unqualified; try done. eapply variant_trans; [exact (variant_sym _ _ H1)|]. by eapply variant_trans; [exact H|].
Qed.
Lemma same_cv_spec b t : same_cv b t = true ↔ ∃ c v, t = TBase c v b.
Proof.
  unfold same_cv, t_is_same. rewrite bool_decide_eq_true. split.
  - intros E. destruct (remove_cv_var t) as (H&_). rewrite -E in H. inversion H; subst. eauto.
  - intros (c&v&->). rewrite (remove_cv_variant _ (TBase false false b)); [constructor|done].
Qed.
Lemma same_cv_one_of b t : same_cv b t = true ↔ one_of [b] t.
Proof.
  rewrite same_cv_spec. unfold one_of. split.
  - intros (c&v&->). exists c, v, b. split; [done|]. set_solver.
  - intros (c&v&b'&->&H). assert (b' = b) as -> by set_solver. eauto.
Qed.
Lemma one_of_app bs cs t : one_of (bs ++ cs) t ↔ one_of bs t ∨ one_of cs t.
Proof.
  unfold one_of. split.
  - intros (c&v&b&->&H). apply elem_of_app in H as [H|H]; [left|right]; eauto 6.
  - intros [(c&v&b&->&H)|(c&v&b&->&H)]; exists c, v, b; (split; [done|]); set_solver.
Qed.
Lemma one_of_cons b bs t : one_of (b :: bs) t ↔ one_of [b] t ∨ one_of bs t.
Proof. apply (one_of_app [b]). Qed.
Lemma one_of_nil t : one_of [] t ↔ False.
Proof. split; [|done]. intros (?&?&?&?&H). by inversion H. Qed.
Lemma one_of_ext bs cs t : (∀ b, b ∈ bs ↔ b ∈ cs) → one_of bs t ↔ one_of cs t.
Proof. intros H. unfold one_of. split; intros (c&v&b&->&Hb); exists c, v, b; (split; [done|]); by apply H. Qed.

(*@ C70 remove_const gives the type T such that the argument is T or const T, and T is not const:
   it strips const at the top level only (at the elements of an array) and nothing else. *)
Lemma remove_const_exact t u :
  t_remove_const t = u ↔ ¬ is_c u ∧ (t = u ∨ t = const_of u).
Proof.
  unfold t_remove_const. destruct (match_const t) as [w|] eqn:E; simpl.
  - apply match_const_spec in E as (H1&H2&E). split.
    + intros ->. eauto.
    + intros (Hu&[->|E2]); [done|]. assert (Some w = Some u) as [= ->]; [|done].
      etransitivity; [symmetry|]; by apply match_const_spec.
  - apply match_const_none in E. split; [intros ->; eauto|]. intros (Hu&[->|E2]); [done|]. rewrite E2.
    rewrite E2 in E. clear E2 t. induction u as [| |u IH n| | |]; simpl in *; try done.
    + destruct E. constructor.
    + destruct E. constructor.
    + f_equal. apply IH; intros H; first [by apply E; constructor|by apply Hu; constructor].
Qed.
(*@ C70 The same for remove_volatile. *)
Lemma remove_volatile_exact t u :
  t_remove_volatile t = u ↔ ¬ is_v u ∧ (t = u ∨ t = volatile_of u).
Proof.
  unfold t_remove_volatile. destruct (match_volatile t) as [w|] eqn:E; simpl.
  - apply match_volatile_spec in E as (H1&H2&E). split.
    + intros ->. eauto.
    + intros (Hu&[->|E2]); [done|]. assert (Some w = Some u) as [= ->]; [|done].
      etransitivity; [symmetry|]; by apply match_volatile_spec.
  - apply match_volatile_none in E. split; [intros ->; eauto|]. intros (Hu&[->|E2]); [done|]. rewrite E2.
    rewrite E2 in E. clear E2 t. induction u as [| |u IH n| | |]; simpl in *; try done.
    + destruct E. constructor.
    + destruct E. constructor.
    + f_equal. apply IH; intros H; first [by apply E; constructor|by apply Hu; constructor].
Qed.
(*@ C70 remove_cv gives the one type that differs from the argument only in cv-qualifiers at the top
   level and has none. *)
Lemma remove_cv_exact t u : t_remove_cv t = u ↔ cv_variant t u ∧ ¬ is_c u ∧ ¬ is_v u.
Proof.
  destruct (remove_cv_var t) as (H1&H2&H3). split; [by intros <-|]. intros (H4&H5&H6).
  apply variant_unqualified; try done. eapply variant_trans; [exact (variant_sym _ _ H1)|done].
Qed.
(*@ C70 remove_reference takes exactly one reference away, from the other types nothing. *)
Lemma remove_reference_exact t u :
  (t_remove_reference true t = u ↔ t = TLRef u ∨ t = TRRef u ∨ (¬ is_ref t ∧ t = u)) ∧
  ((∀ w, t ≠ TRRef w) → t_remove_reference false t = t_remove_reference true t).
Proof.
  unfold t_remove_reference. split.
  - destruct t; simpl; (split; [intros <-|by intros [?|[?|[Hn ?]]]; simplify_eq; try done; destruct Hn; eexists; eauto]).
    all: first [by left|by right; left|right; right; split; [|done]; intros [w [?|?]]; done].
  - intros H. destruct t; try done. by destruct (H t).
Qed.
(*@ C70 move applied to an lvalue or rvalue of type T takes a reference to T and returns T&& (before
   C++11: takes and returns T&, lvalues only). *)
Lemma move_type t lvalue : ¬ is_ref t →
  t_move true t lvalue = Some (if lvalue then TLRef t else TRRef t, TRRef t) ∧
  t_move false t true = Some (TLRef t, TLRef t) ∧ t_move false t false = None.
Proof.
  intros H. unfold t_move, t_remove_reference.
  destruct t; try (by destruct lvalue); destruct H; eexists; first [by left|by right].
Qed.

(*@ C71 is_same is true exactly for one and the same type. *)
Lemma is_same_exact t u : t_is_same t u = true ↔ t = u.
Proof. apply bool_decide_eq_true. Qed.
(*@ C71 is_const is true exactly for the const types, false exactly for the others, except that it
   cannot be instantiated for rvalue references and for function types with a qualifier. *)
Lemma is_const_exact t :
  (t_is_const t = Some true ↔ is_c t) ∧
  (t_is_const t = Some false ↔ ¬ is_c t ∧ (pointable t ∨ ∃ u, t = TLRef u)) ∧
  (t_is_const t = None ↔ (∃ u, t = TRRef u) ∨ ∃ i, t = TFun true i).
Proof.
  assert (pointable t → t_is_const t = Some true ∧ is_c t ∨ t_is_const t = Some false ∧ ¬ is_c t) as Hp.
  { intros [H1 H2]. unfold t_is_const.
    assert (match_lref t = None) as -> by (destruct t; try done; destruct H1; eexists; first [by left|by right]).
    assert (mkptr t = Some (TPtr false false t)) as ->.
    { destruct t as [| | | | |[] i]; try done; try (destruct H1; eexists; first [by left|by right]). by destruct (H2 i). }
    unfold t_is_const_value, match_cv. simpl. destruct (match_const t) as [w|] eqn:E; simpl.
    - left. split; [done|]. by apply match_const_spec in E as (?&_).
    - right. split; [done|]. by apply match_const_none. }
  assert (pointable t ∨ (∃ u, t = TLRef u) ∨ (∃ u, t = TRRef u) ∨ ∃ i, t = TFun true i) as Hc.
  { destruct t as [| | |u|u|[] i]; [left|left|left|right; left; by exists u|right; right; left; by exists u|
      right; right; right; by exists i|left]; (split; [|done]); intros [u' [?|?]]; done. }
  destruct Hc as [Hpt|[(u&->)|[(u&->)|(i&->)]]].
  - destruct (Hp Hpt) as [[-> H]|[-> H]]; split_and!; split; try done; try tauto.
    + intros [(?&->)|(?&->)]; inversion H.
    + intros [(?&->)|(?&->)]; destruct Hpt as [H1 H2]; [destruct H1; eexists; first [by left|by right]|by destruct (H2 x)].
  - split_and!; split; try done; try (by inversion 1).
    + intros _. split; [by inversion 1|]. right. eauto.
    + intros [(?&?)|(?&?)]; done.
  - split_and!; split; try done; try (by inversion 1).
    + intros (_&[[H _]|(?&?)]); [|done]. destruct H. exists u. by right.
    + intros _. left. by exists u.
  - split_and!; split; try done; try (by inversion 1).
    + intros (_&[[_ H]|(?&?)]); [|done]. by destruct (H i).
    + intros _. right. by exists i.
Qed.
(*@ C71 The same for is_volatile. *)
Lemma is_volatile_exact t :
  (t_is_volatile t = Some true ↔ is_v t) ∧
  (t_is_volatile t = Some false ↔ ¬ is_v t ∧ (pointable t ∨ ∃ u, t = TLRef u)) ∧
  (t_is_volatile t = None ↔ (∃ u, t = TRRef u) ∨ ∃ i, t = TFun true i).
Proof.
  assert (pointable t → t_is_volatile t = Some true ∧ is_v t ∨ t_is_volatile t = Some false ∧ ¬ is_v t) as Hp.
  { intros [H1 H2]. unfold t_is_volatile.
    assert (match_lref t = None) as -> by (destruct t; try done; destruct H1; eexists; first [by left|by right]).
    assert (mkptr t = Some (TPtr false false t)) as ->.
    { destruct t as [| | | | |[] i]; try done; try (destruct H1; eexists; first [by left|by right]). by destruct (H2 i). }
    unfold t_is_volatile_value, match_cv. simpl. destruct (match_volatile t) as [w|] eqn:E; simpl.
    - left. split; [done|]. by apply match_volatile_spec in E as (?&_).
    - right. apply match_volatile_none in E. split; [|done]. destruct (match_const t) as [w|] eqn:E2; simpl; [|done].
      apply match_const_spec in E2 as (_&_&->).
      assert (match_volatile w = None) as ->; [|done]. apply match_volatile_none. intros Hw. apply E.
      clear -Hw. induction Hw; simpl; by constructor. }
  assert (pointable t ∨ (∃ u, t = TLRef u) ∨ (∃ u, t = TRRef u) ∨ ∃ i, t = TFun true i) as Hc.
  { destruct t as [| | |u|u|[] i]; [left|left|left|right; left; by exists u|right; right; left; by exists u|
      right; right; right; by exists i|left]; (split; [|done]); intros [u' [?|?]]; done. }
  destruct Hc as [Hpt|[(u&->)|[(u&->)|(i&->)]]].
  - destruct (Hp Hpt) as [[-> H]|[-> H]]; split_and!; split; try done; try tauto.
    + intros [(?&->)|(?&->)]; inversion H.
    + intros [(?&->)|(?&->)]; destruct Hpt as [H1 H2]; [destruct H1; eexists; first [by left|by right]|by destruct (H2 x)].
  - split_and!; split; try done; try (by inversion 1).
    + intros _. split; [by inversion 1|]. right. eauto.
    + intros [(?&?)|(?&?)]; done.
  - split_and!; split; try done; try (by inversion 1).
    + intros (_&[[H _]|(?&?)]); [|done]. destruct H. exists u. by right.
    + intros _. left. by exists u.
  - split_and!; split; try done; try (by inversion 1).
    + intros (_&[[_ H]|(?&?)]); [|done]. by destruct (H i).
    + intros _. right. by exists i.
Qed.

(*@ C72 is_void, is_integral, is_floating_point, is_arithmetic and is_fundamental are true exactly for
   the types the header lists, with any cv-qualification; in particular for no pointer, array,
   reference, function, class or enumeration. *)
Lemma fundamental_exact t :
  (t_is_void t = true ↔ one_of [Void] t) ∧
  (t_is_integral t = true ↔ one_of integers t) ∧
  (t_is_floating_point t = true ↔ one_of floats t) ∧
  (t_is_arithmetic t = true ↔ one_of (integers ++ floats) t) ∧
  (t_is_fundamental t = true ↔ one_of (Void :: integers ++ floats) t).
Proof.
  assert (t_is_void t = true ↔ one_of [Void] t) as H1 by apply same_cv_one_of.
  assert (t_is_integral t = true ↔ one_of integers t) as H2.
  { unfold t_is_integral, integers, signed_integers, unsigned_integers. rewrite !orb_true_iff !same_cv_one_of.
    simpl. rewrite !(one_of_cons _ (_ :: _)). tauto. }
  assert (t_is_floating_point t = true ↔ one_of floats t) as H3.
  { unfold t_is_floating_point, floats. rewrite !orb_true_iff !same_cv_one_of !(one_of_cons _ (_ :: _)). tauto. }
  split_and!; try done.
  - unfold t_is_arithmetic. by rewrite orb_true_iff H2 H3 one_of_app.
  - unfold t_is_fundamental. rewrite orb_true_iff orb_true_iff H1 H2 H3 (one_of_cons Void (integers ++ floats)) one_of_app. tauto.
Qed.
(*@ C72 is_signed and is_unsigned are true exactly for the signed and unsigned integer types, and for
   char and wchar_t according to the platform (but never for bool and the floating point types). *)
Lemma signedness_exact (char_signed char_unsigned wchar_signed wchar_unsigned : bool) t :
  (t_is_signed char_signed wchar_signed t = true ↔
     one_of (signed_integers ++ (if char_signed then [Char] else []) ++ (if wchar_signed then [WChar] else [])) t) ∧
  (t_is_unsigned char_unsigned wchar_unsigned t = true ↔
     one_of (unsigned_integers ++ (if char_unsigned then [Char] else []) ++ (if wchar_unsigned then [WChar] else [])) t).
Proof.
  split.
  - unfold t_is_signed, signed_integers. rewrite !orb_true_iff !andb_true_iff !same_cv_one_of.
    rewrite !one_of_app !(one_of_cons _ (_ :: _)). destruct char_signed, wchar_signed; rewrite ?one_of_nil; naive_solver.
  - unfold t_is_unsigned, unsigned_integers. rewrite !orb_true_iff !andb_true_iff !same_cv_one_of.
    rewrite !one_of_app !(one_of_cons _ (_ :: _)). destruct char_unsigned, wchar_unsigned; rewrite ?one_of_nil; naive_solver.
Qed.
(*@ C72 is_pointer is true exactly for object and function pointers, is_array exactly for arrays with or
   without a bound, is_scalar exactly for arithmetic types and pointers. *)
Lemma compound_exact t :
  (t_is_pointer t = true ↔ is_ptr t) ∧
  (t_is_array t = true ↔ is_arr t) ∧
  (t_is_scalar t = true ↔ one_of (integers ++ floats) t ∨ is_ptr t).
Proof.
  assert (t_is_pointer t = true ↔ is_ptr t) as H1.
  { unfold t_is_pointer, is_ptr. destruct (remove_cv_var t) as (H&Hc&Hv). split.
    - destruct (t_remove_cv t); simpl; try done. inversion H; subst; eauto.
    - intros (c&v&u&->). rewrite (remove_cv_variant _ (TPtr false false u)); [constructor|done]. }
  split_and!; [done| |].
  - unfold t_is_array, is_arr. destruct t as [| |u [n|]| | |]; simpl; split; try done; try (intros (?&?&?); done); eauto.
  - unfold t_is_scalar. destruct (fundamental_exact t) as (_&_&_&H&_). by rewrite orb_true_iff H H1.
Qed.
(*@ C72 All of them depend on the type without its cv-qualifiers only. *)
Lemma classification_ignores_cv (cs cu ws wu : bool) t u : cv_variant t u →
  t_is_void t = t_is_void u ∧ t_is_integral t = t_is_integral u ∧
  t_is_floating_point t = t_is_floating_point u ∧ t_is_arithmetic t = t_is_arithmetic u ∧
  t_is_fundamental t = t_is_fundamental u ∧ t_is_pointer t = t_is_pointer u ∧
  t_is_scalar t = t_is_scalar u ∧ t_is_array t = t_is_array u ∧
  t_is_signed cs ws t = t_is_signed cs ws u ∧ t_is_unsigned cu wu t = t_is_unsigned cu wu u.
Proof.
  intros H. pose proof (remove_cv_variant _ _ H) as E.
  assert (∀ b, same_cv b t = same_cv b u) as Hb by (intros b; unfold same_cv; by rewrite E).
  assert (t_is_pointer t = t_is_pointer u) as Hp by (unfold t_is_pointer; by rewrite E).
  assert (t_is_integral t = t_is_integral u) as Hi by (unfold t_is_integral; by rewrite !Hb).
  assert (t_is_floating_point t = t_is_floating_point u) as Hf by (unfold t_is_floating_point; by rewrite !Hb).
  unfold t_is_void, t_is_scalar, t_is_arithmetic, t_is_fundamental, t_is_signed, t_is_unsigned.
  unfold t_is_void. rewrite !Hb Hp Hi Hf. split_and!; try done.
  by inversion H as [| |? ? []| | |].
Qed.
(** decides membership of every base type *)
Ltac mems := repeat match goal with
  | H : ?b ∈ ?bs |- _ => apply (bool_decide_eq_true_2 (b ∈ bs)) in H
  | |- ?b ∈ ?bs => apply (bool_decide_eq_true_1 (b ∈ bs))
  end;
  match goal with b : base |- _ => destruct b; vm_compute in *; solve [discriminate|reflexivity|congruence] end.

(*@ C72 The primary categories exclude each other: no type is two of void, integral, floating point,
   pointer, array; and none is both signed and unsigned if char and wchar_t are not. *)
Lemma categories_disjoint (cs cu ws wu : bool) t :
  (length (filter (λ b, b = true)
     [t_is_void t; t_is_integral t; t_is_floating_point t; t_is_pointer t; t_is_array t]) ≤ 1) ∧
  (cs && cu = false → ws && wu = false →
   ¬ (t_is_signed cs ws t = true ∧ t_is_unsigned cu wu t = true)) ∧
  (t_is_signed cs ws t = true ∨ t_is_unsigned cu wu t = true → t_is_integral t = true).
Proof.
  destruct (fundamental_exact t) as (Hv&Hi&Hf&_). destruct (compound_exact t) as (Hp&Ha&_).
  destruct (signedness_exact cs cu ws wu t) as (Hs&Hu).
  assert (∀ bs bs', (∀ b, b ∈ bs → b ∈ bs' → False) → one_of bs t → one_of bs' t → False) as Hd.
  { intros bs bs' H (c&v&b&->&H1) (c'&v'&b'&[= -> -> ->]&H2). by eapply H. }
  assert (∀ bs, one_of bs t → is_ptr t → False) as Hdp by (intros bs (?&?&?&->&_) (?&?&?&?); done).
  assert (∀ bs, one_of bs t → is_arr t → False) as Hda by (intros bs (?&?&?&->&_) (?&?&?); done).
  assert (is_ptr t → is_arr t → False) as Hpa by (intros (?&?&?&->) (?&?&?); done).
  split_and!.
  - destruct (t_is_void t), (t_is_integral t), (t_is_floating_point t), (t_is_pointer t), (t_is_array t);
      simpl; try lia; exfalso;
      repeat match goal with H : true = true ↔ _ |- _ => apply proj1 in H; specialize (H eq_refl) end;
      first [exact (Hpa Hp Ha)|exact (Hdp _ Hv Hp)|exact (Hdp _ Hi Hp)|exact (Hdp _ Hf Hp)|
        exact (Hda _ Hv Ha)|exact (Hda _ Hi Ha)|exact (Hda _ Hf Ha)|
        refine (Hd _ _ _ Hv Hi)|refine (Hd _ _ _ Hv Hf)|refine (Hd _ _ _ Hi Hf)];
      clear; intros b H1 H2; mems.
  - intros Hc Hw [H1 H2]. apply Hs in H1. apply Hu in H2. eapply Hd; [|exact H1|exact H2].
    clear -Hc Hw. intros b Ha Hb. destruct cs, cu, ws, wu; try done; clear Hc Hw; mems.
  - rewrite Hs Hu Hi. intros H.
    assert (∀ bs, (∀ b, b ∈ bs → b ∈ integers) → one_of bs t → one_of integers t) as Hm.
    { intros bs Hb (c&v&b&->&?). exists c, v, b. eauto. }
    destruct H as [H|H]; (eapply Hm; [|exact H]); clear; intros b Hb; [destruct cs, ws|destruct cu, wu]; mems.
Qed.
(*@ C72 Where they differ from the traits of <type_traits> with the same names: the floating point types
   are not signed, bool is not unsigned, char16_t and char32_t are not integral, nullptr_t is not
   fundamental, and enumerations, pointers to members and nullptr_t are not scalar. *)
Lemma differs_from_std (cs cu ws wu : bool) c v b :
  let t := TBase c v b in
  (b ∈ floats → t_is_signed cs ws t = false) ∧
  (b = Bool → t_is_unsigned cu wu t = false) ∧
  (b ∈ [Char16; Char32] → t_is_integral t = false) ∧
  (b = NullPtr → t_is_fundamental t = false) ∧
  ((b = NullPtr ∨ ∃ i, b = Enum i ∨ b = MemPtr i) → t_is_scalar t = false).
Proof.
  intros t.
  destruct (fundamental_exact t) as (_&Hi&_&_&Hf). destruct (compound_exact t) as (_&_&Hsc).
  destruct (signedness_exact cs cu ws wu t) as (Hs&Hu).
  assert (∀ bs, one_of bs t → b ∈ bs) as Ho by (intros bs (?&?&?&?&?); by simplify_eq).
  split_and!; intros Hb; apply not_true_is_false; rewrite ?Hi ?Hf ?Hs ?Hu ?Hsc.
  - intros H. apply Ho in H. clear -H Hb. destruct cs, ws; mems.
  - intros H. apply Ho in H. subst b. clear -H. apply (bool_decide_eq_true_2 (_ ∈ _)) in H. by destruct cu, wu.
  - intros H. apply Ho in H. clear -H Hb. mems.
  - intros H. apply Ho in H. subst b. clear -H. by apply (bool_decide_eq_true_2 (_ ∈ _)) in H.
  - intros [H|(?&?&?&?)]; [|done]. apply Ho in H. clear -H Hb. apply (bool_decide_eq_true_2 (_ ∈ _)) in H.
    by destruct Hb as [->|(i&[->| ->])].
Qed.
