(** GENERATED by tools/genprops.py from PredRuns.v: property theorems only.
    Every proof is the lemma of the same statement proved there. *)
From Verif Require Import PredSpec PredRuns.

Section pred.
  Context {V : Type} `{Allocator (dcell V)}.

  (** remove_if(f), whatever the function object answers and whether or not it throws: f is called
     once for each element, in order; the list is well formed afterwards and holds exactly the
     elements that were not answered with true, those from a throwing call on untouched; the
     others have been freed. *)
  Theorem C94_list_remove_if_throws :
    ∀ fuel this (xs : list (loc * V)) (f : nat → V → option bool),
    length xs < fuel →
    runs (is_dlist this xs) (xdl_remove_if fuel this f)
      (λ q h, q = (removing (λ c z, f c z.2) 0 xs).1 ∧ is_dlist this (removing (λ c z, f c z.2) 0 xs).2 h).
  Proof. first [exact list_remove_if_throws | apply list_remove_if_throws | intros; eapply list_remove_if_throws; eassumption]. Qed.

  (** in particular, after an exception the list holds, at their old addresses, some of the
     elements before the one f threw on, that element, and all those behind it. *)
  Theorem C94_list_remove_if_rest :
    ∀ (xs : list (loc * V)) (f : nat → loc * V → option bool),
    (removing f 0 xs).1 = None →
    ∃ xs1 x xs2 ks, xs = xs1 ++ x :: xs2 ∧ f (length xs1) x = None ∧
      (removing f 0 xs).2 = ks ++ x :: xs2 ∧ sublist ks xs1.
  Proof. first [exact list_remove_if_rest | apply list_remove_if_rest | intros; eapply list_remove_if_rest; eassumption]. Qed.

  (** remove(value) with an operator== [f] that may throw or keep state, where value is not an
     element of the list: the same, each element being compared with value once. (For an element of
     the list itself see C60.) *)
  Theorem C94_list_remove_throws :
    ∀ fuel this (v : V) (xs : list (loc * V)) (f : nat → V → V → option bool),
    length xs < fuel →
    runs (is_dlist this xs) (xdl_remove fuel this (DExt v) f)
      (λ q h, q = (removing (λ c z, f c z.2 v) 0 xs).1 ∧
              is_dlist this (removing (λ c z, f c z.2 v) 0 xs).2 h).
  Proof. first [exact list_remove_throws | apply list_remove_throws | intros; eapply list_remove_throws; eassumption]. Qed.

  (** unique(f) of a non-empty list. *)
  Theorem C94_list_unique_throws :
    ∀ fuel this (y : loc * V) (xs : list (loc * V)) (f : nat → V → V → option bool),
    length xs < fuel →
    runs (is_dlist this (y :: xs)) (xdl_unique fuel this f)
      (λ q h, q = (uniquing (λ c z1 z2, f c z1.2 z2.2) 0 y xs).1 ∧
              is_dlist this (y :: (uniquing (λ c z1 z2, f c z1.2 z2.2) 0 y xs).2) h).
  Proof. first [exact list_unique_throws | apply list_unique_throws | intros; eapply list_unique_throws; eassumption]. Qed.

  (** ... and of an empty one, where f is not called. *)
  Theorem C94_list_unique_empty :
    ∀ fuel this (f : nat → V → V → option bool),
    0 < fuel →
    runs (is_dlist this []) (xdl_unique fuel this f) (λ q h, q = Some tt ∧ is_dlist this [] h).
  Proof. first [exact list_unique_empty | apply list_unique_empty | intros; eapply list_unique_empty; eassumption]. Qed.

  (** after an exception unique has kept the element f threw on and all those behind it. *)
  Theorem C94_list_unique_rest :
    ∀ (y : loc * V) (xs : list (loc * V)) (f : nat → loc * V → loc * V → option bool),
    (uniquing f 0 y xs).1 = None →
    ∃ xs1 x xs2 ks z, xs = xs1 ++ x :: xs2 ∧ f (length xs1) x z = None ∧
      (uniquing f 0 y xs).2 = ks ++ x :: xs2 ∧ sublist ks xs1 ∧ last (y :: ks) = Some z.
  Proof. first [exact list_unique_rest | apply list_unique_rest | intros; eapply list_unique_rest; eassumption]. Qed.

  (** merge(other, f), whatever f answers and whether or not it throws: both lists are well formed
     afterwards; the first k elements of the source have moved, the others are untouched; the
     destination holds its own elements in their old order and those k. Without an exception all
     have moved. If f is a strict weak order where it does not throw and both lists were sorted,
     the destination is sorted, also after an exception. *)
  Theorem C94_list_merge_throws :
    ∀ fuel this other (xs ys : list (loc * V)) (f : nat → V → V → option bool),
    length xs + 2 * length ys < fuel →
    runs (both (is_dlist this xs) (is_dlist other ys)) (xdl_merge fuel this other f)
      (λ q h, ∃ zs k, both (is_dlist this zs) (is_dlist other (drop k ys)) h ∧
         Permutation zs (xs ++ take k ys) ∧ sublist xs zs ∧ k ≤ length ys ∧
         match q with Some _ => k = length ys | None => ∃ c x y, f c x y = None end ∧
         ∀ cmp : V → V → bool, honest f cmp → weak_order cmp →
           dsorted cmp xs.*2 → dsorted cmp ys.*2 → dsorted cmp zs.*2).
  Proof. first [exact list_merge_throws | apply list_merge_throws | intros; eapply list_merge_throws; eassumption]. Qed.

  (** When the function object is a plain function these are the calls of C29 and C33. *)
  Theorem C94_list_pred_plain :
    ∀ fuel this other (h : gmap loc (dcell V)),
    (∀ f, xdl_remove_if fuel this (λ _ x, Some (f x)) h = (dl_remove_if fuel this f ;! ret (Some tt)) h) ∧
    (∀ f, xdl_unique fuel this (λ _ x y, Some (f x y)) h = (dl_unique fuel this f ;! ret (Some tt)) h) ∧
    (∀ f, xdl_merge fuel this other (λ _ x y, Some (f x y)) h = (dl_merge f fuel this other ;! ret (Some tt)) h).
  Proof. first [exact list_pred_plain | apply list_pred_plain | intros; eapply list_pred_plain; eassumption]. Qed.

  (** ... and remove, also when the reference is to an element of the list. *)
  Theorem C94_list_remove_plain :
    ∀ fuel this r (eqb : V → V → bool) (h : gmap loc (dcell V)),
    xdl_remove fuel this r (λ _ x y, Some (eqb x y)) h = (dl_remove eqb fuel this r ;! ret (Some tt)) h.
  Proof. first [exact list_remove_plain | apply list_remove_plain | intros; eapply list_remove_plain; eassumption]. Qed.

End pred.

Print Assumptions C94_list_remove_if_throws.
Print Assumptions C94_list_remove_if_rest.
Print Assumptions C94_list_remove_throws.
Print Assumptions C94_list_unique_throws.
Print Assumptions C94_list_unique_empty.
Print Assumptions C94_list_unique_rest.
Print Assumptions C94_list_merge_throws.
Print Assumptions C94_list_pred_plain.
Print Assumptions C94_list_remove_plain.
