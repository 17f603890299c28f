(** operator[] of map with a reference to a stored key (C75). *)
From Verif Require Import RbRef MapRuns MappedRuns MapSpec RbSpec AliasRuns.
(*@HEADER
From Verif Require Import MapSpec RbRefModel AliasMapRuns.

Section aliasmap.
  Context {K T : Type} (lt eqb : K → K → bool) (dflt : T).
  Context `{Allocator (rbcell (K * T))}.
@*)
(*@FOOTER
End aliasmap.
@*)

Section aliasmap.
  Context {K T : Type} (lt eqb : K → K → bool) (dflt : T).
  Context `{Allocator (rbcell (K * T))}.
  (*@ C75 operator[](it->first) denotes that element's mapped value and inserts nothing. *)
  Lemma index_own_key fuel this (xs : list (loc * (K * T))) i x v :
    key_order lt eqb → xs !! i = Some (x, v) → log_steps (length xs) < fuel →
    runs (is_map fst lt this xs) (m_index_ref lt eqb dflt fuel this (NodeKey x))
      (λ p h, p = Some x ∧ is_map fst lt this xs h).
  Proof.
    intros Hord Hi Hf h hf Hh Hd.
    destruct (agree_find fst lt eqb x v fuel this (h ∪ hf)) as [Heq _].
    { by eapply data_at_union, is_map_data. }
    unfold m_index_ref, bind at 1. rewrite Heq.
    destruct (find_ok fst lt eqb fuel this xs v.1 Hord Hf h hf Hh Hd) as (p&h'&Hrun&Hd'&Hm&HQ).
    rewrite (own_has fst lt eqb Hord _ _ _ _ Hi) in HQ. destruct HQ as (j&y&w&Hj&He&->).
    pose proof (own_pos fst lt eqb Hord xs i x v j y w (is_map_asc _ _ _ _ _ Hh) Hi Hj He) as ->.
    rewrite Hi in Hj. injection Hj as <- <-.
    exists (Some x), h'. unfold m_find in Hrun. rewrite Hrun.
    destruct (decide (Some x = Some this)) as [Hx|_]; [|done].
    exfalso. injection Hx as ->. destruct Hh as [_ (t&<-&_&_&Hnd&_)]. apply NoDup_cons in Hnd as [Hn _]. apply Hn.
    apply elem_of_list_fmap. exists (this, v). split; [done|]. by eapply elem_of_list_lookup_2.
  Qed.
End aliasmap.
