(** list: splicing a range of a list before a position of the same list, and splices of an
    empty range (C32). Proof file. *)
From Verif Require Export DlistProofs3.
From iris.proofmode Require Import tactics.

Section splice.
  Context {V : Type} `{Allocator (dcell V)}.
  Notation C := (dcell V).
  Notation heap := (gmap loc C).
  Notation iProp := (bi_car (hpropI C)).
  Notation node := (loc * dslot V)%type.
  Implicit Types (xs ks ys bs : list (loc * V)) (this other l : loc) (v : V) (a b z : list node).

  (** *** list_node::splice in degenerate configurations *)
  (** the position is the end of the range: the range is cut out *)
  Lemma wp_node_splice_end z b (Q : unit → iProp) : z ≠ [] → b ≠ [] →
    ring (z ++ b) -∗ (ring b -∗ ring z -∗ Q tt) -∗
    wp (node_splice (dfirst b None) (dfirst z None) (dfirst b None)) Q.
  Proof.
    iIntros (Hz Hb) "H HQ". iDestruct (ring_split with "H") as "[Hz H]"; [done..|].
    unfold node_splice. wstep.
    iApply (wp_first_prev with "H"); [done|]. iIntros "H". wstep.
    iApply (wp_last_set_next z _ _ (dfirst b None) with "Hz"); [done|]. iIntros "Hz". wstep.
    iApply (wp_first_prev with "Hz"); [done|]. iIntros "Hz". wstep.
    iApply (wp_last_set_next b _ _ (dfirst b None) with "H"); [done|]. iIntros "H". wstep.
    iApply (wp_first_prev with "H"); [done|]. iIntros "H". wstep.
    iApply (wp_last_set_next z _ _ (dfirst z None) with "Hz"); [done|]. iIntros "Hz". wstep.
    iApply (wp_first_prev with "H"); [done|]. iIntros "H". wstep.
    iApply (wp_first_prev with "H"); [done|]. iIntros "H". wstep.
    iApply (wp_first_set_prev _ _ (dlast z None) with "H"); [done|]. iIntros "H". wstep.
    iApply (wp_first_prev with "Hz"); [done|]. iIntros "Hz". wstep.
    iApply (wp_first_set_prev _ _ (dlast b None) with "H"); [done|]. iIntros "H".
    iApply (wp_first_set_prev _ _ (dlast z None) with "Hz"); [done|]. iIntros "Hz".
    iApply ("HQ" with "H Hz").
  Qed.
  (** an empty range of the ring itself, elsewhere: the ring is closed before the range, and
      what precedes it is left pointing into it *)
  Lemma wp_node_splice_none a b (Q : unit → iProp) : a ≠ [] → b ≠ [] →
    ring (a ++ b) -∗ (ring b -∗ seg (dlast a None) a (dfirst b None) -∗ Q tt) -∗
    wp (node_splice (dfirst a None) (dfirst b None) (dfirst b None)) Q.
  Proof.
    iIntros (Ha Hb) "H HQ". iDestruct (ring_split with "H") as "[H Hb]"; [done..|].
    unfold node_splice. wstep.
    iApply (wp_first_prev with "Hb"); [done|]. iIntros "Hb". wstep.
    iApply (wp_last_set_next a _ _ (dfirst a None) with "H"); [done|]. iIntros "H". wstep.
    iApply (wp_first_prev with "Hb"); [done|]. iIntros "Hb". wstep.
    iApply (wp_last_set_next a _ _ (dfirst b None) with "H"); [done|]. iIntros "H". wstep.
    iApply (wp_first_prev with "H"); [done|]. iIntros "H". wstep.
    iApply (wp_last_set_next b _ _ (dfirst b None) with "Hb"); [done|]. iIntros "Hb". wstep.
    iApply (wp_first_prev with "H"); [done|]. iIntros "H". wstep.
    iApply (wp_first_prev with "Hb"); [done|]. iIntros "Hb". wstep.
    iApply (wp_first_set_prev _ _ (dlast a None) with "H"); [done|]. iIntros "H". wstep.
    iApply (wp_first_prev with "Hb"); [done|]. iIntros "Hb". wstep.
    iApply (wp_first_set_prev _ _ (dlast a None) with "Hb"); [done|]. iIntros "Hb".
    iApply (wp_first_set_prev _ _ (dlast b None) with "Hb"); [done|]. iIntros "Hb".
    iApply ("HQ" with "Hb H").
  Qed.
  (** the empty range at the position itself *)
  Lemma wp_node_splice_nop a (Q : unit → iProp) : a ≠ [] →
    ring a -∗ (ring a -∗ Q tt) -∗
    wp (node_splice (dfirst a None) (dfirst a None) (dfirst a None)) Q.
  Proof.
    iIntros (Ha) "H HQ". unfold node_splice, ring at 1. wstep.
    iApply (wp_first_prev with "H"); [done|]. iIntros "H". wstep.
    iApply (wp_last_set_next a _ _ (dfirst a None) with "H"); [done|]. iIntros "H". wstep.
    iApply (wp_first_prev with "H"); [done|]. iIntros "H". wstep.
    iApply (wp_last_set_next a _ _ (dfirst a None) with "H"); [done|]. iIntros "H". wstep.
    iApply (wp_first_prev with "H"); [done|]. iIntros "H". wstep.
    iApply (wp_last_set_next a _ _ (dfirst a None) with "H"); [done|]. iIntros "H". wstep.
    iApply (wp_first_prev with "H"); [done|]. iIntros "H". wstep.
    iApply (wp_first_prev with "H"); [done|]. iIntros "H". wstep.
    iApply (wp_first_set_prev _ _ (dlast a None) with "H"); [done|]. iIntros "H". wstep.
    iApply (wp_first_prev with "H"); [done|]. iIntros "H". wstep.
    iApply (wp_first_set_prev _ _ (dlast a None) with "H"); [done|]. iIntros "H".
    iApply (wp_first_set_prev _ _ (dlast a None) with "H"); [done|]. iIntros "H".
    iApply ("HQ" with "H").
  Qed.
  (** an empty range of another ring: both rings run into it *)
  Lemma wp_node_splice_other a b (Q : unit → iProp) : a ≠ [] → b ≠ [] →
    ring a -∗ ring b -∗
    (seg (dlast b None) a (dfirst b None) -∗ seg (dlast a None) b (dfirst b None) -∗ Q tt) -∗
    wp (node_splice (dfirst a None) (dfirst b None) (dfirst b None)) Q.
  Proof.
    iIntros (Ha Hb) "H Hb HQ". unfold node_splice, ring. wstep.
    iApply (wp_first_prev with "Hb"); [done|]. iIntros "Hb". wstep.
    iApply (wp_last_set_next b _ _ (dfirst a None) with "Hb"); [done|]. iIntros "Hb". wstep.
    iApply (wp_first_prev with "Hb"); [done|]. iIntros "Hb". wstep.
    iApply (wp_last_set_next b _ _ (dfirst b None) with "Hb"); [done|]. iIntros "Hb". wstep.
    iApply (wp_first_prev with "H"); [done|]. iIntros "H". wstep.
    iApply (wp_last_set_next a _ _ (dfirst b None) with "H"); [done|]. iIntros "H". wstep.
    iApply (wp_first_prev with "H"); [done|]. iIntros "H". wstep.
    iApply (wp_first_prev with "Hb"); [done|]. iIntros "Hb". wstep.
    iApply (wp_first_set_prev _ _ (dlast b None) with "H"); [done|]. iIntros "H". wstep.
    iApply (wp_first_prev with "Hb"); [done|]. iIntros "Hb". wstep.
    iApply (wp_first_set_prev _ _ (dlast b None) with "Hb"); [done|]. iIntros "Hb".
    iApply (wp_first_set_prev _ _ (dlast a None) with "Hb"); [done|]. iIntros "Hb".
    iApply ("HQ" with "H Hb").
  Qed.

  Lemma seg_heap_dom_set p ns q : dom (seg_heap (V:=V) p ns q) = list_to_set ns.*1.
  Proof.
    revert p. induction ns as [|[l s] ns IH]; intros p; simpl; [by rewrite dom_empty_L|].
    by rewrite dom_insert_L IH.
  Qed.
  Lemma seg_dom_plain p xs q :
    seg p (dlive xs) q ⊢ Sep.plain (λ h' : heap, dom h' = list_to_set xs.*1).
  Proof.
    apply hentails_intro. intros σ [_ ->]%seg_holds. apply plain_holds. by rewrite seg_heap_dom_set dlive_locs.
  Qed.

  (** *** positions *)
  Lemma dslice_ne j k xs : j < k ≤ length xs → dlive (dslice j k xs) ≠ [].
  Proof.
    intros Hjk He%(f_equal length). unfold dlive, dslice in He.
    rewrite fmap_length take_length drop_length /= in He. lia.
  Qed.
  Lemma drop_dslice {A} j k (xs : list A) : j ≤ k → drop j xs = dslice j k xs ++ drop k xs.
  Proof.
    intros Hjk. unfold dslice. replace (drop k xs) with (drop (k - j) (drop j xs)); [by rewrite take_drop|].
    rewrite drop_drop. f_equal. lia.
  Qed.
  Lemma dpos_slice this xs j k : j < k ≤ length xs → dpos this xs j = dfirst (dlive (dslice j k xs)) None.
  Proof.
    intros Hjk. rewrite dpos_drop; [|lia]. rewrite (drop_dslice j k); [|lia].
    rewrite dfirst_app -dfirst_live. apply dfirst_ne. by apply dslice_ne.
  Qed.
  Lemma dpos_rest this xs i a : i ≤ length xs →
    dpos this xs i = dfirst (dlive (drop i xs) ++ DlistLogic.hd this :: a) None.
  Proof. intros Hi. rewrite dpos_drop //. by rewrite dfirst_app dfirst_live. Qed.

  (** *** a range of the list itself *)
  Lemma wp_dl_splice_own this xs i j k (Q : unit → iProp) :
    j < k ≤ length xs → i < j ∨ k < i ≤ length xs →
    dlist this xs -∗
    (dlist this (if decide (i < j) then take i xs ++ dslice j k xs ++ dslice i j xs ++ drop k xs
                 else take j xs ++ dslice k i xs ++ dslice j k xs ++ drop i xs) -∗ Q tt) -∗
    wp (dl_splice_range (dpos this xs i) (dpos this xs j) (dpos this xs k)) Q.
  Proof.
    iIntros (Hjk Hi) "H HQ". unfold dl_splice_range. destruct (decide (i < j)) as [Hij|Hij].
    - iDestruct (dlist_rot _ _ i with "H") as "H". unfold rot.
      rewrite (drop_dslice i j) ?(drop_dslice j k) ?dlive_app -?app_assoc; [|lia..].
      rewrite (dpos_slice _ _ i j) ?(dpos_slice _ _ j k) ?(dpos_rest _ _ k (dlive (take i xs))); [|lia..].
      iApply (wp_node_splice_same with "H"); [apply dslice_ne; lia..|by destruct (dlive (drop k xs))|].
      iIntros "H". iApply "HQ". unfold dlist.
      iDestruct (ring_rotate with "H") as "H". rewrite -!app_assoc. iDestruct (ring_rotate with "H") as "H".
      rewrite !dlive_app -!app_comm_cons -!app_assoc. done.
    - assert (k < i ≤ length xs) as Hki by lia.
      iDestruct (dlist_rot _ _ j with "H") as "H". unfold rot.
      rewrite (drop_dslice j k) ?(drop_dslice k i) ?dlive_app; [|lia..]. rewrite -(app_assoc (dlive (dslice j k xs))).
      rewrite (dpos_slice _ _ j k) ?(dpos_slice _ _ k i) ?(dpos_rest _ _ i (dlive (take j xs))); [|lia..].
      iAssert (ring ((dlive (drop i xs) ++ DlistLogic.hd this :: dlive (take j xs)) ++
        dlive (dslice j k xs) ++ dlive (dslice k i xs))) with "[H]" as "H".
      { iApply ring_rotate. rewrite -!app_assoc. iExact "H". }
      iApply (wp_node_splice_same with "H"); [by destruct (dlive (drop i xs))|apply dslice_ne; lia..|].
      iIntros "H". iApply "HQ". unfold dlist. rewrite -app_assoc.
      iDestruct (ring_rotate with "H") as "H". rewrite !dlive_app -!app_comm_cons -!app_assoc. done.
  Qed.
  Lemma wp_dl_splice_own_end this xs j k (Q : unit → iProp) : j < k ≤ length xs →
    dlist this xs -∗ (dlist this (take j xs ++ drop k xs) -∗ ring (dlive (dslice j k xs)) -∗ Q tt) -∗
    wp (dl_splice_range (dpos this xs k) (dpos this xs j) (dpos this xs k)) Q.
  Proof.
    iIntros (Hjk) "H HQ". unfold dl_splice_range. iDestruct (dlist_rot _ _ j with "H") as "H". unfold rot.
    rewrite (drop_dslice j k) ?dlive_app -?app_assoc; [|lia..].
    rewrite (dpos_slice _ _ j k) ?(dpos_rest _ _ k (dlive (take j xs))); [|lia..].
    iApply (wp_node_splice_end with "H"); [apply dslice_ne; lia|by destruct (dlive (drop k xs))|].
    iIntros "H Hz". iApply ("HQ" with "[H] Hz"). iDestruct (ring_rotate with "H") as "H".
    unfold dlist. by rewrite dlive_app.
  Qed.
  Lemma wp_dl_splice_own_nop this xs i (Q : unit → iProp) : i ≤ length xs →
    dlist this xs -∗ (dlist this xs -∗ Q tt) -∗
    wp (dl_splice_range (dpos this xs i) (dpos this xs i) (dpos this xs i)) Q.
  Proof.
    iIntros (Hi) "H HQ". unfold dl_splice_range. iDestruct (dlist_rot _ _ i with "H") as "H".
    rewrite -rot_first //. iApply (wp_node_splice_nop with "H"); [apply rot_ne|]. iIntros "H". iApply "HQ".
    by rewrite dlist_rot.
  Qed.
  Lemma wp_dl_splice_own_none this xs i j (Q : unit → iProp) : i < j ≤ length xs →
    dlist this xs -∗
    (dlist this (take i xs ++ drop j xs) -∗
     seg (dlast (dlive (dslice i j xs)) None) (dlive (dslice i j xs)) (dpos this xs j) -∗ Q tt) -∗
    wp (dl_splice_range (dpos this xs i) (dpos this xs j) (dpos this xs j)) Q.
  Proof.
    iIntros (Hij) "H HQ". unfold dl_splice_range. iDestruct (dlist_rot _ _ i with "H") as "H". unfold rot.
    rewrite (drop_dslice i j) ?dlive_app -?app_assoc; [|lia..].
    rewrite (dpos_slice _ _ i j) ?(dpos_rest _ _ j (dlive (take i xs))); [|lia..].
    iApply (wp_node_splice_none with "H"); [apply dslice_ne; lia|by destruct (dlive (drop j xs))|].
    iIntros "H Hz". iApply ("HQ" with "[H] Hz"). iDestruct (ring_rotate with "H") as "H".
    unfold dlist. by rewrite dlive_app.
  Qed.

  (** the same, as in the specification *)
  Lemma wp_dl_move_range this xs i j k (Q : unit → iProp) :
    i ≤ length xs → j < k ≤ length xs ∧ (i < j ∨ k < i) ∨ j = k ∧ i = j →
    dlist this xs -∗ (dlist this (dmove_range i j k xs) -∗ Q tt) -∗
    wp (dl_splice_range (dpos this xs i) (dpos this xs j) (dpos this xs k)) Q.
  Proof.
    iIntros (Hi Hijk) "H HQ". destruct Hijk as [[Hjk Hij]|[<- <-]].
    - iApply (wp_dl_splice_own with "H"); [done|lia|]. iIntros "H". iApply "HQ". unfold dmove_range, dins, dcut.
      destruct (decide (i < j)) as [Hlt|Hlt].
      + rewrite decide_True; [|lia]. rewrite take_app_le; [|rewrite take_length; lia].
        rewrite drop_app_le; [|rewrite take_length; lia]. rewrite take_take min_l; [|lia].
        unfold dslice. rewrite skipn_firstn_comm. done.
      + rewrite decide_False; [|lia]. rewrite take_app_ge; [|rewrite take_length; lia].
        rewrite drop_app_ge; [|rewrite take_length; lia]. rewrite take_length min_l; [|lia].
        rewrite drop_drop. unfold dslice. replace (i - (k - j) - j) with (i - k) by lia.
        replace (k + (i - k)) with i by lia. rewrite -app_assoc. done.
    - iApply (wp_dl_splice_own_nop with "H"); [done|]. iIntros "H". iApply "HQ". unfold dmove_range.
      rewrite decide_True //. unfold dins, dcut, dslice. rewrite Nat.sub_diag take_0 /=.
      by rewrite !take_drop.
  Qed.
End splice.
