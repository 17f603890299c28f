(** Separation-logic view of DlistSpec.v and specifications of the node-level
    operations of list.hpp. Proof file. *)
From Verif Require Export DlistSpec Sep.
From iris.proofmode Require Import tactics.

Section logic.
  Context {V : Type}.
  Notation C := (dcell V).
  Notation iProp := (bi_car (hpropI C)).
  Notation node := (loc * dslot V)%type.
  Implicit Types (ns a b : list node) (p q : ptr) (c : C) (s : dslot V) (v : V) (l : loc) (r : dref V).

  Fixpoint seg p ns q : iProp :=
    match ns with
    | [] => emp
    | (l, s) :: r => l ↦ DCell p (dfirst r q) s ∗ seg (Some l) r q
    end%I.
  Definition ring ns : iProp := seg (dlast ns None) ns (dfirst ns None).

  Lemma dfirst_app {A} (n1 n2 : list (loc * A)) q : dfirst (n1 ++ n2) q = dfirst n1 (dfirst n2 q).
  Proof. by destruct n1 as [|[]]. Qed.
  Lemma dlast_app {A} (n1 n2 : list (loc * A)) q : dlast (n1 ++ n2) q = dlast n2 (dlast n1 q).
  Proof. unfold dlast. rewrite last_app. by destruct (last n2) as [[]|]. Qed.
  Lemma dlast_snoc {A} (n1 : list (loc * A)) l x q : dlast (n1 ++ [(l, x)]) q = Some l.
  Proof. by rewrite dlast_app. Qed.
  Lemma dfirst_ne {A} (n1 : list (loc * A)) q q' : n1 ≠ [] → dfirst n1 q = dfirst n1 q'.
  Proof. by destruct n1 as [|[]]. Qed.
  Lemma dlast_ne {A} (n1 : list (loc * A)) q q' : n1 ≠ [] → dlast n1 q = dlast n1 q'.
  Proof. destruct n1 as [|[l x] n1 _] using rev_ind; [done|]. by rewrite !dlast_snoc. Qed.
  Lemma dlast_cons {A} l x (n1 : list (loc * A)) q : dlast ((l, x) :: n1) q = dlast n1 (Some l).
  Proof. by rewrite (dlast_app [(l,x)] n1). Qed.

  Lemma seg_app p a b q : seg p (a ++ b) q ⊣⊢ seg p a (dfirst b q) ∗ seg (dlast a p) b q.
  Proof.
    revert p. induction a as [|[l s] a IH]; intros p; cbn [app seg].
    - by rewrite left_id.
    - rewrite IH dfirst_app dlast_cons. by rewrite assoc.
  Qed.
  Lemma seg_snoc p a l s q : seg p (a ++ [(l,s)]) q ⊣⊢ seg p a (Some l) ∗ l ↦ DCell (dlast a p) q s.
  Proof. rewrite seg_app /=. by rewrite right_id. Qed.
  Lemma seg_one p l s q : seg p [(l,s)] q ⊣⊢ l ↦ DCell p q s.
  Proof. simpl. by rewrite right_id. Qed.

  Lemma seg_heap_dom p ns q l : l ∉ ns.*1 → seg_heap p ns q !! l = None.
  Proof.
    revert p. induction ns as [|[l' s] ns IH]; simpl; intros p Hl; [by rewrite lookup_empty|].
    apply not_elem_of_cons in Hl as [Hne Hl]. rewrite lookup_insert_ne; auto.
  Qed.
  Lemma seg_heap_dom_Some p ns q l : l ∈ ns.*1 → is_Some (seg_heap p ns q !! l).
  Proof.
    revert p. induction ns as [|[l' s] ns IH]; simpl; intros p Hl; [by apply elem_of_nil in Hl|].
    destruct (decide (l' = l)) as [->|Hne]; [rewrite lookup_insert; eauto|].
    rewrite lookup_insert_ne; [|done]. apply IH. by apply elem_of_cons in Hl as [->|?].
  Qed.
  Lemma seg_holds p ns q σ : hholds (seg p ns q) σ ↔ NoDup ns.*1 ∧ σ = seg_heap p ns q.
  Proof.
    revert p σ. induction ns as [|[l s] ns IH]; intros p σ; simpl.
    - rewrite hemp_unfold. split; [|naive_solver]. intros ->. split; [constructor|done].
    - rewrite hsep_unfold. split.
      + intros (σ1&σ2&->&Hd&Hl&Hns). apply IH in Hns as [Hnd ->].
        apply hpto_unfold in Hl as ->. apply map_disjoint_singleton_l in Hd. split.
        * constructor; [|done]. intros Hin.
          apply (seg_heap_dom_Some (Some l) _ q) in Hin as [? ?]. congruence.
        * by rewrite -insert_union_singleton_l.
      + intros [Hnd ->]. inversion_clear Hnd as [|?? Hl Hnd'].
        apply (seg_heap_dom (Some l) _ q) in Hl.
        exists {[l := DCell p (dfirst ns q) s]}, (seg_heap (Some l) ns q).
        split_and!; [by rewrite -insert_union_singleton_l| | |by apply IH].
        * by apply map_disjoint_singleton_l.
        * by apply hpto_unfold.
  Qed.
  Lemma seg_nodup p ns q : seg p ns q ⊢ ⌜NoDup ns.*1⌝.
  Proof. apply hentails_intro. intros σ Hσ. by apply seg_holds in Hσ as [??]. Qed.
  Lemma ring_nodup ns : ring ns ⊢ ⌜NoDup ns.*1⌝.
  Proof. apply seg_nodup. Qed.

  Lemma ring_split a b : a ≠ [] → b ≠ [] →
    ring (a ++ b) ⊣⊢ seg (dlast b None) a (dfirst b None) ∗ seg (dlast a None) b (dfirst a None).
  Proof.
    intros Ha Hb. unfold ring. rewrite seg_app dfirst_app dlast_app.
    rewrite (dlast_ne b _ None) // (dfirst_ne b _ None) // (dlast_ne a _ None) // (dfirst_ne a _ None) //.
  Qed.
  Lemma ring_rotate a b : ring (a ++ b) ⊣⊢ ring (b ++ a).
  Proof.
    destruct (decide (a = [])) as [->|Ha]; [by rewrite app_nil_r|].
    destruct (decide (b = [])) as [->|Hb]; [by rewrite app_nil_r|].
    rewrite !ring_split //. by rewrite comm.
  Qed.
  Lemma ring_split3 a b (d : list node) : a ≠ [] → b ≠ [] → d ≠ [] →
    ring (a ++ b ++ d) ⊣⊢ seg (dlast d None) a (dfirst b None) ∗ seg (dlast a None) b (dfirst d None) ∗
      seg (dlast b None) d (dfirst a None).
  Proof.
    intros Ha Hb Hd. rewrite ring_split //; [|by destruct b]. rewrite seg_app.
    rewrite dlast_app dfirst_app (dlast_ne d _ None) // (dfirst_ne b _ None) //.
    rewrite (dlast_ne b _ None) // (dfirst_ne d _ None) //.
  Qed.
  Lemma ring_one l s : ring [(l,s)] ⊣⊢ l ↦ DCell (Some l) (Some l) s.
  Proof. unfold ring. by rewrite seg_one. Qed.
  Lemma ring_cons l s b : ring ((l,s) :: b) ⊣⊢ l ↦ DCell (dlast b (Some l)) (dfirst b (Some l)) s ∗
    seg (Some l) b (Some l).
  Proof. unfold ring. rewrite dlast_cons. done. Qed.

  Lemma dlive_locs xs : (dlive (V:=V) xs).*1 = xs.*1.
  Proof. unfold dlive. rewrite -list_fmap_compose. by apply list_fmap_ext. Qed.
  Lemma dlive_app xs ys : dlive (V:=V) (xs ++ ys) = dlive xs ++ dlive ys.
  Proof. apply fmap_app. Qed.
  Lemma dlive_cons l v xs : dlive ((l, v) :: xs) = (l, DLive v) :: dlive xs.
  Proof. done. Qed.
  Lemma dlive_nil : dlive (V:=V) [] = [].
  Proof. done. Qed.
  Lemma dfirst_live (xs : list (loc * V)) q : dfirst (dlive xs) q = dfirst xs q.
  Proof. by destruct xs as [|[]]. Qed.
  Lemma dlast_live (xs : list (loc * V)) q : dlast (dlive xs) q = dlast xs q.
  Proof.
    destruct xs as [|[l v] xs _] using rev_ind; [done|]. by rewrite dlive_app !dlast_snoc.
  Qed.
  Lemma elem_of_dlive l v xs : (l, DLive v) ∈ dlive xs ↔ (l, v) ∈ xs.
  Proof.
    unfold dlive. rewrite elem_of_list_fmap. split.
    - intros ([l' v']&[= -> ->]&?). done.
    - intros ?. by exists (l, v).
  Qed.

  (** [dlist this xs] is the assertion of [is_dlist]. *)
  Definition hd (this : loc) : node := (this, DHdr).
  Definition dlist (this : loc) (xs : list (loc * V)) : iProp := ring (hd this :: dlive xs).
  Lemma dlist_holds this xs : Sep.plain (is_dlist this xs) ⊣⊢ dlist this xs.
  Proof.
    apply bi.equiv_entails; split; apply hentails_intro; intros σ.
    - intros [Hnd ->]%plain_holds. apply seg_holds. split; [|done].
      by rewrite fmap_cons dlive_locs.
    - intros [Hnd ->]%seg_holds. rewrite fmap_cons dlive_locs in Hnd. by apply plain_holds.
  Qed.

  (** The ring seen from position [i]. *)
  Definition rot (this : loc) (xs : list (loc * V)) (i : nat) : list node :=
    dlive (drop i xs) ++ hd this :: dlive (take i xs).
  Lemma rot_ne this xs i : rot this xs i ≠ [].
  Proof. unfold rot. by destruct (dlive _). Qed.
  Lemma dlist_rot this xs i : dlist this xs ⊣⊢ ring (rot this xs i).
  Proof.
    unfold dlist, rot. rewrite (ring_rotate (dlive _)). simpl. by rewrite -dlive_app take_drop.
  Qed.
  Lemma dpos_drop this xs i : i ≤ length xs → dpos (V:=V) this xs i = dfirst (drop i xs) (Some this).
  Proof.
    intros Hi. unfold dpos. destruct (decide (i = length xs)) as [->|].
    - rewrite drop_all lookup_app_r fmap_length; [|done]. by rewrite Nat.sub_diag.
    - destruct (lookup_lt_is_Some_2 xs i) as [[l v] Hl]; [lia|].
      rewrite (drop_S _ _ _ Hl) lookup_app_l; [|rewrite fmap_length; lia].
      by rewrite list_lookup_fmap Hl.
  Qed.
  Lemma rot_first this xs i : i ≤ length xs → dfirst (rot this xs i) None = dpos this xs i.
  Proof.
    intros Hi. rewrite dpos_drop //. unfold rot. rewrite dfirst_app /=. by rewrite dfirst_live.
  Qed.
  Lemma rot_ins this xs i zs : ring (rot this xs i ++ dlive zs) ⊣⊢ dlist this (dins i zs xs).
  Proof.
    unfold rot, dlist, dins. rewrite -app_assoc ring_rotate. rewrite !dlive_app /=. by rewrite -app_assoc.
  Qed.
  Lemma dpos_elem this (xs : list (loc * V)) i l v : xs !! i = Some (l, v) → dpos this xs i = Some l.
  Proof.
    intros Hl. unfold dpos. rewrite lookup_app_l; [|rewrite fmap_length; by eapply lookup_lt_Some].
    by rewrite list_lookup_fmap Hl.
  Qed.
  Lemma dpos_end this (xs : list (loc * V)) : dpos this xs (length xs) = Some this.
  Proof. rewrite dpos_drop // drop_all. done. Qed.
  Lemma rot_elem this xs i l v : xs !! i = Some (l, v) →
    rot this xs i = (l, DLive v) :: dlive (drop (S i) xs) ++ hd this :: dlive (take i xs).
  Proof. intros Hl. unfold rot. by rewrite (drop_S _ _ _ Hl). Qed.
  Lemma rot_end this xs : rot this xs (length xs) = hd this :: dlive xs.
  Proof. unfold rot. by rewrite drop_all firstn_all. Qed.
  Lemma rot_cut this xs i : ring (dlive (drop (S i) xs) ++ hd this :: dlive (take i xs)) ⊣⊢
    dlist this (dcut i (S i) xs).
  Proof. rewrite ring_rotate. unfold dlist, dcut. by rewrite dlive_app. Qed.
  (** in a ring the header is not a node *)
  Lemma dlist_ne this xs i l v : xs !! i = Some (l, v) → dlist this xs ⊢ ⌜l ≠ this⌝.
  Proof.
    intros Hl. iIntros "H". iDestruct (ring_nodup with "H") as %Hnd. iPureIntro. intros ->.
    rewrite fmap_cons dlive_locs in Hnd. apply NoDup_cons in Hnd as [Hn _]. apply Hn. simpl.
    apply elem_of_list_fmap. exists (this, v). split; [done|]. by eapply elem_of_list_lookup_2.
  Qed.
  Lemma dlist_pos_ne this xs i : i < length xs → dlist this xs ⊢ ⌜dpos this xs i ≠ Some this⌝.
  Proof.
    intros Hi. destruct (lookup_lt_is_Some_2 xs i Hi) as [[l v] Hl].
    rewrite (dpos_elem _ _ _ _ _ Hl). iIntros "H". iDestruct (dlist_ne _ _ _ _ _ Hl with "H") as %?.
    iPureIntro. congruence.
  Qed.
  Lemma dlist_pos_inj this xs i j : i ≤ length xs → j ≤ length xs → dlist this xs ⊢
    ⌜dpos this xs i = dpos this xs j → i = j⌝.
  Proof.
    intros Hi Hj. iIntros "H". iDestruct (ring_nodup with "H") as %Hnd. iPureIntro.
    rewrite fmap_cons dlive_locs /= in Hnd.
    assert (NoDup (xs.*1 ++ [this])) as Hnd'.
    { apply NoDup_app. apply NoDup_cons in Hnd as [Hn Hnd]. split; [done|]. split; [|apply NoDup_singleton].
      intros x Hx ->%elem_of_list_singleton. done. }
    unfold dpos. intros He.
    destruct (lookup_lt_is_Some_2 (xs.*1 ++ [this]) i) as [x Hx].
    { rewrite app_length fmap_length /=. lia. }
    eapply NoDup_lookup; [done..|]. by rewrite -He.
  Qed.

  Context `{Allocator C}.

  Lemma wp_get_next l c Q : l ↦ c -∗ (l ↦ c -∗ Q (d_next c)) -∗ wp (get_next (Some l)) Q.
  Proof. iIntros "Hl HQ". unfold get_next. wsteps. by iApply "HQ". Qed.
  Lemma wp_get_prev l c Q : l ↦ c -∗ (l ↦ c -∗ Q (d_prev c)) -∗ wp (get_prev (Some l)) Q.
  Proof. iIntros "Hl HQ". unfold get_prev. wsteps. by iApply "HQ". Qed.
  Lemma wp_set_next l c q Q :
    l ↦ c -∗ (l ↦ DCell (d_prev c) q (d_val c) -∗ Q tt) -∗ wp (set_next (Some l) q) Q.
  Proof. iIntros "Hl HQ". unfold set_next. wsteps. by iApply "HQ". Qed.
  Lemma wp_set_prev l c q Q :
    l ↦ c -∗ (l ↦ DCell q (d_next c) (d_val c) -∗ Q tt) -∗ wp (set_prev (Some l) q) Q.
  Proof. iIntros "Hl HQ". unfold set_prev. wsteps. by iApply "HQ". Qed.
  Lemma wp_d_value l p q v Q :
    l ↦ DCell p q (DLive v) -∗ (l ↦ DCell p q (DLive v) -∗ Q v) -∗ wp (d_value (Some l)) Q.
  Proof. iIntros "Hl HQ". unfold d_value. wsteps. simpl. wsteps. by iApply "HQ". Qed.
  Lemma wp_delete_node l p q v Q :
    l ↦ DCell p q (DLive v) -∗ Q tt -∗ wp (delete_node (Some l)) Q.
  Proof. iIntros "Hl HQ". unfold delete_node. wsteps. simpl. by wsteps. Qed.

  (** The outer links of a segment. *)
  Lemma wp_last_next a p q Q : a ≠ [] →
    seg p a q -∗ (seg p a q -∗ Q q) -∗ wp (get_next (dlast a None)) Q.
  Proof.
    iIntros (Ha) "H HQ". destruct a as [|[l s] a _] using rev_ind; [done|].
    rewrite dlast_snoc. iDestruct (seg_snoc with "H") as "[Ha Hl]".
    iApply (wp_get_next with "Hl"). iIntros "Hl". iApply "HQ". iApply seg_snoc. iFrame.
  Qed.
  Lemma wp_last_set_next a p q q' Q : a ≠ [] →
    seg p a q -∗ (seg p a q' -∗ Q tt) -∗ wp (set_next (dlast a None) q') Q.
  Proof.
    iIntros (Ha) "H HQ". destruct a as [|[l s] a _] using rev_ind; [done|].
    rewrite dlast_snoc. iDestruct (seg_snoc with "H") as "[Ha Hl]".
    iApply (wp_set_next with "Hl"). iIntros "Hl". iApply "HQ". iApply seg_snoc. iFrame.
  Qed.
  Lemma wp_first_prev a p q Q : a ≠ [] →
    seg p a q -∗ (seg p a q -∗ Q p) -∗ wp (get_prev (dfirst a None)) Q.
  Proof.
    iIntros (Ha) "H HQ". destruct a as [|[l s] a]; [done|]. cbn [seg dfirst].
    iDestruct "H" as "[Hl Ha]". iApply (wp_get_prev with "Hl"). iIntros "Hl". iApply "HQ". iFrame.
  Qed.
  Lemma wp_first_set_prev a p p' q Q : a ≠ [] →
    seg p a q -∗ (seg p' a q -∗ Q tt) -∗ wp (set_prev (dfirst a None) p') Q.
  Proof.
    iIntros (Ha) "H HQ". destruct a as [|[l s] a]; [done|]. cbn [seg dfirst].
    iDestruct "H" as "[Hl Ha]". iApply (wp_set_prev with "Hl"). iIntros "Hl". iApply "HQ". iFrame.
  Qed.

  (** *** list_node *)
  Lemma wp_insert_before a n c Q : a ≠ [] →
    ring a -∗ n ↦ c -∗ (ring (a ++ [(n, d_val c)]) -∗ Q (Some n)) -∗
    wp (insert_before (dfirst a None) (Some n)) Q.
  Proof.
    iIntros (Ha) "H Hn HQ". unfold insert_before, ring at 1. wstep.
    iApply (wp_first_prev with "H"); [done|]. iIntros "H". wstep.
    iApply (wp_last_set_next a _ _ (Some n) with "H"); [done|]. iIntros "H". wstep.
    iApply (wp_set_next with "Hn"). iIntros "Hn". wstep.
    iApply (wp_first_prev with "H"); [done|]. iIntros "H". wstep.
    iApply (wp_set_prev with "Hn"). iIntros "Hn". wstep.
    iApply (wp_first_set_prev _ _ (Some n) with "H"); [done|]. iIntros "H". wstep.
    iApply "HQ". rewrite ring_split //. simpl. iFrame.
  Qed.
  Lemma wp_unlink l s b Q : b ≠ [] →
    ring ((l, s) :: b) -∗ (ring b -∗ l ↦ DCell (dlast b None) (dfirst b None) s -∗ Q tt) -∗
    wp (unlink (Some l)) Q.
  Proof.
    iIntros (Hb) "H HQ". iDestruct (ring_cons with "H") as "[Hl H]".
    rewrite (dlast_ne b _ None) // (dfirst_ne b _ None) //. unfold unlink. wstep.
    iApply (wp_get_next with "Hl"). iIntros "Hl". wstep. simpl.
    iApply (wp_get_prev with "Hl"). iIntros "Hl". wstep. simpl.
    iApply (wp_first_set_prev _ _ (dlast b None) with "H"); [done|]. iIntros "H". wstep.
    iApply (wp_get_prev with "Hl"). iIntros "Hl". wstep. simpl.
    iApply (wp_get_next with "Hl"). iIntros "Hl". simpl.
    iApply (wp_last_set_next b _ _ (dfirst b None) with "H"); [done|]. iIntros "H".
    iApply ("HQ" with "H Hl").
  Qed.
  Lemma wp_node_splice a z b Q : a ≠ [] → z ≠ [] → b ≠ [] →
    ring a -∗ ring (z ++ b) -∗ (ring (a ++ z) -∗ ring b -∗ Q tt) -∗
    wp (node_splice (dfirst a None) (dfirst z None) (dfirst b None)) Q.
  Proof.
    iIntros (Ha Hz Hb) "H Ho HQ". iDestruct (ring_split with "Ho") as "[Hz Hb]"; [done..|].
    unfold node_splice, ring at 1. wstep.
    iApply (wp_first_prev with "Hb"); [done|]. iIntros "Hb". wstep.
    iApply (wp_last_set_next z _ _ (dfirst a None) with "Hz"); [done|]. iIntros "Hz". wstep.
    iApply (wp_first_prev with "Hz"); [done|]. iIntros "Hz". wstep.
    iApply (wp_last_set_next b _ _ (dfirst b None) with "Hb"); [done|]. iIntros "Hb". wstep.
    iApply (wp_first_prev with "H"); [done|]. iIntros "H". wstep.
    iApply (wp_last_set_next a _ _ (dfirst z None) with "H"); [done|]. iIntros "H". wstep.
    iApply (wp_first_prev with "H"); [done|]. iIntros "H". wstep.
    iApply (wp_first_prev with "Hb"); [done|]. iIntros "Hb". wstep.
    iApply (wp_first_set_prev _ _ (dlast z None) with "H"); [done|]. iIntros "H". wstep.
    iApply (wp_first_prev with "Hz"); [done|]. iIntros "Hz". wstep.
    iApply (wp_first_set_prev _ _ (dlast b None) with "Hb"); [done|]. iIntros "Hb".
    iApply (wp_first_set_prev _ _ (dlast a None) with "Hz"); [done|]. iIntros "Hz".
    iApply ("HQ" with "[H Hz] Hb"). rewrite ring_split //. iFrame.
  Qed.
  (** within one ring *)
  Lemma wp_node_splice_same a z b Q : a ≠ [] → z ≠ [] → b ≠ [] →
    ring (a ++ z ++ b) -∗ (ring (a ++ b ++ z) -∗ Q tt) -∗
    wp (node_splice (dfirst a None) (dfirst z None) (dfirst b None)) Q.
  Proof.
    iIntros (Ha Hz Hb) "H HQ". iDestruct (ring_split3 with "H") as "(H&Hz&Hb)"; [done..|].
    unfold node_splice. wstep.
    iApply (wp_first_prev with "Hb"); [done|]. iIntros "Hb". wstep.
    iApply (wp_last_set_next z _ _ (dfirst a None) with "Hz"); [done|]. iIntros "Hz". wstep.
    iApply (wp_first_prev with "Hz"); [done|]. iIntros "Hz". wstep.
    iApply (wp_last_set_next a _ _ (dfirst b None) with "H"); [done|]. iIntros "H". wstep.
    iApply (wp_first_prev with "H"); [done|]. iIntros "H". wstep.
    iApply (wp_last_set_next b _ _ (dfirst z None) with "Hb"); [done|]. iIntros "Hb". wstep.
    iApply (wp_first_prev with "H"); [done|]. iIntros "H". wstep.
    iApply (wp_first_prev with "Hb"); [done|]. iIntros "Hb". wstep.
    iApply (wp_first_set_prev _ _ (dlast z None) with "H"); [done|]. iIntros "H". wstep.
    iApply (wp_first_prev with "Hz"); [done|]. iIntros "Hz". wstep.
    iApply (wp_first_set_prev _ _ (dlast a None) with "Hb"); [done|]. iIntros "Hb".
    iApply (wp_first_set_prev _ _ (dlast b None) with "Hz"); [done|]. iIntros "Hz".
    iApply "HQ". rewrite ring_split3 //. iFrame.
  Qed.

  (** Reading inside a ring. *)
  Lemma wp_ring_next l s b Q :
    ring ((l,s) :: b) -∗ (ring ((l,s) :: b) -∗ Q (dfirst b (Some l))) -∗ wp (get_next (Some l)) Q.
  Proof.
    iIntros "H HQ". iDestruct (ring_cons with "H") as "[Hl H]".
    iApply (wp_get_next with "Hl"). iIntros "Hl". iApply "HQ". iApply ring_cons. iFrame.
  Qed.
  Lemma wp_ring_prev l s b Q :
    ring ((l,s) :: b) -∗ (ring ((l,s) :: b) -∗ Q (dlast b (Some l))) -∗ wp (get_prev (Some l)) Q.
  Proof.
    iIntros "H HQ". iDestruct (ring_cons with "H") as "[Hl H]".
    iApply (wp_get_prev with "Hl"). iIntros "Hl". iApply "HQ". iApply ring_cons. iFrame.
  Qed.
  Lemma wp_ring_value l v b Q :
    ring ((l,DLive v) :: b) -∗ (ring ((l,DLive v) :: b) -∗ Q v) -∗ wp (d_value (Some l)) Q.
  Proof.
    iIntros "H HQ". iDestruct (ring_cons with "H") as "[Hl H]".
    iApply (wp_d_value with "Hl"). iIntros "Hl". iApply "HQ". iApply ring_cons. iFrame.
  Qed.

  (** Iterator movement: positions 0 .. length, cyclically. *)
  Lemma wp_pos_next this xs i Q : i < length xs →
    dlist this xs -∗ (dlist this xs -∗ Q (dpos this xs (S i))) -∗ wp (get_next (dpos this xs i)) Q.
  Proof.
    iIntros (Hi) "H HQ". destruct (lookup_lt_is_Some_2 xs i Hi) as [[l v] Hl].
    rewrite (dpos_elem _ _ _ _ _ Hl). iDestruct (dlist_rot _ _ i with "H") as "H". rewrite (rot_elem _ _ _ _ _ Hl).
    iApply (wp_ring_next with "H"). iIntros "H". rewrite -(rot_elem _ _ _ _ _ Hl) -dlist_rot.
    rewrite dfirst_app dfirst_live (dpos_drop _ _ (S i)) //. by iApply "HQ".
  Qed.
  Lemma wp_hd_next this xs Q :
    dlist this xs -∗ (dlist this xs -∗ Q (dpos this xs 0)) -∗ wp (get_next (Some this)) Q.
  Proof.
    iIntros "H HQ". iApply (wp_ring_next with "H"). rewrite dfirst_live dpos_drop /=; [|lia].
    done.
  Qed.
  Lemma wp_hd_prev this xs Q :
    dlist this xs -∗ (dlist this xs -∗ Q (dlast xs (Some this))) -∗ wp (get_prev (Some this)) Q.
  Proof. iIntros "H HQ". iApply (wp_ring_prev with "H"). rewrite dlast_live. done. Qed.
  Lemma dlast_dpos this (xs : list (loc * V)) i :
    i ≤ length xs → 0 < i → dlast (take i xs) (Some this) = dpos this xs (i - 1).
  Proof.
    intros Hi Hi0. destruct (lookup_lt_is_Some_2 xs (i - 1)) as [[l v] Hl]; [lia|].
    rewrite (dpos_elem _ _ _ _ _ Hl). replace i with (S (i - 1)) by lia.
    by rewrite (take_S_r _ _ _ Hl) dlast_snoc.
  Qed.
  Lemma wp_pos_prev this xs i Q : 0 < i ≤ length xs →
    dlist this xs -∗ (dlist this xs -∗ Q (dpos this xs (i - 1))) -∗ wp (get_prev (dpos this xs i)) Q.
  Proof.
    iIntros (Hi) "H HQ". iDestruct (dlist_rot _ _ i with "H") as "H".
    rewrite -(rot_first this xs i); [|lia].
    iApply (wp_first_prev with "H"); [apply rot_ne|]. iIntros "H".
    change (seg _ _ _) with (ring (rot this xs i)). rewrite -dlist_rot.
    unfold rot. rewrite dlast_app dlast_cons dlast_live dlast_dpos; [|lia..]. by iApply "HQ".
  Qed.
  Lemma wp_pos_value this xs i l v Q : xs !! i = Some (l, v) →
    dlist this xs -∗ (dlist this xs -∗ Q v) -∗ wp (d_value (dpos this xs i)) Q.
  Proof.
    iIntros (Hl) "H HQ". rewrite (dpos_elem _ _ _ _ _ Hl). iDestruct (dlist_rot _ _ i with "H") as "H".
    rewrite (rot_elem _ _ _ _ _ Hl). iApply (wp_ring_value with "H"). iIntros "H".
    rewrite -(rot_elem _ _ _ _ _ Hl) -dlist_rot. by iApply "HQ".
  Qed.
  Lemma wp_dref this xs r v Q : drefers xs r v →
    dlist this xs -∗ (dlist this xs -∗ Q v) -∗ wp (d_deref r) Q.
  Proof.
    iIntros (Hr) "H HQ". destruct r as [v'|l]; simpl in *.
    - subst. wstep. by iApply "HQ".
    - apply elem_of_list_lookup_1 in Hr as [i Hl]. rewrite -(dpos_elem this _ _ _ _ Hl).
      by iApply (wp_pos_value with "H").
  Qed.
End logic.
