(** Separation-logic view of SlistSpec.v and specifications of the node-level
    operations. Proof file. *)
From Verif Require Export SlistSpec Sep.

Section logic.
  Context {V : Type}.
  Notation C := (cell V).
  Notation heap := (gmap loc C).
  Notation iProp := (bi_car (hpropI C)).
  Implicit Types (ns : list (loc * slot V)) (xs : list (loc * V)) (q : ptr) (c : C) (s : slot V) (v : V) (r : vref V).

  Fixpoint cells ns q : iProp :=
    match ns with
    | [] => emp
    | (l, s) :: r => l ↦ Cell (first r q) s ∗ cells r q
    end%I.

  Lemma first_app {A} (ns1 ns2 : list (loc * A)) q :
    first (ns1 ++ ns2) q = first ns1 (first ns2 q).
  Proof. destruct ns1 as [|[]]; done. Qed.

  Lemma cells_app ns1 ns2 q :
    cells (ns1 ++ ns2) q ⊣⊢ cells ns1 (first ns2 q) ∗ cells ns2 q.
  Proof.
    induction ns1 as [|[l s] ns1 IH]; simpl.
    - by rewrite left_id.
    - rewrite IH first_app. by rewrite assoc.
  Qed.
  Lemma cells_snoc ns l s q :
    cells (ns ++ [(l,s)]) q ⊣⊢ cells ns (Some l) ∗ l ↦ Cell q s.
  Proof. rewrite cells_app /=. by rewrite right_id. Qed.
  Lemma cells_focus ns1 l s ns2 q :
    cells (ns1 ++ (l,s) :: ns2) q ⊣⊢
      cells ns1 (Some l) ∗ l ↦ Cell (first ns2 q) s ∗ cells ns2 q.
  Proof. by rewrite cells_app /=. Qed.
  Lemma cells_cons l s ns q :
    cells ((l,s) :: ns) q ⊣⊢ l ↦ Cell (first ns q) s ∗ cells ns q.
  Proof. done. Qed.

  Lemma list_heap_dom ns q l : l ∉ ns.*1 → list_heap ns q !! l = None.
  Proof.
    induction ns as [|[l' s] ns IH]; simpl; intros Hl.
    - by rewrite lookup_empty.
    - apply not_elem_of_cons in Hl as [Hne Hl].
      rewrite lookup_insert_ne; auto.
  Qed.
  Lemma list_heap_dom_Some ns q l : l ∈ ns.*1 → is_Some (list_heap ns q !! l).
  Proof.
    induction ns as [|[l' s] ns IH]; simpl; intros Hl.
    - by apply elem_of_nil in Hl.
    - destruct (decide (l' = l)) as [->|Hne].
      + rewrite lookup_insert. eauto.
      + rewrite lookup_insert_ne; [|done]. apply IH.
        apply elem_of_cons in Hl as [->|?]; done.
  Qed.

  Lemma cells_holds ns q σ :
    hholds (cells ns q) σ ↔ NoDup ns.*1 ∧ σ = list_heap ns q.
  Proof.
    revert σ. induction ns as [|[l s] ns IH]; intros σ; simpl.
    - rewrite hemp_unfold. split; [|naive_solver].
      intros ->. split; [constructor|done].
    - rewrite hsep_unfold. split.
      + intros (σ1&σ2&->&Hd&Hl&Hns). apply IH in Hns as [Hnd ->].
        apply hpto_unfold in Hl as ->.
        apply map_disjoint_singleton_l in Hd. split.
        * constructor; [|done]. intros Hin.
          apply (list_heap_dom_Some _ q) in Hin as [? ?]. congruence.
        * by rewrite -insert_union_singleton_l.
      + intros [Hnd ->]. inversion_clear Hnd as [|?? Hl Hnd'].
        apply (list_heap_dom _ q) in Hl.
        exists {[l := Cell (first ns q) s]}, (list_heap ns q).
        split_and!; [by rewrite -insert_union_singleton_l| | |by apply IH].
        * by apply map_disjoint_singleton_l.
        * by apply hpto_unfold.
  Qed.

  Lemma cells_nodup ns q : cells ns q ⊢ ⌜NoDup ns.*1⌝.
  Proof. apply hentails_intro. intros σ Hσ. by apply cells_holds in Hσ as [??]. Qed.

  Lemma live_locs xs : (live xs).*1 = xs.*1.
  Proof. unfold live. rewrite -list_fmap_compose. by apply list_fmap_ext. Qed.
  Lemma live_app xs ys : live (xs ++ ys) = live xs ++ live ys.
  Proof. apply fmap_app. Qed.
  Lemma live_cons l v xs : live ((l, v) :: xs) = (l, Live v) :: live xs.
  Proof. done. Qed.
  Lemma live_length xs : length (live xs) = length xs.
  Proof. apply fmap_length. Qed.
  Lemma first_live xs q : first (live xs) q = first xs q.
  Proof. by destruct xs as [|[]]. Qed.
  Lemma elem_of_live l v xs : (l, Live v) ∈ live xs ↔ (l, v) ∈ xs.
  Proof.
    unfold live. rewrite elem_of_list_fmap. split.
    - intros ([l' v']&[= -> ->]&?). done.
    - intros ?. by exists (l, v).
  Qed.
  Lemma dead_locs ds : (dead (V:=V) ds).*1 = ds.
  Proof. unfold dead. rewrite -list_fmap_compose. by rewrite list_fmap_id. Qed.

  (** [flist this xs] is the assertion of [is_flist]. *)
  Definition flist (this : loc) xs : iProp := cells ((this, Hdr) :: live xs) None.
  Lemma flist_holds this xs : plain (is_flist this xs) ⊣⊢ flist this xs.
  Proof.
    apply bi.equiv_entails; split; apply hentails_intro; intros σ.
    - intros [Hnd ->]%plain_holds. apply cells_holds. split; [|done].
      by rewrite fmap_cons live_locs.
    - intros [Hnd ->]%cells_holds. rewrite fmap_cons live_locs in Hnd. by apply plain_holds.
  Qed.

  (** Splitting a list at an iterator position. *)
  Definition hnodes (this : loc) xs : list (loc * slot V) := (this, Hdr) :: live xs.
  Lemma hnodes_split this xs i :
    i ≤ length xs →
    ∃ l s, pos_at this xs i = Some l ∧
      ∀ ys, hnodes this (take i xs ++ ys) =
        take i (hnodes this xs) ++ (l, s) :: live ys.
  Proof.
    intros Hi. unfold pos_at, hnodes. destruct i as [|i].
    - exists this, Hdr. split; [done|]. intros ys. done.
    - destruct (lookup_lt_is_Some_2 xs i) as [[l v] Hl]; [lia|].
      exists l, (Live v). simpl. split.
      + by rewrite list_lookup_fmap Hl.
      + intros ys. rewrite (take_S_r _ _ _ Hl) -app_assoc. simpl.
        rewrite live_app /=. f_equal. f_equal. unfold live. apply fmap_take.
  Qed.

  Context `{Allocator C}.

  Lemma wp_get_next l c Q :
    l ↦ c -∗ (l ↦ c -∗ Q (next c)) -∗ wp (get_next (Some l)) Q.
  Proof. iIntros "Hl HQ". unfold get_next. wsteps. by iApply "HQ". Qed.
  Lemma wp_set_next l c q Q :
    l ↦ c -∗ (l ↦ Cell q (val c) -∗ Q tt) -∗ wp (set_next (Some l) q) Q.
  Proof. iIntros "Hl HQ". unfold set_next. wsteps. by iApply "HQ". Qed.
  Lemma wp_value_at l n v Q :
    l ↦ Cell n (Live v) -∗ (l ↦ Cell n (Live v) -∗ Q v) -∗ wp (value_at (Some l)) Q.
  Proof. iIntros "Hl HQ". unfold value_at. wsteps. simpl. wsteps. by iApply "HQ". Qed.

  Lemma wp_insert_after p nx s n c Q :
    p ↦ Cell nx s -∗ n ↦ c -∗
    (p ↦ Cell (Some n) s -∗ n ↦ Cell nx (val c) -∗ Q (Some n)) -∗
    wp (insert_after (Some p) (Some n)) Q.
  Proof.
    iIntros "Hp Hn HQ". unfold insert_after. wstep.
    iApply (wp_get_next with "Hp"). iIntros "Hp". wstep.
    iApply (wp_set_next with "Hn"). iIntros "Hn". wstep.
    iApply (wp_set_next with "Hp"). iIntros "Hp". wstep.
    iApply ("HQ" with "Hp Hn").
  Qed.

  Lemma wp_unlink_next p s n c Q :
    p ↦ Cell (Some n) s -∗ n ↦ c -∗
    (p ↦ Cell (next c) s -∗ n ↦ c -∗ Q (Some n)) -∗
    wp (unlink_next (Some p)) Q.
  Proof.
    iIntros "Hp Hn HQ". unfold unlink_next. wstep.
    iApply (wp_get_next with "Hp"). iIntros "Hp". wstep. simpl.
    iApply (wp_get_next with "Hn"). iIntros "Hn". wstep.
    iApply (wp_set_next with "Hp"). iIntros "Hp". wstep.
    iApply ("HQ" with "Hp Hn").
  Qed.

  Lemma wp_delete_node l n v Q :
    l ↦ Cell n (Live v) -∗ Q tt -∗ wp (delete_node (Some l)) Q.
  Proof. iIntros "Hl HQ". unfold delete_node. wsteps. simpl. by wsteps. Qed.

  (** Reading a reference argument. *)
  Definition nrefers ns (r : vref V) (v : V) : Prop :=
    match r with ExtVal v' => v' = v | InNode l => (l, Live v) ∈ ns end.
  Lemma wp_deref ns q r v Q :
    nrefers ns r v →
    cells ns q -∗ (cells ns q -∗ Q v) -∗ wp (deref r) Q.
  Proof.
    iIntros (Hr) "Hns HQ". destruct r as [v'|l]; simpl in *.
    - subst v'. wstep. by iApply "HQ".
    - apply elem_of_list_split in Hr as (ns1&ns2&->).
      iDestruct (cells_focus with "Hns") as "(H1&Hl&H2)".
      iApply (wp_value_at with "Hl"). iIntros "Hl". iApply "HQ".
      iApply cells_focus. iFrame.
  Qed.
  Lemma wp_new_node ns q r v Q :
    nrefers ns r v →
    cells ns q -∗ (∀ l, cells ns q -∗ l ↦ Cell None (Live v) -∗ Q (Some l)) -∗
    wp (new_node r) Q.
  Proof.
    iIntros (Hr) "Hns HQ". unfold new_node. wstep.
    iApply (wp_deref with "Hns"); [done|]. iIntros "Hns". wsteps.
    iApply ("HQ" with "Hns [$]").
  Qed.
  Lemma nrefers_live this xs r v : refers xs r v → nrefers (hnodes this xs) r v.
  Proof.
    destruct r; simpl; [done|]. intros ?. apply elem_of_cons. right.
    by apply elem_of_live.
  Qed.

  (** Insert one freshly built node after a node of a segment. *)
  Lemma wp_new_insert ns1 l s ns2 q r v Q :
    nrefers (ns1 ++ (l,s) :: ns2) r v →
    cells (ns1 ++ (l,s) :: ns2) q -∗
    (∀ n, cells (ns1 ++ (l,s) :: (n, Live v) :: ns2) q -∗ Q (Some n)) -∗
    wp (bind (new_node r) (λ x, insert_after (Some l) x)) Q.
  Proof.
    iIntros (Hr) "Hns HQ". wstep. iApply (wp_new_node with "Hns"); [done|].
    iIntros (n) "Hns Hn". iDestruct (cells_focus with "Hns") as "(H1&Hl&H2)".
    iApply (wp_insert_after with "Hl Hn"). iIntros "Hl Hn". iApply "HQ".
    iApply cells_focus. simpl. iFrame.
  Qed.
End logic.
