(** lazy_queue, element copies that throw: the property lemmas, in the vocabulary of Triple.v,
    SlistSpec.v and ThrowLqModel.v only. *)
From Verif Require Import ThrowLqModel LazyProofs LazyRuns.
From iris.proofmode Require Import tactics.
(*@HEADER
From Verif Require Import LazySpec ThrowLqModel ThrowLqRuns.

Section lazy.
  Context {V : Type} `{Allocator (cell V)}.
@*)
(*@FOOTER
End lazy.
@*)

Section lazy.
  Context {V : Type} `{Allocator (cell V)}.
  Notation iProp := (bi_car (hpropI (cell V))).

  Definition lostP : iProp := (∃ l nx, l ↦ Cell nx Raw)%I.
  Lemma plain_lost : lostP ⊢ Sep.plain (lost_node (V:=V)).
  Proof.
    apply hentails_intro. intros σ. unfold lostP. intros (l&Hh)%hexist_unfold. apply hexist_unfold in Hh as (nx&Hh).
    apply hpto_unfold in Hh. apply plain_holds. by exists l, nx.
  Qed.
  Lemma wp_xget_node q ns nq r v ds Q :
    nrefers ns r v →
    cells ns nq -∗ pool q ds -∗
    (cells ns nq -∗ pool q (drop 1 ds) -∗ lostP -∗ Q None) -∗
    wp (xget_node (Some 0) q r) Q.
  Proof.
    iIntros (Hr) "Hns Hp HQ". unfold xget_node, pool. destruct ds as [|d ds].
    - iDestruct "Hp" as "[Hd _]". wstep. iApply (wp_get_next with "Hd"). iIntros "Hd". simpl.
      wstep. wstep. wstep. wstep. wstep. iRename select (l ↦ _)%I into "Hl".
      wstep. wstep. iApply (wp_deref with "Hns"); [done|]. iIntros "Hns". wstep.
      iApply ("HQ" with "Hns [Hd] [Hl]"); [by iFrame|]. iExists l, None. done.
    - iDestruct "Hp" as "(Hd&Hl&Hp)". wstep. iApply (wp_get_next with "Hd"). iIntros "Hd". simpl.
      wstep. iApply (wp_unlink_next with "Hd Hl"). iIntros "Hd Hl".
      wstep. wstep. wstep. iApply (wp_deref with "Hns"); [done|]. iIntros "Hns". wstep.
      iApply ("HQ" with "Hns [Hd Hp] [Hl]"); [by iFrame|]. by iExists d, _.
  Qed.
  Lemma get_node_same q r (h : gmap loc (cell V)) : xget_node None q r h = (let! n := get_node q r in ret (Some n)) h.
  Proof.
    unfold xget_node, get_node, bind. destruct (get_next _ h) as [[d h1]| |]; [|done|done].
    match goal with |- (match ?x with _ => _ end) = _ => destruct x as [[n h2]| |] end; [|done|done].
    destruct (addr n h2) as [[l h3]| |]; [|done|done].
    destruct (deref r h3) as [[v h4]| |]; [|done|done].
    destruct (load l h4) as [[c h5]| |]; [|done|done].
    destruct (val c); [done| |done]. destruct (modify l _ h5) as [[[] h6]| |]; done.
  Qed.
  Lemma get_node_more k q r (h : gmap loc (cell V)) : xget_node (Some (S k)) q r h = xget_node None q r h.
  Proof. done. Qed.

  (** the copy of a single-element insertion throws *)
  Lemma wp_threw q (xs : list (loc * V)) ds r v {B} (k : M (gmap loc (cell V)) (option ptr) → M (gmap loc (cell V)) (option B)) :
    refers xs r v →
    (∀ p Q, wp (p : M (gmap loc (cell V)) (option ptr)) (λ x, ⌜x = None⌝ ∧ Q) ⊢ wp (k p) (λ x, ⌜x = None⌝ ∧ Q)) →
    lqueueP q xs ds ⊢ wp (k (xget_node (Some 0) q r)) (λ x, ⌜x = None⌝ ∧ lqueueP q xs (drop 1 ds) ∗ lostP).
  Proof.
    iIntros (Hr Hk) "[%Ht [H Hp]]". iApply Hk.
    iApply (wp_xget_node with "H Hp"); [by apply nrefers_live|].
    iIntros "H Hp Hl". iSplit; [done|]. iFrame "Hl". iSplit; [done|]. iFrame.
  Qed.
  Lemma wp_ext {B} (m m' : M (gmap loc (cell V)) B) Q : (∀ h, m h = m' h) → wp m Q ⊢ wp m' Q.
  Proof. intros Hm. split=> σ Hw σf Hd. destruct (Hw σf Hd) as (a&σ'&He&?). exists a, σ'. by rewrite -Hm. Qed.
  Lemma wp_more_bind {B} k q r (f : option ptr → M (gmap loc (cell V)) B) Q :
    wp (let! n := get_node q r in f (Some n)) Q ⊢ wp (let! x := xget_node (Some (S k)) q r in f x) Q.
  Proof.
    apply wp_ext. intros h. unfold bind at 2. rewrite get_node_more get_node_same. unfold bind.
    destruct (get_node q r h) as [[x h1]| |]; done.
  Qed.
  Lemma wp_xlq_ins_n q ds ns1 l s ns2 nq n r v k :
    nrefers (ns1 ++ (l,s) :: ns2) r v → k < n →
    cells (ns1 ++ (l,s) :: ns2) nq ∗ pool q ds ⊢
    wp (xlq_ins_n (Some k) q (Some l) n r) (λ p, ⌜p = None⌝ ∧ ∃ ys,
      ⌜ys.*2 = replicate k v⌝ ∧ ⌜reused ys.*1 ds⌝ ∧
      (cells (ns1 ++ (l,s) :: live ys ++ ns2) nq ∗ pool q (drop (S k) ds)) ∗ lostP).
  Proof.
    revert ns1 l s ds k. induction n as [|n IH]; iIntros (ns1 l s ds k Hr Hk) "[Hns Hp]"; [lia|]; cbn [xlq_ins_n].
    destruct k as [|k].
    - wstep. iApply (wp_xget_node with "Hns Hp"); [done|]. iIntros "Hns Hp Hl". wstep. iSplit; [done|]. iExists [].
      iSplit; [done|]. iSplit; [iPureIntro; apply reused_nil|]. iFrame.
    - iApply wp_more_bind. cbn iota.
      iApply (wp_get_insert_k with "Hns Hp"); [done|]. iIntros (x Hd) "Hns Hp". cbn [fmap option_fmap option_map Nat.pred].
      iApply (wp_wand with "[Hns Hp]").
      { iApply (IH (ns1 ++ [(l,s)]) x (Live v) _ k).
        - apply (nrefers_insert (ns1 ++ [(l,s)]) [(x,Live v)]).
          by rewrite -app_assoc.
        - lia.
        - rewrite -app_assoc. iFrame. }
      iIntros (p) "[-> H]". iSplit; [done|]. iDestruct "H" as (ys Hys Hre) "[[H Hp] Hl]". iExists ((x,v)::ys).
      iSplit; [iPureIntro; simpl; by f_equal|].
      iSplit; [iPureIntro; by apply reused_cons|].
      rewrite -app_assoc drop_tail. iFrame.
  Qed.

  (*@ C93_partial push_back when the copy throws: the exception leaves the elements and the members of
     the queue as they were, but one node - the first spare one, if there was one - is lost.
     Missing: the node. *)
  Lemma lq_push_back_copy_throws q (xs : list (loc * V)) ds r v :
    refers xs r v →
    runs (is_lqueue q xs ds) (xlq_push_back (Some 0) q r)
      (λ x h, x = None ∧ both (is_lqueue q xs (drop 1 ds)) lost_node h).
  Proof.
    intros Hr. eapply (runs_from _ _ _ (lqueueP q xs ds)); [by rewrite lqueue_holds| |].
    - apply (wp_threw q xs ds r v (λ p, let! x := p in _)); [done|]. intros p Q. iIntros "H". wstep.
      iApply (wp_wand with "H"). iIntros (x) "[-> H]". wstep. by iSplit.
    - intros x. iIntros "[-> [H Hl]]". iSplit; [done|]. rewrite plain_both. iSplitL "H"; [by rewrite lqueue_holds|by iApply plain_lost].
  Qed.
  (*@ C93_partial push_front. *)
  Lemma lq_push_front_copy_throws q (xs : list (loc * V)) ds r v :
    refers xs r v →
    runs (is_lqueue q xs ds) (xlq_push_front (Some 0) q r)
      (λ x h, x = None ∧ both (is_lqueue q xs (drop 1 ds)) lost_node h).
  Proof.
    intros Hr. eapply (runs_from _ _ _ (lqueueP q xs ds)); [by rewrite lqueue_holds| |].
    - apply (wp_threw q xs ds r v (λ p, let! x := p in _)); [done|]. intros p Q. iIntros "H". wstep.
      iApply (wp_wand with "H"). iIntros (x) "[-> H]". wstep. by iSplit.
    - intros x. iIntros "[-> [H Hl]]". iSplit; [done|]. rewrite plain_both. iSplitL "H"; [by rewrite lqueue_holds|by iApply plain_lost].
  Qed.
  (*@ C93_partial insert_after(pos, x). *)
  Lemma lq_insert_after_copy_throws q (xs : list (loc * V)) ds pos r v :
    refers xs r v →
    runs (is_lqueue q xs ds) (xlq_insert_after (Some 0) q pos r)
      (λ x h, x = None ∧ both (is_lqueue q xs (drop 1 ds)) lost_node h).
  Proof.
    intros Hr. eapply (runs_from _ _ _ (lqueueP q xs ds)); [by rewrite lqueue_holds| |].
    - apply (wp_threw q xs ds r v (λ p, let! x := p in _)); [done|]. intros p Q. iIntros "H". wstep.
      iApply (wp_wand with "H"). iIntros (x) "[-> H]". wstep. by iSplit.
    - intros x. iIntros "[-> [H Hl]]". iSplit; [done|]. rewrite plain_both. iSplitL "H"; [by rewrite lqueue_holds|by iApply plain_lost].
  Qed.
  (*@ C93_partial insert_after(pos, n, value), when copy number k + 1 throws: the first k values are
     in the queue, one node is lost, and the queue is as usable as before if pos is not the last
     position. Missing: the node; pos the last position (tail_ is then stale, as in C85). *)
  Lemma lq_insert_n_copy_throws q (xs : list (loc * V)) ds i n r v k :
    i ≤ length xs → refers xs r v → k < n →
    runs (is_lqueue q xs ds) (xlq_insert_after_n (Some k) q (pos_at (lq_head q) xs i) n r)
      (λ x h, x = None ∧ ∃ ys, ys.*2 = replicate k v ∧ reused ys.*1 ds ∧
         let q' := if decide (i < length xs ∨ k = 0) then q
                   else lq_set_tail q (Some (last_loc (lq_head q) (xs ++ ys))) in
         both (is_lqueue q' (take i xs ++ ys ++ drop i xs) (drop (S k) ds)) lost_node h).
  Proof.
    intros Hi Hr Hk.
    assert (lqueueP q xs ds ⊢ wp (xlq_insert_after_n (Some k) q (pos_at (lq_head q) xs i) n r) (λ x,
       ⌜x = None⌝ ∧ ∃ ys, ⌜ys.*2 = replicate k v⌝ ∧ ⌜reused ys.*1 ds⌝ ∧
         lqueueP (if decide (i < length xs ∨ k = 0) then q
                   else lq_set_tail q (Some (last_loc (lq_head q) (xs ++ ys)))) (take i xs ++ ys ++ drop i xs) (drop (S k) ds) ∗ lostP)) as Hwp.
    { iIntros "[%Ht [H Hp]]". iDestruct (flist_nodup with "H") as %Hnd.
      destruct (flist_at (lq_head q) xs i Hi) as (ns1&l&s&Hp&Hys&Heq&Hr'&_).
      unfold xlq_insert_after_n. wstep. rewrite Heq Hp. iApply (wp_wand with "[H Hp]").
      { iApply (wp_xlq_ins_n q ds ns1 l s _ None n r v k with "[$H $Hp]"); [by apply Hr'|done]. }
      iIntros (p) "[-> H]". wstep. iSplit; [done|]. iDestruct "H" as (ys Hv Hre) "[[H Hp] Hl]". iExists ys. do 2 (iSplit; [done|]).
      iFrame "Hl". rewrite -live_app -Hys. unfold lqueueP. iSplit.
      - iPureIntro. assert (k = length ys) as Hkl.
        { rewrite -(fmap_length snd ys) Hv replicate_length. done. }
        destruct (decide _) as [[Hc|Hc]|Hc].
        + rewrite Ht last_loc_ins //.
        + rewrite Hc in Hkl. symmetry in Hkl. apply nil_length_inv in Hkl as ->. by rewrite /= take_drop.
        + assert (i = length xs) as -> by lia. rewrite take_ge // drop_ge // app_nil_r. done.
      - destruct (decide _); iFrame. }
    eapply (runs_from _ _ _ (lqueueP q xs ds)); [by rewrite lqueue_holds|exact Hwp|].
    intros x. iIntros "[-> H]". iSplit; [done|]. iDestruct "H" as (ys Hv Hre) "[H Hl]". iExists ys. do 2 (iSplit; [done|]).
    rewrite plain_both. iSplitL "H"; [by rewrite lqueue_holds|by iApply plain_lost].
  Qed.
  (*@ C93_refuted so after the destructor of the queue a node is left in memory. (A destructor that
     still has spare nodes has undefined behaviour for other T, see C27.) *)
  Lemma lq_push_back_copy_leaks triv fuel q (xs : list (loc * V)) ds r v :
    refers xs r v → triv = true ∨ length ds ≤ 1 → length xs < fuel → length ds < fuel →
    runs (is_lqueue q xs ds) (let! q' := caught_lq q (xlq_push_back (Some 0) q r) in lq_destroy triv fuel q')
      (λ _ h, lost_node h).
  Proof.
    intros Hr Hok Hf1 Hf2. eapply (runs_from _ _ _ (lqueueP q xs ds) (λ _, lostP)); [by rewrite lqueue_holds| |].
    - iIntros "H". unfold caught_lq. wstep. wstep. iApply (wp_wand with "[H]").
      { iApply (wp_threw q xs ds r v (λ p, let! x := p in match x with None => ret None | Some x =>
          let! n := insert_after (lq_tail q) x in ret (Some (lq_set_tail q n)) end) with "H"); [done|]. intros p Q. iIntros "H". wstep.
        iApply (wp_wand with "H"). iIntros (x) "[-> H]". wstep. by iSplit. }
      iIntros (x) "[-> [[_ H] Hl]]". wstep. iApply (wp_wand with "[H]").
      { iApply (wp_lq_destroy with "H"); [|done|rewrite drop_length; lia].
        destruct Hok; [by left|right]. apply drop_ge. lia. }
      iIntros (_) "_". done.
    - intros u. apply plain_lost.
  Qed.
  (*@ C93_partial When no copy throws these are the functions of the other claims. *)
  Lemma lq_no_throw q (h : gmap loc (cell V)) :
    (∀ r, xlq_push_back None q r h = (let! q' := lq_push_back q r in ret (Some q')) h) ∧
    (∀ r, xlq_push_front None q r h = (let! q' := lq_push_front q r in ret (Some q')) h) ∧
    (∀ pos r, xlq_insert_after None q pos r h = (let! q' := lq_insert_after q pos r in ret (Some q')) h) ∧
    (∀ pos n r, xlq_insert_after_n None q pos n r h = (let! q' := lq_insert_after_n q pos n r in ret (Some q')) h).
  Proof.
    assert (∀ n p r (h : gmap loc (cell V)), xlq_ins_n None q p n r h = (let! p := lq_ins_n q p n r in ret (Some p)) h) as Hn.
    { induction n as [|n IH]; intros p r h'; [done|]. cbn [xlq_ins_n lq_ins_n]. unfold bind at 1. rewrite get_node_same. unfold bind.
      destruct (get_node q r h') as [[x h1]| |]; [|done|done]. cbn. destruct (insert_after p x h1) as [[p' h2]| |]; [|done|done].
      rewrite IH. done. }
    split_and!; intros.
    - unfold xlq_push_back, lq_push_back. unfold bind at 1. rewrite get_node_same. unfold bind.
      destruct (get_node q r h) as [[x h1]| |]; [|done|done]. cbn. by destruct (insert_after (lq_tail q) x h1) as [[p' h2]| |].
    - unfold xlq_push_front, lq_push_front. unfold bind at 1. rewrite get_node_same. unfold bind.
      destruct (get_node q r h) as [[x h1]| |]; [|done|done]. cbn.
      destruct (insert_after (Some (lq_head q)) x h1) as [[p' h2]| |]; [|done|done]. by destruct (decide _).
    - unfold xlq_insert_after, lq_insert_after. unfold bind at 1. rewrite get_node_same. unfold bind.
      destruct (get_node q r h) as [[x h1]| |]; [|done|done]. cbn.
      destruct (insert_after pos x h1) as [[p' h2]| |]; [|done|done]. by destruct (decide _).
    - unfold xlq_insert_after_n, lq_insert_after_n. unfold bind at 1. rewrite Hn. unfold bind.
      destruct (lq_ins_n q pos n r h) as [[x h1]| |]; [|done|done]. cbn. by destruct (decide _).
  Qed.
End lazy.
