(** list.hpp: specifications of the member functions in the separation logic.
    Proof file. *)
From Verif Require Export DlistLogic.
From iris.proofmode Require Import tactics.

Section proofs.
  Context {V : Type} `{Allocator (dcell V)}.
  Notation C := (dcell V).
  Notation iProp := (bi_car (hpropI C)).
  Notation elems := (list (loc * V)).
  Implicit Types (xs ys zs ks rs : elems) (this other l : loc) (v : V) (r : dref V) (p q : ptr) (i j n : nat).

  (** *** The forward view: all that an iteration needs; the header's prev is arbitrary. *)
  Definition flst this pv xs : iProp :=
    this ↦ DCell pv (dfirst xs (Some this)) DHdr ∗ seg (Some this) (dlive xs) (Some this).
  Lemma dlist_flst this xs : dlist this xs ⊣⊢ flst this (dlast xs (Some this)) xs.
  Proof. unfold dlist, hd, flst. by rewrite ring_cons dlast_live dfirst_live. Qed.
  Lemma flst_next this pv xs Q :
    flst this pv xs -∗ (flst this pv xs -∗ Q (dfirst xs (Some this))) -∗ wp (get_next (Some this)) Q.
  Proof.
    iIntros "[Hh H] HQ". iApply (wp_get_next with "Hh"). iIntros "Hh". iApply "HQ". iFrame.
  Qed.
  Lemma flst_focus this pv ks l v rs :
    flst this pv (ks ++ (l,v) :: rs) ⊣⊢
      l ↦ DCell (dlast ks (Some this)) (dfirst rs (Some this)) (DLive v) ∗
      (this ↦ DCell pv (dfirst (ks ++ (l,v) :: rs) (Some this)) DHdr ∗
       seg (Some this) (dlive ks) (Some l) ∗ seg (Some l) (dlive rs) (Some this)).
  Proof.
    unfold flst. rewrite dlive_app seg_app dlive_cons. cbn [seg dfirst].
    rewrite dlast_live dfirst_live. iSplit.
    - iIntros "($&$&$&$)".
    - iIntros "($&$&$&$)".
  Qed.
  Lemma flst_mid_next this pv ks l v rs Q :
    flst this pv (ks ++ (l,v) :: rs) -∗
    (flst this pv (ks ++ (l,v) :: rs) -∗ Q (dfirst rs (Some this))) -∗ wp (get_next (Some l)) Q.
  Proof.
    iIntros "H HQ". iDestruct (flst_focus with "H") as "[Hl H]".
    iApply (wp_get_next with "Hl"). iIntros "Hl". iApply "HQ". iApply flst_focus. iFrame "Hl H".
  Qed.
  Lemma flst_mid_value this pv ks l v rs Q :
    flst this pv (ks ++ (l,v) :: rs) -∗
    (flst this pv (ks ++ (l,v) :: rs) -∗ Q v) -∗ wp (d_value (Some l)) Q.
  Proof.
    iIntros "H HQ". iDestruct (flst_focus with "H") as "[Hl H]".
    iApply (wp_d_value with "Hl"). iIntros "Hl". iApply "HQ". iApply flst_focus. iFrame "Hl H".
  Qed.
  Lemma flst_mid_ne this pv ks l v rs : flst this pv (ks ++ (l,v) :: rs) ⊢ ⌜l ≠ this⌝.
  Proof.
    rewrite flst_focus. iIntros "(Hl&Hh&_)". iDestruct (pto_ne with "[$Hl $Hh]") as %?. done.
  Qed.
  Lemma flst_nodup this pv xs : flst this pv xs ⊢ ⌜NoDup (this :: xs.*1)⌝.
  Proof.
    apply hentails_intro. intros σ (σ1&σ2&->&Hd&Hl&Hs)%hsep_unfold.
    apply hpto_unfold in Hl as ->. apply seg_holds in Hs as [Hnd ->]. apply hpure_unfold.
    rewrite dlive_locs in Hnd. constructor; [|done]. intros Hin.
    rewrite -(dlive_locs xs) in Hin. apply (seg_heap_dom_Some (Some this) _ (Some this)) in Hin as [c Hc].
    apply map_disjoint_singleton_l in Hd. congruence.
  Qed.
  Lemma flst_deref this pv xs r v Q : drefers xs r v →
    flst this pv xs -∗ (flst this pv xs -∗ Q v) -∗ wp (d_deref r) Q.
  Proof.
    iIntros (Hr) "H HQ". destruct r as [v'|l]; simpl in *.
    - subst. wstep. by iApply "HQ".
    - apply elem_of_list_split in Hr as (ks&rs&->). by iApply (flst_mid_value with "H").
  Qed.

  (** *** Positions *)
  Lemma dpos_split this xs i : i ≤ length xs → dpos this xs i = dfirst (drop i xs) (Some this).
  Proof. apply dpos_drop. Qed.
  Lemma wp_it_go this pv ks rs n Q :
    n ≤ length rs →
    flst this pv (ks ++ rs) -∗ (flst this pv (ks ++ rs) -∗ Q (dfirst (drop n rs) (Some this))) -∗
    wp (it_go n (dfirst rs (Some this))) Q.
  Proof.
    revert ks rs. induction n as [|n IH]; intros ks rs Hn; simpl.
    - iIntros "H HQ". wstep. rewrite drop_0. by iApply "HQ".
    - destruct rs as [|[l v] rs]; simpl in Hn; [lia|]. iIntros "H HQ". simpl. wstep.
      unfold it_next. iApply (flst_mid_next with "H"). iIntros "H".
      rewrite (cons_middle _ ks) app_assoc. iApply (IH with "H"); [lia|]. iIntros "H". by iApply "HQ".
  Qed.
  Lemma wp_f_at this pv xs i Q : i ≤ length xs →
    flst this pv xs -∗ (flst this pv xs -∗ Q (dpos this xs i)) -∗ wp (dl_at this i) Q.
  Proof.
    iIntros (Hi) "H HQ". unfold dl_at, dl_begin. wstep. iApply (flst_next with "H"). iIntros "H".
    iApply (wp_it_go this pv [] xs with "H"); [done|]. iIntros "H". rewrite dpos_split //. by iApply "HQ".
  Qed.
  Lemma wp_f_own this pv xs i l v Q : xs !! i = Some (l, v) →
    flst this pv xs -∗ (flst this pv xs -∗ Q (DNode l)) -∗ wp (dl_own this i) Q.
  Proof.
    iIntros (Hl) "H HQ". unfold dl_own. wstep.
    iApply (wp_f_at with "H"); [by apply lookup_lt_Some in Hl; lia|]. iIntros "H".
    rewrite (dpos_elem _ _ _ _ _ Hl). wstep. wstep. wstep. by iApply "HQ".
  Qed.
  Lemma wp_f_show this pv xs i Q : i ≤ length xs →
    flst this pv xs -∗ (flst this pv xs -∗ Q (dshow_nth xs.*2 i)) -∗ wp (dshow this (dpos this xs i)) Q.
  Proof.
    iIntros (Hi) "H HQ". unfold dshow, dl_end, dshow_nth. rewrite list_lookup_fmap.
    destruct (xs !! i) as [[l v]|] eqn:E.
    - rewrite (dpos_elem _ _ _ _ _ E). apply elem_of_list_split_length in E as (ks&rs&->&_).
      iDestruct (flst_mid_ne with "H") as %?. destruct (decide _) as [|_]; [congruence|]. wstep.
      iApply (flst_mid_value with "H"). iIntros "H". wstep. by iApply "HQ".
    - assert (i = length xs) as -> by (apply lookup_ge_None in E; lia).
      rewrite dpos_end. destruct (decide _); [|done]. wstep. by iApply "HQ".
  Qed.

  Lemma sublist_NoDup {A} (l1 l2 : list A) : l1 `sublist_of` l2 → NoDup l2 → NoDup l1.
  Proof.
    induction 1 as [|x l1 l2 Hs IH|x l1 l2 Hs IH]; [done| |]; intros [Hn Hnd]%NoDup_cons; [|auto].
    constructor; [|auto]. intros Hin. apply Hn. clear -Hs Hin. revert x Hin.
    induction Hs; intros y Hin; [done| |]; [|right; auto].
    apply elem_of_cons in Hin as [->|?]; [left|right; auto].
  Qed.

  (** *** Observers *)
  Lemma wp_dl_empty this pv xs Q :
    flst this pv xs -∗ (flst this pv xs -∗ Q (bool_decide (xs = []))) -∗ wp (dl_empty this) Q.
  Proof.
    iIntros "H HQ". unfold dl_empty. wstep. iDestruct (flst_nodup with "H") as %Hnd.
    iApply (flst_next with "H"). iIntros "H". wstep.
    rewrite (bool_decide_ext (dfirst xs (Some this) = Some this) (xs = [])); [by iApply "HQ"|].
    destruct xs as [|[l v] xs]; simpl; [done|]. split; [|done]. intros [= ->].
    simpl in Hnd. apply NoDup_cons in Hnd as [Hn _]. exfalso. apply Hn. left.
  Qed.
  Lemma wp_dl_size fuel this pv xs Q : length xs < fuel →
    flst this pv xs -∗ (flst this pv xs -∗ Q (length xs)) -∗ wp (dl_size fuel this) Q.
  Proof.
    iIntros (Hf) "H HQ". unfold dl_size. wstep. iApply (flst_next with "H"). iIntros "H".
    match goal with |- context [loop fuel ?body _] => set (bd := body) end.
    assert (∀ rs ks fuel k, length rs < fuel →
      flst this pv (ks ++ rs) -∗ (flst this pv (ks ++ rs) -∗ Q (k + length rs)) -∗
      wp (loop fuel bd (dfirst rs (Some this), k)) Q) as Hg.
    { clear fuel Hf. intros rs. induction rs as [|[l v] rs IH]; intros ks fuel k Hf;
        (destruct fuel as [|fuel]; [simpl in Hf; lia|]); iIntros "H HQ"; cbn [loop dfirst]; unfold bd at 1.
      - wstep. destruct (decide _); [done|]. wstep. wstep. rewrite Nat.add_0_r. by iApply "HQ".
      - iDestruct (flst_mid_ne with "H") as %?. wstep. destruct (decide _) as [_|Hn]; [|destruct Hn; congruence].
        wstep. iApply (flst_mid_next with "H"). iIntros "H". wstep.
        rewrite (cons_middle _ ks) app_assoc. iApply (IH with "H"); [simpl in Hf; lia|].
        simpl. rewrite Nat.add_succ_r. done. }
    iApply (Hg xs [] with "H"); [done|]. done.
  Qed.
  Lemma wp_dl_contents fuel this pv xs Q : length xs < fuel →
    flst this pv xs -∗ (flst this pv xs -∗ Q xs.*2) -∗ wp (dl_contents fuel this) Q.
  Proof.
    iIntros (Hf) "H HQ". unfold dl_contents, dl_begin, dl_end, it_next. wstep. iApply (flst_next with "H"). iIntros "H".
    match goal with |- context [loop fuel ?body _] => set (bd := body) end.
    assert (∀ rs ks fuel acc, length rs < fuel →
      flst this pv (ks ++ rs) -∗ (flst this pv (ks ++ rs) -∗ Q (acc ++ rs.*2)) -∗
      wp (loop fuel bd (dfirst rs (Some this), acc)) Q) as Hg.
    { clear fuel Hf. intros rs. induction rs as [|[l v] rs IH]; intros ks fuel acc Hf;
        (destruct fuel as [|fuel]; [simpl in Hf; lia|]); iIntros "H HQ"; cbn [loop dfirst]; unfold bd at 1.
      - wstep. destruct (decide _); [done|]. wstep. wstep. rewrite !app_nil_r. by iApply "HQ".
      - iDestruct (flst_mid_ne with "H") as %?. wstep. destruct (decide _) as [_|Hn]; [|destruct Hn; congruence].
        wstep. iApply (flst_mid_value with "H"). iIntros "H". wstep.
        iApply (flst_mid_next with "H"). iIntros "H". wstep.
        rewrite (cons_middle _ ks) app_assoc. iApply (IH with "H"); [simpl in Hf; lia|].
        rewrite -(app_assoc acc). done. }
    iApply (Hg xs [] with "H"); [done|]. done.
  Qed.
  Lemma wp_dl_front this pv l v xs Q :
    flst this pv ((l,v) :: xs) -∗ (flst this pv ((l,v) :: xs) -∗ Q v) -∗ wp (dl_front this) Q.
  Proof.
    iIntros "H HQ". unfold dl_front. wstep. iApply (flst_next with "H"). iIntros "H".
    by iApply (flst_mid_value this pv [] with "H").
  Qed.
  Lemma wp_dl_back this l v xs Q :
    dlist this (xs ++ [(l,v)]) -∗ (dlist this (xs ++ [(l,v)]) -∗ Q v) -∗ wp (dl_back this) Q.
  Proof.
    iIntros "H HQ". unfold dl_back. wstep. iApply (wp_hd_prev with "H"). iIntros "H".
    rewrite dlast_snoc dlist_flst. by iApply (flst_mid_value with "H").
  Qed.
  Lemma wp_dl_eq eqb fuel this pv xs other po ys Q : length xs + length ys < fuel →
    flst this pv xs -∗ flst other po ys -∗
    (flst this pv xs -∗ flst other po ys -∗
       Q (bool_decide (Forall2 (λ x y, eqb x y = true) xs.*2 ys.*2))) -∗
    wp (dl_eq eqb fuel this other) Q.
  Proof.
    iIntros (Hf) "H Ho HQ". unfold dl_eq, dl_begin, it_next. wstep.
    iApply (flst_next with "H"). iIntros "H". wstep.
    iApply (flst_next with "Ho"). iIntros "Ho".
    match goal with |- context [loop fuel ?body _] => set (bd := body) end.
    assert (∀ rs ks ts js fuel, length rs + length ts < fuel →
      flst this pv (ks ++ rs) -∗ flst other po (js ++ ts) -∗
      (flst this pv (ks ++ rs) -∗ flst other po (js ++ ts) -∗
       Q (bool_decide (Forall2 (λ x y, eqb x y = true) rs.*2 ts.*2))) -∗
      wp (loop fuel bd (dfirst rs (Some this), dfirst ts (Some other))) Q) as Hg.
    { clear fuel Hf. intros rs. induction rs as [|[l v] rs IH]; intros ks ts js fuel Hf;
        (destruct fuel as [|fuel]; [simpl in Hf; lia|]); iIntros "H Ho HQ"; cbn [loop dfirst];
        unfold bd at 1; wstep.
      - destruct (decide _) as [[? _]|_]; [done|]. wstep. wstep.
        destruct ts as [|[k w] ts]; simpl.
        + rewrite bool_decide_true //. iApply ("HQ" with "H Ho").
        + iDestruct (flst_mid_ne with "Ho") as %?.
          rewrite (bool_decide_false (_ ∧ _)); [|intros [_ ?]; congruence]. iApply ("HQ" with "H Ho").
      - iDestruct (flst_mid_ne with "H") as %?. destruct ts as [|[k w] ts]; simpl.
        + destruct (decide _) as [[_ ?]|_]; [done|]. wstep. wstep.
          rewrite (bool_decide_false (_ ∧ _)); [|intros [? _]; congruence]. iApply ("HQ" with "H Ho").
        + iDestruct (flst_mid_ne with "Ho") as %?.
          destruct (decide _) as [_|Hn]; [|destruct Hn; split; congruence]. wstep.
          iApply (flst_mid_value with "H"). iIntros "H". wstep.
          iApply (flst_mid_value with "Ho"). iIntros "Ho".
          destruct (eqb v w) eqn:E.
          * wstep. iApply (flst_mid_next with "H"). iIntros "H". wstep.
            iApply (flst_mid_next with "Ho"). iIntros "Ho". wstep.
            rewrite (cons_middle _ ks) (cons_middle _ js) (app_assoc ks) (app_assoc js).
            iApply (IH with "H Ho"); [simpl in Hf; lia|].
            rewrite (bool_decide_ext (Forall2 _ (v :: _) (w :: _)) (Forall2 (λ x y, eqb x y = true) rs.*2 ts.*2)); [done|].
            split; [by inversion 1|]. by constructor.
          * wstep. wstep. rewrite (bool_decide_false (Forall2 _ _ _)); [|inversion 1; congruence]. iApply ("HQ" with "H Ho"). }
    iApply (Hg xs [] ys [] with "H Ho"); [done|]. done.
  Qed.
  Lemma wp_dl_backwards fuel this xs Q : length xs < fuel →
    dlist this xs -∗ (dlist this xs -∗ Q (reverse xs.*2)) -∗ wp (dl_backwards fuel this) Q.
  Proof.
    iIntros (Hf) "H HQ". unfold dl_backwards, dl_begin, dl_end, it_prev.
    match goal with |- context [loop fuel ?body _] => set (bd := body) end.
    assert (∀ i fuel acc, i < fuel → i ≤ length xs →
      dlist this xs -∗ (dlist this xs -∗ Q (acc ++ reverse (take i xs.*2))) -∗
      wp (loop fuel bd (dpos this xs i, acc)) Q) as Hg.
    { clear fuel Hf. intros i. induction i as [|i IH]; intros fuel acc Hf Hi;
        (destruct fuel as [|fuel]; [lia|]); iIntros "H HQ"; cbn [loop]; unfold bd at 1; wstep; wstep.
      - iApply (wp_hd_next with "H"). iIntros "H". destruct (decide _); [done|]. wstep. wstep.
        rewrite app_nil_r. by iApply "HQ".
      - iApply (wp_hd_next with "H"). iIntros "H".
        iDestruct (dlist_pos_inj this xs (S i) 0 with "H") as %Hinj; [lia..|].
        destruct (decide _) as [_|Hn]; [|destruct Hn; intros He; by specialize (Hinj He)]. wstep.
        iApply (wp_pos_prev with "H"); [lia|]. iIntros "H". rewrite Nat.sub_1_r /=.
        destruct (lookup_lt_is_Some_2 xs i) as [[l v] Hl]; [lia|]. wstep.
        iApply (wp_pos_value with "H"); [done|]. iIntros "H". wstep.
        iApply (IH with "H"); [lia..|]. iIntros "H".
        rewrite (take_S_r _ i v); [|by rewrite list_lookup_fmap Hl].
        rewrite reverse_snoc -app_assoc. by iApply "HQ". }
    rewrite -(dpos_end this xs). iApply (Hg with "H"); [done..|].
    rewrite -(fmap_length snd) firstn_all. done.
  Qed.

  (** *** Construction and insertion *)
  Lemma wp_dl_new Q : (∀ l, dlist l [] -∗ Q l) -∗ wp dl_new Q.
  Proof.
    iIntros "HQ". unfold dl_new. wstep. iApply wp_allocate. iIntros (l) "Hl". wstep.
    iApply (wp_set_prev with "Hl"). iIntros "Hl". wstep.
    iApply (wp_set_next with "Hl"). iIntros "Hl". wstep. iApply "HQ". unfold dlist, hd.
    rewrite dlive_nil ring_one. done.
  Qed.
  Lemma wp_new_node this pv xs r v Q : drefers xs r v →
    flst this pv xs -∗ (∀ l, flst this pv xs -∗ l ↦ DCell None None (DLive v) -∗ Q (Some l)) -∗
    wp (new_node r) Q.
  Proof.
    iIntros (Hr) "H HQ". unfold new_node. wstep. iApply (flst_deref with "H"); [done|]. iIntros "H".
    wstep. iApply wp_allocate. iIntros (l) "Hl". wstep. iApply ("HQ" with "H Hl").
  Qed.
  Lemma wp_link this xs i (n : loc) c v Q : i ≤ length xs → d_val c = DLive v →
    dlist this xs -∗ n ↦ c -∗ (dlist this (dins i [(n,v)] xs) -∗ Q (Some n)) -∗
    wp (insert_before (dpos this xs i) (Some n)) Q.
  Proof.
    iIntros (Hi Hc) "H Hn HQ". iDestruct (dlist_rot _ _ i with "H") as "H". rewrite -rot_first //.
    iApply (wp_insert_before with "H Hn"); [apply rot_ne|]. rewrite Hc. iIntros "H". iApply "HQ".
    iApply rot_ins. done.
  Qed.
  Lemma wp_dl_insert this xs i r v Q : i ≤ length xs → drefers xs r v →
    dlist this xs -∗ (∀ l, dlist this (dins i [(l,v)] xs) -∗ Q (Some l)) -∗
    wp (dl_insert (dpos this xs i) r) Q.
  Proof.
    iIntros (Hi Hr) "H HQ". unfold dl_insert. wstep. rewrite dlist_flst.
    iApply (wp_new_node with "H"); [done|]. iIntros (l) "H Hl". rewrite -dlist_flst.
    iApply (wp_link with "H Hl"); [done|done|]. iIntros "H". by iApply "HQ".
  Qed.
  Lemma dpos_dins this xs i z : i ≤ length xs → dpos this (dins i [z] xs) (S i) = dpos this xs i.
  Proof.
    intros Hi. rewrite !dpos_drop //; [|unfold dins; rewrite !app_length take_length drop_length /=; lia].
    unfold dins. f_equal. rewrite app_assoc drop_app_alt //.
    rewrite app_length take_length /=. lia.
  Qed.
  Lemma dins_length {A} i (vs ws : list A) : length (dins i vs ws) = length vs + length ws.
  Proof. unfold dins. rewrite !app_length take_length drop_length. lia. Qed.
  Lemma dins_S {A} i (z : A) (zs ws : list A) : i ≤ length ws → dins (S i) zs (dins i [z] ws) = dins i (z :: zs) ws.
  Proof.
    intros Hi. unfold dins. rewrite (app_assoc (take i ws) [z]) take_app_alt; [|rewrite app_length take_length /=; lia].
    rewrite drop_app_alt; [|rewrite app_length take_length /=; lia]. by rewrite -app_assoc.
  Qed.
  Lemma drefers_dins xs i z r v : drefers xs r v → drefers (dins i [z] xs) r v.
  Proof.
    destruct r as [|l]; [done|]. simpl. unfold dins. rewrite -{1}(take_drop i xs).
    rewrite !elem_of_app. tauto.
  Qed.
  Lemma dins_nil {A} i (ws : list A) : dins i [] ws = ws.
  Proof. unfold dins. simpl. apply take_drop. Qed.
  Lemma wp_dl_insert_n this xs i n r v Q : i ≤ length xs → drefers xs r v →
    dlist this xs -∗ (∀ zs, ⌜zs.*2 = replicate n v⌝ → dlist this (dins i zs xs) -∗ Q tt) -∗
    wp (dl_insert_n (dpos this xs i) n r) Q.
  Proof.
    revert xs i. induction n as [|n IH]; intros xs i Hi Hr; simpl; iIntros "H HQ".
    - wstep. iApply ("HQ" $! []); [done|]. by rewrite dins_nil.
    - wstep. rewrite dlist_flst. iApply (wp_new_node with "H"); [done|]. iIntros (l) "H Hl".
      rewrite -dlist_flst. wstep. iApply (wp_link with "H Hl"); [done|done|]. iIntros "H".
      rewrite -(dpos_dins this xs i (l,v)) //.
      iApply (IH with "H"); [rewrite dins_length /=; lia|by apply drefers_dins|].
      iIntros (zs Hzs) "H". rewrite dins_S //. iApply ("HQ" $! ((l,v) :: zs)); [|done].
      iPureIntro. by rewrite fmap_cons Hzs.
  Qed.
  Lemma wp_dl_insert_ext this xs i vs Q : i ≤ length xs →
    dlist this xs -∗ (∀ zs, ⌜zs.*2 = vs⌝ → dlist this (dins i zs xs) -∗ Q tt) -∗
    wp (dl_insert_ext (dpos this xs i) vs) Q.
  Proof.
    revert xs i. induction vs as [|v vs IH]; intros xs i Hi; simpl; iIntros "H HQ".
    - wstep. iApply ("HQ" $! []); [done|]. by rewrite dins_nil.
    - wstep. rewrite dlist_flst. iApply (wp_new_node _ _ _ (DExt v) v with "H"); [done|]. iIntros (l) "H Hl".
      rewrite -dlist_flst. wstep. iApply (wp_link with "H Hl"); [done|done|]. iIntros "H".
      rewrite -(dpos_dins this xs i (l,v)) //.
      iApply (IH with "H"); [rewrite dins_length /=; lia|].
      iIntros (zs Hzs) "H". rewrite dins_S //. iApply ("HQ" $! ((l,v) :: zs)); [|done].
      iPureIntro. by rewrite fmap_cons Hzs.
  Qed.
  (** from a range of another list *)
  Lemma wp_dl_insert_its fuel this xs i other po ks ms rs Q : i ≤ length xs → length ms < fuel →
    dlist this xs -∗ flst other po (ks ++ ms ++ rs) -∗
    (∀ zs, ⌜zs.*2 = ms.*2⌝ → dlist this (dins i zs xs) -∗ flst other po (ks ++ ms ++ rs) -∗ Q tt) -∗
    wp (dl_insert_its fuel (dpos this xs i) (dfirst (ms ++ rs) (Some other)) (dfirst rs (Some other))) Q.
  Proof.
    unfold dl_insert_its, it_next.
    revert xs i ks fuel. induction ms as [|[k w] ms IH]; intros xs i ks fuel Hi Hf; simpl;
      (destruct fuel as [|fuel]; [simpl in Hf; lia|]); iIntros "H Ho HQ"; cbn [loop].
    - wstep. destruct (decide _); [done|]. wstep. wstep. iApply ("HQ" $! [] with "[] [H] Ho"); [done|].
      by rewrite dins_nil.
    - iAssert ⌜Some k ≠ dfirst rs (Some other)⌝%I as %Hk.
      { iDestruct (flst_nodup with "Ho") as %Hnd. iPureIntro. intros He. destruct rs as [|[k' w'] rs]; simpl in He.
        - simplify_eq. apply NoDup_cons in Hnd as [Hn _]. apply Hn. rewrite fmap_app /=.
          apply elem_of_app. right. left.
        - simplify_eq. apply NoDup_cons in Hnd as [_ Hnd]. rewrite fmap_app /= in Hnd.
          apply NoDup_app in Hnd as (_&_&Hnd). apply NoDup_cons in Hnd as [Hn _]. apply Hn.
          change (k' ∈ (ms ++ (k', w') :: rs).*1). rewrite fmap_app /=. apply elem_of_app. right. left. }
      wstep. destruct (decide _) as [_|Hn]; [|destruct Hn; congruence]. wstep. wstep. wstep.
      iApply (wp_new_node _ _ _ (DNode k) w with "Ho"); [simpl; apply elem_of_app; right; left|].
      iIntros (l) "Ho Hl". wstep. iApply (wp_link with "H Hl"); [done|done|]. iIntros "H". wstep.
      iApply (flst_mid_next with "Ho"). iIntros "Ho". wstep.
      rewrite -(dpos_dins this xs i (l,w)) //.
      rewrite (cons_middle _ ks) (app_assoc ks).
      iApply (IH with "H Ho"); [rewrite dins_length /=; lia|simpl in Hf; lia|].
      iIntros (zs Hzs) "H Ho". rewrite dins_S // -app_assoc /=.
      iApply ("HQ" $! ((l,w) :: zs) with "[] H Ho").
      iPureIntro. by rewrite fmap_cons Hzs.
  Qed.

  (** *** Removal *)
  Lemma wp_mid_unlink this ks l v rs Q :
    dlist this (ks ++ (l,v) :: rs) -∗
    (dlist this (ks ++ rs) -∗ l ↦ DCell (dlast ks (Some this)) (dfirst rs (Some this)) (DLive v) -∗ Q tt) -∗
    wp (unlink (Some l)) Q.
  Proof.
    iIntros "H HQ". iDestruct (dlist_rot _ _ (length ks) with "H") as "H".
    rewrite (rot_elem _ _ _ l v); [|by rewrite lookup_app_r // Nat.sub_diag].
    iApply (wp_unlink with "H"); [by destruct (dlive _)|]. iIntros "H Hl".
    iApply ("HQ" with "[H]").
    - rewrite rot_cut. unfold dcut. rewrite take_app (cons_middle _ ks) app_assoc drop_app_alt //.
      rewrite app_length /=. lia.
    - rewrite (cons_middle _ ks) app_assoc drop_app_alt; [|rewrite app_length /=; lia].
      rewrite -app_assoc take_app dlast_app dlast_cons dfirst_app dlast_live dfirst_live. done.
  Qed.
  Lemma wp_dl_erase this ks l v rs Q :
    dlist this (ks ++ (l,v) :: rs) -∗ (dlist this (ks ++ rs) -∗ Q (dfirst rs (Some this))) -∗
    wp (dl_erase (Some l)) Q.
  Proof.
    iIntros "H HQ". unfold dl_erase. wstep. rewrite dlist_flst.
    iApply (flst_mid_next with "H"). iIntros "H". rewrite -dlist_flst. wstep.
    iApply (wp_mid_unlink with "H"). iIntros "H Hl". wstep.
    iApply (wp_delete_node with "Hl"). wstep. by iApply "HQ".
  Qed.
  Lemma wp_dl_pop_front this l v xs Q :
    dlist this ((l,v) :: xs) -∗ (dlist this xs -∗ Q tt) -∗ wp (dl_pop_front this) Q.
  Proof.
    iIntros "H HQ". unfold dl_pop_front. wstep. rewrite dlist_flst. iApply (flst_next with "H").
    iIntros "H". rewrite -dlist_flst. wstep. cbn [dfirst].
    iApply (wp_mid_unlink this [] with "H"). iIntros "H Hl".
    iApply (wp_delete_node with "Hl"). by iApply "HQ".
  Qed.
  Lemma wp_dl_pop_back this l v xs Q :
    dlist this (xs ++ [(l,v)]) -∗ (dlist this xs -∗ Q tt) -∗ wp (dl_pop_back this) Q.
  Proof.
    iIntros "H HQ". unfold dl_pop_back. wstep. iApply (wp_hd_prev with "H").
    iIntros "H". rewrite dlast_snoc. wstep.
    iApply (wp_mid_unlink this xs l v [] with "H"). iIntros "H Hl". rewrite app_nil_r.
    iApply (wp_delete_node with "Hl"). by iApply "HQ".
  Qed.
  (** erase(first, last) of a non-empty range keeps the last element of the range *)
  Lemma wp_dl_erase_range fuel this ks ms k w rs Q : length ms < fuel →
    dlist this (ks ++ ms ++ (k,w) :: rs) -∗
    (dlist this (ks ++ (k,w) :: rs) -∗ Q (dfirst rs (Some this))) -∗
    wp (dl_erase_range fuel (dfirst (ms ++ (k,w) :: rs) (Some this)) (dfirst rs (Some this))) Q.
  Proof.
    unfold dl_erase_range.
    revert fuel. induction ms as [|[l v] ms IH]; intros fuel Hf; simpl;
      (destruct fuel as [|fuel]; [simpl in Hf; lia|]); iIntros "H HQ"; cbn [loop].
    - wstep. wstep. rewrite dlist_flst. iApply (flst_mid_next with "H"). iIntros "H". rewrite -dlist_flst.
      destruct (decide _); [done|]. wstep. wstep. by iApply "HQ".
    - wstep. wstep. rewrite dlist_flst. iApply (flst_mid_next with "H"). iIntros "H".
      iAssert ⌜dfirst (ms ++ (k,w) :: rs) (Some this) ≠ dfirst rs (Some this)⌝%I as %Hne.
      { iDestruct (flst_nodup with "H") as %Hnd. iPureIntro.
        assert (NoDup (this :: (ms ++ (k,w) :: rs).*1)) as Hnd'.
        { eapply sublist_NoDup; [|exact Hnd]. rewrite (fmap_app _ ks) fmap_cons.
          apply sublist_skip. apply sublist_inserts_l, sublist_cons. done. }
        clear Hnd. destruct ms as [|[l' v'] ms]; simpl in *.
        - destruct rs as [|[k' w'] rs]; simpl; intros [= ->].
          + apply NoDup_cons in Hnd' as [Hn _]. apply Hn. left.
          + apply NoDup_cons in Hnd' as [_ Hnd']. apply NoDup_cons in Hnd' as [Hn _]. apply Hn. left.
        - destruct rs as [|[k' w'] rs]; simpl; intros [= ->].
          + apply NoDup_cons in Hnd' as [Hn _]. apply Hn. left.
          + apply NoDup_cons in Hnd' as [_ Hnd']. apply NoDup_cons in Hnd' as [Hn _]. apply Hn.
            change (k' ∈ (ms ++ (k, w) :: (k', w') :: rs).*1).
            rewrite fmap_app /=. apply elem_of_app. right. right. left. }
      destruct (decide _) as [_|Hn]; [|by destruct Hn]. rewrite -dlist_flst. wstep.
      iApply (wp_mid_unlink with "H"). iIntros "H Hl". wstep.
      iApply (wp_delete_node with "Hl"). wstep. iApply (IH with "H"); [simpl in Hf; lia|done].
  Qed.
  Lemma wp_dl_clear fuel this pv p xs Q : length xs < fuel →
    this ↦ DCell pv (dfirst xs (Some this)) DHdr -∗ seg p (dlive xs) (Some this) -∗
    (this ↦ DCell pv (Some this) DHdr -∗ Q tt) -∗ wp (dl_clear fuel this) Q.
  Proof.
    unfold dl_clear. revert p fuel. induction xs as [|[l v] xs IH]; intros p fuel Hf;
      (destruct fuel as [|fuel]; [simpl in Hf; lia|]); iIntros "Hh H HQ"; cbn [loop]; wstep; wstep.
    - iApply (wp_get_next with "Hh"). iIntros "Hh". simpl. destruct (decide _); [done|].
      wstep. wstep. by iApply "HQ".
    - iApply (wp_get_next with "Hh"). iIntros "Hh". rewrite dlive_cons. cbn [seg dfirst d_next].
      iDestruct "H" as "[Hl H]". iDestruct (pto_ne with "[$Hl $Hh]") as %Hne.
      destruct (decide _) as [_|Hn]; [|destruct Hn; congruence]. wstep.
      iApply (wp_get_next with "Hl"). iIntros "Hl". simpl. wstep.
      iApply (wp_set_next with "Hh"). iIntros "Hh". simpl. wstep.
      iApply (wp_delete_node with "Hl"). wstep. rewrite dfirst_live.
      iApply (IH with "Hh H"); [simpl in Hf; lia|done].
  Qed.
  Lemma wp_f_clear fuel this pv xs Q : length xs < fuel →
    flst this pv xs -∗ (this ↦ DCell pv (Some this) DHdr -∗ Q tt) -∗ wp (dl_clear fuel this) Q.
  Proof. iIntros (Hf) "[Hh H] HQ". by iApply (wp_dl_clear with "Hh H"). Qed.
  Lemma wp_dl_destroy fuel this pv xs Q : length xs < fuel →
    flst this pv xs -∗ Q tt -∗ wp (dl_destroy fuel this) Q.
  Proof.
    iIntros (Hf) "H HQ". unfold dl_destroy. wstep. iApply (wp_f_clear with "H"); [done|]. iIntros "Hh".
    by iApply (wp_deallocate with "Hh").
  Qed.
End proofs.
