(** Element copies that throw: vector. Proof file. *)
From Verif Require Export ThrowProofs.
From iris.proofmode Require Import tactics.

Section vec.
  Context {V : Type} `{Allocator (list (option V))} (dflt : V).
  Notation block := (list (option V)).
  Notation iProp := (bi_car (hpropI block)).
  Notation X A := (X V tvec A).
  Implicit Types (v m : tvec) (xs ys vs : list V) (c b : block) (n i j k o : nat) (x : V) (F : iProp).
  Local Opaque raw lv.

  (** an object that counts a raw slot as an element *)
  Definition torn v : iProp :=
    (∃ b, ⌜∃ j, j < v_last v ∧ b !! j = Some None⌝ ∧ ⌜v_last v ≤ length b⌝ ∧ blk (v_buf v) b)%I.
  Lemma torn_intro v b j :
    b !! j = Some None → j < v_last v → v_last v ≤ length b → blk (v_buf v) b ⊢ torn v.
  Proof. iIntros (Hj Hl Hb) "H". iExists b. iSplit; [iPureIntro; eauto|]. by iSplit. Qed.

  Lemma ifails_frame_l {A} (P Q : iProp) (p : M (gmap loc block) A) u : ifails P p u → ifails (P ∗ Q)%I p u.
  Proof.
    intros Hp σ σf (σ1&σ2&->&Hd&H1&H2)%hsep_unfold Hdf.
    rewrite -map_union_assoc. apply Hp; [done|]. apply map_disjoint_union_r. split; [done|].
    by apply map_disjoint_union_l in Hdf as [? _].
  Qed.
  Lemma ifails_destroy_at p b i : b !! i = Some None → ifails (blk p b) (destroy_at p i) NoObject.
  Proof.
    intros Hi. unfold destroy_at.
    eapply (ifails_bind _ _ _ (λ s, ⌜s = None⌝ ∧ blk p b)%I).
    - iIntros "H". iApply (wp_slot_at with "H"); [done|]. iIntros "H". by iSplit.
    - intros s. apply ifails_pure. intros ->. apply ifails_fail.
  Qed.
  Lemma ifails_truncate (k : nat → tvec) fuel p b last j :
    b !! j = Some None → j < last → last ≤ length b → last < fuel →
    ifails (blk p b) (loop fuel (λ last,
      if decide (0 < last) then
        let! last := dec_ptr last in
        destroy_at p last ;!
        ret (inl last)
      else ret (inr (k last))) last) NoObject.
  Proof.
    revert fuel b. induction last as [|last IH]; intros fuel b Hj Hl Hb Hf; [lia|].
    destruct fuel as [|fuel]; [lia|]. cbn [loop].
    destruct (lookup_lt_is_Some_2 b last) as [s Hs]; [lia|].
    destruct s as [x|].
    - assert (j ≠ last) by (intros ->; congruence).
      eapply (ifails_bind _ _ _ (λ r, ⌜r = inl last⌝ ∧ blk p (<[last := None]> b))%I).
      + iIntros "H". dT. wstep. iApply wp_pred. wstep. iApply (wp_destroy_at with "H"); [done|]. iIntros "H".
        wstep. by iSplit.
      + intros r. apply ifails_pure. intros ->. apply IH; [|lia|rewrite insert_length; lia|lia].
        rewrite list_lookup_insert_ne //.
    - apply ifails_bind_l. dT.
      eapply (ifails_bind _ _ _ (λ r, ⌜r = last⌝ ∧ blk p b)%I).
      + iIntros "H". iApply wp_pred. by iSplit.
      + intros r. apply ifails_pure. intros ->. apply ifails_bind_l. by apply ifails_destroy_at.
  Qed.
  Lemma ifails_torn fuel v : v_last v < fuel → ifails (torn v) (v_destroy fuel v) NoObject.
  Proof.
    intros Hf. unfold v_destroy. apply ifails_bind_l. unfold v_clear, v_truncate. apply ifails_exist. intros b.
    apply ifails_pure. intros (j&Hj&Hb). apply ifails_pure. intros Hl. by eapply ifails_truncate.
  Qed.
  (** a call that leaves a torn vector, followed by the destructor *)
  Lemma ifails_caught {A} (P : iProp) (p : X A) v f fuel mx :
    mx < fuel →
    (P ⊢ xwp p v f (λ _ _ _, False) (λ v', ⌜v_last v' ≤ mx⌝ ∧ torn v' ∗ True)) →
    ifails P (let! v' := caught p v f in v_destroy fuel v') NoObject.
  Proof.
    intros Hf Hp.
    eapply (ifails_bind _ _ _ (λ v', ⌜v_last v' ≤ mx⌝ ∧ torn v' ∗ True)%I).
    - iIntros "H". iApply wp_caught. iApply (xwp_wand with "[H]"); [by iApply Hp|]. iSplit.
      + iIntros (m f' a) "[]".
      + iIntros (m) "H". done.
    - intros v'. apply ifails_pure. intros Hv.
      apply ifails_frame_l. apply ifails_torn. lia.
  Qed.

  (** *** appending in place *)
  Lemma xwp_push F good r x b c v k Q E :
    v_last v = length b → rok F (v_buf v) good r x → good (b ++ None :: c) →
    F -∗ blk (v_buf v) (b ++ None :: c) -∗
    (∀ k', ⌜k = S k'⌝ → F -∗ blk (v_buf v) (b ++ Some x :: c) -∗ Q (v_set_last v (S (length b))) (Some k') tt) ∧
    (⌜k = 0⌝ → F -∗ blk (v_buf v) (b ++ None :: c) -∗ E (v_set_last v (S (length b)))) -∗
    xwp (xpush r) v (Some k) Q E.
  Proof.
    iIntros (Hl Hr Hg) "HF H HQ". unfold xpush, xlast. xstep. xstep. xstep. xstep. xstep. xstep. xstep. xstep. xstep.
    rewrite Hl. xstep. iApply (Hr with "HF H"); [done|]. iIntros "HF H".
    iApply (xwp_copy with "H"); [by apply lookup_mid|]. rewrite insert_mid //. iSplit.
    - iIntros (k' ->) "H". iDestruct "HQ" as "[HQ _]". by iApply ("HQ" with "[//] HF H").
    - iIntros (->) "H". iDestruct "HQ" as "[_ HQ]". by iApply ("HQ" with "[//] HF H").
  Qed.
  Definition appended v b vs c k F : iProp :=
    (⌜length vs ≤ k⌝ ∧ F ∗ blk (v_buf v) (b ++ lv vs ++ c))%I.
  Definition half_appended v b vs c k F (v' : tvec) : iProp :=
    (⌜v' = v_set_last v (length b + k + 1) ∧ k < length vs⌝ ∧
     F ∗ blk (v_buf v) (b ++ lv (take k vs) ++ raw (length vs - k) ++ c))%I.
  Lemma half_appended_torn v b vs c k F v' :
    half_appended v b vs c k F v' ⊢ ⌜v_last v' ≤ length b + length vs⌝ ∧ torn v' ∗ F.
  Proof.
    iIntros "[%Hv [HF H]]". destruct Hv as [-> Hk].
    iSplit; [iPureIntro; simpl; lia|]. iFrame "HF".
    iApply (torn_intro (v_set_last v (length b + k + 1)) (b ++ lv (take k vs) ++ raw (length vs - k) ++ c)
      (length b + k) with "H"); simpl.
    - rewrite app_assoc lookup_app_r; rewrite app_length lv_length take_length_le; try lia.
      replace (length b + k - (length b + k)) with 0 by lia.
      destruct (length vs - k) eqn:?; [lia|]. rewrite raw_S. done.
    - lia.
    - rewrite !app_length lv_length take_length_le ?raw_length; lia.
  Qed.
  Lemma set_set v i j : v_set_last (v_set_last v i) j = v_set_last v j.
  Proof. done. Qed.
  Lemma set_same v i : v_last v = i → v_set_last v i = v.
  Proof. destruct v. simpl. by intros ->. Qed.
  Lemma xwp_vc_end fuel F good b vs c n args v k :
    v_last v = length b → n = length vs → length vs < fuel → stable good →
    src_ok F (v_buf v) good args vs → good (b ++ raw (length vs) ++ c) →
    F ∗ blk (v_buf v) (b ++ raw (length vs) ++ c) ⊢
    xwp (xvc_end fuel n args) v (Some k)
      (λ v' f' _, ⌜v' = v_set_last v (length b + length vs)%nat ∧ f' = Some (k - length vs)%nat⌝ ∧ appended v b vs c k F)
      (half_appended v b vs c k F).
  Proof.
    unfold xvc_end. intros Hl -> Hf Hst Hs Hg. revert fuel b args k v Hl Hs Hg Hf.
    induction vs as [|x vs IH]; intros fuel b args k v Hl Hs Hg Hf; iIntros "[HF H]";
      (destruct fuel as [|fuel]; [simpl in Hf; lia|]); cbn [xloop].
    - xstep. cbn [length]. xstep. xstep. unfold appended. rewrite raw_0 lv_nil.
      iSplit; [iPureIntro; rewrite set_same; [split; [done|f_equal; lia]|lia]|]. iSplit; [iPureIntro; simpl; lia|iFrame].
    - destruct Hs as (r&args'&Hn&Hr&Hs). simpl in Hf. xstep. cbn [length]. cbn iota. unfold xlast.
      do 9 xstep. cbn [length] in Hg. rewrite raw_S in Hg |- *. rewrite Hl.
      iApply (xwp_vc with "HF H"); [done|done|done|by apply lookup_mid|].
      rewrite insert_mid //. iSplit.
      + iIntros (k' ->) "HF H". xstep.
        iApply (xwp_wand with "[HF H]").
        * iApply (IH fuel (b ++ [Some x]) args' k' (v_set_last v (S (length b)))); [rewrite app_length /=; lia|done| |lia|].
          { rewrite -app_assoc /=.
            assert (b ++ Some x :: raw (length vs) ++ c = <[length b := Some x]> (b ++ None :: raw (length vs) ++ c)) as ->.
            { by rewrite insert_mid. }
            apply Hst; [done|]. by apply lookup_mid. }
          rewrite -!app_assoc. iFrame.
        * iSplit.
          -- iIntros (m' f' r') "[%Hq [%Hk' [HF H]]]". destruct Hq as (->&->). rewrite -!app_assoc set_set ?app_length /=.
             iSplit; [iPureIntro; split; f_equal; simpl; lia|]. unfold appended. rewrite ?lv_cons. iSplit; [iPureIntro; simpl in *; lia|iFrame].
          -- iIntros (m') "[%Hq [HF H]]". destruct Hq as (->&Hk'). rewrite -!app_assoc set_set ?app_length /=.
             unfold half_appended. iSplit; [iPureIntro; split; [f_equal; simpl in *; lia|simpl in *; lia]|]. rewrite /= ?lv_cons. iFrame.
      + iIntros (->) "HF H". unfold half_appended. iSplit; [iPureIntro; split; [f_equal; lia|simpl; lia]|]. simpl.
        rewrite raw_S lv_nil. iFrame.
  Qed.
  Lemma xwp_fill_up fuel F good b n c r x v k :
    v_last v = length b → n < fuel → stable good →
    rok F (v_buf v) good r x → good (b ++ raw n ++ c) →
    F ∗ blk (v_buf v) (b ++ raw n ++ c) ⊢
    xwp (xfill_up fuel n r) v (Some k)
      (λ v' f' _, ⌜v' = v_set_last v (length b + n)%nat ∧ f' = Some (k - n)%nat⌝ ∧ appended v b (replicate n x) c k F)
      (half_appended v b (replicate n x) c k F).
  Proof.
    unfold xfill_up. intros Hl Hf Hst Hr Hg. revert fuel b k v Hl Hr Hg Hf.
    induction n as [|n IH]; intros fuel b k v Hl Hr Hg Hf; iIntros "[HF H]";
      (destruct fuel as [|fuel]; [simpl in Hf; lia|]); cbn [xloop].
    - xstep. xstep. xstep. unfold appended. rewrite raw_0 /= lv_nil.
      iSplit; [iPureIntro; rewrite set_same; [split; [done|f_equal; lia]|lia]|]. iSplit; [iPureIntro; simpl; lia|iFrame].
    - xstep. xstep. rewrite raw_S in Hg |- *.
      iApply (xwp_push with "HF H"); [done|done|done|]. iSplit.
      + iIntros (k' ->) "HF H". xstep.
        iApply (xwp_wand with "[HF H]").
        * iApply (IH fuel (b ++ [Some x]) k' (v_set_last v (S (length b)))); [rewrite app_length /=; lia|done| |lia|].
          { rewrite -app_assoc /=.
            assert (b ++ Some x :: raw n ++ c = <[length b := Some x]> (b ++ None :: raw n ++ c)) as ->.
            { by rewrite insert_mid. }
            apply Hst; [done|]. by apply lookup_mid. }
          rewrite -!app_assoc. iFrame.
        * iSplit.
          -- iIntros (m' f' r') "[%Hq [%Hk' [HF H]]]". destruct Hq as (->&->). rewrite -!app_assoc set_set ?app_length /=.
             iSplit; [iPureIntro; split; f_equal; simpl; lia|]. unfold appended. rewrite ?lv_cons. iSplit; [iPureIntro; simpl in *; lia|iFrame].
          -- iIntros (m') "[%Hq [HF H]]". destruct Hq as (->&Hk'). rewrite -!app_assoc set_set ?app_length /=.
             unfold half_appended. iSplit; [iPureIntro; split; [f_equal; simpl in *; lia|simpl in *; lia]|]. rewrite /= ?lv_cons. iFrame.
      + iIntros (->) "HF H". unfold half_appended. rewrite /= lv_nil replicate_length raw_S.
        iSplit; [iPureIntro; split; [f_equal; lia|simpl; lia]|]. iFrame.
  Qed.
  Lemma xwp_copy_end fuel p a b ys a' c i e v k :
    i = length a → e = i + length ys → v_last v = length b → length ys < fuel →
    blk p (a ++ lv ys ++ a') ∗ blk (v_buf v) (b ++ raw (length ys) ++ c) ⊢
    xwp (xcopy_end fuel p i e) v (Some k)
      (λ v' f' _, ⌜v' = v_set_last v (length b + length ys)%nat ∧ f' = Some (k - length ys)%nat⌝ ∧
         appended v b ys c k (blk p (a ++ lv ys ++ a')))
      (half_appended v b ys c k (blk p (a ++ lv ys ++ a'))).
  Proof.
    unfold xcopy_end. intros Hi He Hl Hf. revert fuel a i b k v Hi He Hl Hf.
    induction ys as [|x ys IH]; intros fuel a i b k v -> -> Hl Hf; iIntros "[HF H]";
      (destruct fuel as [|fuel]; [simpl in Hf; lia|]); cbn [xloop].
    - xstep. dF. xstep. xstep. unfold appended. rewrite raw_0 /= lv_nil.
      iSplit; [iPureIntro; rewrite set_same; [split; [done|f_equal; lia]|lia]|]. iSplit; [iPureIntro; simpl; lia|iFrame].
    - simpl in Hf. xstep. dT. xstep. cbn [length] in IH |- *. rewrite raw_S.
      iApply (xwp_push (blk p (a ++ lv (x :: ys) ++ a') ∗ emp)%I (λ _, True%type) _ x with "[HF] H");
        [done|apply rok_other; rewrite lv_cons; by apply lookup_mid|done|by iFrame|]. iSplit.
      + iIntros (k' ->) "[HF _] H". xstep.
        iApply (xwp_wand with "[HF H]").
        * iApply (IH fuel (a ++ [Some x]) (S (length a)) (b ++ [Some x]) k' (v_set_last v (S (length b)))); [rewrite ?app_length /=; lia..|].
          rewrite -!app_assoc lv_cons. iFrame.
        * iSplit.
          -- iIntros (m' f' r') "[%Hq [%Hk' [HF H]]]". destruct Hq as (->&->). rewrite -!app_assoc set_set ?app_length /=.
             iSplit; [iPureIntro; split; f_equal; simpl; lia|]. unfold appended. rewrite ?lv_cons. iSplit; [iPureIntro; simpl in *; lia|iFrame].
          -- iIntros (m') "[%Hq [HF H]]". destruct Hq as (->&Hk'). rewrite -!app_assoc set_set ?app_length /=.
             unfold half_appended. iSplit; [iPureIntro; split; [f_equal; simpl in *; lia|simpl in *; lia]|]. rewrite /= ?lv_cons. iFrame.
      + iIntros (->) "[HF _] H". unfold half_appended. rewrite /= lv_nil raw_S.
        iSplit; [iPureIntro; split; [f_equal; lia|simpl; lia]|]. iFrame.
  Qed.

  (** *** the operations *)
  Definition spilt ys n : iProp := (∃ q, ⌜q ≠ None⌝ ∧ blk q (lv ys ++ raw n))%I.
  (** reallocation: the vector is as before, the new buffer is lost *)
  Lemma xwp_insert_values_kept fuel v xs cap pos vs args F n k :
    n = length vs → pos ≤ length xs → length xs + length vs < fuel →
    cap < length xs + length vs → k < length xs + length vs →
    (∀ q, src_ok (blk (v_buf v) (lv xs ++ raw (cap - length xs)) ∗ F) q (λ _, True) args vs) →
    vecP v xs cap ∗ F ⊢ xwp (xv_insert_values fuel pos n args) v (Some k) (λ _ _ _, False)
      (λ v', ⌜v' = v⌝ ∧ (vecP v xs cap ∗ F) ∗ spilt (take k (ins pos vs xs)) (length xs + length vs - k)).
  Proof.
    iIntros (-> Hpos Hf Hgr Hk Hg) "[(%Hl&%He&%Hc&H) HF]". unfold xv_insert_values.
    assert (lv xs = lv (take pos xs) ++ lv (drop pos xs)) as Hsp by rewrite -lv_app take_drop //.
    assert (∀ q b, q ≠ None → b = lv (take k (ins pos vs xs)) ++ raw (length xs + length vs - k) →
      F -∗ blk (v_buf v) (lv xs ++ raw (cap - length xs)) -∗ blk q b -∗
      ⌜v = v⌝ ∧ (vecP v xs cap ∗ F) ∗ spilt (take k (ins pos vs xs)) (length xs + length vs - k)) as Hfin.
    { iIntros (q b Hq ->) "HF H Hq". iSplit; [done|]. iFrame "HF". iSplitL "H".
      - by repeat (iSplit; [done|]).
      - iExists q. by iSplit. }
    xstep. xstep. dT. dT. unfold v_size. rewrite Hl.
    xstep. xstep. iApply wp_new_buf. iIntros (q Hq) "Hq". xstep.
    assert (raw (V:=V) (length xs + length vs) =
            raw (length (take pos xs)) ++ raw (length vs) ++ raw (length (drop pos xs)) ++ []) as ->.
    { rewrite app_nil_r -!raw_add take_length drop_length. f_equal. lia. }
    iApply (xwp_wand with "[H Hq]").
    { rewrite Hsp -app_assoc.
      iApply (xwp_copy_up fuel (v_buf v) q [] (take pos xs) _ [] with "[$H $Hq]");
        rewrite /= ?take_length; lia. }
    iSplit; last first.
    { iIntros (m) "[%Hm [H Hq]]". destruct Hm as [-> Hm]. rewrite take_length in Hm |- *. simpl.
      rewrite app_assoc -Hsp. iApply (Hfin with "HF H Hq"); [done|].
      unfold ins. rewrite (take_app_le (take pos xs)); [|rewrite take_length; lia]. f_equal.
      rewrite app_nil_r -!raw_add drop_length. f_equal. lia. }
    iIntros (m f' [i o]) "[%Hm [H Hq]]". destruct Hm as (->&Hk1&->&[= -> ->]). rewrite take_length in Hk1 |- *.
    replace (pos `min` length xs) with pos in Hk1 |- * by lia. simpl.
    rewrite app_assoc -Hsp. xstep.
    iApply (xwp_wand with "[H HF Hq]").
    { iApply (xwp_vc_loop fuel (blk (v_buf v) (lv xs ++ raw (cap - length xs)) ∗ F)%I q (λ _, True%type)
        (lv (take pos xs)) vs with "[$H $HF $Hq]"); rewrite ?lv_length ?take_length //; lia. }
    iSplit; last first.
    { iIntros (m) "[%Hm [[H HF] Hq]]". destruct Hm as [-> Hm].
      iApply (Hfin with "HF H Hq"); [done|].
      unfold ins. rewrite take_app_ge; [|rewrite take_length; lia]. rewrite take_length.
      replace (pos `min` length xs) with pos by lia. rewrite take_app_le; [|lia]. rewrite lv_app -app_assoc. do 2 f_equal.
      rewrite app_nil_r -!raw_add drop_length. f_equal. lia. }
    iIntros (m f' o) "[%Hm [[H HF] Hq]]". destruct Hm as (->&Hk2&->&->). xstep.
    iApply (xwp_wand with "[H Hq]").
    { rewrite Hsp -app_assoc. rewrite (app_assoc (lv (take pos xs)) (lv vs)).
      iApply (xwp_copy_up fuel (v_buf v) q (lv (take pos xs)) (drop pos xs) _ (lv (take pos xs) ++ lv vs)
        with "[$H $Hq]"); rewrite ?app_length ?lv_length ?take_length ?drop_length; lia. }
    iSplit; last first.
    { iIntros (m) "[%Hm [H Hq]]". destruct Hm as [-> Hm]. rewrite drop_length in Hm |- *.
      rewrite (app_assoc (lv (take pos xs)) (lv (drop pos xs))) -Hsp.
      iApply (Hfin with "HF H Hq"); [done|].
      unfold ins. rewrite take_app_ge; [|rewrite take_length; lia]. rewrite take_length.
      replace (pos `min` length xs) with pos by lia. rewrite take_app_ge; [|lia]. rewrite !lv_app -!app_assoc. do 3 f_equal.
      rewrite app_nil_r. f_equal. lia. }
    iIntros (m f' [i o]) "[%Hm ?]". exfalso. destruct Hm as (_&Hk3&_). rewrite drop_length in Hk3. lia.
  Qed.
  (** in place: a raw slot among the elements *)
  Lemma xwp_insert_values_torn fuel v xs cap pos vs args F good n k :
    n = length vs → pos ≤ length xs → length xs + length vs < fuel → stable good →
    length xs + length vs ≤ cap → vs ≠ [] → k < length xs - pos + length vs →
    src_ok F (v_buf v) good args vs →
    good (lv (take pos xs) ++ raw (length vs) ++ lv (drop pos xs) ++ raw (cap - length xs - length vs)) →
    vecP v xs cap ∗ F ⊢ xwp (xv_insert_values fuel pos n args) v (Some k) (λ _ _ _, False)
      (λ v', ⌜v_last v' ≤ length xs + length vs⌝ ∧ torn v' ∗ F).
  Proof.
    iIntros (-> Hpos Hf Hst Hc' Hne Hk Hs Hgood) "[(%Hl&%He&%Hc&H) HF]". unfold xv_insert_values.
    assert (lv xs = lv (take pos xs) ++ lv (drop pos xs)) as Hsp by rewrite -lv_app take_drop //.
    assert (0 < length vs) as Hn by (destruct vs; [done|simpl; lia]).
    assert (raw (V:=V) (cap - length xs) =
      raw (length vs) ++ raw (cap - length xs - length vs)) as Hraw.
    { rewrite -raw_add. f_equal. lia. }
    rewrite Hraw.
    assert (∀ b la j, la = length xs + length vs → b !! j = Some None → j < la → la ≤ length b →
      F -∗ blk (v_buf v) b -∗ ⌜v_last (v_set_last v la) ≤ length xs + length vs⌝ ∧ torn (v_set_last v la) ∗ F) as Hfin.
    { iIntros (b la j -> Hj Hla Hb) "HF H". iSplit; [done|]. iFrame "HF".
      iApply (torn_intro (v_set_last v _) b j with "H"); done. }
    xstep. xstep. dT. dF.
    destruct (decide (pos < v_last v)) as [Hp|Hp]; rewrite Hl in Hp |- *.
    - xstep. xstep. xstep. iApply (xwp_wand with "[H]").
      { rewrite Hsp -app_assoc.
        iApply (xwp_shift_up with "H"); rewrite ?lv_length ?take_length ?drop_length; lia. }
      iSplit; last first.
      { iIntros (m) "[%Hm H]". destruct Hm as [-> Hm]. rewrite drop_length in Hm |- *.
        iApply (Hfin _ _ (pos + (length xs - pos - k)) with "HF H"); [done| |lia|].
        - rewrite app_assoc lookup_app_r; rewrite app_length !lv_length !take_length drop_length; [|lia].
          replace (_ - _) with 0 by lia. destruct (length vs) eqn:?; [lia|]. by rewrite raw_S.
        - rewrite !app_length !lv_length !raw_length !take_length !drop_length. lia. }
      iIntros (m f' []) "[%Hm H]". destruct Hm as (->&Hk1&->). rewrite drop_length in Hk1 |- *. xstep.
      iApply (xwp_wand with "[H HF]").
      { iApply (xwp_vc_loop fuel F _ good with "[$HF $H]"); rewrite ?lv_length ?take_length //; lia. }
      iSplit; last first.
      { iIntros (m) "[%Hm [HF H]]". destruct Hm as [-> Hm].
        iApply (Hfin _ _ (pos + (k - (length xs - pos))) with "HF H"); [done| |lia|].
        - rewrite app_assoc lookup_app_r; rewrite app_length !lv_length !take_length; [|lia].
          replace (_ - _) with 0 by lia.
          destruct (length vs - (k - (length xs - pos))) eqn:?; [lia|]. by rewrite raw_S.
        - rewrite !app_length !lv_length !raw_length !take_length !drop_length. lia. }
      iIntros (m f' o) "[%Hm ?]". exfalso. lia.
    - xstep. rewrite take_ge ?drop_ge in Hgood; [|lia..]. rewrite lv_nil in Hgood.
      iApply (xwp_wand with "[H HF]").
      { iApply (xwp_vc_end fuel F good (lv xs) vs with "[$HF $H]"); rewrite ?lv_length //; lia. }
      iSplit.
      + iIntros (m f' a) "[%Hx [%Hm ?]]". exfalso. lia.
      + iIntros (m) "H". rewrite half_appended_torn lv_length. done.
  Qed.

  Lemma xwp_reserve_kept fuel v xs cap n k :
    length xs < fuel → cap ≤ n → k < length xs →
    vecP v xs cap ⊢ xwp (xv_reserve fuel n) v (Some k) (λ _ _ _, False)
      (λ v', ⌜v' = v⌝ ∧ vecP v xs cap ∗ spilt (take k xs) (n - k)).
  Proof.
    iIntros (Hf Hn Hk) "(%Hl&%He&%Hc&H)". unfold xv_reserve. xstep. xstep. dF.
    xstep. xstep. iApply wp_new_buf. iIntros (q Hq) "Hq". xstep.
    replace n with (length xs + (n - length xs)) at 1 by lia. rewrite raw_add. rewrite Hl.
    iApply (xwp_wand with "[H Hq]").
    { iApply (xwp_copy_up fuel (v_buf v) q [] xs _ [] with "[$H $Hq]"); simpl; lia. }
    iSplit.
    - iIntros (m f' a) "[%Hm ?]". exfalso. lia.
    - iIntros (m) "[%Hm [H Hq]]". destruct Hm as [-> Hm]. iSplit; [done|]. iSplitL "H".
      + by repeat (iSplit; [done|]).
      + iExists q. iSplit; [done|]. rewrite /= -raw_add. by replace (length xs - k + (n - length xs)) with (n - k) by lia.
  Qed.
  (** while no element is there, reserve copies nothing *)
  Lemma xwp_reserve_empty fuel v cap n f Q E :
    0 < fuel →
    vecP v [] cap -∗ (∀ v', vecP v' [] (reserved cap n) -∗ Q v' f tt) -∗ xwp (xv_reserve fuel n) v f Q E.
  Proof.
    iIntros (Hf) "(%Hl&%He&%Hc&H) HQ". unfold xv_reserve, reserved. xstep. xstep. rewrite He.
    destruct (decide (n < cap)) as [Hn|Hn].
    - xstep. iApply "HQ". replace (cap `max` n) with cap by lia. by repeat (iSplit; [done|]).
    - replace (cap `max` n) with n by lia.
      xstep. xstep. iApply wp_new_buf. iIntros (q Hq) "Hq". xstep. rewrite Hl. simpl length.
      destruct fuel as [|fuel]; [lia|]. unfold xcopy_up. cbn [xloop]. xstep. dF. xstep. xstep. xstep. xstep.
      iApply (wp_wand with "[H]").
      { iApply (wp_destroy_down _ _ [] with "H"); simpl; lia. }
      iIntros (_) "H". rewrite raw_0. simpl. xstep. xstep. iApply (wp_free_buf with "H"). xstep.
      iApply "HQ". unfold vecP. simpl. rewrite lv_nil Nat.sub_0_r. repeat (iSplit; [iPureIntro; lia|]). done.
  Qed.
  Lemma xwp_clear fuel v xs cap f Q E :
    length xs < fuel →
    vecP v xs cap -∗ (∀ v', vecP v' [] cap -∗ Q v' f tt) -∗ xwp (xv_clear fuel) v f Q E.
  Proof.
    iIntros (Hf) "H HQ". unfold xv_clear. xstep. xstep. xstep. xstep.
    iApply (wp_wand with "[H]"); [by iApply (wp_v_clear with "H")|]. iIntros (v') "[_ H]". xstep. by iApply "HQ".
  Qed.

  Lemma xwp_assign_n_torn fuel v xs cap n x k :
    length xs + n < fuel → k < n →
    vecP v xs cap ⊢ xwp (xv_assign_n fuel n (VExt x)) v (Some k) (λ _ _ _, False)
      (λ v', ⌜v_last v' ≤ n⌝ ∧ torn v' ∗ emp).
  Proof.
    iIntros (Hf Hk) "H". unfold xv_assign_n. xstep. iApply (xwp_clear with "H"); [lia|]. iIntros (v') "H". xstep.
    iApply (xwp_reserve_empty with "H"); [lia|]. iIntros (w) "(%Hl&%He&%Hc&H)". simpl length in *. rewrite lv_nil Nat.sub_0_r.
    unfold reserved in *. assert (raw (V:=V) (cap `max` n) = raw n ++ raw (cap `max` n - n)) as -> by (rewrite -raw_add; f_equal; lia).
    iApply (xwp_wand with "[H]").
    { iApply (xwp_fill_up fuel emp%I (λ _, True%type) [] n _ (VExt x) x with "[$H]"); simpl; try done; [lia|apply rok_ext]. }
    iSplit.
    - iIntros (m f' a) "[%Hx [%Hm ?]]". exfalso. rewrite replicate_length in Hm. lia.
    - iIntros (m) "H". rewrite half_appended_torn replicate_length. done.
  Qed.
  Lemma xwp_assign_torn fuel v xs cap other ys cap' k :
    length xs + length ys < fuel → k < length ys →
    vecP v xs cap ∗ vecP other ys cap' ⊢ xwp (xv_assign fuel other) v (Some k) (λ _ _ _, False)
      (λ v', ⌜v_last v' ≤ length ys⌝ ∧ torn v' ∗ vecP other ys cap').
  Proof.
    iIntros (Hf Hk) "[H (%Hlo&%Heo&%Hco&Ho)]". unfold xv_assign. xstep. iApply (xwp_clear with "H"); [lia|]. iIntros (v') "H". xstep.
    iApply (xwp_reserve_empty with "H"); [lia|]. iIntros (w) "(%Hl&%He&%Hc&H)". simpl length in *. rewrite lv_nil Nat.sub_0_r.
    unfold reserved, v_capacity in *. rewrite Heo Hlo in Hc He |- *.
    assert (raw (V:=V) (cap `max` cap') = raw (length ys) ++ raw (cap `max` cap' - length ys)) as -> by (rewrite -raw_add; f_equal; lia).
    iApply (xwp_wand with "[H Ho]").
    { iApply (xwp_copy_end fuel (v_buf other) [] [] ys _ _ 0 (length ys) with "[$Ho $H]"); simpl; lia. }
    iSplit.
    - iIntros (m f' a) "[%Hx [%Hm ?]]". exfalso. lia.
    - iIntros (m) "H". rewrite half_appended_torn. iDestruct "H" as "[% [H Ho]]". iSplit; [done|]. iFrame "H".
      by repeat (iSplit; [done|]).
  Qed.
  Lemma xwp_push_back_torn fuel v xs cap r x :
    length xs < cap → vrefers v xs r x →
    vecP v xs cap ⊢ xwp (xv_push_back fuel r) v (Some 0) (λ _ _ _, False)
      (λ v', ⌜v_last v' ≤ S (length xs)⌝ ∧ torn v' ∗ emp).
  Proof.
    iIntros (Hc' Hr) "(%Hl&%He&%Hc&H)". unfold xv_push_back. xstep. xstep. dT.
    destruct (cap - length xs) as [|d] eqn:E; [lia|]. rewrite raw_S.
    iApply (xwp_push emp%I (good_of r x) with "[] H"); [by rewrite lv_length|by eapply rok_refers|by eapply good_refers|done|].
    iSplit; [iIntros (k' ?); done|]. iIntros (_) "_ H". rewrite lv_length. simpl. iSplit; [done|]. iSplit; [|done].
    iApply (torn_intro (v_set_last v (S (length xs))) (lv xs ++ None :: raw d) (length xs) with "H"); simpl; [|lia|].
    - apply lookup_mid. by rewrite lv_length.
    - rewrite app_length lv_length /= raw_length. lia.
  Qed.
  Lemma xwp_erase_torn fuel v xs cap i j k :
    length xs < fuel → i < j ≤ length xs → k < length xs - j →
    vecP v xs cap ⊢ xwp (xv_erase_range fuel i j) v (Some k) (λ _ _ _, False)
      (λ v', ⌜v_last v' ≤ length xs⌝ ∧ torn v' ∗ emp).
  Proof.
    iIntros (Hf Hij Hk) "(%Hl&%He&%Hc&H)". unfold xv_erase_range. xstep. xstep. xstep. xstep.
    pose proof (slice_length i j xs ltac:(lia)) as Hsl.
    assert (lv xs = lv (take i xs) ++ lv (slice i j xs) ++ lv (drop j xs)) as Heq.
    { rewrite {1}(slice_split i j xs ltac:(lia)) !lv_app //. }
    rewrite Heq -!app_assoc.
    iApply (wp_wand with "[H]").
    { iApply (wp_destroy_range fuel _ (lv (take i xs)) (slice i j xs) with "H"); rewrite ?lv_length ?Hsl ?take_length; lia. }
    iIntros ([]) "H". rewrite Hsl. xstep.
    iApply (xwp_wand with "[H]").
    { iApply (xwp_shift_down with "H"); rewrite ?lv_length ?take_length ?drop_length; lia. }
    iSplit.
    - iIntros (m f' a) "[%Hm ?]". exfalso. rewrite drop_length in Hm. lia.
    - iIntros (m) "[%Hm H]". destruct Hm as [-> Hm]. rewrite drop_length in Hm. iSplit; [iPureIntro; lia|]. iSplit; [|done].
      iApply (torn_intro v _ (i + k) with "H").
      + rewrite app_assoc lookup_app_r; rewrite app_length !lv_length !take_length drop_length; [|lia].
        replace (_ - _) with 0 by lia. destruct (j - i) eqn:?; [lia|]. by rewrite raw_S.
      + lia.
      + rewrite !app_length !lv_length !raw_length !take_length !drop_length. lia.
  Qed.
  (** constructors: the buffer is lost with the objects in it *)
  Lemma xwp_copy_lost fuel v0 other ys cap k :
    length ys < fuel → k < length ys →
    vecP other ys cap ⊢ xwp (xv_copy fuel other) v0 (Some k) (λ _ _ _, False)
      (λ _, vecP other ys cap ∗ spilt (take k ys) (length ys - k)).
  Proof.
    iIntros (Hf Hk) "(%Hl&%He&%Hc&H)". unfold xv_copy, v_size. rewrite Hl. xstep. xstep.
    iApply wp_new_buf. iIntros (q Hq) "Hq". xstep. xstep.
    iApply (xwp_wand with "[H Hq]").
    { iApply (xwp_copy_end fuel (v_buf other) [] [] ys _ [] 0 (length ys) (Vec q 0 (length ys)) with "[$H Hq]"); simpl; try lia. by rewrite app_nil_r. }
    iSplit.
    - iIntros (m f' a) "[%Hx [%Hm ?]]". exfalso. lia.
    - iIntros (m) "[% [H Hq]]". iSplitL "H"; [by repeat (iSplit; [done|])|]. iExists q. iSplit; [done|].
      rewrite app_nil_r. done.
  Qed.
  Lemma xwp_new_n_lost fuel v0 n x k :
    n < fuel → k < n →
    ⊢ xwp (xv_new_n fuel n (VExt x)) v0 (Some k) (λ _ _ _, False) (λ _, spilt (replicate k x) (n - k)).
  Proof.
    iIntros (Hf Hk). iStartProof. unfold xv_new_n. xstep. xstep.
    iApply wp_new_buf. iIntros (q Hq) "Hq". xstep. xstep.
    iApply (xwp_wand with "[Hq]").
    { iApply (xwp_fill_up fuel emp%I (λ _, True%type) [] n [] (VExt x) x (Vec q 0 n) with "[Hq]"); simpl; try done.
      - apply rok_ext. - rewrite app_nil_r. by iFrame. }
    iSplit.
    - iIntros (m f' a) "[%Hx [%Hm ?]]". exfalso. rewrite replicate_length in Hm. lia.
    - iIntros (m) "[% [_ Hq]]". iExists q. iSplit; [done|].
      rewrite app_nil_r /= take_replicate replicate_length. by replace (k `min` n) with k by lia.
  Qed.
End vec.
