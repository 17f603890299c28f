(** Element copies that throw: fixed_vector. Proof file. *)
From Verif Require Export ThrowVec FixedProofs.
From iris.proofmode Require Import tactics.

Section fixed.
  Context {V : Type} `{Allocator (list (option V))} (N : nat) (dflt : V).
  Notation block := (list (option V)).
  Notation iProp := (bi_car (hpropI block)).
  Notation X A := (X V fvec A).
  Implicit Types (v m w : fvec) (xs ys vs : list V) (c b : block) (n i j k o : nat) (x : V) (F : iProp).
  Local Opaque raw lv.

  (** an object that counts a raw slot as an element *)
  Definition ftorn v : iProp := (⌜fv_last v ≤ N⌝ ∧ torn (asv N v))%I.
  Lemma ftorn_intro v p b j :
    b !! j = Some None → j < fv_last v → fv_last v ≤ N → length b = N → fv_p v = p → blk p b ⊢ ftorn v.
  Proof.
    iIntros (Hj Hl HN Hb <-) "H". iSplit; [done|]. iApply (torn_intro (asv N v) with "H"); simpl; [done|lia|lia].
  Qed.
  Lemma ifails_ftorn fuel v : N < fuel → ifails (ftorn v) (fv_destroy fuel v) NoObject.
  Proof.
    intros Hf. unfold fv_destroy. apply ifails_bind_l. apply ifails_pure. intros HN. apply ifails_exist. intros b.
    apply ifails_pure. intros (j&Hj&Hb). apply ifails_pure. simpl in *. intros Hl. unfold fv_clear.
    assert (fv_last v < fuel) as Hf' by lia. clear Hf HN.
    remember (fv_last v) as last eqn:Hlast. revert fuel v b Hlast Hj Hb Hl Hf'.
    induction last as [|last IH]; intros fuel v b Hlast Hj Hb Hl Hf; [lia|].
    destruct fuel as [|fuel]; [lia|]. cbn [loop]. unfold fv_empty.
    rewrite bool_decide_false; [|lia]. rewrite -Hlast.
    destruct (lookup_lt_is_Some_2 b last) as [s Hs]; [lia|].
    destruct s as [x|].
    - assert (j ≠ last) by (intros ->; congruence).
      eapply (ifails_bind _ _ _ (λ r, ⌜r = inl (fv_set_last v last)⌝ ∧ blk (fv_p v) (<[last := None]> b))%I).
      + iIntros "H". wstep. iApply wp_pred. wstep. iApply (wp_destroy_at with "H"); [done|]. iIntros "H".
        wstep. by iSplit.
      + intros r. apply ifails_pure. intros ->. cbn iota.
        apply (IH fuel (fv_set_last v last)); [done|lia| |rewrite insert_length; lia|lia].
        rewrite list_lookup_insert_ne //.
    - apply ifails_bind_l.
      eapply (ifails_bind _ _ _ (λ r, ⌜r = last⌝ ∧ blk (fv_p v) b)%I).
      + iIntros "H". iApply wp_pred. by iSplit.
      + intros r. apply ifails_pure. intros ->. apply ifails_bind_l. by apply ifails_destroy_at.
  Qed.
  Lemma ifails_fcaught {A} (P : iProp) (p : X A) v f fuel :
    N < fuel →
    (P ⊢ xwp p v f (λ _ _ _, False) (λ v', ftorn v' ∗ True)) →
    ifails P (let! v' := caught p v f in fv_destroy fuel v') NoObject.
  Proof.
    intros Hf Hp.
    eapply (ifails_bind _ _ _ (λ v', ftorn v' ∗ True)%I).
    - iIntros "H". iApply wp_caught. iApply (xwp_wand with "[H]"); [by iApply Hp|]. iSplit.
      + iIntros (m f' a) "[]".
      + iIntros (m) "H". done.
    - intros v'. apply ifails_frame_l. by apply ifails_ftorn.
  Qed.

  (** *** appending *)
  Lemma xwp_f_push F good r x b c v k Q E :
    fv_last v = length b → rok F (fv_p v) good r x → good (b ++ None :: c) →
    F -∗ blk (fv_p v) (b ++ None :: c) -∗
    (∀ k', ⌜k = S k'⌝ → F -∗ blk (fv_p v) (b ++ Some x :: c) -∗ Q (fv_set_last v (S (length b))) (Some k') tt) ∧
    (⌜k = 0⌝ → F -∗ blk (fv_p v) (b ++ None :: c) -∗ E (fv_set_last v (S (length b)))) -∗
    xwp (xf_push r) v (Some k) Q E.
  Proof.
    iIntros (Hl Hr Hg) "HF H HQ". unfold xf_push. xstep. xstep. xstep. xstep. xstep. xstep.
    rewrite Hl. iApply (Hr with "HF H"); [done|]. iIntros "HF H".
    iApply (xwp_copy with "H"); [by apply lookup_mid|]. rewrite insert_mid //. iSplit.
    - iIntros (k' ->) "H". iDestruct "HQ" as "[HQ _]". by iApply ("HQ" with "[//] HF H").
    - iIntros (->) "H". iDestruct "HQ" as "[_ HQ]". by iApply ("HQ" with "[//] HF H").
  Qed.
  Definition half b k F v v' : iProp :=
    (⌜v' = fv_set_last v (S (length b + k))⌝ ∧ F ∗ ∃ b', ⌜length b' = (length b + k)%nat⌝ ∧ blk (fv_p v) (b' ++ raw (N - length b')))%I.
  Lemma half_torn b k F v v' : length b + k < N → half b k F v v' ⊢ ftorn v' ∗ True.
  Proof.
    iIntros (Hk) "(->&_&%b'&%Hb&H)". iSplitL "H"; [|done].
    iApply (ftorn_intro _ _ _ (length b + k) with "H"); simpl; [|lia|lia| |done].
    - rewrite lookup_app_r; [|lia]. rewrite Hb Nat.sub_diag. destruct (N - _) eqn:?; [lia|]. by rewrite raw_S.
    - rewrite app_length raw_length. lia.
  Qed.
  Lemma half_S b x k F v v' :
    half (b ++ [Some x]) k F (fv_set_last v (S (length b))) v' ⊢ half b (S k) F v v'.
  Proof.
    iIntros "(->&HF&%b'&%Hb&H)". rewrite app_length /= in Hb |- *.
    iSplit; [iPureIntro; unfold fv_set_last; simpl; f_equal; lia|]. iFrame "HF". iExists b'. iSplit; [iPureIntro; lia|].
    done.
  Qed.
  Lemma half_0 b F v : F -∗ blk (fv_p v) (b ++ raw (N - length b)) -∗ half b 0 F v (fv_set_last v (S (length b))).
  Proof.
    iIntros "HF H". iSplit; [iPureIntro; by rewrite Nat.add_0_r|]. iFrame "HF". iExists b. iSplit; [iPureIntro; lia|done].
  Qed.
  Lemma good_next (good : block → Prop) b x k :
    stable good → N - length b = S k → good (b ++ raw (N - length b)) →
    good ((b ++ [Some x]) ++ raw (N - length (b ++ [Some x]))).
  Proof.
    intros Hst Hk Hg. rewrite app_length /=. replace (N - (length b + 1)) with k by lia. rewrite Hk raw_S in Hg.
    rewrite -app_assoc /= -(insert_mid b (raw k) None (Some x) (length b)) //. apply Hst; [done|]. by apply lookup_mid.
  Qed.
  Lemma xwp_f_fill fuel F good b n r x v k :
    fv_last v = length b → k < fuel → k < n `min` (N - length b) → stable good →
    rok F (fv_p v) good r x → good (b ++ raw (N - length b)) →
    F ∗ blk (fv_p v) (b ++ raw (N - length b)) ⊢
    xwp (xf_fill N fuel n r) v (Some k) (λ _ _ _, False) (half b k F v).
  Proof.
    unfold xf_fill. intros Hl Hf Hk Hst. revert fuel b n v Hl Hk Hf.
    induction k as [|k IH]; intros fuel b n v Hl Hk Hf Hr Hg; iIntros "[HF H]";
      (destruct fuel as [|fuel]; [lia|]); cbn [xloop]; (destruct n as [|n]; [lia|]); xstep; xstep; xstep;
      unfold fv_full; (rewrite bool_decide_false; [|lia]); xstep;
      destruct (N - length b) as [|d] eqn:Ed; try lia.
    - assert (Hg' := Hg). rewrite raw_S in Hg' |- *. iApply (xwp_f_push with "HF H"); [done|done|done|]. iSplit; [by iIntros (k' ?)|].
      iIntros (_) "HF H". iApply (half_0 with "HF"). by rewrite Ed raw_S.
    - assert (Hg' := Hg). rewrite raw_S in Hg' |- *. iApply (xwp_f_push with "HF H"); [done|done|done|]. iSplit; [|by iIntros (?)].
      iIntros (k' [= <-]) "HF H". xstep.
      assert (N - length (b ++ [Some x]) = d) as Hd by (rewrite app_length /=; lia).
      iApply (xwp_wand with "[HF H]").
      { iApply (IH fuel (b ++ [Some x]) n (fv_set_last v (S (length b)))); rewrite ?Hd.
        - rewrite app_length /=. lia.
        - lia.
        - lia.
        - done.
        - rewrite -Hd. eapply good_next; [done|done|by rewrite Ed].
        - rewrite -app_assoc. iFrame. }
      iSplit; [iIntros (m f' a) "[]"|]. iIntros (m) "H". by iApply half_S.
  Qed.
  Lemma xwp_f_append fuel F b g vs v k :
    fv_last v = length b → k < fuel → k < length vs `min` (N - length b) → rng_ok F g vs →
    F ∗ blk (fv_p v) (b ++ raw (N - length b)) ⊢
    xwp (xf_append N fuel g) v (Some k) (λ _ _ _, False) (half b k F v).
  Proof.
    unfold xf_append. intros Hl Hf. revert fuel b g vs v Hl Hf.
    induction k as [|k IH]; intros fuel b g vs v Hl Hf Hk Hg; iIntros "[HF H]";
      (destruct fuel as [|fuel]; [lia|]); cbn [xloop]; (destruct vs as [|x vs]; [simpl in Hk; lia|]); cbn [length] in Hk;
      simpl in Hg; destruct Hg as (r&g'&Hn&Hr&Hg); rewrite Hn;
      xstep; xstep; xstep; unfold fv_full; (rewrite bool_decide_false; [|lia]); xstep;
      destruct (N - length b) as [|d] eqn:Ed; try lia; rewrite raw_S.
    - iApply (xwp_f_push with "HF H"); [done|apply Hr|done|]. iSplit; [by iIntros (k' ?)|].
      iIntros (_) "HF H". iApply (half_0 with "HF"). by rewrite Ed raw_S.
    - iApply (xwp_f_push with "HF H"); [done|apply Hr|done|]. iSplit; [|by iIntros (?)].
      iIntros (k' [= <-]) "HF H". xstep.
      assert (N - length (b ++ [Some x]) = d) as Hd by (rewrite app_length /=; lia).
      iApply (xwp_wand with "[HF H]").
      { iApply (IH fuel (b ++ [Some x]) g' vs (fv_set_last v (S (length b)))); rewrite ?Hd.
        - rewrite app_length /=. lia.
        - lia.
        - lia.
        - done.
        - rewrite -app_assoc. iFrame. }
      iSplit; [iIntros (m f' a) "[]"|]. iIntros (m) "H". by iApply half_S.
  Qed.
  Lemma xwp_f_copy_end fuel p a ys a' b i e v k :
    i = length a → e = i + length ys → fv_last v = length b → k < fuel → k < length ys `min` (N - length b) →
    blk p (a ++ lv ys ++ a') ∗ blk (fv_p v) (b ++ raw (N - length b)) ⊢
    xwp (xf_copy_end fuel p i e) v (Some k) (λ _ _ _, False) (half b k (blk p (a ++ lv ys ++ a')) v).
  Proof.
    unfold xf_copy_end. intros Hi He Hl Hf. revert fuel a ys i b v Hi He Hl Hf.
    induction k as [|k IH]; intros fuel a ys i b v -> -> Hl Hf Hk; iIntros "[HF H]";
      (destruct fuel as [|fuel]; [lia|]); cbn [xloop]; (destruct ys as [|x ys]; [simpl in Hk; lia|]); cbn [length] in *;
      xstep; dT; xstep;
      destruct (N - length b) as [|d] eqn:Ed; try lia; rewrite raw_S;
      iApply (xwp_f_push (blk p (a ++ lv (x :: ys) ++ a') ∗ emp)%I (λ _, True%type) _ x with "[HF] H");
        [done|apply rok_other; rewrite lv_cons; by apply lookup_mid|done|by iFrame| |done|apply rok_other; rewrite lv_cons; by apply lookup_mid|done|by iFrame|].
    - iSplit; [by iIntros (k' ?)|].
      iIntros (_) "[HF _] H". iApply (half_0 with "HF"). by rewrite Ed raw_S.
    - iSplit; [|by iIntros (?)].
      iIntros (k' [= <-]) "[HF _] H". xstep.
      assert (N - length (b ++ [Some x]) = d) as Hd by (rewrite app_length /=; lia).
      iApply (xwp_wand with "[HF H]").
      { iApply (IH fuel (a ++ [Some x]) ys (S (length a)) (b ++ [Some x]) (fv_set_last v (S (length b)))); rewrite ?Hd.
        - rewrite app_length /=. lia.
        - lia.
        - rewrite app_length /=. lia.
        - lia.
        - lia.
        - rewrite -!app_assoc lv_cons. iFrame. }
      iSplit; [iIntros (m f' u) "[]"|]. iIntros (m) "H". rewrite half_S -!app_assoc lv_cons. done.
  Qed.

  (** *** into the hole *)
  Definition holed b k c F v m' m : iProp :=
    (⌜m' = m⌝ ∧ F ∗ ∃ b' d, ⌜length b' = k ∧ 0 < d⌝ ∧ blk (fv_p v) (b ++ b' ++ raw d ++ c))%I.
  Lemma xwp_f_put_n fuel F good b n c r x o v m k :
    o = length b → k < fuel → k < n `min` (N - length b) → stable good →
    rok F (fv_p v) good r x → good (b ++ raw (n `min` (N - length b)) ++ c) →
    F ∗ blk (fv_p v) (b ++ raw (n `min` (N - length b)) ++ c) ⊢
    xwp (xf_put_n N fuel v o n r) m (Some k) (λ _ _ _, False)
      (λ m', ⌜m' = m⌝ ∧ F ∗ ∃ b', ⌜length b' = k⌝ ∧ blk (fv_p v) (b ++ b' ++ raw (n `min` (N - length b) - k) ++ c)).
  Proof.
    unfold xf_put_n. intros -> Hf Hk Hst Hr. revert fuel b n Hf Hk.
    induction k as [|k IH]; intros fuel b n Hf Hk Hg; iIntros "[HF H]";
      (destruct fuel as [|fuel]; [lia|]); cbn [xloop]; (destruct n as [|n]; [lia|]); assert (length b < N) by lia; xstep; dT; xstep; xstep;
      destruct (N - length b) as [|d] eqn:Ed; try lia; rewrite -(Nat.succ_min_distr n d) raw_S in Hg |- *;
      iApply (Hr with "HF H"); [done| |done|]; iIntros "HF H"; xstep.
    - iApply (xwp_copy with "H"); [by apply lookup_mid|]. iSplit; [by iIntros (k' ?)|]. iIntros (_) "H".
      iSplit; [done|]. iFrame "HF". iExists []. iSplit; [done|]. done.
    - iApply (xwp_copy with "H"); [by apply lookup_mid|]. iSplit; [|by iIntros (?)].
      iIntros (k' [= <-]) "H". rewrite insert_mid //. xstep.
      assert (N - length (b ++ [Some x]) = d) as Hd by (rewrite app_length /=; lia).
      replace (S (length b)) with (length (b ++ [Some x])) by (rewrite app_length /=; lia).
      iApply (xwp_wand with "[HF H]").
      { iApply (IH fuel (b ++ [Some x]) n); rewrite ?Hd; [lia|lia| |].
        - rewrite -app_assoc /=.
          rewrite -(insert_mid b (raw (n `min` d) ++ c) None (Some x) (length b)) //. apply Hst; [done|].
          by apply lookup_mid.
        - rewrite -app_assoc. iFrame. }
      iSplit; [iIntros (m' f' a) "[]"|]. iIntros (m') "(->&HF&%b'&%Hb&H)". iSplit; [done|]. iFrame "HF".
      iExists (Some x :: b'). iSplit; [iPureIntro; simpl; lia|]. rewrite Hd -app_assoc. done.
  Qed.
  Lemma xwp_f_put_range fuel F b g vs c o v m k :
    o = length b → k < fuel → k < length vs `min` (N - length b) → rng_ok F g vs →
    F ∗ blk (fv_p v) (b ++ raw (length vs `min` (N - length b)) ++ c) ⊢
    xwp (xf_put_range N fuel v o g) m (Some k) (λ _ _ _, False)
      (λ m', ⌜m' = m⌝ ∧ F ∗ ∃ b', ⌜length b' = k⌝ ∧ blk (fv_p v) (b ++ b' ++ raw (length vs `min` (N - length b) - k) ++ c)).
  Proof.
    unfold xf_put_range. intros -> Hf. revert fuel b g vs Hf.
    induction k as [|k IH]; intros fuel b g vs Hf Hk Hg; iIntros "[HF H]";
      (destruct fuel as [|fuel]; [lia|]); cbn [xloop]; (destruct vs as [|x vs]; [simpl in Hk; lia|]); cbn [length] in *;
      simpl in Hg; destruct Hg as (r&g'&Hn&Hr&Hg); rewrite Hn; assert (length b < N) by lia; xstep; dT; xstep; xstep;
      destruct (N - length b) as [|d] eqn:Ed; try lia; rewrite -(Nat.succ_min_distr _ d) raw_S;
      iApply (Hr with "HF H"); [done| |done|]; iIntros "HF H"; xstep.
    - iApply (xwp_copy with "H"); [by apply lookup_mid|]. iSplit; [by iIntros (k' ?)|]. iIntros (_) "H".
      iSplit; [done|]. iFrame "HF". iExists []. iSplit; [done|]. done.
    - iApply (xwp_copy with "H"); [by apply lookup_mid|]. iSplit; [|by iIntros (?)].
      iIntros (k' [= <-]) "H". rewrite insert_mid //. xstep.
      assert (N - length (b ++ [Some x]) = d) as Hd by (rewrite app_length /=; lia).
      replace (S (length b)) with (length (b ++ [Some x])) by (rewrite app_length /=; lia).
      iApply (xwp_wand with "[HF H]").
      { iApply (IH fuel (b ++ [Some x]) g' vs); rewrite ?Hd; [lia|lia|done|].
        rewrite -app_assoc. iFrame. }
      iSplit; [iIntros (m' f' a) "[]"|]. iIntros (m') "(->&HF&%b'&%Hb&H)". iSplit; [done|]. iFrame "HF".
      iExists (Some x :: b'). iSplit; [iPureIntro; simpl; lia|]. rewrite Hd -app_assoc. done.
  Qed.
  (** making room: the elements moved are the last ones that still fit *)
  Definition moved xs pos n : nat := length (take (N - pos - n) (drop pos xs)).
  Lemma xwp_f_make_room fuel v xs pos n k Q E :
    pos < length xs → 0 < n → N < fuel →
    fvecP N v xs -∗
    (∀ v' k', ⌜v' = fv_set_last v (N `min` (length xs + n)) ∧ moved xs pos n ≤ k ∧ k' = k - moved xs pos n⌝ →
      blk (fv_p v) (lv (take pos xs) ++ raw (gap N pos n) ++
        lv (take (N - pos - n) (drop pos xs)) ++ raw (N - (length xs + n))) -∗ Q v' (Some k') tt) ∧
    (∀ v', ⌜k < moved xs pos n⌝ → ftorn v' -∗ E v') -∗
    xwp (xf_make_room N fuel pos n) v (Some k) Q E.
  Proof.
    iIntros (Hpos Hn Hf) "H HQ". iDestruct (fvecP_eq with "H") as "(%Hl&%Hc&H)". unfold xf_make_room. xstep. xstep. rewrite Hl.
    assert (lv xs = lv (take pos xs) ++ lv (drop pos xs)) as Hsp by rewrite -lv_app take_drop //.
    rewrite Hsp -app_assoc. xstep. xstep.
    assert (pos = length (lv (take pos xs))) as Hp.
    { rewrite lv_length take_length. lia. }
    iApply (wp_wand with "[H]").
    { iApply (wp_fv_cut N fuel v _ (drop pos xs) _ (length xs + n) (length xs) pos with "H");
       rewrite ?lv_length ?take_length ?drop_length; lia. }
    iIntros ([o i]) "[%Hoi H]". rewrite drop_length in Hoi |- *.
    set (d := (length xs + n - N) `min` (length xs - pos)) in *.
    set (ys := take (length xs - pos - d) (drop pos xs)).
    assert (length ys = length xs - pos - d) as Hys.
    { unfold ys. rewrite take_length drop_length. lia. }
    simplify_eq.
    assert ((if decide (N < length xs + n - d) then N else length xs + n - d) = N `min` (length xs + n)) as ->.
    { unfold d. destruct (decide _); lia. }
    unfold moved. assert (take (N - pos - n) (drop pos xs) = ys) as ->.
    { unfold ys. destruct (decide (length xs + n ≤ N)).
      - rewrite !take_ge ?drop_length //; unfold d; lia.
      - f_equal. unfold d. lia. }
    xstep. xstep. rewrite -raw_add.
    destruct (decide (length xs - pos - d = 0)) as [Hz|Hz].
    - unfold xshift_up. destruct fuel; [lia|]. cbn [xloop]. xstep. dF. xstep. xstep.
      iDestruct "HQ" as "[HQ _]". rewrite -Hys in Hz. apply nil_length_inv in Hz as Hz'. iApply ("HQ" with "[]").
      { iPureIntro. rewrite Hz. split_and!; [done|lia|lia]. }
      rewrite Hz' lv_nil /= -raw_add. by replace (gap N pos n + (N - (length xs + n))) with (d + (N - length xs))
          by (unfold gap, d; lia).
    - assert (d = length xs + n - N) as Hd by lia.
      assert (d + (N - length xs) = n + (N - (length xs + n))) as -> by lia. rewrite raw_add.
      assert (gap N pos n = n) as ->. { unfold gap. lia. }
      iApply (xwp_wand with "[H]").
      { iApply (xwp_shift_up with "H"); lia. }
      iSplit.
      + iIntros (m' f' []) "[%Hm H]". destruct Hm as (->&?&->). iDestruct "HQ" as "[HQ _]".
        iApply ("HQ" with "[] H"). done.
      + iIntros (m') "[%Hm H]". destruct Hm as (->&Hk). iDestruct "HQ" as "[_ HQ]". iApply ("HQ" with "[//]").
        iApply (ftorn_intro _ _ _ (pos + (length ys - k)) with "H"); simpl; [|lia|lia| |done].
        * assert (length (lv (take pos xs) ++ lv (take (length ys - k) ys)) = pos + (length ys - k)) as Hlb.
          { rewrite app_length !lv_length (take_length_le ys); [|lia]. rewrite take_length_le; lia. }
          rewrite app_assoc lookup_app_r Hlb; [|done]. rewrite Nat.sub_diag. destruct n; [lia|]. by rewrite raw_S.
        * clearbody ys d. rewrite !app_length !lv_length !raw_length drop_length !take_length. lia.
  Qed.

  (** *** the operations *)
  Lemma xwp_f_push_back_torn v xs r x :
    length xs < N → frefers v xs r x →
    fvecP N v xs ⊢ xwp (xf_push_back N r) v (Some 0) (λ _ _ _, False) (λ v', ftorn v' ∗ True).
  Proof.
    iIntros (Hc' Hr) "H". iDestruct (fvecP_eq with "H") as "(%Hl&%Hc&H)". unfold xf_push_back. xstep. xstep.
    unfold fv_full. rewrite bool_decide_false; [|lia].
    destruct (N - length xs) as [|d] eqn:E; [lia|]. rewrite raw_S.
    iApply (xwp_f_push emp%I (good_of r x) with "[] H"); [by rewrite lv_length|by eapply rok_frefers|by eapply good_frefers|done|].
    iSplit; [iIntros (k' ?); done|]. iIntros (_) "_ H". iApply (half_torn (lv xs) 0 emp%I v); [rewrite lv_length; lia|].
    iApply half_0; [done|]. rewrite lv_length E raw_S. done.
  Qed.
  Lemma hole_torn pos (F : iProp) v xs n k v' l :
    pos ≤ length xs → l ≤ N → k < gap N pos n → pos + gap N pos n ≤ l → length xs ≤ N → 0 < n →
    v' = fv_set_last v l →
    (∃ b', ⌜length b' = k⌝ ∧ blk (fv_p v) (lv (take pos xs) ++ b' ++ raw (gap N pos n - k) ++
       lv (take (N - pos - n) (drop pos xs)) ++ raw (N - (length xs + n)))) ∗ F ⊢ ftorn v' ∗ True.
  Proof.
    iIntros (Hpos Hl Hk Hg Hc Hn ->) "[(%b'&%Hb&H) _]". iSplitL "H"; [|done].
    iApply (ftorn_intro _ _ _ (pos + k) with "H"); simpl; [|lia|lia| |done].
    - rewrite lookup_app_r; rewrite lv_length take_length; [|lia].
      rewrite lookup_app_r; [|lia]. replace (_ - _) with 0 by lia. destruct (gap N pos n - k) eqn:?; [lia|]. by rewrite raw_S.
    - rewrite !app_length !lv_length !raw_length Hb !take_length !drop_length. unfold gap in *. lia.
  Qed.
  Lemma xwp_f_insert_n_torn fuel v xs pos n r x k :
    pos ≤ length xs → 0 < n → N < fuel → frefers v xs r x →
    match r with VExt _ => True | VSlot _ j => j < pos ∨ pos = length xs end →
    k < moved xs pos n + gap N pos n →
    fvecP N v xs ⊢ xwp (xf_insert_n N fuel pos n r) v (Some k) (λ _ _ _, False) (λ v', ftorn v' ∗ True).
  Proof.
    iIntros (Hpos Hn Hf Hr Hal Hk) "H". iDestruct (fvecP_last with "H") as %[Hl Hc]. unfold xf_insert_n.
    assert (moved xs pos n = (N - pos - n) `min` (length xs - pos)) as Hmv.
    { unfold moved. rewrite take_length drop_length. done. }
    dF. xstep. xstep. rewrite Hl. destruct (decide (pos < length xs)) as [Hp|Hp].
    - xstep. iApply (xwp_f_make_room with "H"); [done|done|done|]. iSplit.
      + iIntros (v' k' (->&Hk1&->)) "H". xstep. xstep. xstep.
        assert (pos = length (lv (take pos xs))) as Hlp by (rewrite lv_length take_length; lia).
        iApply (xwp_wand with "[H]").
        { iApply (xwp_f_put_n fuel emp%I (good_of r x) (lv (take pos xs)) n with "[H]"); rewrite -?Hlp.
          - done.
          - unfold gap in Hk. lia.
          - unfold gap in Hk. lia.
          - apply good_stable.
          - by apply (rok_frefers v xs).
          - destruct r as [y|p j]; [done|]. simpl in *. destruct Hr as [-> Hj].
            destruct Hal as [Hlt|]; [|lia].
            rewrite lookup_app_l; [|rewrite -Hlp; lia].
            apply lv_lookup. by rewrite lookup_take.
          - iSplit; [done|]. iExact "H". }
        iSplit; [iIntros (m f' a) "[]"|]. iIntros (m) "(->&HF&H)". rewrite -Hlp.
        iApply (hole_torn pos emp%I v xs n (k - moved xs pos n) with "[$H $HF]"); [lia| | | |done|done|done]; unfold gap in *; lia.
      + iIntros (v' Hk') "H". by iFrame.
    - xstep. assert (pos = length xs) as -> by lia. rewrite fvecP_eq. iDestruct "H" as "(_&_&H)".
      iApply (xwp_wand with "[H]").
      { iApply (xwp_f_fill fuel emp%I (good_of r x) (lv xs) n r x v k); rewrite ?lv_length //.
        - unfold gap in Hk. lia.
        - unfold gap in Hk. lia.
        - apply good_stable.
        - by apply (rok_frefers v xs).
        - by apply (good_frefers v xs).
        - by iFrame. }
      iSplit; [iIntros (m f' a) "[]"|]. iIntros (m) "H". iApply half_torn; [|iExact "H"]. rewrite lv_length. unfold gap in Hk. lia.
  Qed.
  Lemma xwp_f_insert_range_torn fuel v xs pos g vs F k :
    pos ≤ length xs → vs ≠ [] → N < fuel → rlen g = length vs → rng_ok F g vs →
    k < moved xs pos (length vs) + gap N pos (length vs) →
    fvecP N v xs ∗ F ⊢ xwp (xf_insert_range N fuel pos g) v (Some k) (λ _ _ _, False) (λ v', ftorn v' ∗ True).
  Proof.
    iIntros (Hpos Hn Hf Hlen Hg Hk) "[H HF]". iDestruct (fvecP_last with "H") as %[Hl Hc]. unfold xf_insert_range.
    assert (0 < length vs) as Hne by (destruct vs; [done|simpl; lia]).
    rewrite Hlen. set (n := length vs) in *.
    assert (moved xs pos n = (N - pos - n) `min` (length xs - pos)) as Hmv.
    { unfold moved. rewrite take_length drop_length. done. }
    dF. xstep. xstep. rewrite Hl. destruct (decide (pos < length xs)) as [Hp|Hp].
    - xstep. iApply (xwp_f_make_room with "H"); [done|done|done|]. iSplit.
      + iIntros (v' k' (->&Hk1&->)) "H". xstep. xstep. xstep.
        assert (pos = length (lv (take pos xs))) as Hlp by (rewrite lv_length take_length; lia).
        iApply (xwp_wand with "[H HF]").
        { iApply (xwp_f_put_range fuel F (lv (take pos xs)) g vs with "[H HF]"); rewrite -?Hlp.
          - done.
          - unfold gap in Hk. lia.
          - unfold gap in Hk. fold n. lia.
          - done.
          - iFrame "HF". iExact "H". }
        iSplit; [iIntros (m f' a) "[]"|]. iIntros (m) "(->&HF&H)". rewrite -Hlp.
        iApply (hole_torn pos F v xs n (k - moved xs pos n) with "[$H $HF]"); [lia| | | |done|done|done]; unfold gap in *; lia.
      + iIntros (v' Hk') "H". by iFrame.
    - xstep. assert (pos = length xs) as -> by lia. rewrite fvecP_eq. iDestruct "H" as "(_&_&H)".
      iApply (xwp_wand with "[H HF]").
      { iApply (xwp_f_append fuel F (lv xs) g vs v k); rewrite ?lv_length //.
        - unfold gap in Hk. lia.
        - fold n. unfold gap in Hk. lia.
        - by iFrame. }
      iSplit; [iIntros (m f' a) "[]"|]. iIntros (m) "H". iApply half_torn; [|iExact "H"]. rewrite lv_length. unfold gap in Hk. lia.
  Qed.
  Lemma xwp_f_resize_torn fuel v xs n k :
    N < fuel → k < n `min` N - length xs →
    fvecP N v xs ⊢ xwp (xf_resize N dflt fuel n) v (Some k) (λ _ _ _, False) (λ v', ftorn v' ∗ True).
  Proof.
    iIntros (Hf Hk) "H". iDestruct (fvecP_last with "H") as %[Hl Hc]. unfold xf_resize. xstep. xstep.
    unfold fv_size. rewrite Hl. dF. xstep.
    assert ((if decide (N < n) then N else n) = n `min` N) as -> by (destruct (decide _); lia).
    iApply (xwp_wand with "[H]").
    { iApply (xwp_f_insert_n_torn with "H"); [lia| |done|done|done|].
      - lia.
      - unfold moved, gap. rewrite take_length drop_length. lia. }
    iSplit; [iIntros (m f' a) "[]"|]. iIntros (m) "H". done.
  Qed.
  Lemma xwp_f_erase_torn fuel v xs i j k :
    N < fuel → i < j ≤ length xs → k < length xs - j →
    fvecP N v xs ⊢ xwp (xf_erase_range fuel i j) v (Some k) (λ _ _ _, False) (λ v', ftorn v' ∗ True).
  Proof.
    iIntros (Hf Hij Hk) "H". iDestruct (fvecP_eq with "H") as "(%Hl&%Hc&H)". unfold xf_erase_range. xstep. xstep. xstep. xstep.
    pose proof (slice_length i j xs ltac:(lia)) as Hsl.
    assert (lv xs = lv (take i xs) ++ lv (slice i j xs) ++ lv (drop j xs)) as Heq.
    { rewrite {1}(slice_split i j xs ltac:(lia)) !lv_app //. }
    rewrite Heq -!app_assoc.
    iApply (wp_wand with "[H]").
    { iApply (wp_destroy_range fuel _ (lv (take i xs)) (slice i j xs) with "H"); rewrite ?lv_length ?Hsl ?take_length; lia. }
    iIntros ([]) "H". rewrite Hsl. xstep.
    iApply (xwp_wand with "[H]").
    { iApply (xwp_shift_down with "H"); rewrite ?lv_length ?take_length ?drop_length; lia. }
    iSplit.
    - iIntros (m f' a) "[%Hm ?]". exfalso. rewrite drop_length in Hm. lia.
    - iIntros (m) "[%Hm H]". destruct Hm as [-> Hm]. rewrite drop_length in Hm. iSplitL; [|done].
      iApply (ftorn_intro v _ _ (i + k) with "H"); [|lia|lia| |done].
      + rewrite app_assoc lookup_app_r; rewrite app_length !lv_length !take_length drop_length; [|lia].
        replace (_ - _) with 0 by lia. destruct (j - i) eqn:?; [lia|]. by rewrite raw_S.
      + rewrite !app_length !lv_length !raw_length !take_length !drop_length. lia.
  Qed.
  Lemma xwp_f_clear fuel v xs f Q E :
    N < fuel →
    fvecP N v xs -∗ (∀ v', ⌜fv_p v' = fv_p v⌝ → ⌜fv_last v' = 0⌝ → blk (fv_p v') ([] ++ raw (N - length (A:=option V) [])) -∗ Q v' f tt) -∗ xwp (xf_clear fuel) v f Q E.
  Proof.
    iIntros (Hf) "H HQ". iDestruct (fvecP_last with "H") as %[Hl Hc]. unfold xf_clear. xstep. xstep. xstep. xstep.
    iApply (wp_wand with "[H]"); [by iApply (wp_fv_clear with "H"); lia|]. iIntros (v') "[%Hb H]". xstep.
    iDestruct (fvecP_eq with "H") as "(%Hl'&_&H)". iApply ("HQ" with "[] [] H"); [|done]. by rewrite /fv_p Hb.
  Qed.
  Lemma xwp_f_assign_n_torn fuel v xs n x k :
    N < fuel → k < n `min` N →
    fvecP N v xs ⊢ xwp (xf_assign_n N fuel n (VExt x)) v (Some k) (λ _ _ _, False) (λ v', ftorn v' ∗ True).
  Proof.
    iIntros (Hf Hk) "H". unfold xf_assign_n. xstep. iApply (xwp_f_clear with "H"); [done|]. iIntros (v' Hp Hl) "H".
    iApply (xwp_wand with "[H]").
    { iApply (xwp_f_fill fuel emp%I (λ _, True%type) [] n _ x v' k); simpl; [done|lia|lia|done|apply rok_ext|done|by iFrame]. }
    iSplit; [iIntros (m f' a) "[]"|]. iIntros (m) "H". iApply half_torn; [|iExact "H"]. simpl. lia.
  Qed.
  Lemma xwp_f_assign_range_torn fuel v xs g vs F k :
    N < fuel → k < length vs `min` N → rng_ok F g vs →
    fvecP N v xs ∗ F ⊢ xwp (xf_assign_range N fuel g) v (Some k) (λ _ _ _, False) (λ v', ftorn v' ∗ True).
  Proof.
    iIntros (Hf Hk Hg) "[H HF]". unfold xf_assign_range. xstep. iApply (xwp_f_clear with "H"); [done|]. iIntros (v' Hp Hl) "H".
    iApply (xwp_wand with "[H HF]").
    { iApply (xwp_f_append fuel F [] g vs v' k); simpl; [done|lia|lia|done|by iFrame]. }
    iSplit; [iIntros (m f' a) "[]"|]. iIntros (m) "H". iApply half_torn; [|iExact "H"]. simpl. lia.
  Qed.
  Lemma xwp_f_assign_torn fuel v xs other ys k :
    N < fuel → k < length ys →
    fvecP N v xs ∗ fvecP N other ys ⊢ xwp (xf_assign fuel other) v (Some k) (λ _ _ _, False) (λ v', ftorn v' ∗ True).
  Proof.
    iIntros (Hf Hk) "[H Ho]". iDestruct (fvecP_eq with "Ho") as "(%Hlo&%Hco&Ho)".
    unfold xf_assign. xstep. iApply (xwp_f_clear with "H"); [done|]. iIntros (v' Hp Hl) "H".
    iApply (xwp_wand with "[H Ho]").
    { iApply (xwp_f_copy_end fuel (fv_p other) [] ys (raw (N - length ys)) [] 0 (fv_last other) v' k); simpl; try lia. iFrame. }
    iSplit; [iIntros (m f' a) "[]"|]. iIntros (m) "H". iApply half_torn; [|iExact "H"]. simpl. lia.
  Qed.
End fixed.
