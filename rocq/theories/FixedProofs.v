(** fixed_vector: every operation, verified in the logic of Sep.v. Proof file. *)
From Verif Require Export FixedSpec VecProofs HistoryXLogic.
From iris.proofmode Require Import tactics.

Global Arguments fv_p : simpl never.
Section fixp.
  Context {V : Type} `{Allocator (list (option V))} (N : nat) (dflt : V).
  Notation block := (list (option V)).
  Notation iProp := (bi_car (hpropI block)).
  Implicit Types (v : fvec) (xs ys vs : list V) (n i j : nat) (x : V) (F : iProp).

  (** the vector view of a fixed_vector *)
  Definition asv v : tvec := Vec (fv_p v) (fv_last v) N.
  Definition fvecP v xs : iProp := vecP (asv v) xs N.
  Lemma fvec_holds v xs : Sep.plain (is_fvec N v xs) ⊣⊢ fvecP v xs.
  Proof.
    unfold fvecP, vecP, is_fvec. rewrite lv_eq raw_eq. simpl.
    apply bi.equiv_entails; split; apply hentails_intro; intros σ.
    + intros (?&?&->)%plain_holds. repeat (apply hand_unfold; split; [done|]).
      by apply hpto_unfold.
    + intros Hh. repeat (apply hand_unfold in Hh as [?%hpure_unfold Hh]).
      apply plain_holds. apply hpto_unfold in Hh. split_and!; done.
  Qed.
  Lemma fvecP_eq v xs :
    fvecP v xs ⊣⊢ ⌜fv_last v = length xs⌝ ∧ ⌜length xs ≤ N⌝ ∧
      blk (fv_p v) (lv xs ++ raw (N - length xs)).
  Proof.
    unfold fvecP, vecP. simpl. iSplit.
    - iIntros "(%&_&%&H)". by do 2 (iSplit; [done|]).
    - iIntros "(%&%&H)". by do 3 (iSplit; [done|]).
  Qed.
  Lemma fvecP_last v xs : fvecP v xs ⊢ ⌜fv_last v = length xs ∧ length xs ≤ N⌝.
  Proof. rewrite fvecP_eq. iIntros "(%&%&_)". done. Qed.
  Lemma rok_frefers v xs r x F : frefers v xs r x → rok F (fv_p v) (good_of r x) r x.
  Proof.
    destruct r as [y|p j]; simpl; [intros ->; apply rok_ext|]. intros [-> Hj].
    apply rok_own. done.
  Qed.
  Lemma good_frefers v xs r x b' : frefers v xs r x → good_of r x (lv xs ++ b').
  Proof.
    destruct r as [y|p j]; simpl; [done|]. intros [-> Hj].
    rewrite lookup_app_l; [by apply lv_lookup|]. rewrite lv_length. by eapply lookup_lt_Some.
  Qed.

  Lemma wp_fv_new : ⊢ wp (fv_new N) (λ v, fvecP v []).
  Proof.
    iStartProof. unfold fv_new. wstep. wstep. wstep. rewrite fvecP_eq. iSplit; [done|].
    iSplit; [iPureIntro; simpl; lia|]. rewrite lv_nil Nat.sub_0_r raw_eq. done.
  Qed.
  Lemma wp_fv_clear fuel v xs :
    length xs < fuel →
    fvecP v xs ⊢ wp (fv_clear fuel v) (λ v', ⌜fv_buf v' = fv_buf v⌝ ∧ fvecP v' []).
  Proof.
    unfold fv_clear. revert fuel v. induction xs as [|x xs IH] using rev_ind; intros fuel v Hf;
      rewrite fvecP_eq; iIntros "(%Hl&%Hc&H)"; (destruct fuel as [|fuel]; [lia|]); cbn [loop]; wstep; unfold fv_empty.
    - rewrite bool_decide_true //. wstep. wstep. iSplit; [done|]. rewrite fvecP_eq. by do 2 (iSplit; [done|]).
    - rewrite app_length /= Nat.add_1_r in Hl Hc Hf |- *. rewrite bool_decide_false; [|lia].
      rewrite Hl. wstep. iApply wp_pred. wstep. rewrite lv_app lv_cons lv_nil -app_assoc /=.
      iApply (wp_destroy_at with "H"); [apply lookup_mid; by rewrite lv_length|].
      rewrite insert_mid; [|by rewrite lv_length]. iIntros "H". wstep.
      iApply (wp_wand with "[H]").
      { iApply (IH fuel (fv_set_last v (length xs))); [lia|]. rewrite fvecP_eq.
        do 2 (iSplit; [iPureIntro; simpl; lia|]).
        rewrite -raw_S. by replace (S (N - S (length xs))) with (N - length xs) by lia. }
      iIntros (v') "[% H]". by iSplit.
  Qed.
  Lemma wp_fv_destroy fuel v xs :
    length xs < fuel → fvecP v xs ⊢ wp (fv_destroy fuel v) (λ _, emp).
  Proof.
    iIntros (Hf) "H". unfold fv_destroy. wstep.
    iApply (wp_wand with "[H]"); [by iApply (wp_fv_clear with "H")|].
    iIntros (v') "[_ H]". iDestruct (fvecP_eq with "H") as "(_&_&H)". rewrite lv_nil.
    by iApply (wp_free_buf with "H").
  Qed.

  (** one element at the end *)
  Lemma wp_fv_one v xs r x F good (B : Type) (k : fvec → M (gmap loc block) B) Q :
    length xs < N → rok F (fv_p v) good r x → good (lv xs ++ raw (N - length xs)) →
    fvecP v xs -∗ F -∗
    (fvecP (fv_set_last v (S (fv_last v))) (xs ++ [x]) -∗ F -∗ wp (k (fv_set_last v (S (fv_last v)))) Q) -∗
    wp (let! x := deref r in construct (fv_p v) (fv_last v) x ;! k (fv_set_last v (S (fv_last v)))) Q.
  Proof.
    iIntros (Hlt Hr Hg) "H HF HQ". rewrite !fvecP_eq. iDestruct "H" as "(%Hl&%Hc&H)". wstep.
    iApply (Hr with "HF H"); [done|]. iIntros "HF H". wstep.
    destruct (N - length xs) as [|m] eqn:E; [lia|]. rewrite raw_S.
    iApply (wp_construct with "H"); [apply lookup_mid; by rewrite lv_length|].
    rewrite insert_mid; [|by rewrite lv_length]. iIntros "H". iApply ("HQ" with "[H] HF").
    rewrite app_length /=. do 2 (iSplit; [iPureIntro; lia|]).
    rewrite lv_app -app_assoc lv_cons lv_nil /=.
    by replace (N - (length xs + 1)) with m by lia.
  Qed.
  Lemma fv_full_spec v xs : fvecP v xs ⊢ ⌜fv_full N v = bool_decide (length xs = N)⌝.
  Proof. iIntros "H". iDestruct (fvecP_last with "H") as %[Hl ?]. by rewrite /fv_full Hl. Qed.
  Lemma good_snoc (good : block → Prop) xs x :
    stable good → length xs < N → good (lv xs ++ raw (N - length xs)) →
    good (lv (xs ++ [x]) ++ raw (N - length (xs ++ [x]))).
  Proof.
    intros Hst Hlt Hg. rewrite app_length /=. destruct (N - length xs) as [|m] eqn:E; [lia|].
    replace (N - (length xs + 1)) with m by lia.
    rewrite lv_app -app_assoc lv_cons lv_nil /=. rewrite raw_S in Hg.
    rewrite -(insert_mid (lv xs) (raw m) None (Some x) (length (lv xs))) //. apply Hst; [done|].
    by apply lookup_mid.
  Qed.

  Lemma wp_fv_fill fuel v xs n r x F good :
    N - length xs < fuel → stable good → rok F (fv_p v) good r x →
    good (lv xs ++ raw (N - length xs)) →
    fvecP v xs ∗ F ⊢ wp (fv_fill N fuel v n r) (λ v',
      ⌜fv_buf v' = fv_buf v⌝ ∧ fvecP v' (take N (xs ++ replicate n x)) ∗ F).
  Proof.
    intros Hf Hst. unfold fv_fill. revert fuel n v xs Hf.
    induction fuel as [|fuel IH]; intros n v xs Hf Hr Hg; [lia|].
    iIntros "[H HF]". cbn [loop]. wstep.
    iDestruct (fv_full_spec with "H") as %Hfu. iDestruct (fvecP_last with "H") as %[Hl Hc].
    destruct n as [|n]; [|rewrite Hfu; destruct (bool_decide_reflect (length xs = N)) as [Hful|Hful]].
    - wstep. wstep. iSplit; [done|]. simpl. rewrite app_nil_r take_ge //. iFrame.
    - wstep. wstep. iSplit; [done|]. rewrite take_app_alt //. iFrame.
    - iApply (wp_fv_one v xs r x F good _ (λ v', ret (inl (n, v'))) with "H HF"); [lia|done|done|]. iIntros "H HF". wstep.
      iApply (wp_wand with "[H HF]").
      { iApply (IH n _ (xs ++ [x])); [rewrite app_length /=; lia|done|apply good_snoc; [done|lia|done]|iFrame]. }
      iIntros (v') "[% H]". iSplit; [done|]. rewrite -app_assoc. iFrame.
  Qed.
  Lemma wp_fv_append fuel v xs g vs F :
    N - length xs < fuel → rng_ok F g vs →
    fvecP v xs ∗ F ⊢ wp (fv_append N fuel v g) (λ v',
      ⌜fv_buf v' = fv_buf v⌝ ∧ fvecP v' (take N (xs ++ vs)) ∗ F).
  Proof.
    intros Hf. unfold fv_append. revert fuel v xs g Hf.
    induction vs as [|x vs IH]; intros fuel v xs g Hf Hg; (destruct fuel as [|fuel]; [lia|]);
      iIntros "[H HF]"; cbn [loop]; wstep; simpl in Hg;
      iDestruct (fv_full_spec with "H") as %Hfu; iDestruct (fvecP_last with "H") as %[Hl Hc].
    - rewrite Hg. wstep. wstep. iSplit; [done|]. rewrite app_nil_r take_ge //. iFrame.
    - destruct Hg as (r&g'&Hg&Hr&Hg'). rewrite Hg Hfu.
      destruct (bool_decide_reflect (length xs = N)) as [Hful|Hful].
      + wstep. wstep. iSplit; [done|]. rewrite take_app_alt //. iFrame.
      + iApply (wp_fv_one v xs r x F (λ _, True%type) _ (λ v', ret (inl (v', g'))) with "H HF"); [lia|apply Hr|done|]. iIntros "H HF". wstep.
        iApply (wp_wand with "[H HF]").
        { iApply (IH fuel _ (xs ++ [x]) g'); [rewrite app_length /=; lia|done|iFrame]. }
        iIntros (v') "[% H]". iSplit; [done|]. rewrite -app_assoc. iFrame.
  Qed.

  Lemma wp_fv_new_n fuel n x :
    N < fuel → ⊢ wp (fv_new_n N fuel n (VExt x)) (λ v, fvecP v (take N (replicate n x))).
  Proof.
    intros Hf. iStartProof. unfold fv_new_n. wstep.
    iApply (wp_wand with "[]"); [by iApply wp_fv_new|]. iIntros (v) "H".
    iApply (wp_wand with "[H]").
    { iApply (wp_fv_fill fuel v [] n _ x emp%I (λ _, True%type) with "[$H]"); [simpl; lia|done|apply rok_ext|done]. }
    iIntros (v') "(_&H&_)". done.
  Qed.
  Lemma wp_fv_new_range fuel g vs F :
    N < fuel → rng_ok F g vs →
    F ⊢ wp (fv_new_range N fuel g) (λ v, fvecP v (take N vs) ∗ F).
  Proof.
    iIntros (Hf Hg) "HF". unfold fv_new_range. wstep.
    iApply (wp_wand with "[]"); [by iApply wp_fv_new|]. iIntros (v) "H".
    iApply (wp_wand with "[H HF]").
    { iApply (wp_fv_append fuel v [] g vs F with "[$H $HF]"); [simpl; lia|done]. }
    iIntros (v') "(_&H)". done.
  Qed.
  Lemma rng_all p ys (b : block) : rng_ok (blk p (lv ys ++ b)) (RBuf p 0 (length ys)) ys.
  Proof. apply (rng_buf p [] ys b); simpl; lia. Qed.
  Lemma wp_fv_copy fuel w ys :
    N < fuel → fvecP w ys ⊢ wp (fv_copy N fuel w) (λ v, fvecP v ys ∗ fvecP w ys).
  Proof.
    iIntros (Hf) "Hw". iDestruct (fvecP_eq with "Hw") as "(%Hl&%Hc&Hw)".
    unfold fv_copy. rewrite Hl.
    iApply (wp_wand with "[Hw]"); [by iApply (wp_fv_new_range fuel _ ys with "Hw"); [|apply rng_all]|].
    iIntros (v) "[H Hw]". rewrite take_ge //. iFrame "H". rewrite fvecP_eq. by do 2 (iSplit; [done|]).
  Qed.
  Lemma wp_fv_assign fuel v xs w ys :
    N < fuel →
    fvecP v xs ∗ fvecP w ys ⊢ wp (fv_assign fuel v w) (λ v',
      ⌜fv_buf v' = fv_buf v⌝ ∧ fvecP v' ys ∗ fvecP w ys).
  Proof.
    iIntros (Hf) "[H Hw]". iDestruct (fvecP_last with "H") as %[_ Hcx].
    iDestruct (fvecP_eq with "Hw") as "(%Hlw&%Hcw&Hw)". unfold fv_assign. wstep.
    iApply (wp_wand with "[H]"); [iApply (wp_fv_clear with "H"); lia|].
    iIntros (v') "[%Hv' H]". iDestruct (fvecP_eq with "H") as "(%Hl&_&H)". rewrite Hl Hlw. wstep.
    rewrite lv_nil /= Nat.sub_0_r.
    assert (raw (V:=V) N = raw (length ys) ++ raw (N - length ys)) as ->.
    { rewrite -raw_add. f_equal. lia. }
    iApply (wp_wand with "[H Hw]").
    { iApply (wp_copy_up fuel (fv_p w) (fv_p v') [] ys _ [] with "[$H $Hw]"); simpl; lia. }
    iIntros ([i o]) "[%Hio [Hw H]]". simplify_eq. simpl. wstep.
    iSplit; [done|]. rewrite !fvecP_eq.
    iSplitL "H"; by do 2 (iSplit; [done|]).
  Qed.
  Lemma wp_fv_assign_self fuel v xs :
    N < fuel → fvecP v xs ⊢ wp (fv_assign_self fuel v) (λ v', fvecP v' []).
  Proof.
    iIntros (Hf) "H". iDestruct (fvecP_last with "H") as %[_ Hcx]. unfold fv_assign_self. wstep.
    iApply (wp_wand with "[H]"); [iApply (wp_fv_clear with "H"); lia|].
    iIntros (v') "[%Hv' H]". iDestruct (fvecP_last with "H") as %[Hl _]. wstep. rewrite Hl.
    iApply (wp_wand (A:=nat * nat) _ (λ r, ⌜r = (0, 0)⌝ ∧ fvecP v' [])%I with "[H]").
    { unfold copy_up. destruct fuel; [lia|]. cbn [loop]. wstep. dF. wstep. wstep. by iSplit. }
    iIntros ([i o]) "[%Hio H]". simplify_eq. iDestruct (fvecP_eq with "H") as "(_&%&H)". wstep.
    rewrite fvecP_eq. by do 2 (iSplit; [done|]).
  Qed.
  Lemma wp_fv_assign_n fuel v xs n x :
    N < fuel →
    fvecP v xs ⊢ wp (fv_assign_n N fuel v n (VExt x)) (λ v', fvecP v' (take N (replicate n x))).
  Proof.
    iIntros (Hf) "H". iDestruct (fvecP_last with "H") as %[_ Hcx]. unfold fv_assign_n. wstep.
    iApply (wp_wand with "[H]"); [iApply (wp_fv_clear with "H"); lia|].
    iIntros (v') "[%Hv' H]".
    iApply (wp_wand with "[H]").
    { iApply (wp_fv_fill fuel v' [] n _ x emp%I (λ _, True%type) with "[$H]"); [simpl; lia|done|apply rok_ext|done]. }
    iIntros (v2) "(_&H&_)". done.
  Qed.
  Lemma wp_fv_assign_range fuel v xs g vs F :
    N < fuel → rng_ok F g vs →
    fvecP v xs ∗ F ⊢ wp (fv_assign_range N fuel v g) (λ v', fvecP v' (take N vs) ∗ F).
  Proof.
    iIntros (Hf Hg) "[H HF]". iDestruct (fvecP_last with "H") as %[_ Hcx]. unfold fv_assign_range. wstep.
    iApply (wp_wand with "[H]"); [iApply (wp_fv_clear with "H"); lia|].
    iIntros (v') "[%Hv' H]".
    iApply (wp_wand with "[H HF]").
    { iApply (wp_fv_append fuel v' [] g vs F with "[$H $HF]"); [simpl; lia|done]. }
    iIntros (v2) "(_&H)". done.
  Qed.
  Lemma wp_fv_push_back v xs r x :
    frefers v xs r x →
    fvecP v xs ⊢ wp (fv_push_back N v r) (λ v',
      ⌜fv_buf v' = fv_buf v⌝ ∧ fvecP v' (take N (xs ++ [x]))).
  Proof.
    iIntros (Hr) "H". iDestruct (fvecP_last with "H") as %[Hl Hcx].
    iDestruct (fv_full_spec with "H") as %Hfu. unfold fv_push_back. rewrite Hfu.
    destruct (bool_decide_reflect (length xs = N)) as [Hful|Hful].
    - wstep. iSplit; [done|]. rewrite take_app_alt //.
    - iApply (wp_fv_one v xs r x emp%I (good_of r x) _ ret with "H []"); [lia|by eapply rok_frefers|by eapply good_frefers|done|].
      iIntros "H _". wstep. iSplit; [done|]. rewrite take_ge //. rewrite app_length /=; lia.
  Qed.
  Lemma wp_fv_pop_back v xs x :
    fvecP v (xs ++ [x]) ⊢ wp (fv_pop_back v) (λ v', ⌜fv_buf v' = fv_buf v⌝ ∧ fvecP v' xs).
  Proof.
    rewrite fvecP_eq.
    iIntros "(%Hl&%Hc&H)". unfold fv_pop_back. rewrite app_length /= Nat.add_1_r in Hl Hc |- *.
    rewrite Hl. wstep. iApply wp_pred. wstep. rewrite lv_app lv_cons lv_nil -app_assoc /=.
    iApply (wp_destroy_at with "H"); [apply lookup_mid; by rewrite lv_length|].
    rewrite insert_mid; [|by rewrite lv_length]. iIntros "H". wstep. iSplit; [done|].
    rewrite fvecP_eq. simpl. do 2 (iSplit; [iPureIntro; lia|]). rewrite -raw_S.
    by replace (S (N - S (length xs))) with (N - length xs) by lia.
  Qed.

  (** *** insert *)
  Lemma wp_fv_cut fuel v b ys c o i p :
    p = length b → i = length b + length ys → length ys < fuel →
    blk (fv_p v) (b ++ lv ys ++ c) ⊢
    wp (fv_cut N fuel v o i p) (λ r, ⌜r = (o - (o - N) `min` length ys, i - (o - N) `min` length ys)⌝ ∧
      blk (fv_p v) (b ++ lv (take (length ys - (o - N) `min` length ys) ys) ++
                    raw ((o - N) `min` length ys) ++ c)).
  Proof.
    intros ->. unfold fv_cut. revert fuel c o i. induction ys as [|y ys IH] using rev_ind; intros fuel c o i -> Hf;
      iIntros "H"; (destruct fuel as [|fuel]; [simpl in Hf; lia|]); cbn [loop]; wstep.
    - dF. wstep. wstep. rewrite Nat.min_0_r raw_0 take_nil lv_nil. iSplit; [iPureIntro; f_equal; simpl; lia|done].
    - destruct (decide _) as [[Ho Hi]|Hn].
      + rewrite app_length /= in Hf Hi |- *.
        replace (length b + (length ys + 1)) with (S (length b + length ys)) by lia.
        wstep. iApply wp_pred. wstep. rewrite lv_app lv_cons lv_nil -app_assoc /= app_assoc.
        iApply (wp_destroy_at with "H"); [apply lookup_mid; by rewrite app_length lv_length|].
        rewrite insert_mid; [|by rewrite app_length lv_length]. iIntros "H". wstep.
        destruct o as [|o]; [lia|]. iApply wp_pred. wstep. rewrite -app_assoc.
        iApply (wp_wand with "[H]"); [iApply (IH fuel (None :: c) o with "H"); lia|].
        iIntros (r) "[-> H]". 
        assert ((S o - N) `min` (length ys + 1) = S ((o - N) `min` length ys)) as -> by lia.
        iSplit; [iPureIntro; f_equal; lia|].
        rewrite raw_S_end -!app_assoc /=.
        rewrite take_app_le; [|lia].
        by replace (length ys + 1 - S ((o - N) `min` length ys)) with
          (length ys - (o - N) `min` length ys) by lia.
      + rewrite app_length /= in Hf Hn |- *. wstep. wstep.
        assert ((o - N) `min` (length ys + 1) = 0) as -> by lia.
        rewrite !Nat.sub_0_r raw_0 take_ge; [|rewrite app_length /=; lia]. by iSplit.
  Qed.
  Definition gap (pos n : nat) : nat := n `min` (N - pos).
  Lemma wp_fv_make_room fuel v xs pos n :
    pos < length xs → 0 < n → N < fuel →
    fvecP v xs ⊢ wp (fv_make_room N fuel v pos n) (λ v',
      ⌜v' = fv_set_last v (N `min` (length xs + n))⌝ ∧
      blk (fv_p v) (lv (take pos xs) ++ raw (gap pos n) ++
        lv (take (N - pos - n) (drop pos xs)) ++ raw (N - (length xs + n)))).
  Proof.
    rewrite fvecP_eq. iIntros (Hpos Hn Hf) "(%Hl&%Hc&H)". unfold fv_make_room. rewrite Hl.
    assert (lv xs = lv (take pos xs) ++ lv (drop pos xs)) as Hsp by rewrite -lv_app take_drop //.
    rewrite Hsp -app_assoc. wstep.
    assert (pos = length (lv (take pos xs))) as Hp.
    { rewrite lv_length take_length. lia. }
    iApply (wp_wand with "[H]").
    { iApply (wp_fv_cut fuel v _ (drop pos xs) _ (length xs + n) (length xs) pos with "H");
       rewrite ?lv_length ?take_length ?drop_length; lia. }
    iIntros ([o i]) "[%Hoi H]". rewrite drop_length in Hoi |- *.
    set (k := (length xs + n - N) `min` (length xs - pos)) in *.
    set (ys := take (length xs - pos - k) (drop pos xs)).
    assert (length ys = length xs - pos - k) as Hys.
    { unfold ys. rewrite take_length drop_length. lia. }
    simplify_eq.
    assert ((if decide (N < length xs + n - k) then N else length xs + n - k) = N `min` (length xs + n)) as ->.
    { unfold k. destruct (decide _); lia. }
    assert (take (N - pos - n) (drop pos xs) = ys) as ->.
    { unfold ys. destruct (decide (length xs + n ≤ N)).
      - rewrite !take_ge ?drop_length //; unfold k; lia.
      - f_equal. unfold k. lia. }
    wstep. cbn [fv_p fv_buf fv_set_last]. change (Some (fv_buf v)) with (fv_p v).
    rewrite -raw_add.
    iApply (wp_wand _ (λ _, blk (fv_p v) (lv (take pos xs) ++ raw (gap pos n) ++
        lv ys ++ raw (N - (length xs + n)))) with "[H]").
    { destruct (decide (length xs - pos - k = 0)) as [Hz|Hz].
      - unfold shift_up. destruct fuel; [lia|]. cbn [loop]. wstep. dF. wstep. wstep.
        rewrite -Hys in Hz. apply nil_length_inv in Hz. rewrite Hz lv_nil /=.
        rewrite -raw_add. by replace (gap pos n + (N - (length xs + n))) with (k + (N - length xs))
          by (unfold gap, k; lia).
      - assert (k = length xs + n - N) as Hk by lia.
        assert (k + (N - length xs) = n + (N - (length xs + n))) as -> by lia. rewrite raw_add.
        assert (gap pos n = n) as ->. { unfold gap. lia. }
        iApply (wp_shift_up with "H"); lia. }
    iIntros (_) "H". wstep. by iSplit.
  Qed.
  Lemma take_ins pos vs xs :
    pos ≤ length xs → length xs ≤ N →
    take N (ins pos vs xs) = take pos xs ++ take (N - pos) vs ++ take (N - pos - length vs) (drop pos xs).
  Proof.
    intros Hp Hc. unfold ins. rewrite take_app_ge take_length; [|lia].
    replace (N - pos `min` length xs) with (N - pos) by lia. f_equal.
    destruct (decide (N - pos ≤ length vs)).
    - rewrite take_app_le //. replace (N - pos - length vs) with 0 by lia. rewrite take_0 app_nil_r //.
    - rewrite take_app_ge; [|lia]. rewrite (take_ge vs) //; lia.
  Qed.
  Lemma wp_fv_put_n fuel v F good b n c x r o :
    o = length b →
    length b ≤ N → N - length b < fuel → stable good → rok F (fv_p v) good r x →
    good (b ++ raw (gap (length b) n) ++ c) →
    F ∗ blk (fv_p v) (b ++ raw (gap (length b) n) ++ c) ⊢
    wp (fv_put_n N fuel v o n r) (λ _,
      F ∗ blk (fv_p v) (b ++ lv (take (N - length b) (replicate n x)) ++ c)).
  Proof.
    intros -> Hb Hf Hst Hr. unfold fv_put_n. revert n b Hb Hf.
    induction fuel as [|fuel IH]; intros n b Hb Hf Hg; [lia|]. iIntros "[HF H]". cbn [loop]. wstep.
    destruct n as [|n].
    - wstep. wstep. unfold gap. rewrite Nat.min_0_l raw_0 /= take_nil lv_nil. iFrame.
    - destruct (decide _) as [Hlt|Hge].
      + unfold gap in Hg |- *. destruct (N - length b) as [|m] eqn:E; [lia|].
        change (S n `min` S m) with (S (n `min` m)) in Hg |- *. rewrite raw_S in Hg |- *.
        wstep. iApply (Hr with "HF H"); [done|]. iIntros "HF H". wstep.
        iApply (wp_construct with "H"); [by apply lookup_mid|]. rewrite insert_mid //. iIntros "H". wstep.
        assert (N - length (b ++ [Some x]) = m) as Hm by (rewrite app_length /=; lia).
        iApply (wp_wand with "[H HF]").
        { replace (S (length b)) with (length (b ++ [Some x])) by (rewrite app_length /=; lia).
          iApply (IH n (b ++ [Some x])); unfold gap; rewrite ?Hm.
          - rewrite app_length /=. lia.
          - lia.
          - rewrite -app_assoc /=.
            rewrite -(insert_mid b (raw (n `min` m) ++ c) None (Some x) (length b)) //. apply Hst; [done|].
            by apply lookup_mid.
          - rewrite -app_assoc. iFrame. }
        iIntros (_) "[HF H]". iFrame "HF". rewrite Hm /= lv_cons -app_assoc. done.
      + wstep. wstep. unfold gap. replace (N - length b) with 0 by lia.
        rewrite Nat.min_0_r raw_0 take_0 lv_nil. iFrame.
  Qed.
  Lemma wp_fv_put_range fuel v F b g vs c o :
    o = length b →
    length b ≤ N → N - length b < fuel → rng_ok F g vs →
    F ∗ blk (fv_p v) (b ++ raw (gap (length b) (length vs)) ++ c) ⊢
    wp (fv_put_range N fuel v o g) (λ _,
      F ∗ blk (fv_p v) (b ++ lv (take (N - length b) vs) ++ c)).
  Proof.
    intros -> Hb Hf. unfold fv_put_range. revert vs b g Hb Hf.
    induction fuel as [|fuel IH]; intros vs b g Hb Hf Hg; [lia|]. iIntros "[HF H]". cbn [loop]. wstep.
    destruct vs as [|x vs]; simpl in Hg.
    - rewrite Hg. wstep. wstep. unfold gap. rewrite Nat.min_0_l raw_0 /= take_nil lv_nil. iFrame.
    - destruct Hg as (r&g'&Hg&Hr&Hg'). rewrite Hg.
      destruct (decide _) as [Hlt|Hge].
      + unfold gap. destruct (N - length b) as [|m] eqn:E; [lia|]. cbn [length].
        change (S (length vs) `min` S m) with (S (length vs `min` m)). rewrite raw_S.
        wstep. iApply (Hr with "HF H"); [done|]. iIntros "HF H". wstep.
        iApply (wp_construct with "H"); [by apply lookup_mid|]. rewrite insert_mid //. iIntros "H". wstep.
        assert (N - length (b ++ [Some x]) = m) as Hm by (rewrite app_length /=; lia).
        iApply (wp_wand with "[H HF]").
        { replace (S (length b)) with (length (b ++ [Some x])) by (rewrite app_length /=; lia).
          iApply (IH vs (b ++ [Some x]) g'); unfold gap; rewrite ?Hm.
          - rewrite app_length /=. lia.
          - lia.
          - done.
          - rewrite -app_assoc. iFrame. }
        iIntros (_) "[HF H]". iFrame "HF". rewrite Hm /= lv_cons -app_assoc. done.
      + wstep. wstep. unfold gap. replace (N - length b) with 0 by lia.
        rewrite Nat.min_0_r raw_0 take_0 lv_nil. iFrame.
  Qed.
  Lemma fvecP_room v xs pos vs :
    pos < length xs → length xs ≤ N →
    blk (fv_p v) (lv (take pos xs) ++ lv (take (N - pos) vs) ++
        lv (take (N - pos - length vs) (drop pos xs)) ++ raw (N - (length xs + length vs))) ⊢
    fvecP (fv_set_last v (N `min` (length xs + length vs))) (take N (ins pos vs xs)).
  Proof.
    iIntros (Hp Hc) "H". rewrite fvecP_eq. rewrite take_ins //; [|lia].
    rewrite !lv_app -!app_assoc !app_length !take_length drop_length. simpl.
    do 2 (iSplit; [iPureIntro; lia|]).
    by replace (N - (pos `min` length xs + ((N - pos) `min` length vs +
       (N - pos - length vs) `min` (length xs - pos)))) with (N - (length xs + length vs)) by lia.
  Qed.

  (** The general form: [y] is what the reference denotes once the room is made. *)
  Lemma wp_fv_insert_n_gen fuel v xs pos n r y good :
    pos ≤ length xs → 0 < n → N < fuel → stable good → rok emp%I (fv_p v) good r y →
    (if decide (pos < length xs) then
       good (lv (take pos xs) ++ raw (gap pos n) ++
        lv (take (N - pos - n) (drop pos xs)) ++ raw (N - (length xs + n)))
     else good (lv xs ++ raw (N - length xs))) →
    fvecP v xs ⊢ wp (fv_insert_n N fuel v pos n r) (λ q,
      ⌜q.2 = pos⌝ ∧ ⌜fv_buf q.1 = fv_buf v⌝ ∧ fvecP q.1 (take N (ins pos (replicate n y) xs))).
  Proof.
    iIntros (Hpos Hn Hf Hst Hr Hg) "H". iDestruct (fvecP_last with "H") as %[Hl Hc].
    unfold fv_insert_n. dF. rewrite Hl. destruct (decide (pos < length xs)) as [Hp|Hp].
    - wstep. iApply (wp_wand with "[H]"); [by iApply (wp_fv_make_room with "H")|].
      iIntros (v') "[-> H]". wstep.
      assert (pos = length (lv (take pos xs))) as Hpe.
      { rewrite lv_length take_length. lia. }
      iApply (wp_wand with "[H]").
      { iApply (wp_fv_put_n fuel (fv_set_last v (N `min` (length xs + n))) emp%I good _ n _ y r pos Hpe with "[H]");
          rewrite -?Hpe; [lia|lia|done|done|done|].
        iSplitR; [done|]. done. }
      iIntros (_) "[_ H]". wstep. iSplit; [done|]. iSplit; [done|]. simpl. rewrite -Hpe.
      pose proof (fvecP_room v xs pos (replicate n y) Hp Hc) as Hroom. rewrite replicate_length in Hroom.
      by iApply Hroom.
    - wstep. iApply (wp_wand with "[H]").
      { iApply (wp_fv_fill fuel v xs n r y emp%I good with "[$H]"); [lia|done|done|done]. }
      iIntros (v') "(%&H&_)". wstep. simpl. iSplit; [done|]. iSplit; [done|].
      assert (pos = length xs) as -> by lia. by rewrite ins_end.
  Qed.
  Lemma wp_fv_insert_n fuel v xs pos n r x :
    pos ≤ length xs → N < fuel → frefers v xs r x →
    match r with VExt _ => True | VSlot _ j => n = 0 ∨ j < pos ∨ pos = length xs end →
    fvecP v xs ⊢ wp (fv_insert_n N fuel v pos n r) (λ q,
      ⌜q.2 = pos⌝ ∧ ⌜fv_buf q.1 = fv_buf v⌝ ∧ fvecP q.1 (take N (ins pos (replicate n x) xs))).
  Proof.
    intros Hpos Hf Hr Hal. destruct (decide (n = 0)) as [->|Hn].
    { iIntros "H". iDestruct (fvecP_last with "H") as %[Hl Hc]. unfold fv_insert_n. dT. wstep.
      do 2 (iSplit; [done|]). unfold ins. simpl. rewrite take_drop take_ge //. }
    eapply (wp_fv_insert_n_gen _ _ _ _ _ _ _ (good_of r x)); [done|lia|done|apply good_stable|by eapply rok_frefers|].
    destruct r as [|p j]; [by destruct (decide _)|]. destruct Hr as [-> Hj]. pose proof (lookup_lt_Some _ _ _ Hj).
    destruct (decide _) as [Hp|Hp]; simpl.
    - destruct Hal as [?|[?|?]]; [lia| |lia]. rewrite lookup_app_l; [|rewrite lv_length take_length; lia].
      apply lv_lookup. by rewrite lookup_take.
    - rewrite lookup_app_l; [|rewrite lv_length; lia]. by apply lv_lookup.
  Qed.
  Lemma wp_fv_insert_range fuel v xs pos g vs F :
    pos ≤ length xs → N < fuel → rlen g = length vs → rng_ok F g vs →
    fvecP v xs ∗ F ⊢ wp (fv_insert_range N fuel v pos g) (λ q,
      ⌜q.2 = pos⌝ ∧ ⌜fv_buf q.1 = fv_buf v⌝ ∧ fvecP q.1 (take N (ins pos vs xs)) ∗ F).
  Proof.
    iIntros (Hpos Hf Hlen Hg) "[H HF]". iDestruct (fvecP_last with "H") as %[Hl Hc].
    unfold fv_insert_range. rewrite Hlen Hl. destruct (decide (length vs = 0)) as [Hz|Hz].
    { apply nil_length_inv in Hz as ->. wstep.
      do 2 (iSplit; [done|]). unfold ins. simpl. rewrite take_drop take_ge //. iFrame. }
    destruct (decide (pos < length xs)) as [Hp|Hp].
    - wstep. iApply (wp_wand with "[H]"); [iApply (wp_fv_make_room with "H"); lia|].
      iIntros (v') "[-> H]". wstep.
      assert (pos = length (lv (take pos xs))) as Hpe.
      { rewrite lv_length take_length. lia. }
      iApply (wp_wand with "[H HF]").
      { iApply (wp_fv_put_range fuel (fv_set_last v (N `min` (length xs + length vs))) F _ g vs _ pos Hpe with "[H HF]");
          rewrite -?Hpe; [lia|lia|done|].
        iFrame. }
      iIntros (_) "[HF H]". wstep. iSplit; [done|]. iSplit; [done|]. simpl. rewrite -Hpe.
      iFrame "HF". by iApply fvecP_room.
    - wstep. iApply (wp_wand with "[H HF]").
      { iApply (wp_fv_append fuel v xs g vs F with "[$H $HF]"); [lia|done]. }
      iIntros (v') "(%&H)". wstep. simpl. iSplit; [done|]. iSplit; [done|].
      assert (pos = length xs) as -> by lia. by rewrite ins_end.
  Qed.

  Lemma wp_fv_resize fuel v xs n :
    N < fuel →
    fvecP v xs ⊢ wp (fv_resize N dflt fuel v n) (λ v',
      ⌜fv_buf v' = fv_buf v⌝ ∧ fvecP v' (take N (take n xs ++ replicate (n - length xs) dflt))).
  Proof.
    iIntros (Hf) "H". iDestruct (fvecP_last with "H") as %[Hl Hc].
    unfold fv_resize, fv_size. rewrite Hl. destruct (decide _) as [Hn|Hn].
    - iDestruct (fvecP_eq with "H") as "(_&_&H)".
      rewrite -{1}(take_drop n xs) lv_app -app_assoc.
      iApply (wp_wand with "[H]").
      { iApply (wp_destroy_loop (λ l, n < l) (fv_set_last v) fuel _ (lv (take n xs)) (drop n xs)
          _ (length xs) with "H"); rewrite ?lv_length ?take_length ?drop_length; lia. }
      iIntros (v') "[-> H]". rewrite lv_length take_length_le; [|lia]. iSplit; [done|].
      rewrite fvecP_eq. replace (n - length xs) with 0 by lia. simpl.
      rewrite app_nil_r (take_ge (take n xs)) take_length_le; [|lia..]. do 2 (iSplit; [iPureIntro; lia|]).
      rewrite -raw_add drop_length. by replace (length xs - n + (N - length xs)) with (N - n) by lia.
    - wstep. iApply (wp_wand with "[H]").
      { by iApply (wp_fv_insert_n fuel v xs (length xs) _ _ dflt with "H"). }
      iIntros ([v' i]) "(_&%Hb&H)". simpl in *. wstep. iSplit; [done|].
      rewrite ins_end (take_ge xs); [|lia].
      destruct (decide (N < n)) as [Hlt|Hlt]; [|done].
      rewrite (take_ge (xs ++ _)); [|rewrite app_length replicate_length; lia].
      rewrite take_app_ge; [|lia]. rewrite take_replicate. by replace ((N - length xs) `min` (n - length xs)) with (N - length xs) by lia.
  Qed.
  Lemma wp_fv_resize_to fuel v xs n r x :
    N < fuel → frefers v xs r x →
    fvecP v xs ⊢ wp (fv_resize_to N dflt fuel v n r) (λ v',
      ⌜fv_buf v' = fv_buf v⌝ ∧ fvecP v' (take N (take n xs ++ replicate (n - length xs) x))).
  Proof.
    iIntros (Hf Hr) "H". iDestruct (fvecP_last with "H") as %[Hl Hc].
    unfold fv_resize_to, fv_size. rewrite Hl. destruct (decide _) as [Hn|Hn].
    - iApply (wp_wand with "[H]"); [by iApply (wp_fv_resize with "H")|].
      iIntros (v') "[% H]". iSplit; [done|]. by replace (n - length xs) with 0 by lia.
    - wstep. iApply (wp_wand with "[H]").
      { iApply (wp_fv_insert_n fuel v xs (length xs) _ _ x with "H"); try done. destruct r; auto. }
      iIntros ([v' i]) "(_&%Hb&H)". simpl in *. wstep. iSplit; [done|].
      rewrite ins_end (take_ge xs) //. lia.
  Qed.
  Lemma wp_fv_erase_range fuel v xs i j :
    i ≤ j ≤ length xs → i < j ∨ i = length xs → N < fuel →
    fvecP v xs ⊢ wp (fv_erase_range fuel v i j) (λ q,
      ⌜q.2 = i⌝ ∧ ⌜fv_buf q.1 = fv_buf v⌝ ∧ fvecP q.1 (take i xs ++ drop j xs)).
  Proof.
    iIntros (Hij Hok Hf) "H". iDestruct (fvecP_eq with "H") as "(%Hl&%Hc&H)".
    unfold fv_erase_range. rewrite Hl. wstep.
    assert (lv xs = lv (take i xs) ++ lv (slice i j xs) ++ lv (drop j xs)) as Hsp.
    { rewrite {1}(slice_split i j xs) // !lv_app //. }
    pose proof (slice_length i j xs Hij) as Hsl.
    rewrite Hsp -!app_assoc.
    iApply (wp_wand with "[H]").
    { iApply (wp_destroy_range with "H"); rewrite ?Hsl ?lv_length ?take_length; lia. }
    iIntros (_) "H". wstep. rewrite Hsl.
    iApply (wp_wand _ (λ o, ⌜o = (i + (length xs - j))%nat⌝ ∧
      blk (fv_p v) (lv (take i xs) ++ lv (drop j xs) ++ raw (j - i) ++ raw (N - length xs)))%I with "[H]").
    { destruct Hok as [Hlt|Heq].
      - iApply (wp_wand with "[H]").
        { iApply (wp_shift_down with "H"); rewrite ?lv_length ?take_length ?drop_length; lia. }
        iIntros (o) "[-> H]". rewrite drop_length. by iSplit.
      - assert (j = length xs) as -> by lia. rewrite Heq. unfold shift_down.
        destruct fuel; [lia|]. cbn [loop]. wstep. dF. wstep. wstep. rewrite Nat.sub_diag Nat.add_0_r.
        iSplit; [done|]. rewrite raw_0 drop_ge // lv_nil //. }
    iIntros (o) "[-> H]". wstep. iSplit; [done|]. iSplit; [done|]. rewrite fvecP_eq. simpl.
    rewrite app_length take_length drop_length lv_app -app_assoc -raw_add.
    do 2 (iSplit; [iPureIntro; lia|]).
    replace (N - (i `min` length xs + (length xs - j))) with (j - i + (N - length xs)) by lia. done.
  Qed.

  (** *** swap *)
  Lemma wp_swap_bufs fuel p q b xs b' c ys c' :
    length b = length c → length xs = length ys → length xs < fuel →
    blk p (b ++ lv xs ++ b') ∗ blk q (c ++ lv ys ++ c') ⊢
    wp (loop fuel (λ i,
      if decide (i ≠ (length b + length xs)%nat) then swap_slots p i q i ;! ret (inl (S i)) else ret (inr tt)) (length b))
      (λ _, blk p (b ++ lv ys ++ b') ∗ blk q (c ++ lv xs ++ c')).
  Proof.
    revert fuel b c ys. induction xs as [|x xs IH]; intros fuel b c ys Hbc Hl Hf;
      (destruct fuel as [|fuel]; [lia|]); iIntros "[H Hq]"; cbn [loop]; wstep.
    - destruct ys; [|done]. dF. wstep. wstep. iFrame.
    - destruct ys as [|y ys]; [done|]. simpl in Hl, Hf. dT. wstep. unfold swap_slots.
      rewrite !lv_cons. wstep.
      iApply (wp_rd with "H"); [by apply lookup_mid|]. iIntros "H". wstep.
      iApply (wp_rd with "Hq"); [by apply lookup_mid|]. iIntros "Hq". wstep.
      iApply (wp_assign_at with "H"); [by apply lookup_mid|]. rewrite insert_mid //. iIntros "H".
      iApply (wp_assign_at with "Hq"); [by apply lookup_mid|]. rewrite insert_mid //. iIntros "Hq".
      wstep.
      assert (S (length b) = length (b ++ [Some y])) as Hb1 by (rewrite app_length /=; lia).
      assert (length b + length (x :: xs) = length (b ++ [Some y]) + length xs) as Hb2
        by (rewrite app_length /=; lia).
      rewrite Hb1 Hb2.
      iApply (wp_wand with "[H Hq]").
      { iApply (IH fuel (b ++ [Some y]) (c ++ [Some x]) ys); [rewrite !app_length /=; lia|lia|lia|].
        rewrite -!app_assoc. iFrame. }
      iIntros (_) "H". rewrite -!app_assoc. done.
  Qed.
  Lemma wp_fv_swap_ab fuel a b xs ys :
    length xs ≤ length ys → N < fuel →
    fvecP a xs ∗ fvecP b ys ⊢ wp (fv_swap_ab fuel a b (length xs)) (λ r,
      ⌜fv_buf r.1 = fv_buf a⌝ ∧ ⌜fv_buf r.2 = fv_buf b⌝ ∧ fvecP r.1 ys ∗ fvecP r.2 xs).
  Proof.
    iIntros (Hlen Hf) "[H Ho]".
    iDestruct (fvecP_eq with "H") as "(%Hl&%Hc&H)". iDestruct (fvecP_eq with "Ho") as "(%Hlo&%Hco&Ho)".
    set (ya := take (length xs) ys). set (yb := drop (length xs) ys).
    assert (length ya = length xs) as Hya by (unfold ya; rewrite take_length; lia).
    assert (length yb = length ys - length xs) as Hyb by (unfold yb; rewrite drop_length; lia).
    assert (ys = ya ++ yb) as Hys by (unfold ya, yb; by rewrite take_drop).
    unfold fv_swap_ab, swap_bufs. wstep.
    assert (lv ys = lv ya ++ lv yb) as -> by rewrite -lv_app -Hys //. rewrite -app_assoc.
    iApply (wp_wand with "[H Ho]").
    { iApply (wp_swap_bufs fuel _ _ [] xs _ [] ya); [done|done|lia|]. iFrame. }
    iIntros (_) "[H Ho]". simpl. rewrite Hl Hlo. wstep.
    assert (raw (V:=V) (N - length xs) = raw (length yb) ++ raw (N - length ys)) as ->.
    { rewrite -raw_add. f_equal. lia. }
    iApply (wp_wand _ (λ r, ⌜r = (length ys, length ys)⌝ ∧
      blk (fv_p b) (lv xs ++ lv yb ++ raw (N - length ys)) ∗
      blk (fv_p a) (lv ya ++ lv yb ++ raw (N - length ys)))%I with "[H Ho]").
    { assert (∀ zs fu (b1 b2 : block) e al,
        e = length b1 → al = length b2 → length ys = e + length zs → length zs < fu →
        blk (fv_p b) (b1 ++ lv zs ++ raw (N - length ys)) ∗
        blk (fv_p a) (b2 ++ raw (length zs) ++ raw (N - length ys)) ⊢
        wp (loop fu (λ '(e, alast),
        if decide (e < length ys) then
          let! x := rd (fv_p b) e in
          construct (fv_p a) alast x ;!
          ret (inl (S e, S alast))
        else ret (inr (e, alast))) (e, al)) (λ r, ⌜r = (length ys, (al + length zs)%nat)⌝ ∧
          blk (fv_p b) (b1 ++ lv zs ++ raw (N - length ys)) ∗
          blk (fv_p a) (b2 ++ lv zs ++ raw (N - length ys)))) as Hgen.
      { clear. intros zs. induction zs as [|z zs IH]; intros fu b1 b2 e al He Hal Hlz Hfu;
          (destruct fu as [|fu]; [lia|]); iIntros "[Ho H]"; cbn [loop]; wstep; simpl in Hlz, Hfu.
        - dF. wstep. wstep. rewrite raw_0 lv_nil. iSplit; [iPureIntro; f_equal; simpl; lia|iFrame].
        - dT. wstep. rewrite lv_cons raw_S.
          iApply (wp_rd with "Ho"); [by apply lookup_mid|]. iIntros "Ho". wstep.
          iApply (wp_construct with "H"); [by apply lookup_mid|]. rewrite insert_mid //. iIntros "H". wstep.
          iApply (wp_wand with "[H Ho]").
          { iApply (IH fu (b1 ++ [Some z]) (b2 ++ [Some z])); [rewrite ?app_length /=; lia..|].
            rewrite -!app_assoc. iFrame. }
          iIntros (r) "[-> H]". rewrite -!app_assoc. iSplit; [iPureIntro; f_equal; simpl; lia|]. done. }
      iApply (wp_wand with "[H Ho]").
      { iApply (Hgen yb fuel (lv xs) (lv ya)); [rewrite ?lv_length; lia..|iFrame]. }
      iIntros (r) "[-> H]". iSplit; [iPureIntro; f_equal; lia|done]. }
    iIntros ([e al]) "[%Hea [Ho H]]". simplify_eq. wstep.
    iApply (wp_wand with "[Ho]").
    { iApply (wp_destroy_loop (λ l, length xs < l) (λ _, tt) fuel _ (lv xs) yb _ (length ys) with "Ho");
        rewrite ?lv_length; lia. }
    iIntros (u) "[_ Ho]". wstep. cbn [fst snd]. do 2 (iSplit; [done|]). rewrite !fvecP_eq.
    rewrite app_assoc -lv_app -Hys -raw_add. iSplitL "H"; simpl; do 2 (iSplit; [iPureIntro; lia|]).
    - done.
    - by replace (length yb + (N - length ys)) with (N - length xs) by lia.
  Qed.
  Lemma wp_fv_swap fuel a b xs ys :
    length xs ≤ length ys → N < fuel →
    fvecP a xs ∗ fvecP b ys ⊢ wp (fv_swap fuel a b) (λ r,
      ⌜fv_buf r.1 = fv_buf a⌝ ∧ ⌜fv_buf r.2 = fv_buf b⌝ ∧ fvecP r.1 ys ∗ fvecP r.2 xs).
  Proof.
    iIntros (Hlen Hf) "[H Ho]". iDestruct (fvecP_last with "H") as %[Hl Hc].
    iDestruct (fvecP_last with "Ho") as %[Hlo Hco]. unfold fv_swap, fv_size. rewrite Hl Hlo.
    case_bool_decide as Hlt.
    - wstep. rewrite Hl. iApply (wp_wand with "[H Ho]"); [by iApply (wp_fv_swap_ab with "[$H $Ho]")|].
      iIntros ([a' b']) "H". wstep. done.
    - wstep. rewrite Hl. assert (length xs = length ys) as Heq by lia. rewrite Heq.
      iApply (wp_wand with "[H Ho]"); [iApply (wp_fv_swap_ab fuel b a ys xs with "[$H $Ho]"); lia|].
      iIntros ([b' a']) "(%&%&Hb&Ha)". wstep. cbn [fst snd] in *. do 2 (iSplit; [done|]). iFrame.
  Qed.
End fixp.
