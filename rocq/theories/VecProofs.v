(** vector: every operation, verified in the logic of Sep.v. Proof file. *)
From Verif Require Export VecSpec BlockLogic.
From iris.proofmode Require Import tactics.

Section vecp.
  Context {V : Type} `{Allocator (list (option V))} (dflt : V).
  Notation block := (list (option V)).
  Notation iProp := (bi_car (hpropI block)).
  Implicit Types (v : tvec) (xs ys vs : list V) (c n i j : nat) (x : V) (F : iProp).

  Definition vecP v xs c : iProp :=
    ⌜v_last v = length xs⌝ ∧ ⌜v_end v = c⌝ ∧ ⌜length xs ≤ c⌝ ∧
    blk (v_buf v) (lv xs ++ raw (c - length xs)).
  Lemma vec_holds v xs : Sep.plain (is_vec v xs) ⊣⊢ vecP v xs (v_end v).
  Proof.
    unfold vecP, is_vec. rewrite lv_eq raw_eq. destruct v as [[l|] la e]; simpl.
    - apply bi.equiv_entails; split; apply hentails_intro; intros σ.
      + intros (?&?&->)%plain_holds. repeat (apply hand_unfold; split; [done|]).
        by apply hpto_unfold.
      + intros Hh. repeat (apply hand_unfold in Hh as [?%hpure_unfold Hh]).
        apply plain_holds. apply hpto_unfold in Hh. split_and!; done.
    - apply bi.equiv_entails; split; apply hentails_intro; intros σ.
      + intros (?&?&->&->)%plain_holds. simpl in *. repeat (apply hand_unfold; split; [done|]).
        apply hand_unfold. split; [|by apply hemp_unfold]. apply hpure_unfold.
        destruct xs; simpl in *; [done|lia].
      + intros Hh. repeat (apply hand_unfold in Hh as [?%hpure_unfold Hh]).
        apply plain_holds. apply hemp_unfold in Hh. split_and!; try done.
        match goal with H : _ ++ _ = [] |- _ => apply app_eq_nil in H as [Hx Hr] end.
        apply (f_equal length) in Hx, Hr. rewrite fmap_length replicate_length /= in Hx, Hr. lia.
  Qed.
  Lemma vecP_last v xs c : vecP v xs c ⊢ ⌜v_last v = length xs ∧ v_end v = c ∧ length xs ≤ c⌝.
  Proof. iIntros "(%&%&%&_)". done. Qed.

  (** *** References and ranges as arguments *)
  Definition good_of (r : vref V) x : block → Prop := λ b,
    match r with VExt _ => True | VSlot _ j => b !! j = Some (Some x) end.
  Lemma good_stable r x : stable (good_of r x).
  Proof.
    intros b i y Hb Hi. destruct r as [|p j]; simpl in *; [done|].
    rewrite list_lookup_insert_ne; [done|]. intros ->. congruence.
  Qed.
  Lemma true_stable : stable (V:=V) (λ _, True).
  Proof. done. Qed.
  Lemma rok_refers v xs r x F : vrefers v xs r x → rok F (v_buf v) (good_of r x) r x.
  Proof.
    destruct r as [y|p j]; simpl; [intros ->; apply rok_ext|]. intros [-> Hj].
    apply rok_own. done.
  Qed.
  Lemma rok_refers_other v xs r x F q b' :
    vrefers v xs r x → rok (blk (v_buf v) (lv xs ++ b') ∗ F) q (λ _, True) r x.
  Proof.
    destruct r as [y|p j]; simpl; [intros ->; apply rok_ext|]. intros [-> Hj].
    apply rok_other. rewrite lookup_app_l; [by apply lv_lookup|].
    rewrite lv_length. by eapply lookup_lt_Some.
  Qed.
  Lemma good_refers v xs r x b' : vrefers v xs r x → good_of r x (lv xs ++ b').
  Proof.
    destruct r as [y|p j]; simpl; [done|]. intros [-> Hj].
    rewrite lookup_app_l; [by apply lv_lookup|]. rewrite lv_length. by eapply lookup_lt_Some.
  Qed.

  (** *** Operations *)
  Lemma wp_v_new : ⊢ wp v_new (λ v, vecP v [] 0).
  Proof.
    iStartProof. unfold v_new. wstep. do 3 (iSplit; [done|]). simpl. rewrite lv_nil raw_0.
    by iSplit.
  Qed.
  Lemma wp_v_truncate fuel v xs c pos :
    pos ≤ length xs → length xs < fuel →
    vecP v xs c ⊢ wp (v_truncate fuel v pos) (λ v', ⌜v_buf v' = v_buf v⌝ ∧ vecP v' (take pos xs) c).
  Proof.
    iIntros (Hpos Hf) "(%Hl&%He&%Hc&H)". unfold v_truncate. rewrite Hl.
    rewrite -{1}(take_drop pos xs) lv_app -app_assoc.
    iApply (wp_wand with "[H]").
    { iApply (wp_destroy_loop (λ l, pos < l) (v_set_last v) fuel _ (lv (take pos xs)) (drop pos xs)
        _ (length xs) with "H"); rewrite ?lv_length ?take_length ?drop_length; lia. }
    iIntros (v') "[-> H]". rewrite lv_length take_length_le //. iSplit; [done|].
    unfold vecP. simpl. rewrite take_length_le //. do 3 (iSplit; [iPureIntro; lia|]).
    rewrite -raw_add drop_length. replace (length xs - pos + (c - length xs)) with (c - pos) by lia.
    done.
  Qed.
  Lemma wp_v_clear fuel v xs c :
    length xs < fuel →
    vecP v xs c ⊢ wp (v_clear fuel v) (λ v', ⌜v_buf v' = v_buf v⌝ ∧ vecP v' [] c).
  Proof. intros Hf. unfold v_clear. by rewrite (wp_v_truncate fuel v xs c 0 ltac:(lia) Hf). Qed.
  Lemma wp_v_destroy fuel v xs c :
    length xs < fuel → vecP v xs c ⊢ wp (v_destroy fuel v) (λ _, emp).
  Proof.
    iIntros (Hf) "H". unfold v_destroy. wstep.
    iApply (wp_wand with "[H]"); [by iApply (wp_v_clear with "H")|].
    iIntros (v') "[_ (_&_&_&H)]". rewrite lv_nil. by iApply (wp_free_buf with "H").
  Qed.

  Lemma wp_v_reserve fuel v xs c n :
    length xs < fuel →
    vecP v xs c ⊢ wp (v_reserve fuel v n) (λ v', ⌜n < c → v' = v⌝ ∧ vecP v' xs (reserved c n)).
  Proof.
    iIntros (Hf) "(%Hl&%He&%Hc&H)". unfold v_reserve, reserved. destruct (decide _) as [Hn|Hn].
    - wstep. iSplit; [done|]. rewrite He in Hn. replace (c `max` n) with c by lia.
      by do 3 (iSplit; [done|]).
    - rewrite He in Hn. replace (c `max` n) with n by lia.
      wstep. iApply wp_new_buf. iIntros (q Hq) "Hq". wstep.
      replace n with (length xs + (n - length xs)) at 1 by lia. rewrite raw_add.
      iApply (wp_wand with "[H Hq]").
      { iApply (wp_copy_up fuel (v_buf v) q [] xs _ [] with "[$H $Hq]"); simpl; lia. }
      iIntros ([i o]) "[%Hio [H Hq]]". simplify_eq. simpl. wstep.
      iApply (wp_wand with "[H]").
      { iApply (wp_destroy_down with "H"); lia. }
      iIntros (_) "H". rewrite -raw_add. wstep. iApply (wp_free_buf with "H"). wstep.
      iSplit; [iPureIntro; lia|]. unfold vecP. simpl. do 3 (iSplit; [iPureIntro; lia|]). done.
  Qed.

  Lemma wp_v_insert_values fuel v xs c pos vs args F good n :
    n = length vs → pos ≤ length xs → length xs + length vs < fuel → stable good →
    (c < length xs + length vs → ∀ q,
       src_ok (blk (v_buf v) (lv xs ++ raw (c - length xs)) ∗ F) q (λ _, True) args vs) →
    (length xs + length vs ≤ c → src_ok F (v_buf v) good args vs ∧
       (vs ≠ [] → good (lv (take pos xs) ++ raw (length vs) ++ lv (drop pos xs) ++
                        raw (c - length xs - length vs)))) →
    vecP v xs c ∗ F ⊢ wp (v_insert_values fuel v pos n args) (λ r,
      ⌜r.2 = pos⌝ ∧ ⌜length xs + length vs ≤ c → v_buf r.1 = v_buf v⌝ ∧
      vecP r.1 (ins pos vs xs) (grown xs c (length vs)) ∗ F).
  Proof.
    iIntros (-> Hpos Hf Hst Hg Hi) "[(%Hl&%He&%Hc&H) HF]". unfold v_insert_values, grown.
    assert (lv xs = lv (take pos xs) ++ lv (drop pos xs)) as Hsp by rewrite -lv_app take_drop //.
    assert (length (ins pos vs xs) = length xs + length vs) as Hlen.
    { unfold ins. rewrite !app_length take_length drop_length. lia. }
    destruct (decide (0 < length vs)) as [Hn|Hn].
    2:{ wstep. destruct vs; [|simpl in Hn; lia]. dF. unfold ins. simpl.
        rewrite take_drop. iSplit; [done|]. iSplit; [done|]. iFrame.
        by do 3 (iSplit; [done|]). }
    destruct (decide (v_end v - v_last v < length vs)) as [Hgr|Hgr]; rewrite Hl He in Hgr.
    - (* reallocation *)
      dT. specialize (Hg ltac:(lia)). clear Hi. unfold v_size. rewrite Hl.
      wstep. iApply wp_new_buf. iIntros (q Hq) "Hq". wstep.
      assert (raw (V:=V) (length xs + length vs) =
              raw (length (take pos xs)) ++ raw (length vs) ++ raw (length (drop pos xs)) ++ []) as ->.
      { rewrite app_nil_r -!raw_add take_length drop_length. f_equal. lia. }
      iApply (wp_wand with "[H Hq]").
      { rewrite Hsp -app_assoc.
        iApply (wp_copy_up fuel (v_buf v) q [] (take pos xs) _ [] with "[$H $Hq]");
          rewrite /= ?take_length; lia. }
      iIntros ([i o]) "[%Hio [H Hq]]". simplify_eq. simpl.
      rewrite app_assoc -Hsp. wstep.
      iApply (wp_wand with "[H HF Hq]").
      { iApply (wp_vc_loop fuel (blk (v_buf v) (lv xs ++ raw (v_end v - length xs)) ∗ F)%I q (λ _, True%type)
          (lv (take pos xs)) vs with "[$H $HF $Hq]"); rewrite ?lv_length ?take_length //. lia. }
      iIntros (o) "[-> [[H HF] Hq]]". wstep.
      iApply (wp_wand with "[H Hq]").
      { rewrite Hsp -app_assoc. rewrite (app_assoc (lv (take pos xs)) (lv vs)).
        iApply (wp_copy_up fuel (v_buf v) q (lv (take pos xs)) (drop pos xs) _ (lv (take pos xs) ++ lv vs)
          with "[$H $Hq]"); rewrite ?app_length ?lv_length ?take_length ?drop_length; lia. }
      iIntros ([i o]) "[%Hio [H Hq]]". simplify_eq. rewrite !app_assoc -lv_app take_drop. wstep.
      iApply (wp_wand with "[H]").
      { iApply (wp_destroy_down with "H"); lia. }
      iIntros (_) "H". rewrite -raw_add. wstep. iApply (wp_free_buf with "H"). wstep. simpl.
      iSplit; [done|]. iSplit; [iPureIntro; lia|]. iFrame "HF". unfold vecP. simpl. rewrite Hlen.
      do 3 (iSplit; [iPureIntro; rewrite ?take_length ?drop_length; lia|]).
      rewrite Nat.sub_diag raw_0 /ins !lv_app -!app_assoc. done.
    - (* in place *)
      dF. destruct (Hi ltac:(lia)) as [Hs Hgood]. clear Hi Hg.
      specialize (Hgood ltac:(intros ->; simpl in *; lia)). subst c.
      assert (raw (V:=V) (v_end v - length xs) =
        raw (length vs) ++ raw (v_end v - length xs - length vs)) as Hraw.
      { rewrite -raw_add. f_equal. lia. }
      assert (∀ la, la = length xs + length vs →
        blk (v_buf v) (lv (take pos xs) ++ lv vs ++ lv (drop pos xs) ++ raw (v_end v - length xs - length vs))
        ⊢ vecP (v_set_last v la) (ins pos vs xs) (v_end v)) as Hfin.
      { intros la ->. iIntros "H". unfold vecP. rewrite Hlen. simpl.
        do 3 (iSplit; [iPureIntro; lia|]). rewrite /ins !lv_app -!app_assoc.
        replace (v_end v - (length xs + length vs)) with (v_end v - length xs - length vs) by lia. done. }
      rewrite Hraw.
      destruct (decide (pos < v_last v)) as [Hp|Hp]; rewrite Hl in Hp |- *.
      + wstep. iApply (wp_wand with "[H]").
        { rewrite Hsp -app_assoc.
          iApply (wp_shift_up with "H"); rewrite ?lv_length ?take_length ?drop_length; lia. }
        iIntros (_) "H". wstep.
        iApply (wp_wand with "[H HF]").
        { iApply (wp_vc_loop fuel F _ good with "[$HF $H]"); rewrite ?lv_length ?take_length //; lia. }
        iIntros (o) "[_ [HF H]]". wstep. simpl. iSplit; [done|]. iSplit; [done|]. iFrame "HF".
        iApply (Hfin with "H"). done.
      + wstep. rewrite take_ge ?drop_ge in Hgood |- *; [|lia..]. rewrite lv_nil in Hgood.
        iApply (wp_wand with "[H HF]").
        { iApply (wp_vc_loop fuel F _ good with "[$HF $H]"); rewrite ?lv_length //; lia. }
        iIntros (o) "[-> [HF H]]". wstep. simpl. iSplit; [done|]. iSplit; [done|]. iFrame "HF".
        iApply (Hfin with "[H]"); [done|]. rewrite take_ge ?drop_ge ?lv_nil; [done|lia..].
  Qed.

  (** insert(pos, n, x): an own element is a legal argument unless it is shifted in
      place. *)
  Lemma wp_v_insert_n fuel v xs c pos n r x :
    pos ≤ length xs → length xs + n < fuel → vrefers v xs r x →
    match r with VExt _ => True | VSlot _ j => n = 0 ∨ j < pos ∨ c < length xs + n end →
    vecP v xs c ⊢ wp (v_insert_n fuel v pos n r) (λ q,
      ⌜q.2 = pos⌝ ∧ ⌜length xs + n ≤ c → v_buf q.1 = v_buf v⌝ ∧
      vecP q.1 (ins pos (replicate n x) xs) (grown xs c n)).
  Proof.
    iIntros (Hpos Hf Hr Hal) "H". unfold v_insert_n.
    iApply (wp_wand with "[H]").
    { iApply (wp_v_insert_values fuel v xs c pos (replicate n x) _ emp%I (good_of r x) with "[$H]");
        rewrite ?replicate_length //.
      - apply good_stable.
      - intros _ q. apply src_counter. by eapply rok_refers_other.
      - intros Hle. split; [apply src_counter; by eapply rok_refers|]. intros Hne.
        destruct r as [y|p j]; [done|]. simpl in *. destruct Hr as [-> Hj].
        destruct Hal as [->|[Hlt|]]; [done| |lia].
        rewrite lookup_app_l; [|rewrite lv_length take_length; lia].
        apply lv_lookup. by rewrite lookup_take. }
    rewrite replicate_length. iIntros (q) "(%&%&H&_)". by do 2 (iSplit; [done|]).
  Qed.
  Lemma wp_v_insert_range fuel v xs c pos vs :
    pos ≤ length xs → length xs + length vs < fuel →
    vecP v xs c ⊢ wp (v_insert_range fuel v pos (RVals vs)) (λ q,
      ⌜q.2 = pos⌝ ∧ ⌜length xs + length vs ≤ c → v_buf q.1 = v_buf v⌝ ∧
      vecP q.1 (ins pos vs xs) (grown xs c (length vs))).
  Proof.
    iIntros (Hpos Hf) "H". unfold v_insert_range. simpl.
    iApply (wp_wand with "[H]").
    { iApply (wp_v_insert_values fuel v xs c pos vs _ emp%I (λ _, True%type) with "[$H]"); try done.
      - intros _ q. apply src_vals.
      - intros Hle. split; [apply src_vals|done]. }
    iIntros (q) "(%&%&H&_)". by do 2 (iSplit; [done|]).
  Qed.
  Lemma slice_split j k ys : j ≤ k ≤ length ys → ys = take j ys ++ slice j k ys ++ drop k ys.
  Proof.
    intros Hjk. unfold slice. trans (take j ys ++ drop j ys); [by rewrite take_drop|]. f_equal.
    trans (take (k - j) (drop j ys) ++ drop (k - j) (drop j ys)); [by rewrite take_drop|].
    rewrite drop_drop. do 2 f_equal. lia.
  Qed.
  Lemma slice_length j k ys : j ≤ k ≤ length ys → length (slice j k ys) = k - j.
  Proof. intros. unfold slice. rewrite take_length drop_length. lia. Qed.
  (** The source range is a part of another vector. *)
  Lemma wp_v_insert_other fuel v xs c pos p ys b j k :
    pos ≤ length xs → j ≤ k ≤ length ys → length xs + length ys < fuel →
    vecP v xs c ∗ blk p (lv ys ++ b) ⊢ wp (v_insert_range fuel v pos (RBuf p j k)) (λ q,
      ⌜q.2 = pos⌝ ∧ ⌜length xs + (k - j) ≤ c → v_buf q.1 = v_buf v⌝ ∧
      vecP q.1 (ins pos (slice j k ys) xs) (grown xs c (k - j)) ∗ blk p (lv ys ++ b)).
  Proof.
    iIntros (Hpos Hjk Hf) "[H Hp]". unfold v_insert_range. simpl.
    pose proof (slice_length j k ys Hjk) as Hsl.
    assert (lv ys ++ b = lv (take j ys) ++ lv (slice j k ys) ++ (lv (drop k ys) ++ b)) as Hys.
    { rewrite {1}(slice_split j k ys Hjk) !lv_app -!app_assoc //. }
    iApply (wp_wand with "[H Hp]").
    { iApply (wp_v_insert_values fuel v xs c pos (slice j k ys) _ (blk p (lv ys ++ b)) (λ _, True%type)
        with "[$H $Hp]"); rewrite ?Hsl; try done; try lia.
      - intros _ q.
        eapply (src_ok_equiv (blk p (lv ys ++ b) ∗ blk (v_buf v) (lv xs ++ raw (c - length xs))));
          [by rewrite comm|].
        rewrite {1}Hys. apply src_buf; rewrite ?Hsl ?lv_length ?take_length; lia.
      - intros Hle. split; [|done].
        eapply (src_ok_equiv (blk p (lv ys ++ b) ∗ emp)); [by rewrite right_id|].
        rewrite {1}Hys. apply src_buf; rewrite ?Hsl ?lv_length ?take_length; lia. }
    rewrite Hsl. iIntros (q) "(%&%&H&Hp)". do 2 (iSplit; [done|]). iFrame.
  Qed.

  Lemma wp_v_push_back fuel v xs c r x F good :
    length xs + 1 < fuel → stable good →
    rok F (v_buf v) good r x → good (lv xs ++ raw (c - length xs)) →
    (∀ q, rok (blk (v_buf v) (lv xs ++ raw (c - length xs)) ∗ F) q (λ _, True) r x) →
    vecP v xs c ∗ F ⊢ wp (v_push_back fuel v r) (λ v',
      ⌜length xs < c → v_buf v' = v_buf v⌝ ∧ vecP v' (xs ++ [x]) (grown xs c 1) ∗ F).
  Proof.
    iIntros (Hf Hst Hr Hg Hq) "[(%Hl&%He&%Hc&H) HF]". unfold v_push_back.
    destruct (decide (v_last v < v_end v)) as [Hlt|Hlt].
    - wstep. iApply (Hr with "HF H"); [done|]. iIntros "HF H". wstep.
      rewrite Hl He in Hlt |- *. destruct (c - length xs) as [|k] eqn:E; [lia|]. rewrite raw_S.
      iApply (wp_construct with "H"); [apply lookup_mid; by rewrite lv_length|].
      rewrite insert_mid; [|by rewrite lv_length]. iIntros "H". wstep. iSplit; [done|]. iFrame "HF".
      unfold grown. dF. unfold vecP. simpl. rewrite app_length /=.
      do 3 (iSplit; [iPureIntro; lia|]). rewrite lv_app -app_assoc lv_cons lv_nil /=.
      by replace (c - (length xs + 1)) with k by lia.
    - rewrite Hl He in Hlt. wstep. unfold v_insert_n. rewrite Hl.
      iApply (wp_wand with "[H HF]").
      { iApply (wp_v_insert_values fuel v xs c (length xs) [x] _ F good); simpl; try done; try lia.
        - intros _ q. eexists _, _. split; [done|]. split; [apply Hq|done].
        - iFrame "HF". by do 3 (iSplit; [done|]). }
      iIntros ([v' i]) "(_&_&H&HF)". simpl. wstep. iSplit; [iPureIntro; lia|]. iFrame "HF".
      unfold ins. rewrite take_ge // drop_ge //.
  Qed.
  Lemma wp_v_push_back_ref fuel v xs c r x :
    length xs + 1 < fuel → vrefers v xs r x →
    vecP v xs c ⊢ wp (v_push_back fuel v r) (λ v',
      ⌜length xs < c → v_buf v' = v_buf v⌝ ∧ vecP v' (xs ++ [x]) (grown xs c 1)).
  Proof.
    iIntros (Hf Hr) "H". iApply (wp_wand with "[H]").
    - iApply (wp_v_push_back fuel v xs c r x emp%I (good_of r x)); [done|apply good_stable|by eapply rok_refers|by eapply good_refers| |iFrame].
      intros q. by eapply rok_refers_other.
    - iIntros (v') "(%&H&_)". by iSplit.
  Qed.
  Lemma wp_v_pop_back v xs x c :
    vecP v (xs ++ [x]) c ⊢ wp (v_pop_back v) (λ v', ⌜v_buf v' = v_buf v⌝ ∧ vecP v' xs c).
  Proof.
    iIntros "(%Hl&%He&%Hc&H)". unfold v_pop_back. rewrite app_length /= Nat.add_1_r in Hl Hc |- *.
    rewrite Hl. wstep. iApply wp_pred. wstep. rewrite lv_app lv_cons lv_nil -app_assoc /=.
    iApply (wp_destroy_at with "H"); [apply lookup_mid; by rewrite lv_length|].
    rewrite insert_mid; [|by rewrite lv_length]. iIntros "H". wstep. iSplit; [done|].
    unfold vecP. simpl. do 3 (iSplit; [iPureIntro; lia|]). rewrite -raw_S.
    by replace (S (c - S (length xs))) with (c - length xs) by lia.
  Qed.

  (** appending a range by push_back *)
  Fixpoint rng_ok F (g : vrange V) vs : Prop :=
    match vs with
    | [] => rnext g = None
    | v :: vs => ∃ r g', rnext g = Some (r, g') ∧
        (∀ p, rok F p (λ _, True) r v) ∧ rng_ok F g' vs
    end.
  Lemma rng_vals F vs : rng_ok F (RVals vs) vs.
  Proof.
    induction vs; simpl; [done|]. eexists _, _. split; [done|].
    split; [intros; apply rok_ext|]. done.
  Qed.
  Lemma rok_frame F (G : iProp) p good r x : rok F p good r x → rok (G ∗ F) p good r x.
  Proof.
    intros Hr b Q Hb. iIntros "[HG HF] H HQ". iApply (Hr with "HF H"); [done|].
    iIntros "HF H". iApply ("HQ" with "[$HG $HF] H").
  Qed.
  Lemma wp_v_append fuel n v xs c g vs F :
    length xs + length vs + 1 < fuel → length vs < n → rng_ok F g vs →
    vecP v xs c ∗ F ⊢ wp (loop n (λ '(v, g),
      match rnext g with
      | Some (r, g) => let! v := v_push_back fuel v r in ret (inl (v, g))
      | None => ret (inr v)
      end) (v, g)) (λ v', vecP v' (xs ++ vs) (grown1 (length xs) c (length vs)) ∗ F).
  Proof.
    revert n v xs c g. induction vs as [|x vs IH]; intros n v xs c g Hf Hn Hg;
      iIntros "[H HF]"; (destruct n as [|n]; [simpl in Hn; lia|]); cbn [loop]; simpl in Hg.
    - iDestruct (vecP_last with "H") as %(?&?&?). wstep. rewrite Hg. wstep. wstep. unfold grown1.
      simpl. rewrite app_nil_r Nat.add_0_r. replace (c `max` length xs) with c by lia. iFrame.
    - destruct Hg as (r&g'&Hg&Hr&Hg'). simpl in Hf, Hn. wstep. rewrite Hg. wstep.
      iDestruct (vecP_last with "H") as %(?&?&?).
      iApply (wp_wand with "[H HF]").
      { iApply (wp_v_push_back fuel v xs c r x F (λ _, True%type) with "[$H $HF]"); [lia|done|apply Hr|done|].
        intros q. apply rok_frame, Hr. }
      iIntros (v') "(_&H&HF)". wstep.
      iApply (wp_wand with "[H HF]").
      { iApply (IH n v' (xs ++ [x]) (grown xs c 1) g' with "[$H $HF]");
          [rewrite app_length /=; lia|lia|done]. }
      iIntros (v2) "[H HF]". iFrame "HF". rewrite -app_assoc /=. unfold grown1, grown.
      rewrite app_length /=.
      assert ((if decide (c < length xs + 1) then length xs + 1 else c)
        `max` (length xs + 1 + length vs) = c `max` (length xs + S (length vs))) as <-; [|done].
      destruct (decide _); lia.
  Qed.
  Lemma rng_buf p b vs (c' : block) i j :
    i = length b → j = i + length vs → rng_ok (blk p (b ++ lv vs ++ c')) (RBuf p i j) vs.
  Proof.
    revert b i. induction vs as [|v vs IH]; intros b i Hi Hj; simpl.
    - rewrite decide_True //. simpl in Hj. lia.
    - dF. eexists _, _. split; [done|]. split.
      + intros q b' Q _. iIntros "Hp H HQ". simpl.
        iApply (wp_rd with "Hp"); [by apply lookup_mid|]. iIntros "Hp". iApply ("HQ" with "Hp H").
      + specialize (IH (b ++ [Some v]) (S i)). rewrite -app_assoc /= in IH. apply IH.
        * rewrite app_length /=. lia.
        * simpl in *. lia.
  Qed.
  Lemma rng_slice p ys b j k :
    j ≤ k ≤ length ys → rng_ok (blk p (lv ys ++ b)) (RBuf p j k) (slice j k ys).
  Proof.
    intros Hjk. rewrite {1}(slice_split j k ys Hjk) !lv_app -!app_assoc.
    apply rng_buf; rewrite ?slice_length ?lv_length ?take_length; lia.
  Qed.
  Lemma wp_v_assign_range fuel v xs c g vs F :
    length xs + length vs + 1 < fuel → rng_ok F g vs →
    vecP v xs c ∗ F ⊢ wp (v_assign_range fuel v g) (λ v', vecP v' vs (grown1 0 c (length vs)) ∗ F).
  Proof.
    iIntros (Hf Hg) "[H HF]". unfold v_assign_range. wstep.
    iApply (wp_wand with "[H]"); [iApply (wp_v_clear with "H"); lia|].
    iIntros (v') "[_ H]". by iApply (wp_v_append fuel fuel v' [] c g vs F with "[$H $HF]"); [simpl; lia..|].
  Qed.

  Lemma wp_fill_up fuel v xs c n r x F :
    length xs + n ≤ c → n < fuel → rok F (v_buf v) (λ _, True) r x →
    vecP v xs c ∗ F ⊢ wp (fill_up fuel v n r) (λ v',
      ⌜v_buf v' = v_buf v⌝ ∧ vecP v' (xs ++ replicate n x) c ∗ F).
  Proof.
    intros Hc Hf Hr. unfold fill_up. iIntros "[(%Hl&%He&_&H) HF]". rewrite Hl. clear Hl. iCombine "H HF" as "H". iStopProof.
    revert fuel xs Hc Hf. induction n as [|n IH]; intros fuel xs Hc Hf; iIntros "[H HF]";
      (destruct fuel as [|fuel]; [lia|]); cbn [loop].
    - wstep. wstep. wstep. iSplit; [done|]. iFrame "HF". simpl. rewrite app_nil_r.
      unfold vecP. simpl. do 3 (iSplit; [iPureIntro; lia|]). done.
    - wstep. wstep. iApply (Hr with "HF H"); [done|]. iIntros "HF H". wstep.
      destruct (c - length xs) as [|k] eqn:E; [lia|]. rewrite raw_S.
      iApply (wp_construct with "H"); [apply lookup_mid; by rewrite lv_length|].
      rewrite insert_mid; [|by rewrite lv_length]. iIntros "H". wstep.
      replace (S (length xs)) with (length (xs ++ [x])) by (rewrite app_length /=; lia).
      iApply (wp_wand with "[H HF]").
      { iApply (IH fuel (xs ++ [x]) with "[H HF]"); [rewrite app_length /=; lia|lia|iFrame "HF"].
        rewrite lv_app -app_assoc lv_cons lv_nil app_length /=.
        by replace (c - (length xs + 1)) with k by lia. }
      iIntros (v') "(%&H&HF)". iSplit; [done|]. rewrite -app_assoc. iFrame.
  Qed.
  Lemma wp_v_assign_n fuel v xs c n x :
    length xs + n < fuel →
    vecP v xs c ⊢ wp (v_assign_n fuel v n (VExt x)) (λ v',
      ⌜n < c → v_buf v' = v_buf v⌝ ∧ vecP v' (replicate n x) (reserved c n)).
  Proof.
    iIntros (Hf) "H". unfold v_assign_n. wstep.
    iApply (wp_wand with "[H]"); [iApply (wp_v_clear with "H"); lia|].
    iIntros (v') "[%Hv' H]". wstep.
    iApply (wp_wand with "[H]"); [iApply (wp_v_reserve with "H"); simpl; lia|].
    iIntros (v2) "[%Hv2 H]".
    iApply (wp_wand with "[H]").
    { iApply (wp_fill_up fuel v2 [] _ n _ x emp%I with "[$H]"); [simpl; unfold reserved; lia|lia|apply rok_ext]. }
    iIntros (v3) "(%Hv3&H&_)". iSplit; [|done]. iPureIntro. intros Hn. rewrite Hv3 Hv2 //.
  Qed.
  Lemma vecP_fresh q n : q ≠ None → blk q (raw n) ⊢ vecP (Vec q 0 n) [] n.
  Proof.
    iIntros (_) "H". unfold vecP. simpl. do 3 (iSplit; [iPureIntro; simpl; lia|]).
    rewrite lv_nil Nat.sub_0_r. done.
  Qed.
  Lemma wp_v_new_n fuel n x :
    n < fuel → ⊢ wp (v_new_n fuel n (VExt x)) (λ v', vecP v' (replicate n x) n).
  Proof.
    intros Hf. iStartProof. unfold v_new_n. wstep. iApply wp_new_buf. iIntros (q Hq) "H".
    rewrite vecP_fresh //.
    iApply (wp_wand with "[H]").
    { iApply (wp_fill_up fuel _ [] _ n _ x emp%I with "[$H]"); [simpl; lia|lia|apply rok_ext]. }
    iIntros (v3) "(%Hv3&H&_)". done.
  Qed.
  Lemma wp_v_copy fuel v xs c :
    length xs < fuel →
    vecP v xs c ⊢ wp (v_copy fuel v) (λ v', vecP v xs c ∗ vecP v' xs (length xs)).
  Proof.
    iIntros (Hf) "(%Hl&%He&%Hc&H)". unfold v_copy, v_size. rewrite Hl. wstep.
    iApply wp_new_buf. iIntros (q Hq) "Hq". wstep.
    iApply (wp_wand with "[H Hq]").
    { iApply (wp_copy_up fuel (v_buf v) q [] xs _ [] [] with "[$H Hq]"); simpl; [lia..|].
      by rewrite app_nil_r. }
    iIntros ([i o]) "[%Hio [H Hq]]". simplify_eq. simpl. wstep.
    iSplitL "H"; [by do 3 (iSplit; [done|])|]. unfold vecP. simpl. do 3 (iSplit; [done|]).
    by rewrite Nat.sub_diag raw_0.
  Qed.
  Lemma wp_v_new_range fuel g vs F :
    length vs + 1 < fuel → rlen g = length vs → rng_ok F g vs →
    F ⊢ wp (v_new_range fuel g) (λ v', vecP v' vs (length vs) ∗ F).
  Proof.
    iIntros (Hf Hl Hg) "HF". unfold v_new_range. wstep. rewrite Hl.
    iApply (wp_wand with "[]").
    { iApply (wp_v_reserve fuel (Vec None 0 0) [] 0); [simpl; lia|].
      do 3 (iSplit; [done|]). simpl. rewrite lv_nil raw_0. by iSplit. }
    iIntros (v) "[_ H]". iApply (wp_wand with "[H HF]").
    { by iApply (wp_v_append fuel fuel v [] (reserved 0 (length vs)) g vs F with "[$H $HF]"); [simpl; lia..|]. }
    simpl. iIntros (v') "[H HF]". iFrame "HF". unfold grown1, reserved.
    by replace (_ `max` _) with (length vs) by lia.
  Qed.
  Lemma wp_v_assign fuel v xs c w ys d :
    length xs + length ys < fuel →
    vecP v xs c ∗ vecP w ys d ⊢ wp (v_assign fuel v w) (λ v',
      ⌜d < c → v_buf v' = v_buf v⌝ ∧ vecP v' ys (reserved c d) ∗ vecP w ys d).
  Proof.
    iIntros (Hf) "[H (%Hlw&%Hew&%Hcw&Hw)]". unfold v_assign. wstep.
    iApply (wp_wand with "[H]"); [iApply (wp_v_clear with "H"); lia|].
    iIntros (v') "[%Hv' H]". wstep. unfold v_capacity. rewrite Hew.
    iApply (wp_wand with "[H]"); [iApply (wp_v_reserve with "H"); simpl; lia|].
    iIntros (v2) "[%Hv2 (%Hl2&%He2&_&H)]". rewrite Hl2 Hlw. wstep.
    rewrite lv_nil /=. unfold reserved in He2 |- *.
    assert (raw (V:=V) (c `max` d - 0) = raw (length ys) ++ raw (c `max` d - length ys)) as ->.
    { rewrite -raw_add. f_equal. lia. }
    iApply (wp_wand with "[H Hw]").
    { iApply (wp_copy_up fuel (v_buf w) (v_buf v2) [] ys _ [] with "[$H $Hw]"); simpl; lia. }
    iIntros ([i o]) "[%Hio [Hw H]]". simplify_eq. simpl. wstep.
    iSplit; [iPureIntro; intros; by rewrite Hv2|].
    iSplitL "H"; [|by do 3 (iSplit; [done|])].
    unfold vecP. simpl. do 3 (iSplit; [iPureIntro; simpl; lia|]). done.
  Qed.
  Lemma wp_v_assign_self fuel v xs c :
    length xs < fuel →
    vecP v xs c ⊢ wp (v_assign_self fuel v) (λ v', vecP v' [] c).
  Proof.
    iIntros (Hf) "H". unfold v_assign_self. wstep.
    iApply (wp_wand with "[H]"); [iApply (wp_v_clear with "H"); lia|].
    iIntros (v') "[%Hv' H]". wstep. iDestruct (vecP_last with "H") as %(?&He&?). unfold v_capacity. rewrite He.
    iApply (wp_wand with "[H]"); [iApply (wp_v_reserve with "H"); simpl; lia|].
    iIntros (v2) "[_ H]". unfold reserved. rewrite Nat.max_id.
    iDestruct (vecP_last with "H") as %(Hl2&?&?). rewrite Hl2. wstep.
    iApply (wp_wand (A:=nat * nat) _ (λ r, ⌜r = (0, 0)⌝ ∧ vecP v2 [] c)%I with "[H]").
    { unfold copy_up. destruct fuel; [lia|]. cbn [loop]. wstep. dF. wstep. wstep. by iSplit. }
    iIntros ([i o]) "[%Hio (_&%&%&H)]". simplify_eq. wstep.
    by do 3 (iSplit; [done|]).
  Qed.
  Lemma ins_end xs vs : ins (length xs) vs xs = xs ++ vs.
  Proof. unfold ins. rewrite take_ge // drop_ge // app_nil_r //. Qed.
  Lemma wp_v_resize fuel v xs c n :
    length xs + n < fuel →
    vecP v xs c ⊢ wp (v_resize dflt fuel v n) (λ v',
      ⌜n ≤ c → v_buf v' = v_buf v⌝ ∧
      vecP v' (take n xs ++ replicate (n - length xs) dflt) (grown xs c (n - length xs))).
  Proof.
    iIntros (Hf) "H". iDestruct (vecP_last with "H") as %(Hl&He&Hc).
    unfold v_resize, v_size. destruct (decide _) as [Hn|Hn]; rewrite Hl in Hn |- *.
    - iApply (wp_wand with "[H]"); [iApply (wp_v_truncate with "H"); lia|].
      iIntros (v') "[% H]". iSplit; [done|]. replace (n - length xs) with 0 by lia.
      unfold grown. rewrite Nat.add_0_r. dF. by rewrite app_nil_r.
    - wstep. iApply (wp_wand with "[H]").
      { iApply (wp_v_insert_n fuel v xs c (length xs) (n - length xs) _ dflt with "H"); [lia|lia|done|done]. }
      iIntros ([v' i]) "(_&%Hb&H)". simpl in *. wstep. iSplit; [iPureIntro; intros; apply Hb; lia|].
      rewrite ins_end take_ge //. lia.
  Qed.
  Lemma wp_v_resize_to fuel v xs c n r x :
    length xs + n < fuel → vrefers v xs r x →
    vecP v xs c ⊢ wp (v_resize_to dflt fuel v n r) (λ v',
      ⌜n ≤ c → v_buf v' = v_buf v⌝ ∧
      vecP v' (take n xs ++ replicate (n - length xs) x) (grown xs c (n - length xs))).
  Proof.
    iIntros (Hf Hr) "H". iDestruct (vecP_last with "H") as %(Hl&He&Hc).
    unfold v_resize_to, v_size. destruct (decide _) as [Hn|Hn]; rewrite Hl in Hn |- *.
    - iApply (wp_wand with "[H]"); [by iApply (wp_v_resize with "H")|].
      iIntros (v') "[% H]". iSplit; [done|]. by replace (n - length xs) with 0 by lia.
    - wstep. iApply (wp_wand with "[H]").
      { iApply (wp_v_insert_n fuel v xs c (length xs) (n - length xs) _ x with "H"); [lia|lia|done|].
        destruct r as [|p j]; [done|]. destruct Hr as [_ Hj%lookup_lt_Some]. auto. }
      iIntros ([v' i]) "(_&%Hb&H)". simpl in *. wstep. iSplit; [iPureIntro; intros; apply Hb; lia|].
      rewrite ins_end take_ge //. lia.
  Qed.
  Lemma wp_v_erase_range fuel v xs c i j :
    i ≤ j ≤ length xs → i < j ∨ i = length xs → length xs < fuel →
    vecP v xs c ⊢ wp (v_erase_range fuel v i j) (λ q,
      ⌜q.2 = i⌝ ∧ ⌜v_buf q.1 = v_buf v⌝ ∧ vecP q.1 (take i xs ++ drop j xs) c).
  Proof.
    iIntros (Hij Hok Hf) "(%Hl&%He&%Hc&H)". unfold v_erase_range.
    rewrite Hl. wstep.
    assert (lv xs = lv (take i xs) ++ lv (slice i j xs) ++ lv (drop j xs)) as Hsp.
    { rewrite {1}(slice_split i j xs) // !lv_app //. }
    pose proof (slice_length i j xs Hij) as Hsl.
    rewrite Hsp -!app_assoc.
    iApply (wp_wand with "[H]").
    { iApply (wp_destroy_range with "H"); rewrite ?Hsl ?lv_length ?take_length; lia. }
    iIntros (_) "H". wstep. rewrite Hsl.
    iApply (wp_wand _ (λ o, ⌜o = (i + (length xs - j))%nat⌝ ∧
      blk (v_buf v) (lv (take i xs) ++ lv (drop j xs) ++ raw (j - i) ++ raw (c - length xs)))%I with "[H]").
    { destruct Hok as [Hlt|Heq].
      - iApply (wp_wand with "[H]").
        { iApply (wp_shift_down with "H"); rewrite ?lv_length ?take_length ?drop_length; lia. }
        iIntros (o) "[-> H]". rewrite drop_length. by iSplit.
      - assert (j = length xs) as -> by lia. rewrite Heq. unfold shift_down.
        destruct fuel; [lia|]. cbn [loop]. wstep. dF. wstep. wstep. rewrite Nat.sub_diag Nat.add_0_r.
        iSplit; [done|]. rewrite raw_0 drop_ge // lv_nil //. }
    iIntros (o) "[-> H]". wstep. iSplit; [done|]. iSplit; [done|]. unfold vecP. simpl.
    rewrite app_length take_length drop_length lv_app -app_assoc -raw_add.
    do 3 (iSplit; [iPureIntro; lia|]).
    replace (c - (i `min` length xs + (length xs - j))) with (j - i + (c - length xs)) by lia. done.
  Qed.

  (** *** Observers *)
  Lemma vecP_rd v xs c i x Q :
    xs !! i = Some x → vecP v xs c -∗ (vecP v xs c -∗ Q x) -∗ wp (rd (v_buf v) i) Q.
  Proof.
    iIntros (Hi) "(%Hl&%He&%Hc&H) HQ". iApply (wp_rd with "H").
    { rewrite lookup_app_l; [by apply lv_lookup|]. rewrite lv_length. by eapply lookup_lt_Some. }
    iIntros "H". iApply "HQ". by do 3 (iSplit; [done|]).
  Qed.
  Lemma wp_v_at v xs c i x :
    xs !! i = Some x → vecP v xs c ⊢ wp (v_at v i) (λ y, ⌜y = x⌝ ∧ vecP v xs c).
  Proof. iIntros (Hi) "H". iApply (vecP_rd with "H"); [done|]. iIntros "H". by iSplit. Qed.
  Lemma wp_v_front v xs c x :
    head xs = Some x → vecP v xs c ⊢ wp (v_front v) (λ y, ⌜y = x⌝ ∧ vecP v xs c).
  Proof.
    iIntros (Hi) "H". iApply (vecP_rd with "H"); [by rewrite -head_lookup|]. iIntros "H". by iSplit.
  Qed.
  Lemma wp_v_back v xs c x :
    last xs = Some x → vecP v xs c ⊢ wp (v_back v) (λ y, ⌜y = x⌝ ∧ vecP v xs c).
  Proof.
    iIntros (Hi) "H". iDestruct (vecP_last with "H") as %(Hl&He&Hc). unfold v_back. rewrite Hl.
    rewrite last_lookup in Hi. destruct (length xs) as [|k] eqn:E; [by destruct xs|].
    wstep. iApply wp_pred. iApply (vecP_rd with "H"); [done|]. iIntros "H". by iSplit.
  Qed.
  Lemma wp_v_set_at v xs c i x :
    i < length xs → vecP v xs c ⊢ wp (v_set_at v i x) (λ _, vecP v (<[i := x]> xs) c).
  Proof.
    iIntros (Hi) "(%Hl&%He&%Hc&H)". destruct (lookup_lt_is_Some_2 xs i Hi) as [y Hy].
    iApply (wp_assign_at with "H").
    { rewrite lookup_app_l; [by apply lv_lookup|]. by rewrite lv_length. }
    iIntros "H". unfold vecP. rewrite insert_length. do 3 (iSplit; [done|]).
    rewrite insert_app_l; [|by rewrite lv_length]. by rewrite !lv_eq list_fmap_insert.
  Qed.
  Lemma wp_v_contents fuel v xs c :
    length xs < fuel →
    vecP v xs c ⊢ wp (v_contents fuel v) (λ ys, ⌜ys = xs⌝ ∧ vecP v xs c).
  Proof.
    iIntros (Hf) "H". iDestruct (vecP_last with "H") as %(Hl&He&Hc). unfold v_contents. rewrite Hl.
    assert (∀ fu i acc, i ≤ length xs → length xs - i < fu →
      vecP v xs c ⊢ wp (loop fu (λ '(i, acc),
        if decide (i ≠ length xs) then
          let! x := rd (v_buf v) i in ret (inl (S i, acc ++ [x]))
        else ret (inr acc)) (i, acc)) (λ ys, ⌜ys = acc ++ drop i xs⌝ ∧ vecP v xs c)) as Hgen.
    2:{ iApply (Hgen fuel 0 [] with "H"); lia. }
    clear. induction fu as [|fu IH]; intros i acc Hi Hfu; [lia|]. iIntros "H". cbn [loop]. wstep.
    destruct (decide _) as [Hn|Hn].
    - destruct (lookup_lt_is_Some_2 xs i) as [y Hy]; [lia|]. wstep.
      iApply (vecP_rd with "H"); [done|]. iIntros "H". wstep.
      iApply (wp_wand with "[H]"); [iApply (IH (S i) with "H"); lia|].
      iIntros (ys) "[-> H]". iSplit; [|done]. rewrite (drop_S xs y i) // -app_assoc //.
    - wstep. wstep. iSplit; [|done]. rewrite drop_ge ?app_nil_r //. lia.
  Qed.
  Lemma wp_buf_equal (eqb : V → V → bool) fuel p xs (b : block) q ys (c : block) :
    length xs + length ys < fuel →
    blk p (lv xs ++ b) ∗ blk q (lv ys ++ c) ⊢
    wp (buf_equal eqb fuel p (length xs) q (length ys)) (λ r,
      ⌜r = bool_decide (Forall2 (λ x y, eqb x y = true) xs ys)⌝ ∧
      blk p (lv xs ++ b) ∗ blk q (lv ys ++ c)).
  Proof.
    intros Hf. unfold buf_equal.
    assert (∀ k fu, k ≤ length xs → k ≤ length ys → length xs - k < fu →
      Forall2 (λ x y, eqb x y = true) (take k xs) (take k ys) →
      blk p (lv xs ++ b) ∗ blk q (lv ys ++ c) ⊢
      wp (loop fu (λ '(i, j),
        if decide (i ≠ length xs ∧ j ≠ length ys) then
          let! x := rd p i in
          let! y := rd q j in
          if eqb x y then ret (inl (S i, S j)) else ret (inr false)
        else ret (inr (bool_decide (i = length xs ∧ j = length ys)))) (k, k)) (λ r,
      ⌜r = bool_decide (Forall2 (λ x y, eqb x y = true) xs ys)⌝ ∧
      blk p (lv xs ++ b) ∗ blk q (lv ys ++ c))) as Hgen; [|apply (Hgen 0 fuel); [lia..|constructor]].
    intros k fu. revert k. induction fu as [|fu IH]; intros k Hx Hy Hfu Heq; [lia|].
    iIntros "[H Hq]". cbn [loop]. wstep.
    destruct (decide _) as [[Hn1 Hn2]|Hn].
    - destruct (lookup_lt_is_Some_2 xs k) as [x Hkx]; [lia|].
      destruct (lookup_lt_is_Some_2 ys k) as [y Hky]; [lia|].
      wstep. iApply (wp_rd with "H").
      { rewrite lookup_app_l; [by apply lv_lookup|]. rewrite lv_length. lia. }
      iIntros "H". wstep. iApply (wp_rd with "Hq").
      { rewrite lookup_app_l; [by apply lv_lookup|]. rewrite lv_length. lia. }
      iIntros "Hq". destruct (eqb x y) eqn:E.
      + wstep. iApply (IH (S k) with "[$H $Hq]"); [lia..|].
        rewrite (take_S_r _ _ x) // (take_S_r _ _ y) //. apply Forall2_app; [done|]. by constructor.
      + wstep. wstep. iSplit; [|iFrame]. iPureIntro. symmetry. apply bool_decide_eq_false. intros HF.
        rewrite (Forall2_lookup_lr _ _ _ k x y HF) // in E.
    - wstep. wstep. iSplit; [|iFrame]. iPureIntro. apply bool_decide_ext. split.
      + intros [-> Hl]. rewrite !take_ge // in Heq; lia.
      + intros HF%Forall2_length. lia.
  Qed.
End vecp.
