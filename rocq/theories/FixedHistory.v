(** fixed_vector: every call does what [fx_code] says, and so does every history.
    Proof file. *)
From Verif Require Export FixedProofs VecHistory.
From iris.proofmode Require Import tactics.

Section history.
  Context {V : Type} `{Allocator (list (option V))} (N : nat) (dflt : V) (eqb : V → V → bool).
  Notation block := (list (option V)).
  Notation iProp := (bi_car (hpropI block)).
  Implicit Types (v : fvec) (xs ys vs : list V) (n i j : nat) (x : V) (F : iProp).

  Notation fvecP := (fvecP N).

  (** *** The calls that go wrong *)
  Lemma ifails_slot {B} p (b : block) i s (k : option V → M (gmap loc block) B) F u :
    b !! i = Some s → ifails (blk p b ∗ F)%I (k s) u → ifails (blk p b ∗ F)%I (bind (slot_at p i) k) u.
  Proof.
    intros Hi Hk. eapply (ifails_bind _ _ _ (λ t, ⌜t = s⌝ ∧ blk p b ∗ F)%I).
    { iIntros "[H HF]". iApply (wp_slot_at with "H"); [done|]. iIntros "H". iSplit; [done|]. iFrame. }
    intros t. apply ifails_pure. by intros ->.
  Qed.
  Lemma ifails_rd_raw p (b : block) i F :
    b !! i = Some None → ifails (blk p b ∗ F)%I (rd p i) NoObject.
  Proof. intros Hi. unfold rd. eapply ifails_slot; [done|]. apply ifails_fail. Qed.
  Lemma ifails_construct_live p (b : block) i x y F :
    b !! i = Some (Some x) → ifails (blk p b ∗ F)%I (construct p i y) LiveOverwrite.
  Proof. intros Hi. unfold construct. eapply ifails_slot; [done|]. apply ifails_fail. Qed.

  Lemma ifails_erase_empty fuel v xs i F :
    i < length xs → 1 < fuel → ifails (fvecP v xs ∗ F)%I (fv_erase_range fuel v i i) LiveOverwrite.
  Proof.
    intros Hi Hf. destruct fuel as [|fuel]; [lia|].
    eapply (ifails_conseq _ (⌜fv_last v = length xs⌝ ∧ blk (fv_p v) (lv xs ++ raw (N - length xs)) ∗ F)%I).
    { rewrite fvecP_eq. iIntros "[(%&%&H) HF]". iSplit; [done|]. iFrame. }
    apply ifails_pure. intros Hl. unfold fv_erase_range.
    destruct (lookup_lt_is_Some_2 xs i Hi) as [x Hx].
    set (b := lv xs ++ _). assert (b !! i = Some (Some x)) as Hb.
    { unfold b. rewrite lookup_app_l; [by apply lv_lookup|]. by rewrite lv_length. }
    clearbody b.
    eapply (ifails_bind _ _ _ (λ _, blk (fv_p v) b ∗ F)%I).
    { iIntros "H". unfold destroy_range. cbn [loop]. wstep. dF. wstep. wstep. done. }
    intros _. apply ifails_bind_l. unfold shift_down. cbn [loop]. rewrite Hl.
    apply ifails_bind_l. destruct (decide _) as [_|Hn]; [|exfalso; lia].
    eapply (ifails_bind _ _ _ (λ _, blk (fv_p v) b ∗ F)%I).
    { iIntros "[H HF]". iApply (wp_rd with "H"); [done|]. iIntros "H". iFrame. }
    intros y. apply ifails_bind_l. by eapply ifails_construct_live.
  Qed.
  Lemma ifails_insert_own fuel v xs i n j F :
    i < length xs → i ≤ j < length xs → j < i + n → N < fuel →
    ifails (fvecP v xs ∗ F)%I (fv_insert_n N fuel v i n (VSlot (fv_p v) j)) NoObject.
  Proof.
    intros Hi Hj Hn Hf.
    eapply (ifails_conseq _ (⌜fv_last v = length xs ∧ length xs ≤ N⌝ ∧ fvecP v xs ∗ F)%I).
    { iIntros "[H HF]". iDestruct (fvecP_last with "H") as %?. iSplit; [done|]. iFrame. }
    apply ifails_pure. intros [Hl Hc]. unfold fv_insert_n. rewrite Hl. dF. dT.
    eapply (ifails_bind _ _ _ (λ v', ⌜v' = fv_set_last v (N `min` (length xs + n))⌝ ∧
      (blk (fv_p v) _ ∗ F))%I).
    { iIntros "[H HF]". iApply (wp_wand with "[H]"); [iApply (wp_fv_make_room with "H"); lia|].
      iIntros (v') "[% H]". iSplit; [done|]. iFrame. }
    intros v'. apply ifails_pure. intros ->. apply ifails_bind_l.
    destruct fuel as [|fuel]; [lia|]. unfold fv_put_n. cbn [loop].
    destruct n as [|n]; [lia|]. apply ifails_bind_l. destruct (decide _); [|lia].
    apply ifails_bind_l. simpl. apply ifails_rd_raw.
    rewrite lookup_app_r lv_length take_length; [|lia].
    unfold gap. rewrite lookup_app_l; [|rewrite raw_length; lia].
    rewrite raw_eq. apply lookup_replicate. split; [done|]. lia.
  Qed.
  Lemma ifails_swap_bufs fuel n p q (b : block) xs b' c ys c' F :
    length b = length c → length xs < length ys → length b + length xs < n → length xs < fuel →
    ifails (blk p (b ++ lv xs ++ None :: b') ∗ blk q (c ++ lv ys ++ c') ∗ F)%I
      (loop fuel (λ i,
        if decide (i ≠ n) then swap_slots p i q i ;! ret (inl (S i)) else ret (inr tt)) (length b)) NoObject.
  Proof.
    revert fuel b c ys. induction xs as [|x xs IH]; intros fuel b c ys Hbc Hl Hn Hf;
      (destruct fuel as [|fuel]; [lia|]); cbn [loop]; simpl in Hl, Hn, Hf.
    - apply ifails_bind_l. dT. apply ifails_bind_l. unfold swap_slots. apply ifails_bind_l.
      apply ifails_rd_raw. rewrite lv_nil. by apply lookup_mid.
    - destruct ys as [|y ys]; [simpl in Hl; lia|]. simpl in Hl. dT.
      eapply (ifails_bind _ _ _ (λ r, ⌜r = inl (S (length b))⌝ ∧
        (blk p ((b ++ [Some y]) ++ lv xs ++ None :: b') ∗ blk q ((c ++ [Some x]) ++ lv ys ++ c') ∗ F))%I).
      { iIntros "(H&Hq&HF)". wstep. unfold swap_slots.
        rewrite !lv_cons. wstep.
        iApply (wp_rd with "H"); [by apply lookup_mid|]. iIntros "H". wstep.
        iApply (wp_rd with "Hq"); [by apply lookup_mid|]. iIntros "Hq". wstep.
        iApply (wp_assign_at with "H"); [by apply lookup_mid|]. rewrite insert_mid //. iIntros "H".
        iApply (wp_assign_at with "Hq"); [by apply lookup_mid|]. rewrite insert_mid //. iIntros "Hq".
        wstep. iSplit; [done|]. rewrite -!app_assoc. iFrame. }
      intros r. apply ifails_pure. intros ->.
      replace (S (length b)) with (length (b ++ [Some y])) by (rewrite app_length /=; lia).
      apply IH; rewrite ?app_length /=; lia.
  Qed.
  Lemma ifails_swap fuel v w xs ys :
    length ys < length xs → N < fuel →
    ifails (fvecP v xs ∗ fvecP w ys)%I (fv_swap fuel v w) NoObject.
  Proof.
    intros Hlt Hf.
    eapply (ifails_conseq _ (⌜fv_last v = length xs ∧ length xs ≤ N ∧ fv_last w = length ys⌝ ∧
      blk (fv_p w) (lv ys ++ raw (N - length ys)) ∗ blk (fv_p v) (lv xs ++ raw (N - length xs)) ∗ emp)%I).
    { rewrite !fvecP_eq. iIntros "[(%&%&H) (%&%&Hw)]". iSplit; [done|]. iFrame. }
    apply ifails_pure. intros (Hl&Hc&Hlw). unfold fv_swap, fv_size. rewrite Hl Hlw.
    rewrite bool_decide_false; [|lia]. apply ifails_bind_l. unfold fv_swap_ab. apply ifails_bind_l.
    unfold swap_bufs. rewrite Hl. destruct (N - length ys) as [|m] eqn:E; [lia|]. rewrite raw_S.
    apply (ifails_swap_bufs fuel (length xs) _ _ [] ys _ [] xs); simpl; lia.
  Qed.

  (** *** Every call *)
  Definition fpost xs ys (out : ve_out V) (r : fvec * fvec * ve_out V) : iProp :=
    ⌜r.2 = out⌝ ∧ fvecP r.1.1 xs ∗ fvecP r.1.2 ys.
  Lemma wp_fdone o (m : M (gmap loc block) fvec) Q :
    wp m (λ b, Q (b, o, VDone)) ⊢ wp (fdone o m) Q.
  Proof. iIntros "Hm". unfold fdone. wstep. iApply (wp_wand with "Hm"). iIntros (?) "H". by wstep. Qed.
  Lemma wp_fpos o (m : M (gmap loc block) (fvec * nat)) Q :
    wp m (λ r, Q (r.1, o, VNat r.2)) ⊢ wp (fpos o m) Q.
  Proof. iIntros "Hm". unfold fpos. wstep. iApply (wp_wand with "Hm"). iIntros ([??]) "H". by wstep. Qed.
  Lemma wp_fobs v o {A} (f : A → ve_out V) (m : M (gmap loc block) A) Q :
    wp m (λ a : A, Q (v, o, f a)) ⊢ wp (fobs v o f m) Q.
  Proof. iIntros "Hm". unfold fobs. wstep. iApply (wp_wand with "Hm"). iIntros (?) "H". by wstep. Qed.

  Lemma fx_ve_seq xs ys op zs out s' o' (r : ve_out V) :
    ve_seq dflt eqb xs ys op = Some (zs, out) →
    ('(xs', out) ← ve_seq dflt eqb xs ys op; Some (take N xs', ys, out)) = Some (s', o', r) →
    s' = take N zs ∧ o' = ys ∧ r = out.
  Proof. intros ->. simpl. intros. by simplify_eq. Qed.

  Ltac ffin := iSplit; [iPureIntro; try done|iFrame].
  Lemma wp_fx_step fuel this other xs ys op s' o' out :
    fx_code N dflt eqb xs ys op = Some (Ok (s', o', out)) → N + N + 1 < fuel →
    fvecP this xs ∗ fvecP other ys ⊢ wp (fx_step N dflt eqb fuel this other op) (fpost s' o' out).
  Proof.
    iIntros (Hcode Hf) "[H Ho]".
    iDestruct (fvecP_last with "H") as %[Hl Hc].
    iDestruct (fvecP_last with "Ho") as %[Hlo Hco].
    unfold fx_code in Hcode. apply bind_Some in Hcode as ([[zs ws] out']&Hspec&Hcode).
    destruct (decide (fx_ok xs ys op)) as [Hok|Hnok].
    2:{ (* an own element that is moved *)
      destruct op as [[]|]; simpl in Hnok; try (by destruct Hnok); try discriminate Hcode.
      simpl in Hspec. repeat match goal with
        | H : _ ≫= _ = Some _ |- _ => apply bind_Some in H as (?&?&?)
        | H : (let '(_, _) := ?p in _) = Some _ |- _ => destruct p
        | H : (if decide _ then _ else _) = Some _ |- _ => case_decide; simplify_eq/=
        end; simplify_eq/=.
      match goal with H : xs !! (j - n) = Some ?z |- _ => rename z into y; rename H into Hy end.
      iApply wp_fpos.
      match goal with H : xs !! j = Some _ |- _ => pose proof (lookup_lt_Some _ _ _ H) end.
      iApply (wp_wand with "[H]").
      { iApply (wp_fv_insert_n_gen N fuel this xs i n (fown this j) y (good_of (fown this j) y) with "H");
          [done|lia|lia|apply good_stable|by apply rok_own|].
        dT. simpl. rewrite lookup_app_r lv_length take_length; [|lia].
        unfold gap. rewrite lookup_app_r raw_length; [|lia].
        rewrite lookup_app_l; [|rewrite lv_length take_length drop_length; lia].
        apply lv_lookup. rewrite lookup_take; [|lia]. rewrite lookup_drop -Hy. f_equal. lia. }
      iIntros (q) "(%&_&H)". ffin; simpl; by f_equal. }
    simplify_eq. destruct op as [op|].
    2:{ simpl in *. simplify_eq. iDestruct (fv_full_spec with "H") as %Hfu. wstep. ffin. simpl. by rewrite Hfu. }
    destruct op; simpl in Hspec, Hok; unfold fx_step; cbn beta iota;
      repeat match goal with
        | H : _ ≫= _ = Some _ |- _ => apply bind_Some in H as (?&?&?)
        | H : (let '(_, _) := ?p in _) = Some _ |- _ => destruct p
        | H : (if decide _ then _ else _) = Some _ |- _ => case_decide; simplify_eq/=
        end; simplify_eq/=; try rewrite (take_ge _ _ Hc).
    - (* push_back *) iApply wp_fdone.
      iApply (wp_wand with "[H]"); [by iApply (wp_fv_push_back _ _ _ (VExt x) with "H")|].
      iIntros (v') "[_ H]". ffin.
    - (* push_back own *) iApply wp_fdone.
      iApply (wp_wand with "[H]"); [by iApply (wp_fv_push_back _ _ _ (fown this i) with "H")|].
      iIntros (v') "[_ H]". ffin.
    - (* pop_back *) iApply wp_fdone.
      destruct xs as [|x xs _] using rev_ind; [done|]. rewrite app_length /= in Hc.
      iApply (wp_wand with "[H]"); [by iApply (wp_fv_pop_back with "H")|].
      iIntros (v') "[_ H]". rewrite app_length /= Nat.add_sub take_app take_ge; [|lia]. ffin.
    - (* insert *) iApply wp_fpos. unfold fv_insert.
      iApply (wp_wand with "[H]").
      { iApply (wp_fv_insert_n N fuel this xs i 1 (VExt x) x with "H"); [done|lia|done|done]. }
      iIntros (q) "(%&_&H)". ffin; simpl; by f_equal.
    - (* insert n *) iApply wp_fpos.
      iApply (wp_wand with "[H]").
      { iApply (wp_fv_insert_n N fuel this xs i n (VExt x) x with "H"); [done|lia|done|done]. }
      iIntros (q) "(%&_&H)". ffin; simpl; by f_equal.
    - (* insert own *) iApply wp_fpos.
      iApply (wp_wand with "[H]").
      { iApply (wp_fv_insert_n N fuel this xs i n (fown this j) with "H"); [done|lia|done|done]. }
      iIntros (q) "(%&_&H)". ffin; simpl; by f_equal.
    - (* insert range *) iApply wp_fpos.
      iApply (wp_wand with "[H]").
      { iApply (wp_fv_insert_range N fuel this xs i _ xs0 emp%I with "[$H]"); [done|lia|done|apply rng_vals]. }
      iIntros (q) "(%&_&H&_)". ffin; simpl; by f_equal.
    - (* insert other *) iApply wp_fpos. iDestruct (fvecP_eq with "Ho") as "(_&_&Ho)".
      iApply (wp_wand with "[H Ho]").
      { iApply (wp_fv_insert_range N fuel this xs i _ (slice j k o')
          (blk (fv_p other) (lv o' ++ raw (N - length o'))) with "[$H $Ho]"); [tauto|lia| |].
        - simpl. rewrite slice_length; [done|tauto].
        - apply rng_slice. tauto. }
      iIntros (q) "(%&_&H&Ho)". iSplit; [iPureIntro; simpl; by f_equal|]. iFrame "H".
      rewrite fvecP_eq. by do 2 (iSplit; [done|]).
    - (* erase *) iApply wp_fpos. unfold fv_erase.
      iApply (wp_wand with "[H]").
      { iApply (wp_fv_erase_range N fuel this xs i (S i) with "H"); lia. }
      iIntros (q) "(%&_&H)". rewrite (take_ge (_ ++ _)); [|rewrite app_length take_length drop_length; lia].
      ffin; simpl; by f_equal.
    - (* erase range *) iApply wp_fpos.
      iApply (wp_wand with "[H]").
      { iApply (wp_fv_erase_range N fuel this xs i j with "H"); [done|done|lia]. }
      iIntros (q) "(%&_&H)". rewrite (take_ge (_ ++ _)); [|rewrite app_length take_length drop_length; lia].
      ffin; simpl; by f_equal.
    - (* resize *) iApply wp_fdone.
      iApply (wp_wand with "[H]"); [iApply (wp_fv_resize with "H"); lia|].
      iIntros (v') "[_ H]". ffin.
    - (* resize to *) iApply wp_fdone.
      iApply (wp_wand with "[H]"); [by iApply (wp_fv_resize_to N dflt _ _ _ _ (VExt x) x with "H"); [lia|]|].
      iIntros (v') "[_ H]". ffin.
    - (* resize own *) iApply wp_fdone.
      iApply (wp_wand with "[H]"); [by iApply (wp_fv_resize_to N dflt _ _ _ _ (fown this i) with "H"); [lia|]|].
      iIntros (v') "[_ H]". ffin.
    - (* assign n *) iApply wp_fdone.
      iApply (wp_wand with "[H]"); [iApply (wp_fv_assign_n with "H"); lia|].
      iIntros (v') "H". ffin.
    - (* assign range *) iApply wp_fdone.
      iApply (wp_wand with "[H]").
      { iApply (wp_fv_assign_range N fuel this xs _ xs0 emp%I with "[$H]"); [lia|]. apply rng_vals. }
      iIntros (v') "[H _]". ffin.
    - (* assign other *) iApply wp_fdone. iDestruct (fvecP_eq with "Ho") as "(_&_&Ho)".
      iApply (wp_wand with "[H Ho]").
      { iApply (wp_fv_assign_range N fuel this xs _ (slice j k o')
          (blk (fv_p other) (lv o' ++ raw (N - length o'))) with "[$H $Ho]"); [lia|by apply rng_slice]. }
      iIntros (v') "[H Ho]". iSplit; [done|]. iFrame "H".
      rewrite fvecP_eq. by do 2 (iSplit; [done|]).
    - (* assign from *) iApply wp_fdone.
      iApply (wp_wand with "[H Ho]"); [iApply (wp_fv_assign with "[$H $Ho]"); lia|].
      iIntros (v') "(_&H&Ho)". rewrite take_ge //. ffin.
    - (* clear *) iApply wp_fdone.
      iApply (wp_wand with "[H]"); [iApply (wp_fv_clear with "H"); lia|].
      iIntros (v') "[_ H]". rewrite take_nil. ffin.
    - (* swap *) wstep.
      iApply (wp_wand with "[H Ho]"); [iApply (wp_fv_swap with "[$H $Ho]"); lia|].
      iIntros ([a b]) "(_&_&H&Ho)". wstep. ffin.
    - (* recopy *) wstep.
      iApply (wp_wand with "[Ho]"); [iApply (wp_fv_destroy with "Ho"); lia|]. iIntros (_) "_". wstep.
      iApply (wp_wand with "[H]"); [iApply (wp_fv_copy with "H"); lia|].
      iIntros (v') "[Ho H]". wstep. ffin.
    - (* recreate *) wstep.
      iApply (wp_wand with "[H]"); [iApply (wp_fv_destroy with "H"); lia|]. iIntros (_) "_".
      iApply wp_fdone.
      iApply (wp_wand with "[]"); [iApply wp_fv_new_n; lia|].
      iIntros (v') "H". ffin.
    - (* recreate n *) wstep.
      iApply (wp_wand with "[H]"); [iApply (wp_fv_destroy with "H"); lia|]. iIntros (_) "_".
      iApply wp_fdone.
      iApply (wp_wand with "[]"); [iApply wp_fv_new_n; lia|].
      iIntros (v') "H". ffin.
    - (* recreate range *) wstep.
      iApply (wp_wand with "[H]"); [iApply (wp_fv_destroy with "H"); lia|]. iIntros (_) "_".
      iApply wp_fdone.
      iApply (wp_wand with "[]"); [iApply (wp_fv_new_range N fuel _ xs0 emp%I); [lia|apply rng_vals|done]|].
      iIntros (v') "[H _]". ffin.
    - (* set *) iApply wp_fobs.
      iApply (wp_wand with "[H]"); [by iApply (wp_v_set_at (asv N this) with "H")|].
      iIntros (v') "H". rewrite take_ge; [|by rewrite insert_length]. ffin.
    - (* at *) iApply wp_fobs.
      iApply (wp_wand with "[H]"); [by iApply (wp_v_at (asv N this) with "H")|].
      iIntros (v') "[-> H]". ffin.
    - (* front *) iApply wp_fobs.
      iApply (wp_wand with "[H]"); [by iApply (wp_v_front (asv N this) with "H")|].
      iIntros (v') "[-> H]". ffin.
    - (* back *) iApply wp_fobs.
      iApply (wp_wand with "[H]"); [by iApply (wp_v_back (asv N this) with "H")|].
      iIntros (v') "[-> H]". ffin.
    - (* size *) wstep. ffin. simpl. f_equal. done.
    - (* empty *) wstep. ffin. simpl. f_equal. unfold fv_empty. rewrite Hl.
      apply bool_decide_ext. destruct xs; simpl; split; intros; by try lia.
    - (* capacity *) wstep. ffin.
    - (* contents *) iApply wp_fobs.
      iApply (wp_wand with "[H]"); [iApply (wp_v_contents fuel (asv N this) with "H"); lia|].
      iIntros (v') "[-> H]". ffin.
    - (* equal *) iApply wp_fobs.
      iApply (wp_wand with "[H Ho]"); [iApply (wp_v_eq eqb fuel (asv N this) _ _ (asv N other) with "[$H $Ho]"); lia|].
      iIntros (v') "[-> [H Ho]]". ffin.
  Qed.

  (** *** ... and every call that goes wrong *)
  Lemma fx_code_fails fuel this other xs ys op u :
    fx_code N dflt eqb xs ys op = Some (UB u) → N + 1 < fuel →
    ifails (fvecP this xs ∗ fvecP other ys)%I (fx_step N dflt eqb fuel this other op) u.
  Proof.
    intros Hcode Hf.
    eapply (ifails_conseq _ (⌜length xs ≤ N⌝ ∧ fvecP this xs ∗ fvecP other ys)%I).
    { iIntros "[H Ho]". iDestruct (fvecP_last with "H") as %[Hl Hc]. iSplit; [done|]. iFrame. }
    apply ifails_pure. intros Hc.
    unfold fx_code in Hcode. apply bind_Some in Hcode as (r&Hspec&Hcode).
    case_decide as Hok; [done|].
    destruct op as [[]|]; simpl in Hok; try (by destruct Hok); simpl in Hspec;
      repeat match goal with
        | H : _ ≫= _ = Some _ |- _ => apply bind_Some in H as (?&?&?)
        | H : (let '(_, _) := ?p in _) = Some _ |- _ => destruct p
        | H : (if decide _ then _ else _) = Some _ |- _ => case_decide; simplify_eq/=
        end; simplify_eq/=.
    - match goal with H : xs !! j = Some _ |- _ => pose proof (lookup_lt_Some _ _ _ H) end.
      apply ifails_bind_l. apply ifails_insert_own; lia.
    - apply ifails_bind_l. match goal with |- ifails _ (fv_erase_range _ _ ?a ?b) _ =>
        replace b with a by lia end. apply ifails_erase_empty; lia.
    - apply ifails_bind_l. apply ifails_swap; lia.
  Qed.
  Lemma fx_code_fuel xs ys op : fx_code N dflt eqb xs ys op ≠ Some NoFuel.
  Proof.
    unfold fx_code. intros (r&_&Hcode)%bind_Some. case_decide; [done|].
    destruct op as [[]|]; try done. case_decide; [done|]. by apply bind_Some in Hcode as (?&_&?).
  Qed.

  (** *** Histories *)
  Lemma fx_exact ops : x_exact (fv_new N) fv_destroy (fx_step N dflt eqb) [] (fx_code N dflt eqb) ops.
  Proof.
    apply (x_program_exact _ _ _ _ _ fvecP (λ _, S N)).
    - apply wp_fv_new.
    - intros fuel a s Hf. iIntros "H". iDestruct (fvecP_last with "H") as %[??].
      iApply (wp_fv_destroy with "H"). lia.
    - intros fuel this other s o op s' o' out Hc Hf. eapply wp_fx_step; [done|lia].
    - intros fuel this other s o op u Hc Hf. apply fx_code_fails; [done|lia].
    - apply fx_code_fuel.
  Qed.
  Lemma fx_reaches_does ops :
    v_reaches (fv_new N) (fx_step N dflt eqb) [] (fx_does N dflt eqb) (is_fvec N) ops.
  Proof.
    apply (v_prefix_reaches _ _ _ _ fvecP (λ _, S N)).
    - apply wp_fv_new.
    - intros fuel this other s o op s' o' out Hc Hf. apply wp_fx_step; [|lia].
      unfold fx_does in Hc. destruct (fx_code _ _ _ _ _ _) as [[]|]; by simplify_eq.
    - intros v s. by rewrite -fvec_holds.
  Qed.
  Lemma fx_history_ok ops :
    v_correct (fv_new N) fv_destroy (fx_step N dflt eqb) [] (fx_spec_ok N dflt eqb) (λ _, True) ops.
  Proof.
    apply (v_program_correct _ _ _ _ _ fvecP (λ _, S N)).
    - apply wp_fv_new.
    - intros fuel a s _ Hf. iIntros "H". iDestruct (fvecP_last with "H") as %[??].
      iApply (wp_fv_destroy with "H"). lia.
    - intros fuel this other s o op s' o' out Hc Hf. apply wp_fx_step; [|lia].
      unfold fx_spec_ok in Hc. unfold fx_code. case_decide; [|done]. by rewrite Hc.
  Qed.
  Lemma fx_code_ubs xs ys op u :
    fx_code N dflt eqb xs ys op = Some (UB u) → u = NoObject ∨ u = LiveOverwrite.
  Proof.
    unfold fx_code. intros (r&_&Hc)%bind_Some. case_decide; [done|].
    destruct op as [[]|]; simplify_eq; eauto. case_decide; simplify_eq; eauto.
    by apply bind_Some in Hc as (?&_&?).
  Qed.
  Lemma fx_spec_ubs xs ys ops u :
    x_spec (fx_code N dflt eqb) xs ys ops = Some (UB u) → u = NoObject ∨ u = LiveOverwrite.
  Proof.
    revert xs ys. induction ops as [|[t op] ops IH]; intros xs ys Hs; simpl in Hs; [done|].
    apply bind_Some in Hs as (rc&Hc&Hs).
    destruct rc as [[[s1 o1] w]|e|]; simplify_eq.
    - apply bind_Some in Hs as (r'&Hs'&Hr).
      destruct r' as [[[s2 o2] rs]|e|]; simplify_eq. destruct t; by eapply IH.
    - destruct t; by eapply fx_code_ubs.
  Qed.
End history.
