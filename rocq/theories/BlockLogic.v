(** Separation-logic rules for blocks of slots, and the loops shared by vector and
    fixed_vector. Proof file. *)
From Verif Require Export VecModel Sep.
From iris.proofmode Require Import tactics.

Section lists.
  Context {A : Type}.
  Implicit Types (x y : A) (k l : list A).
  Lemma lookup_mid k l x n : n = length k → (k ++ x :: l) !! n = Some x.
  Proof. intros ->. by rewrite lookup_app_r // Nat.sub_diag. Qed.
  Lemma insert_mid k l x y n : n = length k → <[n := y]> (k ++ x :: l) = k ++ y :: l.
  Proof. intros ->. rewrite insert_app_r_alt // Nat.sub_diag //. Qed.
  Lemma replicate_snoc n x : replicate n x ++ [x] = replicate (S n) x.
  Proof. by rewrite replicate_S_end. Qed.
End lists.

(** Resolve the next [if decide] by arithmetic. *)
Ltac dT := match goal with |- context [decide ?P] =>
  let H := fresh in destruct (decide P) as [_|H]; [|exfalso; simpl in *; lia] end.
Ltac dF := match goal with |- context [decide ?P] =>
  let H := fresh in destruct (decide P) as [H|_]; [exfalso; simpl in *; lia|] end.

Section blk.
  Context {V : Type} `{Allocator (list (option V))}.
  Notation block := (list (option V)).
  Notation iProp := (bi_car (hpropI block)).
  Implicit Types (p q : ptr) (b c : block) (v x : V) (i o n : nat) (xs vs : list V).
  Implicit Types (F : iProp) (good : block → Prop).

  Definition blk p b : iProp :=
    match p with Some l => l ↦ b | None => ⌜b = []⌝ ∧ emp end%I.
  Definition raw n : block := replicate n None.
  Definition lv xs : block := Some <$> xs.

  Lemma raw_eq n : raw n = replicate n None.
  Proof. done. Qed.
  Lemma lv_eq xs : lv xs = Some <$> xs.
  Proof. done. Qed.
  Lemma raw_0 : raw 0 = [].
  Proof. done. Qed.
  Lemma lv_nil : lv [] = [].
  Proof. done. Qed.

  Lemma lv_length xs : length (lv xs) = length xs.
  Proof. apply fmap_length. Qed.
  Lemma lv_app xs vs : lv (xs ++ vs) = lv xs ++ lv vs.
  Proof. apply fmap_app. Qed.
  Lemma lv_cons x xs : lv (x :: xs) = Some x :: lv xs.
  Proof. done. Qed.
  Lemma lv_take n xs : lv (take n xs) = take n (lv xs).
  Proof. apply fmap_take. Qed.
  Lemma lv_drop n xs : lv (drop n xs) = drop n (lv xs).
  Proof. apply fmap_drop. Qed.
  Lemma raw_length n : length (raw n) = n.
  Proof. apply replicate_length. Qed.
  Lemma raw_S n : raw (S n) = None :: raw n.
  Proof. done. Qed.
  Lemma raw_S_end n : raw (S n) = raw n ++ [None].
  Proof. symmetry. apply replicate_snoc. Qed.
  Lemma raw_add n m : raw (n + m) = raw n ++ raw m.
  Proof. apply replicate_add. Qed.
  Lemma lv_lookup xs i x : xs !! i = Some x → lv xs !! i = Some (Some x).
  Proof. intros Hx. unfold lv. by rewrite list_lookup_fmap Hx. Qed.

  Lemma forallb_raw n : forallb (λ s : option V, match s with Some _ => false | None => true end) (raw n) = true.
  Proof. by induction n. Qed.
  Local Opaque raw lv.

  Lemma wp_slot_at p b i s Q :
    b !! i = Some s → blk p b -∗ (blk p b -∗ Q s) -∗ wp (slot_at p i) Q.
  Proof.
    iIntros (Hi) "H HQ". destruct p as [l|]; simpl.
    - unfold slot_at. wstep. wstep. wstep. iApply (wp_load with "H"). iIntros "H". rewrite Hi.
      wstep. by iApply "HQ".
    - iDestruct "H" as "[-> _]". by rewrite lookup_nil in Hi.
  Qed.
  Lemma wp_put_slot p b i s t Q :
    b !! i = Some s → blk p b -∗ (blk p (<[i := t]> b) -∗ Q tt) -∗ wp (put_slot p i t) Q.
  Proof.
    iIntros (Hi) "H HQ". destruct p as [l|]; simpl.
    - unfold put_slot. wstep. wstep. iApply (wp_modify with "H"). iIntros "H". by iApply "HQ".
    - iDestruct "H" as "[-> _]". by rewrite lookup_nil in Hi.
  Qed.
  Lemma wp_rd p b i v Q :
    b !! i = Some (Some v) → blk p b -∗ (blk p b -∗ Q v) -∗ wp (rd p i) Q.
  Proof.
    iIntros (Hi) "H HQ". unfold rd. wstep. iApply (wp_slot_at with "H"); [done|]. iIntros "H".
    wstep. by iApply "HQ".
  Qed.
  Lemma wp_construct p b i v Q :
    b !! i = Some None → blk p b -∗ (blk p (<[i := Some v]> b) -∗ Q tt) -∗ wp (construct p i v) Q.
  Proof.
    iIntros (Hi) "H HQ". unfold construct. wstep. iApply (wp_slot_at with "H"); [done|]. iIntros "H".
    cbn iota. iApply (wp_put_slot with "H"); done.
  Qed.
  Lemma wp_destroy_at p b i v Q :
    b !! i = Some (Some v) → blk p b -∗ (blk p (<[i := None]> b) -∗ Q tt) -∗ wp (destroy_at p i) Q.
  Proof.
    iIntros (Hi) "H HQ". unfold destroy_at. wstep. iApply (wp_slot_at with "H"); [done|]. iIntros "H".
    cbn iota. iApply (wp_put_slot with "H"); done.
  Qed.
  Lemma wp_assign_at p b i v x Q :
    b !! i = Some (Some x) → blk p b -∗ (blk p (<[i := Some v]> b) -∗ Q tt) -∗ wp (assign_at p i v) Q.
  Proof.
    iIntros (Hi) "H HQ". unfold assign_at. wstep. iApply (wp_slot_at with "H"); [done|]. iIntros "H".
    cbn iota. iApply (wp_put_slot with "H"); done.
  Qed.
  Lemma wp_pred i Q : Q i ⊢ wp (dec_ptr (V:=V) (S i)) Q.
  Proof. iIntros "H". by iApply wp_ret. Qed.
  Lemma wp_new_buf n Q : (∀ p, ⌜p ≠ None⌝ → blk p (raw n) -∗ Q p) ⊢ wp (new_buf n) Q.
  Proof. iIntros "HQ". unfold new_buf. wstep. wstep. wstep. by iApply "HQ". Qed.
  Lemma wp_free_buf p n Q : blk p (raw n) -∗ Q tt -∗ wp (free_buf p) Q.
  Proof.
    iIntros "H HQ". destruct p as [l|]; simpl.
    - wstep. iApply (wp_load with "H"). iIntros "H".
      rewrite forallb_raw.
      by iApply (wp_deallocate with "H").
    - iDestruct "H" as "[_ _]". wstep. done.
  Qed.
  Lemma blk_app_r p b s : s ≠ [] → blk p (b ++ s) ⊢ ⌜p ≠ None⌝.
  Proof.
    iIntros (Hs) "H". destruct p; [done|]. simpl. iDestruct "H" as "[%Hb _]".
    exfalso. apply app_eq_nil in Hb. by destruct Hb.
  Qed.

  (** destroying a segment from the top *)
  Lemma wp_destroy_loop {B} (T : nat → Prop) `{∀ l, Decision (T l)} (k : nat → B) fuel p b xs c hi :
    (∀ l, length b < l → T l) → ¬ T (length b) → hi = length b + length xs → length xs < fuel →
    blk p (b ++ lv xs ++ c) ⊢
    wp (loop fuel (λ l,
      if decide (T l) then
        let! l := dec_ptr l in destroy_at p l ;! ret (inl l)
      else ret (inr (k l))) hi) (λ r, ⌜r = k (length b)⌝ ∧ blk p (b ++ raw (length xs) ++ c)).
  Proof.
    intros HT HF. revert fuel c hi. induction xs as [|x xs IH] using rev_ind; intros fuel c hi -> Hf;
      iIntros "H"; (destruct fuel as [|fuel]; [simpl in Hf; lia|]); cbn [loop].
    - rewrite Nat.add_0_r. wstep. destruct (decide _); [done|]. wstep. wstep. by iSplit.
    - rewrite app_length /= Nat.add_1_r -plus_n_Sm in Hf |- *. wstep.
      destruct (decide _) as [_|Hn]; [|by destruct Hn; apply HT; lia].
      wstep. iApply wp_pred. wstep. rewrite lv_app /= -app_assoc /= app_assoc.
      iApply (wp_destroy_at with "H"); [apply lookup_mid; rewrite app_length lv_length; lia|].
      rewrite insert_mid; [|rewrite app_length lv_length; lia]. iIntros "H". wstep.
      rewrite -app_assoc. iApply (wp_wand with "[H]"); [iApply (IH with "H"); lia|].
      iIntros (r) "[% H]". iSplit; [done|]. by rewrite raw_S_end -app_assoc.
  Qed.
  Lemma wp_destroy_down fuel p xs c i :
    i = length xs → length xs < fuel →
    blk p (lv xs ++ c) ⊢ wp (destroy_down fuel p i) (λ _, blk p (raw (length xs) ++ c)).
  Proof.
    intros -> Hf. iIntros "H".
    iApply (wp_wand with "[H]").
    - iApply (wp_destroy_loop (λ i, 0 < i) (λ _, tt) fuel p [] xs c with "H"); simpl; [lia..|done|done].
    - iIntros (r) "[_ H]". done.
  Qed.
  Lemma wp_destroy_range fuel p b xs c f l :
    f = length b → l = length b + length xs → length xs < fuel →
    blk p (b ++ lv xs ++ c) ⊢ wp (destroy_range fuel p f l) (λ _, blk p (b ++ raw (length xs) ++ c)).
  Proof.
    intros -> -> Hf. iIntros "H".
    iApply (wp_wand with "[H]").
    - iApply (wp_destroy_loop (λ l, length b ≠ l) (λ _, tt) fuel p b xs c with "H"); [lia|naive_solver|done|done].
    - iIntros (r) "[_ H]". done.
  Qed.

  (** copying a segment of one block into another *)
  Lemma wp_copy_up fuel p q b xs b' c c' i e o :
    i = length b → e = i + length xs → o = length c → length xs < fuel →
    blk p (b ++ lv xs ++ b') ∗ blk q (c ++ raw (length xs) ++ c') ⊢
    wp (copy_up fuel p i e q o) (λ r, ⌜r = (e, (o + length xs)%nat)⌝ ∧
      blk p (b ++ lv xs ++ b') ∗ blk q (c ++ lv xs ++ c')).
  Proof.
    unfold copy_up. revert fuel b c i o. induction xs as [|x xs IH]; intros fuel b c i o -> -> -> Hf;
      iIntros "[H Hq]"; (destruct fuel as [|fuel]; [simpl in Hf; lia|]); cbn [loop].
    - wstep. dF. wstep. wstep. rewrite raw_0 lv_nil. iSplit; [iPureIntro; f_equal; simpl; lia|iFrame].
    - wstep. simpl in Hf. dT. wstep.
      rewrite lv_cons raw_S.
      iApply (wp_rd with "H"); [by apply lookup_mid|]. iIntros "H". wstep.
      iApply (wp_construct with "Hq"); [by apply lookup_mid|]. rewrite insert_mid //. iIntros "Hq".
      wstep.
      iApply (wp_wand with "[H Hq]").
      + rewrite -Nat.add_1_r -[S (length c)]Nat.add_1_r.
        iApply (IH fuel (b ++ [Some x]) (c ++ [Some x])); [rewrite ?app_length; simpl; lia..|].
        rewrite -!app_assoc. iFrame.
      + iIntros (r) "[-> [H Hq]]". rewrite -!app_assoc. iSplit; [iPureIntro; f_equal; simpl; lia|].
        iFrame.
  Qed.

  (** moving a segment up or down within a block *)
  Lemma wp_shift_up fuel p b xs n c i o pos :
    pos = length b → i = pos + length xs → o = i + n → 0 < n → length xs < fuel →
    blk p (b ++ lv xs ++ raw n ++ c) ⊢
    wp (shift_up fuel p i o pos) (λ _, blk p (b ++ raw n ++ lv xs ++ c)).
  Proof.
    unfold shift_up. intros ->. revert fuel c i o.
    induction xs as [|x xs IH] using rev_ind; intros fuel c i o -> -> Hn Hf; iIntros "H";
      (destruct fuel as [|fuel]; [simpl in Hf; lia|]); cbn [loop].
    - wstep. dF. wstep. by wstep.
    - rewrite app_length /= in Hf |- *. wstep. dT.
      destruct n as [|n]; [lia|].
      replace (length b + (length xs + 1)) with (S (length b + length xs)) by lia.
      replace (S (length b + length xs) + S n) with (S (length b + length xs + S n)) by lia.
      wstep. iApply wp_pred. wstep. iApply wp_pred. wstep.
      assert (b ++ lv (xs ++ [x]) ++ raw (S n) ++ c =
              (b ++ lv xs) ++ Some x :: raw n ++ None :: c) as ->.
      { rewrite lv_app lv_cons lv_nil raw_S_end -!app_assoc //. }
      iApply (wp_rd with "H"); [apply lookup_mid; by rewrite app_length lv_length|].
      iIntros "H". wstep.
      assert ((b ++ lv xs) ++ Some x :: raw n ++ None :: c =
              ((b ++ lv xs) ++ Some x :: raw n) ++ None :: c) as -> by rewrite -!app_assoc //.
      iApply (wp_construct with "H").
      { apply lookup_mid. rewrite !app_length /= lv_length raw_length. lia. }
      rewrite insert_mid; [|rewrite !app_length /= lv_length raw_length; lia].
      iIntros "H". wstep. rewrite -app_assoc /=.
      iApply (wp_destroy_at with "H"); [apply lookup_mid; by rewrite app_length lv_length|].
      rewrite insert_mid; [|by rewrite app_length lv_length]. iIntros "H". wstep.
      iApply (wp_wand with "[H]").
      + iApply (IH fuel (Some x :: c)); [done|done|done|lia|].
        rewrite -!app_assoc raw_S /=. done.
      + iIntros (r) "H". rewrite lv_app lv_cons lv_nil -!app_assoc //.
  Qed.
  Lemma wp_shift_down fuel p b xs n c i o last :
    o = length b → i = o + n → last = i + length xs → 0 < n → length xs < fuel →
    blk p (b ++ raw n ++ lv xs ++ c) ⊢
    wp (shift_down fuel p i o last) (λ r, ⌜r = (o + length xs)%nat⌝ ∧ blk p (b ++ lv xs ++ raw n ++ c)).
  Proof.
    unfold shift_down. revert fuel b i o.
    induction xs as [|x xs IH]; intros fuel b i o -> -> -> Hn Hf; iIntros "H";
      (destruct fuel as [|fuel]; [simpl in Hf; lia|]); cbn [loop].
    - wstep. dF. wstep. wstep. iSplit; [|done]. iPureIntro. simpl. lia.
    - simpl in Hf. wstep. dT.
      destruct n as [|n]; [lia|]. wstep.
      assert (b ++ raw (S n) ++ lv (x :: xs) ++ c = (b ++ raw (S n)) ++ Some x :: lv xs ++ c) as ->.
      { rewrite -!app_assoc //. }
      iApply (wp_rd with "H"); [apply lookup_mid; by rewrite app_length raw_length|].
      iIntros "H". wstep. rewrite -app_assoc raw_S /=.
      iApply (wp_construct with "H"); [by apply lookup_mid|]. rewrite insert_mid //. iIntros "H". wstep.
      assert (b ++ Some x :: raw n ++ Some x :: lv xs ++ c =
             (b ++ Some x :: raw n) ++ Some x :: lv xs ++ c) as -> by rewrite -!app_assoc //.
      iApply (wp_destroy_at with "H").
      { apply lookup_mid. rewrite app_length /= raw_length. lia. }
      rewrite insert_mid; [|rewrite app_length /= raw_length; lia]. iIntros "H". wstep.
      iApply (wp_wand with "[H]").
      + iApply (IH fuel (b ++ [Some x])); [rewrite ?app_length /=; lia..|].
        rewrite raw_S_end -!app_assoc /=. done.
      + iIntros (r) "[-> H]". rewrite lv_cons raw_S -!app_assoc /=. iSplit; [iPureIntro; lia|]. done.
  Qed.

  (** *** Value sources *)
  (** [r] denotes [v] when [F] is owned next to a block [p] whose content is [good]. *)
  Definition rok F p good (r : vref V) v : Prop :=
    ∀ b Q, good b → F -∗ blk p b -∗ (F -∗ blk p b -∗ Q v) -∗ wp (deref r) Q.
  Definition vnext (args : vc_args V) : option (vref V * vc_args V) :=
    match args with
    | VcCounter r => Some (r, VcCounter r)
    | VcIterator g => (λ '(r, g), (r, VcIterator g)) <$> rnext g
    end.
  Fixpoint src_ok F p good args vs : Prop :=
    match vs with
    | [] => True
    | v :: vs => ∃ r args', vnext args = Some (r, args') ∧ rok F p good r v ∧ src_ok F p good args' vs
    end.
  (** nothing the loops do to the raw slots spoils [good] *)
  Definition stable good : Prop :=
    ∀ b i v, good b → b !! i = Some None → good (<[i := Some v]> b).

  Lemma rok_ext F p good v : rok F p good (VExt v) v.
  Proof. intros b Q _. iIntros "HF H HQ". simpl. wstep. by iApply ("HQ" with "HF"). Qed.
  Lemma rok_own F p good j v :
    (∀ b, good b → b !! j = Some (Some v)) → rok F p good (VSlot p j) v.
  Proof.
    intros Hg b Q Hb. iIntros "HF H HQ". simpl. iApply (wp_rd with "H"); [by apply Hg|].
    iIntros "H". by iApply ("HQ" with "HF").
  Qed.
  Lemma rok_other F p good q c j v :
    c !! j = Some (Some v) → rok (blk q c ∗ F) p good (VSlot q j) v.
  Proof.
    intros Hg b Q Hb. iIntros "[Hq HF] H HQ". simpl. iApply (wp_rd with "Hq"); [done|].
    iIntros "Hq". iApply ("HQ" with "[$Hq $HF] H").
  Qed.
  Lemma src_counter F p good r v n :
    rok F p good r v → src_ok F p good (VcCounter r) (replicate n v).
  Proof. intros Hr. induction n; simpl; [done|]. by eexists _, _. Qed.
  Lemma src_vals F p good vs : src_ok F p good (VcIterator (RVals vs)) vs.
  Proof.
    induction vs; simpl; [done|]. eexists _, _. split; [done|]. split; [apply rok_ext|done].
  Qed.
  Lemma src_buf F p good q b vs c i j :
    i = length b → j = i + length vs →
    src_ok (blk q (b ++ lv vs ++ c) ∗ F) p good (VcIterator (RBuf q i j)) vs.
  Proof.
    revert b i. induction vs as [|v vs IH]; intros b i Hi Hj; simpl; [done|].
    dF.
    eexists _, _. split; [done|]. split.
    - apply rok_other. by apply lookup_mid.
    - specialize (IH (b ++ [Some v]) (S i)). rewrite -app_assoc /= in IH. apply IH.
      + rewrite app_length /=. lia.
      + simpl in *. lia.
  Qed.

  Lemma src_ok_equiv F F' p good args vs :
    (F ⊣⊢ F') → src_ok F p good args vs → src_ok F' p good args vs.
  Proof.
    intros HF. revert args. induction vs as [|v vs IH]; intros args; [done|].
    intros (r&args'&Hn&Hr&Hs). exists r, args'. split; [done|]. split; [|by apply IH].
    intros b Q Hb. rewrite -HF. by apply Hr.
  Qed.

  Lemma wp_vc F p good r args args' v b o Q :
    vnext args = Some (r, args') → rok F p good r v → good b → b !! o = Some None →
    F -∗ blk p b -∗ (F -∗ blk p (<[o := Some v]> b) -∗ Q args') -∗ wp (vc p o args) Q.
  Proof.
    iIntros (Hn Hr Hb Ho) "HF H HQ".
    assert (vc p o args = let! x := deref r in construct p o x ;! ret args') as ->.
    { destruct args as [|g]; simpl in *; [by simplify_eq|].
      destruct (rnext g) as [[]|]; by simplify_eq/=. }
    wstep. iApply (Hr with "HF H"); [done|]. iIntros "HF H". wstep.
    iApply (wp_construct with "H"); [done|]. iIntros "H". wstep. iApply ("HQ" with "HF H").
  Qed.
  Lemma wp_vc_loop fuel F p good b vs c o n args :
    o = length b → n = length vs → length vs < fuel → stable good →
    src_ok F p good args vs → good (b ++ raw (length vs) ++ c) →
    F ∗ blk p (b ++ raw (length vs) ++ c) ⊢
    wp (vc_loop fuel p o n args) (λ r, ⌜r = (o + length vs)%nat⌝ ∧ F ∗ blk p (b ++ lv vs ++ c)).
  Proof.
    unfold vc_loop. intros -> -> Hf Hst Hs Hg. revert fuel b args Hs Hg Hf.
    induction vs as [|v vs IH]; intros fuel b args Hs Hg Hf; iIntros "[HF H]";
      (destruct fuel as [|fuel]; [simpl in Hf; lia|]); cbn [loop].
    - wstep. cbn [length]. wstep. wstep. rewrite raw_0 lv_nil. iSplit; [iPureIntro; simpl; lia|iFrame].
    - destruct Hs as (r&args'&Hn&Hr&Hs). simpl in Hf. wstep. cbn [length]. cbn iota. wstep.
      rewrite raw_S in Hg |- *.
      iApply (wp_vc with "HF H"); [done|done|done|by apply lookup_mid|]. rewrite insert_mid //.
      iIntros "HF H". wstep.
      assert (good ((b ++ [Some v]) ++ raw (length vs) ++ c)) as Hg'.
      { rewrite -app_assoc. simpl. erewrite <-(insert_mid b _ None) by reflexivity. apply Hst; [done|].
        by apply lookup_mid. }
      iApply (wp_wand with "[HF H]").
      + rewrite -Nat.add_1_r. replace (length b + 1) with (length (b ++ [Some v])) by (rewrite app_length //).
        iApply (IH fuel (b ++ [Some v])); [done|done|lia|]. rewrite -app_assoc. iFrame.
      + iIntros (r') "[-> [HF H]]". rewrite app_length /= -app_assoc. iSplit; [iPureIntro; lia|].
        rewrite lv_cons. iFrame.
  Qed.
End blk.
Global Opaque raw lv.
Global Arguments blk : simpl never.
