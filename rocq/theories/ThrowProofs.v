(** Element copies that throw: the loops. Proof file. *)
From Verif Require Export ThrowModel VecProofs.
From iris.proofmode Require Import tactics.

Section throw.
  Context {V Mb : Type} `{Allocator (list (option V))}.
  Notation block := (list (option V)).
  Notation iProp := (bi_car (hpropI block)).
  Notation X A := (X V Mb A).
  Implicit Types (m : Mb) (xs ys vs : list V) (c b : block) (n i j k o : nat) (x : V) (F : iProp).

  Definition xwp {A} (p : X A) m (f : option nat) (Q : Mb → option nat → A → iProp) (E : Mb → iProp) : iProp :=
    wp (p m f) (λ r, match r with XDone m f a => Q m f a | XThrew m => E m end).
  Lemma xwp_ret {A} (a : A) m f Q E : Q m f a ⊢ xwp (xret a) m f Q E.
  Proof. iIntros "H". unfold xwp, xret. by wstep. Qed.
  Lemma xwp_bind {A B} (p : X A) (k : A → X B) m f Q E :
    xwp p m f (λ m f a, xwp (k a) m f Q E) E ⊢ xwp (xbind p k) m f Q E.
  Proof.
    iIntros "H". unfold xwp, xbind. wstep. iApply (wp_wand with "H"). iIntros ([m' f' a|m']) "H"; [done|].
    by wstep.
  Qed.
  Lemma xwp_do {A} (p : M (gmap loc block) A) m f Q E : wp p (λ a, Q m f a) ⊢ xwp (xdo p) m f Q E.
  Proof. iIntros "H". unfold xwp, xdo. wstep. iApply (wp_wand with "H"). iIntros (a) "H". by wstep. Qed.
  Lemma xwp_this m f Q E : Q m f m ⊢ xwp xthis m f Q E.
  Proof. iIntros "H". unfold xwp, xthis. by wstep. Qed.
  Lemma xwp_set m m' f Q E : Q m' f tt ⊢ xwp (xset m') m f Q E.
  Proof. iIntros "H". unfold xwp, xset. by wstep. Qed.
  Lemma xwp_wand {A} (p : X A) m f Q E Q' E' :
    xwp p m f Q E -∗ (∀ m f a, Q m f a -∗ Q' m f a) ∧ (∀ m, E m -∗ E' m) -∗ xwp p m f Q' E'.
  Proof.
    iIntros "H HQ". unfold xwp. iApply (wp_wand with "H"). iIntros ([m' f' a|m']) "H".
    - iDestruct "HQ" as "[HQ _]". by iApply "HQ".
    - iDestruct "HQ" as "[_ HQ]". by iApply "HQ".
  Qed.
  Lemma xwp_copy p b i x m k Q E :
    b !! i = Some None →
    blk p b -∗
    (∀ k', ⌜k = S k'⌝ → blk p (<[i := Some x]> b) -∗ Q m (Some k') tt) ∧ (⌜k = 0⌝ → blk p b -∗ E m) -∗
    xwp (xcopy p i x) m (Some k) Q E.
  Proof.
    iIntros (Hi) "H HQ". unfold xwp, xcopy. destruct k as [|k].
    - wstep. iDestruct "HQ" as "[_ HQ]". by iApply "HQ".
    - wstep. iApply (wp_construct with "H"); [done|]. iIntros "H". wstep. simpl.
      iDestruct "HQ" as "[HQ _]". by iApply "HQ".
  Qed.
  Lemma wp_caught {A} (p : X A) m f Q : xwp p m f (λ m _ _, Q m) Q ⊢ wp (caught p m f) Q.
  Proof.
    iIntros "H". unfold caught, xwp. wstep. iApply (wp_wand with "H").
    iIntros ([m' f' a|m']) "H"; by wstep.
  Qed.
End throw.
Global Typeclasses Opaque xwp.

(** One step of a throwing program. *)
Ltac xstep :=
  match goal with
  | |- environments.envs_entails _ (xwp (xbind _ _) _ _ _ _) => iApply xwp_bind
  | |- environments.envs_entails _ (xwp (xret _) _ _ _ _) => iApply xwp_ret
  | |- environments.envs_entails _ (xwp xthis _ _ _ _) => iApply xwp_this
  | |- environments.envs_entails _ (xwp (xset _) _ _ _ _) => iApply xwp_set
  | |- environments.envs_entails _ (xwp (xdo _) _ _ _ _) => iApply xwp_do
  end.

Section loops.
  Context {V Mb : Type} `{Allocator (list (option V))}.
  Notation block := (list (option V)).
  Notation iProp := (bi_car (hpropI block)).
  Notation X A := (X V Mb A).
  Implicit Types (m : Mb) (xs ys vs : list V) (c b : block) (n i j k o : nat) (x : V) (F : iProp).
  Local Opaque raw lv.

  Lemma xwp_copy_up fuel p q b xs b' c c' i e o m k :
    i = length b → e = i + length xs → o = length c → length xs < fuel →
    blk p (b ++ lv xs ++ b') ∗ blk q (c ++ raw (length xs) ++ c') ⊢
    xwp (xcopy_up fuel p i e q o) m (Some k)
      (λ m' f' r, ⌜m' = m ∧ length xs ≤ k ∧ f' = Some (k - length xs)%nat ∧ r = (e, (o + length xs)%nat)⌝ ∧
         blk p (b ++ lv xs ++ b') ∗ blk q (c ++ lv xs ++ c'))
      (λ m', ⌜m' = m ∧ k < length xs⌝ ∧
         blk p (b ++ lv xs ++ b') ∗ blk q (c ++ lv (take k xs) ++ raw (length xs - k) ++ c')).
  Proof.
    unfold xcopy_up. revert fuel b c i o k. induction xs as [|x xs IH]; intros fuel b c i o k -> -> -> Hf;
      iIntros "[H Hq]"; (destruct fuel as [|fuel]; [simpl in Hf; lia|]); cbn [xloop].
    - xstep. dF. xstep. xstep. rewrite raw_0 lv_nil. iSplit; [iPureIntro; simpl; split_and!; try done; [lia|f_equal; lia|f_equal; lia]|iFrame].
    - xstep. simpl in Hf. dT. xstep. xstep.
      rewrite lv_cons. cbn [length] in IH |- *. rewrite raw_S.
      iApply (wp_rd with "H"); [by apply lookup_mid|]. iIntros "H". xstep.
      iApply (xwp_copy with "Hq"); [by apply lookup_mid|]. rewrite insert_mid //. iSplit.
      + iIntros (k' ->) "Hq". xstep.
        iApply (xwp_wand with "[H Hq]").
        * iApply (IH fuel (b ++ [Some x]) (c ++ [Some x])); [rewrite ?app_length; simpl; lia..|].
          rewrite -!app_assoc. iFrame.
        * iSplit.
          -- iIntros (m' f' r) "[%Hr [H Hq]]". destruct Hr as (->&?&->&->). rewrite -!app_assoc.
             iSplit; [iPureIntro; split_and!; try done; try lia; f_equal; lia|]. iFrame.
          -- iIntros (m') "[%Hr [H Hq]]". destruct Hr as (->&?). rewrite -!app_assoc /=.
             iSplit; [iPureIntro; split_and!; try done; lia|]. rewrite lv_cons. iFrame.
      + iIntros (->) "Hq". iSplit; [iPureIntro; split; [done|lia]|]. simpl. rewrite raw_S. iFrame.
  Qed.

  Lemma xwp_vc F p good r args args' x b o m k Q E :
    vnext args = Some (r, args') → rok F p good r x → good b → b !! o = Some None →
    F -∗ blk p b -∗
    (∀ k', ⌜k = S k'⌝ → F -∗ blk p (<[o := Some x]> b) -∗ Q m (Some k') args') ∧ (⌜k = 0⌝ → F -∗ blk p b -∗ E m) -∗
    xwp (Mb:=Mb) (xvc p o args) m (Some k) Q E.
  Proof.
    iIntros (Hn Hr Hb Ho) "HF H HQ".
    assert (xvc (Mb:=Mb) p o args = let$ x := xdo (deref r) in xcopy p o x ;$ xret args') as ->.
    { destruct args as [|g]; simpl in *; [by simplify_eq|].
      destruct (rnext g) as [[]|]; by simplify_eq/=. }
    xstep. xstep. iApply (Hr with "HF H"); [done|]. iIntros "HF H". xstep.
    iApply (xwp_copy with "H"); [done|]. iSplit.
    - iIntros (k' ->) "H". xstep. iDestruct "HQ" as "[HQ _]". by iApply ("HQ" with "[//] HF H").
    - iIntros (->) "H". iDestruct "HQ" as "[_ HQ]". by iApply ("HQ" with "[//] HF H").
  Qed.
  Lemma xwp_vc_loop fuel F p good b vs c o n args m k :
    o = length b → n = length vs → length vs < fuel → stable good →
    src_ok F p good args vs → good (b ++ raw (length vs) ++ c) →
    F ∗ blk p (b ++ raw (length vs) ++ c) ⊢
    xwp (Mb:=Mb) (xvc_loop fuel p o n args) m (Some k)
      (λ m' f' r, ⌜m' = m ∧ length vs ≤ k ∧ f' = Some (k - length vs)%nat ∧ r = (o + length vs)%nat⌝ ∧
         F ∗ blk p (b ++ lv vs ++ c))
      (λ m', ⌜m' = m ∧ k < length vs⌝ ∧ F ∗ blk p (b ++ lv (take k vs) ++ raw (length vs - k) ++ c)).
  Proof.
    unfold xvc_loop. intros -> -> Hf Hst Hs Hg. revert fuel b args k Hs Hg Hf.
    induction vs as [|v vs IH]; intros fuel b args k Hs Hg Hf; iIntros "[HF H]";
      (destruct fuel as [|fuel]; [simpl in Hf; lia|]); cbn [xloop].
    - xstep. cbn [length]. xstep. xstep. rewrite raw_0 lv_nil.
      iSplit; [iPureIntro; split_and!; try done; try f_equal; lia|iFrame].
    - destruct Hs as (r&args'&Hn&Hr&Hs). simpl in Hf. xstep. cbn [length]. cbn iota. xstep.
      cbn [length] in Hg. rewrite raw_S in Hg |- *.
      iApply (xwp_vc with "HF H"); [done|done|done|by apply lookup_mid|].
      rewrite insert_mid //. iSplit.
      + iIntros (k' ->) "HF H". xstep.
        iApply (xwp_wand with "[HF H]").
        * rewrite -[S (length b)]Nat.add_1_r.
          replace (length b + 1) with (length (b ++ [Some v])) by (rewrite app_length; simpl; lia).
          iApply (IH fuel (b ++ [Some v])); [done| |lia|].
          { rewrite -app_assoc /=.
            assert (b ++ Some v :: raw (length vs) ++ c = <[length b := Some v]> (b ++ None :: raw (length vs) ++ c)) as ->.
            { by rewrite insert_mid. }
            apply Hst; [done|]. by apply lookup_mid. }
          rewrite -!app_assoc. iFrame.
        * rewrite app_length /=. iSplit.
          -- iIntros (m' f' r') "[%Hq [HF H]]". destruct Hq as (->&?&->&->). rewrite -!app_assoc lv_cons.
             iSplit; [iPureIntro; split_and!; try done; lia|]. iFrame.
          -- iIntros (m') "[%Hq [HF H]]". destruct Hq as (->&?). rewrite -!app_assoc /= lv_cons.
             iSplit; [iPureIntro; split_and!; try done; lia|]. iFrame.
      + iIntros (->) "HF H". iSplit; [iPureIntro; split; [done|lia]|]. simpl. rewrite raw_S. iFrame.
  Qed.

  (** moving a segment up within a block: the slots between are raw all the time *)
  Lemma xwp_shift_up fuel p b xs n c i o pos m k :
    pos = length b → i = pos + length xs → o = i + n → 0 < n → length xs < fuel →
    blk p (b ++ lv xs ++ raw n ++ c) ⊢
    xwp (Mb:=Mb) (xshift_up fuel p i o pos) m (Some k)
      (λ m' f' r, ⌜m' = m ∧ length xs ≤ k ∧ f' = Some (k - length xs)%nat⌝ ∧ blk p (b ++ raw n ++ lv xs ++ c))
      (λ m', ⌜m' = m ∧ k < length xs⌝ ∧
         blk p (b ++ lv (take (length xs - k) xs) ++ raw n ++ lv (drop (length xs - k) xs) ++ c)).
  Proof.
    unfold xshift_up. intros ->. revert fuel c i o k.
    induction xs as [|x xs IH] using rev_ind; intros fuel c i o k -> -> Hn Hf; iIntros "H";
      (destruct fuel as [|fuel]; [simpl in Hf; lia|]); cbn [xloop].
    - xstep. dF. xstep. xstep. rewrite lv_nil. iSplit; [iPureIntro; simpl; split_and!; try done; try f_equal; lia|done].
    - rewrite app_length /= in Hf |- *. xstep. dT.
      destruct n as [|n]; [lia|].
      replace (length b + (length xs + 1)) with (S (length b + length xs)) by lia.
      replace (S (length b + length xs) + S n) with (S (length b + length xs + S n)) by lia.
      xstep. xstep. iApply wp_pred. xstep. xstep. iApply wp_pred. xstep. xstep.
      assert (b ++ lv (xs ++ [x]) ++ raw (S n) ++ c =
              (b ++ lv xs) ++ Some x :: raw n ++ None :: c) as Heq.
      { rewrite lv_app lv_cons lv_nil raw_S_end -!app_assoc //. }
      rewrite Heq.
      iApply (wp_rd with "H"); [apply lookup_mid; by rewrite app_length lv_length|].
      iIntros "H". xstep.
      assert ((b ++ lv xs) ++ Some x :: raw n ++ None :: c =
              ((b ++ lv xs) ++ Some x :: raw n) ++ None :: c) as Heq2 by rewrite -!app_assoc //.
      rewrite Heq2.
      iApply (xwp_copy with "H").
      { apply lookup_mid. rewrite !app_length /= lv_length raw_length. lia. }
      rewrite insert_mid; [|rewrite !app_length /= lv_length raw_length; lia]. iSplit.
      + iIntros (k' ->) "H". xstep. xstep. rewrite -app_assoc /=.
        iApply (wp_destroy_at with "H"); [apply lookup_mid; by rewrite app_length lv_length|].
        rewrite insert_mid; [|by rewrite app_length lv_length]. iIntros "H". xstep.
        iApply (xwp_wand with "[H]").
        * iApply (IH fuel (Some x :: c) _ _ k'); [done|done|done|lia|].
          rewrite -!app_assoc raw_S /=. done.
        * iSplit.
          -- iIntros (m' f' r) "[%Hr H]". destruct Hr as (->&?&->). rewrite lv_app lv_cons lv_nil -!app_assoc /=.
             iSplit; [iPureIntro; split_and!; try done; try f_equal; lia|]. done.
          -- iIntros (m') "[%Hr H]". destruct Hr as (->&?).
             iSplit; [iPureIntro; split_and!; try done; lia|].
             replace (length xs + 1 - S k') with (length xs - k') by lia.
             rewrite take_app_le; [|lia]. rewrite drop_app_le; [|lia].
             rewrite lv_app lv_cons lv_nil -!app_assoc /=. done.
      + iIntros (->) "H". iSplit; [iPureIntro; split; [done|lia]|]. rewrite Nat.sub_0_r.
        rewrite take_ge; [|rewrite app_length /=; lia]. rewrite drop_ge; [|rewrite app_length /=; lia].
        rewrite lv_nil /= Heq Heq2. done.
  Qed.
  Lemma xwp_shift_down fuel p b xs n c i o last m k :
    o = length b → i = o + n → last = i + length xs → 0 < n → length xs < fuel →
    blk p (b ++ raw n ++ lv xs ++ c) ⊢
    xwp (Mb:=Mb) (xshift_down fuel p i o last) m (Some k)
      (λ m' f' r, ⌜m' = m ∧ length xs ≤ k ∧ f' = Some (k - length xs)%nat ∧ r = (o + length xs)%nat⌝ ∧
         blk p (b ++ lv xs ++ raw n ++ c))
      (λ m', ⌜m' = m ∧ k < length xs⌝ ∧ blk p (b ++ lv (take k xs) ++ raw n ++ lv (drop k xs) ++ c)).
  Proof.
    unfold xshift_down. revert fuel b i o k.
    induction xs as [|x xs IH]; intros fuel b i o k -> -> -> Hn Hf; iIntros "H";
      (destruct fuel as [|fuel]; [simpl in Hf; lia|]); cbn [xloop].
    - xstep. dF. xstep. xstep. rewrite lv_nil. iSplit; [|done]. iPureIntro. simpl. split_and!; try done; try f_equal; lia.
    - simpl in Hf. xstep. dT.
      destruct n as [|n]; [lia|]. xstep. xstep.
      assert (b ++ raw (S n) ++ lv (x :: xs) ++ c = (b ++ raw (S n)) ++ Some x :: lv xs ++ c) as Heq.
      { rewrite -!app_assoc //. }
      rewrite Heq.
      iApply (wp_rd with "H"); [apply lookup_mid; by rewrite app_length raw_length|].
      iIntros "H". xstep. rewrite -app_assoc raw_S /=.
      iApply (xwp_copy with "H"); [by apply lookup_mid|]. rewrite insert_mid //. iSplit.
      + iIntros (k' ->) "H". xstep. xstep.
        assert (b ++ Some x :: raw n ++ Some x :: lv xs ++ c =
               (b ++ Some x :: raw n) ++ Some x :: lv xs ++ c) as -> by rewrite -!app_assoc //.
        iApply (wp_destroy_at with "H").
        { apply lookup_mid. rewrite app_length /= raw_length. lia. }
        rewrite insert_mid; [|rewrite app_length /= raw_length; lia]. iIntros "H". xstep.
        iApply (xwp_wand with "[H]").
        * iApply (IH fuel (b ++ [Some x]) _ _ k'); [rewrite ?app_length /=; lia..|].
          rewrite raw_S_end -!app_assoc /=. done.
        * iSplit.
          -- iIntros (m' f' r) "[%Hr H]". destruct Hr as (->&?&->&->). rewrite lv_cons -!app_assoc /=.
             iSplit; [iPureIntro; split_and!; try done; lia|]. done.
          -- iIntros (m') "[%Hr H]". destruct Hr as (->&?). rewrite /= lv_cons -!app_assoc /=.
             iSplit; [iPureIntro; split_and!; try done; lia|]. done.
      + iIntros (->) "H". iSplit; [iPureIntro; simpl; split; [done|lia]|]. simpl. rewrite lv_nil lv_cons /=. done.
  Qed.
End loops.
