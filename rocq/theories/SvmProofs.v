(** sorted_vector_map: separation-logic proofs of the functions. Proof file. *)
From Verif Require Export SvmPure HistoryVLogic.
From iris.proofmode Require Import tactics.

Ltac dT := match goal with |- context [decide ?P] =>
  let H := fresh in destruct (decide P) as [_|H]; [|exfalso; simpl in *; lia] end.
Ltac dF := match goal with |- context [decide ?P] =>
  let H := fresh in destruct (decide P) as [H|_]; [exfalso; simpl in *; lia|] end.

Section svm.
  Context {K T : Type} `{Allocator (svcell K T)}.
  Context (keq comp : K → K → bool) (dfltT : T) (ulim : nat).
  Notation E := (K * T)%type.
  Notation iProp := (bi_car (hpropI (svcell K T))).
  Notation slots := (list (option ptr)).
  Implicit Types (p q : ptr) (b c : slots) (k : K) (x : T) (e : E) (i o n : nat) (les ms ns : list (loc * E)).

  Definition arrP p b : iProp :=
    match p with Some l => l ↦ CArr b | None => ⌜b = []⌝ ∧ emp end%I.
  Definition ents les : iProp := ([∗ list] le ∈ les, le.1 ↦ CEnt le.2)%I.
  Definition pl les : slots := (λ le, Some (Some le.1)) <$> les.
  Definition svmP (v : svm) les : iProp :=
    (∃ rest, ⌜sv_last v = length les ∧ sv_end v = (length les + length rest)%nat⌝ ∧
       arrP (sv_arr v) (pl les ++ rest) ∗ ents les)%I.

  Lemma pl_length les : length (pl les) = length les.
  Proof. apply fmap_length. Qed.
  Lemma pl_app ms ns : pl (ms ++ ns) = pl ms ++ pl ns.
  Proof. apply fmap_app. Qed.
  Lemma pl_lookup les i l e : les !! i = Some (l, e) → pl les !! i = Some (Some (Some l)).
  Proof. intros Hi. unfold pl. by rewrite list_lookup_fmap Hi. Qed.
  Lemma ents_app ms ns : ents (ms ++ ns) ⊣⊢ ents ms ∗ ents ns.
  Proof. apply big_sepL_app. Qed.
  Lemma ents_nil : ents [] ⊣⊢ emp.
  Proof. done. Qed.
  Lemma ents_cons l e ms : ents ((l, e) :: ms) ⊣⊢ l ↦ CEnt e ∗ ents ms.
  Proof. done. Qed.
  Lemma ents_acc les i l e : les !! i = Some (l, e) →
    ents les ⊢ l ↦ CEnt e ∗ (∀ e', l ↦ CEnt e' -∗ ents (<[i := (l, e')]> les)).
  Proof.
    intros Hi. iIntros "H". unfold ents.
    rewrite -{1}(take_drop_middle les i (l, e)) // big_sepL_app big_sepL_cons.
    iDestruct "H" as "(H1&H2&H3)". iFrame "H2". iIntros (e') "H2". simpl.
    rewrite insert_take_drop; [|by eapply lookup_lt_Some]. rewrite big_sepL_app big_sepL_cons. iFrame.
  Qed.
  Lemma ents_acc_same les i l e : les !! i = Some (l, e) →
    ents les ⊢ l ↦ CEnt e ∗ (l ↦ CEnt e -∗ ents les).
  Proof.
    intros Hi. iIntros "H". iDestruct (ents_acc with "H") as "[H Hc]"; [done|]. iFrame "H".
    iIntros "H". iSpecialize ("Hc" with "H"). by rewrite list_insert_id.
  Qed.

  (** *** Primitives *)
  Lemma wp_slot_rd p b i q Q : b !! i = Some (Some q) →
    arrP p b -∗ (arrP p b -∗ Q q) -∗ wp (slot_rd p i) Q.
  Proof.
    iIntros (Hi) "H HQ". destruct p as [l|]; simpl; [|iDestruct "H" as "[-> H]"; done].
    unfold slot_rd. wsteps. rewrite Hi. wsteps. by iApply "HQ".
  Qed.
  Lemma wp_slot_wr p b i q Q : i < length b →
    arrP p b -∗ (arrP p (<[i := Some q]> b) -∗ Q tt) -∗ wp (slot_wr p i q) Q.
  Proof.
    iIntros (Hi) "H HQ". destruct p as [l|]; simpl; [|iDestruct "H" as "[-> H]"; simpl in Hi; lia].
    unfold slot_wr. wsteps. rewrite decide_True //. wsteps. by iApply "HQ".
  Qed.
  Lemma wp_ent_rd l e Q : l ↦ CEnt e -∗ (l ↦ CEnt e -∗ Q e) -∗ wp (ent_rd (Some l)) Q.
  Proof. iIntros "H HQ". unfold ent_rd. wsteps. by iApply "HQ". Qed.
  Lemma wp_ent_wr l e x Q : l ↦ CEnt e -∗ (l ↦ CEnt (e.1, x) -∗ Q tt) -∗ wp (ent_wr (Some l) x) Q.
  Proof. iIntros "H HQ". unfold ent_wr. wsteps. by iApply "HQ". Qed.
  Lemma wp_new_arr n Q : (∀ q, arrP q (replicate n None) -∗ Q q) -∗ wp (new_arr n) Q.
  Proof. iIntros "HQ". unfold new_arr. wstep. iApply wp_allocate. iIntros (l) "Hl". wstep. by iApply ("HQ" $! (Some l)). Qed.
  Lemma wp_del_arr p b Q : arrP p b -∗ Q tt -∗ wp (del_arr p) Q.
  Proof.
    iIntros "H HQ". destruct p as [l|]; simpl.
    - wsteps. done.
    - iDestruct "H" as "[-> H]". by wstep.
  Qed.
  Lemma wp_new_ent e Q : (∀ l, l ↦ CEnt e -∗ Q (Some l)) -∗ wp (new_ent e) Q.
  Proof. iIntros "HQ". unfold new_ent. wstep. iApply wp_allocate. iIntros (l) "Hl". wstep. by iApply ("HQ" $! l). Qed.
  Lemma wp_del_ent l e Q : l ↦ CEnt e -∗ Q tt -∗ wp (del_ent (Some l)) Q.
  Proof. iIntros "H HQ". unfold del_ent. wsteps. done. Qed.
  (** reading the entry at position [i] *)
  Lemma wp_probe {A} p les rest i l e (Q : A → iProp) (kk : ptr → E → M (gmap loc (svcell K T)) A) :
    les !! i = Some (l, e) →
    arrP p (pl les ++ rest) -∗ ents les -∗
    (arrP p (pl les ++ rest) -∗ ents les -∗ wp (kk (Some l) e) Q) -∗
    wp (let! q := slot_rd p i in let! e := ent_rd q in kk q e) Q.
  Proof.
    iIntros (Hi) "Ha He HQ". wstep. iApply (wp_slot_rd with "Ha").
    { apply lookup_app_l_Some. by eapply pl_lookup. }
    iIntros "Ha". wstep. iDestruct (ents_acc_same with "He") as "[He Hc]"; [done|].
    iApply (wp_ent_rd with "He"). iIntros "He". iApply ("HQ" with "Ha"). by iApply "Hc".
  Qed.

  (** *** Construction, destruction *)
  Lemma wp_sv_new : ⊢ wp (C:=svcell K T) sv_new (λ v, ⌜sv_end v = 0⌝ ∧ svmP v []).
  Proof.
    iStartProof. unfold sv_new. wstep. iSplit; [done|]. iExists []. simpl. iSplit; [done|].
    iSplitL ""; [by iSplit|]. unfold ents. by rewrite big_sepL_nil.
  Qed.
  Lemma wp_sv_new_n n : ⊢ wp (C:=svcell K T) (sv_new_n n) (λ v, ⌜sv_end v = n⌝ ∧ svmP v []).
  Proof.
    iStartProof. unfold sv_new_n. wstep. iApply wp_new_arr. iIntros (q) "Hq". wstep.
    iSplit; [done|]. iExists (replicate n None). simpl. rewrite replicate_length ents_nil. iSplit; [done|]. by iFrame.
  Qed.
  Lemma wp_sv_destroy fuel v les : length les < fuel →
    svmP v les ⊢ wp (sv_destroy fuel v) (λ _, emp).
  Proof.
    iIntros (Hf) "H". iDestruct "H" as (rest [Hl He]) "[Ha H]". unfold sv_destroy. wstep.
    iApply (wp_wand with "[Ha H]").
    - match goal with |- context [loop fuel ?body _] => set (bd := body) end.
      assert (∀ f0 i, i ≤ length les → length les - i < f0 →
        arrP (sv_arr v) (pl les ++ rest) ∗ ents (drop i les) ⊢
        wp (loop f0 bd i) (λ _, arrP (sv_arr v) (pl les ++ rest))) as Hg.
      { induction f0 as [|f0 IH]; intros i Hi Hf0; [lia|]. iIntros "[Ha H]". cbn [loop]. wstep.
        unfold bd at 1. destruct (decide (i = length les)) as [->|Hne].
        - rewrite decide_False; [|lia]. wsteps. rewrite drop_all ents_nil. done.
        - rewrite decide_True; [|lia]. destruct (lookup_lt_is_Some_2 les i) as [[l e] Hle]; [lia|].
          rewrite (drop_S _ (l, e)) // ents_cons. iDestruct "H" as "[Hl H]". wstep.
          iApply (wp_slot_rd with "Ha"); [apply lookup_app_l_Some; by eapply pl_lookup|]. iIntros "Ha". wstep.
          iApply (wp_del_ent with "Hl"). wstep. iApply (IH (S i)); [lia|lia|]. iFrame. }
      iApply (Hg fuel 0); [lia|lia|]. rewrite drop_0. iFrame.
    - iIntros (_) "Ha". iApply (wp_del_arr with "Ha"). done.
  Qed.
  Lemma wp_sv_clear fuel v les : length les < fuel →
    svmP v les ⊢ wp (sv_clear fuel v) (λ v', ⌜sv_end v' = sv_end v⌝ ∧ svmP v' []).
  Proof.
    iIntros (Hf) "H". iDestruct "H" as (rest [Hl He]) "[Ha H]". unfold sv_clear. rewrite Hl.
    match goal with |- context [loop fuel ?body _] => set (bd := body) end.
    assert (∀ f0 i, i ≤ length les → i < f0 →
      arrP (sv_arr v) (pl les ++ rest) ∗ ents (take i les) ⊢
      wp (loop f0 bd i) (λ v', ⌜v' = Svm (sv_arr v) 0 (sv_end v)⌝ ∧ arrP (sv_arr v) (pl les ++ rest))) as Hg.
    { induction f0 as [|f0 IH]; intros i Hi Hf0; [lia|]. iIntros "[Ha H]". cbn [loop]. wstep.
      unfold bd at 1. cbn beta. destruct i as [|i].
      - dF. wsteps. rewrite ents_nil. iDestruct "H" as "_". by iSplit.
      - dT. destruct (lookup_lt_is_Some_2 les i) as [[l e] Hle]; [lia|].
        rewrite (take_S_r _ _ (l, e)) // ents_app. iDestruct "H" as "[H Hl]". rewrite ents_cons.
        iDestruct "Hl" as "[Hl _]". simpl. rewrite Nat.sub_0_r. wstep.
        iApply (wp_slot_rd with "Ha"); [apply lookup_app_l_Some; by eapply pl_lookup|]. iIntros "Ha". wstep.
        iApply (wp_del_ent with "Hl"). wstep. iApply (IH i); [lia|lia|]. iFrame. }
    iApply (wp_wand with "[Ha H]"); [iApply (Hg fuel (length les)); [lia|lia|]; rewrite firstn_all; iFrame|].
    iIntros (v') "[-> Ha]". iSplit; [done|]. iExists (pl les ++ rest). simpl. iSplit.
    - iPureIntro. rewrite app_length pl_length. lia.
    - rewrite ents_nil. by iFrame.
  Qed.
  Lemma wp_sv_contents fuel v les : length les < fuel →
    svmP v les ⊢ wp (sv_contents fuel v) (λ xs, ⌜xs = les.*2⌝ ∧ svmP v les).
  Proof.
    iIntros (Hf) "H". iDestruct "H" as (rest [Hl He]) "[Ha H]". unfold sv_contents.
    match goal with |- context [loop fuel ?body _] => set (bd := body) end.
    assert (∀ f0 i, i ≤ length les → length les - i < f0 →
      arrP (sv_arr v) (pl les ++ rest) ∗ ents les ⊢
      wp (loop f0 bd (i, (take i les).*2)) (λ xs, ⌜xs = les.*2⌝ ∧ arrP (sv_arr v) (pl les ++ rest) ∗ ents les)) as Hg.
    { induction f0 as [|f0 IH]; intros i Hi Hf0; [lia|]. iIntros "[Ha H]". cbn [loop]. wstep.
      unfold bd at 1. destruct (decide (i = length les)) as [->|Hne].
      - rewrite decide_False; [|lia]. wsteps. rewrite firstn_all. iSplit; [done|]. iFrame.
      - rewrite decide_True; [|lia]. destruct (lookup_lt_is_Some_2 les i) as [[l e] Hle]; [lia|].
        iApply (wp_probe with "Ha H"); [done|]. iIntros "Ha H". wstep.
        replace ((take i les).*2 ++ [e]) with ((take (S i) les).*2)
          by rewrite (take_S_r _ _ (l, e)) // fmap_app //.
        iApply (IH (S i)); [lia|lia|]. iFrame. }
    iApply (wp_wand with "[Ha H]"); [iApply (Hg fuel 0); [lia|lia|iFrame]|].
    iIntros (r) "[-> [Ha H]]". iSplit; [done|]. iExists rest. iSplit; [done|]. iFrame.
  Qed.

  (** *** Copies *)
  Lemma wp_sv_copy fuel v les : length les < fuel →
    svmP v les ⊢ wp (sv_copy fuel v) (λ v', ∃ les', ⌜sv_end v' = sv_end v ∧ les'.*2 = les.*2⌝ ∧ svmP v les ∗ svmP v' les').
  Proof.
    iIntros (Hf) "H". iDestruct "H" as (rest [Hl He]) "[Ha H]". unfold sv_copy. wstep.
    iApply wp_new_arr. iIntros (q) "Hq".
    match goal with |- context [loop fuel ?body _] => set (bd := body) end.
    assert (∀ f0 ns, length ns ≤ length les → length les - length ns < f0 → ns.*2 = take (length ns) les.*2 →
      arrP (sv_arr v) (pl les ++ rest) ∗ ents les ∗ arrP q (pl ns ++ replicate (sv_end v - length ns) None) ∗ ents ns ⊢
      wp (loop f0 bd (length ns, length ns)) (λ v', ∃ ns, ⌜v' = Svm q (length ns) (sv_end v) ∧ ns.*2 = les.*2⌝ ∧
        arrP (sv_arr v) (pl les ++ rest) ∗ ents les ∗ arrP q (pl ns ++ replicate (sv_end v - length ns) None) ∗ ents ns)) as Hg.
    { induction f0 as [|f0 IH]; intros ns Hi Hf0 Hns; [lia|]. iIntros "(Ha&H&Hq&Hn)". cbn [loop]. wstep.
      unfold bd at 1. destruct (decide (length ns = length les)) as [Heq|Hne].
      - rewrite decide_False; [|lia]. wsteps. iExists ns. iSplit; [|iFrame]. iPureIntro. split; [done|].
        rewrite Hns Heq -(fmap_length snd les) firstn_all //.
      - rewrite decide_True; [|lia]. destruct (lookup_lt_is_Some_2 les (length ns)) as [[l e] Hle]; [lia|].
        iApply (wp_probe with "Ha H"); [done|]. iIntros "Ha H". wstep.
        iApply wp_new_ent. iIntros (l') "Hl'". wstep.
        iApply (wp_slot_wr with "Hq").
        { rewrite app_length pl_length replicate_length. lia. }
        iIntros "Hq". wstep.
        specialize (IH (ns ++ [(l', e)])).
        replace (length (ns ++ [(l', e)])) with (S (length ns)) in IH by (rewrite app_length /=; lia).
        iApply IH; [lia|lia| |].
        { rewrite fmap_app Hns (take_S_r _ _ e) //. by rewrite list_lookup_fmap Hle. }
        rewrite pl_app ents_app ents_cons ents_nil. iFrame "Ha H Hn Hl'".
        destruct (sv_end v - length ns) as [|d] eqn:Hd; [lia|].
        replace (sv_end v - S (length ns)) with d by lia.
        rewrite insert_app_r_alt; [|rewrite pl_length; lia]. rewrite pl_length Nat.sub_diag /= -app_assoc /=. done. }
    iApply (wp_wand with "[Ha H Hq]").
    { iApply (Hg fuel []); [simpl; lia|simpl; lia|done|]. simpl. rewrite Nat.sub_0_r ents_nil. by iFrame. }
    iIntros (v') "H". iDestruct "H" as (ns [-> Hns]) "(Ha&H&Hq&Hn)". iExists ns. iSplit; [done|].
    iSplitL "Ha H"; [iExists rest; iSplit; [done|]; iFrame|].
    iExists _. iSplit; [|iFrame]. iPureIntro. simpl. split; [done|]. rewrite replicate_length.
    apply (f_equal length) in Hns. rewrite !fmap_length in Hns. lia.
  Qed.

  (** *** Search *)
  Context (Hko : key_order keq comp).
  Notation asc := (ascending comp).
  Notation lb k les := (length (below comp k les.*2)).
  Notation has k les := (present keq k les.*2).

  Definition probes (n : nat) : nat := if decide (n = 0) then 1 else S (S (Nat.log2 n)).
  Lemma probes_step n m : 0 < n → m ≤ n / 2 → probes m < probes n.
  Proof.
    intros Hn Hm. unfold probes. rewrite (decide_False (P := n = 0)); [|lia].
    destruct (decide (m = 0)) as [->|]; [lia|].
    assert (2 ≤ n) as Hn2. { destruct (decide (2 ≤ n)); [done|]. assert (n / 2 = 0) by (apply Nat.div_small; lia). lia. }
    assert (Nat.log2 m < Nat.log2 n); [|lia].
    apply Nat.lt_le_trans with (S (Nat.log2 m)); [lia|]. rewrite -Nat.log2_double; [|lia].
    apply Nat.log2_le_mono. pose proof (Nat.mul_div_le n 2). lia.
  Qed.
  Lemma wp_sv_bsearch fuel v les k : asc les.*2 → length les < ulim → probes (length les) ≤ fuel →
    svmP v les ⊢ wp (sv_bsearch keq comp ulim fuel v k) (λ r, ⌜r = (lb k les, has k les)⌝ ∧ svmP v les).
  Proof.
    iIntros (Hasc Hlim Hf) "H". iDestruct "H" as (rest [Hl He]) "[Ha H]". unfold sv_bsearch, sv_size.
    replace (sv_last v mod ulim) with (length les) by (rewrite Hl Nat.mod_small //).
    match goal with |- context [loop fuel ?body _] => set (bd := body) end.
    set (xs := les.*2).
    assert (∀ f0 L R, L ≤ R → R ≤ length les → probes (R - L) ≤ f0 →
      (∀ e, e ∈ take L xs → comp e.1 k = true) →
      (∀ e, e ∈ drop R xs → comp e.1 k = false ∧ keq e.1 k = false) →
      arrP (sv_arr v) (pl les ++ rest) ∗ ents les ⊢
      wp (loop f0 bd (L, R)) (λ r, ⌜r = (lb k les, has k les)⌝ ∧ arrP (sv_arr v) (pl les ++ rest) ∗ ents les)) as Hg.
    { induction f0 as [|f0 IH]; intros L R HLR HR Hf0 HL HH; [unfold probes in Hf0; destruct (decide _) in Hf0; lia|].
      iIntros "[Ha H]". cbn [loop]. wstep. unfold bd at 1. destruct (decide (L < R)) as [Hlt|Hge].
      - set (m := L + (R - L) / 2).
        assert (m < R) as HmR. { unfold m. pose proof (Nat.div_lt (R - L) 2). lia. }
        destruct (lookup_lt_is_Some_2 les m) as [[l e] Hle]; [lia|].
        assert (xs !! m = Some e) as Hxm by (unfold xs; by rewrite list_lookup_fmap Hle).
        iApply (wp_probe with "Ha H"); [done|]. iIntros "Ha H".
        destruct (keq e.1 k) eqn:Hk.
        + wsteps. iSplit; [|iFrame]. iPureIntro. f_equal; [by eapply keq_at_cut|].
          symmetry. apply present_spec. exists e. split; [|done]. by eapply elem_of_list_lookup_2.
        + iApply (wp_probe with "Ha H"); [done|]. iIntros "Ha H".
          destruct (comp e.1 k) eqn:Hc; wstep.
          * iApply (IH (S m) R); [lia|lia| | |done|iFrame].
            -- assert (probes (R - S m) < probes (R - L)); [|lia]. apply probes_step; [lia|].
               unfold m. pose proof (Nat.div_mod_eq (R - L) 2). pose proof (Nat.mod_upper_bound (R - L) 2). lia.
            -- intros f [i Hi]%elem_of_list_lookup. apply lookup_take_Some in Hi as [Hi Him].
               destruct (decide (i = m)) as [->|Him']; [by simplify_eq|].
               assert (comp f.1 e.1 = true) as Hfe by (eapply Hasc; [exact Hi|exact Hxm|lia]).
               by eapply (ko_trans _ _ Hko).
          * iApply (IH L m); [unfold m; lia|lia| |done| |iFrame].
            -- assert (probes (m - L) < probes (R - L)); [|lia]. apply probes_step; [lia|]. unfold m. lia.
            -- intros f [i Hi]%elem_of_list_lookup. rewrite lookup_drop in Hi.
               destruct i as [|i]; [rewrite Nat.add_0_r in Hi; by simplify_eq|].
               assert (comp e.1 f.1 = true) as Hfe by (eapply Hasc; [exact Hxm|exact Hi|lia]).
               assert (comp f.1 k = false) as Hfk.
               { destruct (comp f.1 k) eqn:E; [|done]. by rewrite (ko_trans _ _ Hko e.1 f.1 k) in Hc. }
               split; [done|]. destruct (keq f.1 k) eqn:E; [|done].
               rewrite (keq_gt keq comp Hko f.1 k) // in Hfe. by rewrite Hfe in Hc.
      - assert (L = R) as -> by lia. wsteps. iSplit; [|iFrame]. iPureIntro.
        assert (R = length (below comp k xs)) as Hlb.
        { apply cut_unique. split; [unfold xs; by rewrite fmap_length|]. split; [done|]. intros f Hf'. by apply HH. }
        f_equal; [done|]. symmetry. rewrite (present_lookup keq comp Hko) // -/xs -Hlb.
        destruct (xs !! R) as [e|] eqn:E; [|done]. apply HH. eapply (elem_of_list_lookup_2 _ 0). by rewrite lookup_drop Nat.add_0_r. }
    iApply (wp_wand with "[Ha H]").
    { iApply (Hg fuel 0 (length les)); [lia|lia|by rewrite Nat.sub_0_r| | |iFrame].
      - intros e []%elem_of_nil.
      - intros e He'. rewrite drop_ge in He'; [|unfold xs; by rewrite fmap_length]. by apply elem_of_nil in He'. }
    iIntros (r) "[-> [Ha H]]". iSplit; [done|]. iExists rest. iSplit; [done|]. iFrame.
  Qed.
End svm.
