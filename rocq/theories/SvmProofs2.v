(** sorted_vector_map: insertion and the client's calls. Proof file. *)
From Verif Require Export SvmProofs.
From iris.proofmode Require Import tactics.

Lemma lookup_mid {A} (k l : list A) x n : n = length k → (k ++ x :: l) !! n = Some x.
Proof. intros ->. by rewrite lookup_app_r // Nat.sub_diag. Qed.
Lemma insert_mid {A} (k l : list A) x y n : n = length k → <[n := y]> (k ++ x :: l) = k ++ y :: l.
Proof. intros ->. rewrite insert_app_r_alt // Nat.sub_diag //. Qed.

Section svm.
  Context {K T : Type} `{Allocator (svcell K T)}.
  Context (keq comp : K → K → bool) (dfltT : T) (ulim : nat).
  Notation E := (K * T)%type.
  Notation iProp := (bi_car (hpropI (svcell K T))).
  Notation slots := (list (option ptr)).
  Implicit Types (p q : ptr) (b c : slots) (k : K) (x : T) (e : E) (i o n : nat) (les ms ns : list (loc * E)).

  (** copying the pointers of [ms] *)
  Lemma wp_copy_slots fuel p ls ms rs q b c i (e : nat) o :
    i = length ls → e = i + length ms → o = length b → length ms ≤ length c → length ms < fuel →
    arrP p (ls ++ pl ms ++ rs) ∗ arrP q (b ++ c) ⊢
    wp (C:=svcell K T) (copy_slots fuel p i e q o)
      (λ r, ⌜r = (e, (o + length ms)%nat)⌝ ∧ arrP p (ls ++ pl ms ++ rs) ∗ arrP q (b ++ pl ms ++ drop (length ms) c)).
  Proof.
    unfold copy_slots. revert fuel ls b c i o.
    induction ms as [|[l x] ms IH]; intros fuel ls b c i o -> -> -> Hc Hf; iIntros "[Hp Hq]";
      (destruct fuel as [|fuel]; [simpl in Hf; lia|]); cbn [loop].
    - wstep. dF. wsteps. rewrite !Nat.add_0_r /= drop_0. iSplit; [done|]. iFrame.
    - simpl in Hf, Hc. wstep. dT. wstep.
      iApply (wp_slot_rd with "Hp"); [simpl; by apply lookup_mid|]. iIntros "Hp". wstep.
      destruct c as [|c0 c]; [simpl in Hc; lia|].
      iApply (wp_slot_wr with "Hq"); [rewrite app_length /=; lia|]. rewrite insert_mid //. iIntros "Hq". wstep.
      iApply (wp_wand with "[Hp Hq]").
      + iApply (IH fuel (ls ++ [Some (Some l)]) (b ++ [Some (Some l)]) c).
        * rewrite app_length /=. lia.
        * simpl. lia.
        * rewrite app_length /=. lia.
        * simpl in Hc. lia.
        * lia.
        * rewrite -!app_assoc /=. iFrame.
      + iIntros (r) "[-> H]". rewrite -!app_assoc /=. iSplit; [iPureIntro; f_equal; lia|]. done.
  Qed.
  Lemma wp_null_slots fuel q b c o (e : nat) :
    o = length b → e = o + length c → length c < fuel →
    arrP q (b ++ c) ⊢ wp (C:=svcell K T) (null_slots fuel q o e) (λ _, ∃ c', ⌜length c' = length c⌝ ∧ arrP q (b ++ c')).
  Proof.
    unfold null_slots. revert fuel b o.
    induction c as [|c0 c IH]; intros fuel b o -> -> Hf; iIntros "Hq";
      (destruct fuel as [|fuel]; [simpl in Hf; lia|]); cbn [loop].
    - wstep. dF. wsteps. iExists []. by iSplit.
    - simpl in Hf. wstep. dT. wstep. iApply (wp_slot_wr with "Hq"); [rewrite app_length /=; lia|].
      rewrite insert_mid //. iIntros "Hq". wstep. iApply (wp_wand with "[Hq]").
      + iApply (IH fuel (b ++ [Some None])); [rewrite app_length /=; lia|simpl; lia|lia|]. rewrite -app_assoc /=. done.
      + iIntros (_) "H". iDestruct "H" as (c' Hc') "H". iExists (Some None :: c'). rewrite -app_assoc /=.
        iSplit; [iPureIntro; lia|]. done.
  Qed.
  Lemma wp_shift_slots fuel p b ms r0 rest i o pos :
    pos = length b → i = pos + length ms → o = S i → length ms < fuel →
    arrP p (b ++ pl ms ++ r0 :: rest) ⊢
    wp (C:=svcell K T) (shift_slots fuel p i o pos) (λ _, ∃ c0 : option ptr, arrP p (b ++ c0 :: pl ms ++ rest)).
  Proof.
    unfold shift_slots. revert fuel r0 rest i o.
    induction ms as [|[l x] ms IH] using rev_ind; intros fuel r0 rest i o -> -> -> Hf; iIntros "Hp";
      (destruct fuel as [|fuel]; [lia|]); cbn [loop].
    - wstep. dF. wsteps. iExists r0. done.
    - rewrite app_length /= in Hf |- *. wstep. dT.
      replace (length b + (length ms + 1)) with (S (length b + length ms)) by lia. cbn beta iota.
      wstep. rewrite pl_app -!app_assoc /=.
      iApply (wp_slot_rd with "Hp").
      { rewrite app_assoc. apply lookup_mid. rewrite app_length pl_length //. }
      iIntros "Hp". wstep. iApply (wp_slot_wr with "Hp"); [rewrite !app_length /= pl_length; lia|].
      replace (b ++ pl ms ++ Some (Some l) :: r0 :: rest) with ((b ++ pl ms ++ [Some (Some l)]) ++ r0 :: rest)
        by rewrite -!app_assoc //.
      rewrite insert_mid; [|rewrite !app_length /= pl_length; lia]. iIntros "Hp". wstep.
      iApply (wp_wand with "[Hp]").
      + iApply (IH fuel (Some (Some l)) (Some (Some l) :: rest)); [done|done|done|lia|].
        rewrite -!app_assoc /=. done.
      + iIntros (_) "H". iDestruct "H" as (c0) "H". iExists c0. done.
  Qed.

  (** [r] denotes [e] when [les] is owned. *)
  Definition eok les (r : eref K T) e : Prop :=
    match r with EVal e' => e' = e | ERef q => ∃ l, q = Some l ∧ (l, e) ∈ les end.
  Lemma wp_ederef les r e Q : eok les r e → ents les -∗ (ents les -∗ Q e) -∗ wp (ederef r) Q.
  Proof.
    iIntros (Hr) "H HQ". destruct r as [e'|q]; simpl in *.
    - subst. wstep. by iApply "HQ".
    - destruct Hr as (l&->&[i Hi]%elem_of_list_lookup).
      iDestruct (ents_acc_same with "H") as "[Hl H]"; [done|]. iApply (wp_ent_rd with "Hl"). iIntros "Hl".
      iApply "HQ". by iApply "H".
  Qed.

  Definition newcap (s n : nat) : nat := if decide (n = s) then enlarged s else s.
  Lemma wp_sv_insert_before fuel v ms ns pos r e :
    pos = length ms → eok (ms ++ ns) r e → length (ms ++ ns) < fuel → sv_end v + 2 < fuel →
    ¬ (length (ms ++ ns) = 1 ∧ sv_end v = 1) →
    svmP v (ms ++ ns) ⊢
    wp (sv_insert_before fuel v pos r) (λ '(v', i), ∃ l,
      ⌜i = pos ∧ sv_end v' = newcap (sv_end v) (length (ms ++ ns))⌝ ∧ svmP v' (ms ++ (l, e) :: ns)).
  Proof.
    iIntros (-> Hr Hf1 Hf2 Hcap) "H". iDestruct "H" as (rest [Hl He]) "[Ha H]".
    unfold sv_insert_before. rewrite pl_app.
    rewrite app_length in Hl, He, Hf1, Hcap.
    destruct rest as [|r0 rest].
    - simpl in He. rewrite decide_True; [|lia].
      set (nc := if decide (sv_end v + sv_end v / 2 = 0) then 2 else sv_end v + sv_end v / 2).
      assert (nc = enlarged (sv_end v)) as Hnc.
      { unfold nc, enlarged. destruct (decide (sv_end v = 0)) as [->|]; [done|].
        rewrite decide_False; [done|lia]. }
      assert (sv_end v < nc ≤ 2 * sv_end v + 2) as Hnc2.
      { rewrite Hnc. unfold enlarged. destruct (decide (sv_end v = 0)); [lia|].
        assert (2 ≤ sv_end v) by lia. pose proof (Nat.div_le_mono 2 (sv_end v) 2).
        pose proof (Nat.mul_div_le (sv_end v) 2). change (2 / 2) with 1 in *. lia. }
      wstep. iApply wp_new_arr. iIntros (q) "Hq". wstep.
      iApply (wp_wand with "[Ha Hq]").
      { iApply (wp_copy_slots fuel (sv_arr v) [] ms (pl ns ++ []) q [] (replicate nc None) 0 (length ms) 0);
          [done|done|done|rewrite replicate_length; lia|lia|]. rewrite /= -app_assoc. iFrame. }
      iIntros (rr) "[-> [Ha Hq]]". simpl. wstep.
      iApply (wp_ederef with "H"); [done|]. iIntros "H". wstep.
      iApply wp_new_ent. iIntros (l) "Hl". wstep.
      iApply (wp_slot_wr with "Hq").
      { rewrite app_length pl_length drop_length replicate_length. lia. }
      destruct (drop (length ms) (replicate nc None)) as [|c0 c] eqn:Hdr.
      { apply (f_equal length) in Hdr. rewrite drop_length replicate_length /= in Hdr. lia. }
      rewrite insert_mid; [|by rewrite pl_length]. iIntros "Hq". wstep.
      apply (f_equal length) in Hdr. rewrite drop_length replicate_length /= in Hdr.
      iApply (wp_wand with "[Ha Hq]").
      { iApply (wp_copy_slots fuel (sv_arr v) (pl ms) ns [] q (pl ms ++ [Some (Some l)]) c (length ms) (sv_last v) (S (length ms)));
          [by rewrite pl_length|lia|rewrite app_length pl_length /=; lia|lia|lia|].
        rewrite -app_assoc /=. iFrame. }
      iIntros (rr) "[-> [Ha Hq]]". wstep.
      iApply (wp_del_arr with "Ha"). wstep.
      iApply (wp_wand with "[Hq]").
      { iApply (wp_null_slots fuel q ((pl ms ++ [Some (Some l)]) ++ pl ns) (drop (length ns) c)).
        - rewrite !app_length !pl_length /=. lia.
        - rewrite drop_length. unfold nc in *. lia.
        - rewrite drop_length. 
          assert (length c - length ns ≤ sv_end v / 2 + 2); [|pose proof (Nat.div_le_upper_bound (sv_end v) 2 (sv_end v)); lia].
          rewrite Hnc in Hdr. unfold enlarged in Hdr. destruct (decide (sv_end v = 0)); lia.
        - rewrite -!app_assoc /=. done. }
      iIntros (_) "Hq". iDestruct "Hq" as (c' Hc') "Hq". wstep. iExists l. iSplit.
      { iPureIntro. split; [done|]. simpl. unfold newcap. rewrite app_length decide_True; [done|lia]. }
      iExists c'. iSplit.
      + iPureIntro. simpl. rewrite app_length /= Hc' drop_length. fold nc. lia.
      + simpl. rewrite pl_app /= -!app_assoc /=. iFrame "Hq".
        rewrite !ents_app ents_cons. iDestruct "H" as "[$ $]". done.
    - simpl in He. rewrite decide_False; [|lia]. wstep.
      iApply (wp_wand with "[Ha]").
      { iApply (wp_shift_slots fuel (sv_arr v) (pl ms) ns r0 rest); [by rewrite pl_length|lia|done|lia|].
        rewrite -app_assoc. done. }
      iIntros (_) "Ha". iDestruct "Ha" as (c0) "Ha". wstep.
      iApply (wp_ederef with "H"); [done|]. iIntros "H". wstep.
      iApply wp_new_ent. iIntros (l) "Hl". wstep.
      iApply (wp_slot_wr with "Ha"); [rewrite app_length pl_length /=; lia|].
      rewrite insert_mid; [|by rewrite pl_length]. iIntros "Ha". wstep. iExists l. iSplit.
      { iPureIntro. split; [done|]. simpl. unfold newcap. rewrite app_length decide_False; [done|lia]. }
      iExists rest. iSplit.
      + iPureIntro. simpl. rewrite app_length /=. lia.
      + simpl. rewrite pl_app /= -!app_assoc /=. iFrame "Ha".
        rewrite !ents_app ents_cons. iDestruct "H" as "[$ $]". done.
  Qed.

  (** *** Lookup *)
  Context (Hko : key_order keq comp).
  Notation asc := (ascending comp).
  Notation lb k les := (length (below comp k les.*2)).
  Notation has k les := (present keq k les.*2).
  Lemma probes_le n : probes n ≤ n + 2.
  Proof. unfold probes. destruct (decide (n = 0)); [lia|]. pose proof (Nat.log2_le_lin n). lia. Qed.
  Lemma svmP_last v les : svmP v les ⊢ ⌜sv_last v = length les ∧ length les ≤ sv_end v⌝.
  Proof. iIntros "H". iDestruct "H" as (rest [Hl He]) "H". iPureIntro. lia. Qed.
  Lemma lb_le k les : lb k les ≤ length les.
  Proof.
    rewrite -(fmap_length snd les). unfold below. generalize (les.*2). intros xs.
    induction xs as [|f xs IH]; simpl; [done|]. rewrite filter_cons. destruct (decide _); simpl; lia.
  Qed.
  Lemma has_lookup k les : asc les.*2 →
    has k les = match les !! lb k les with Some le => keq le.2.1 k | None => false end.
  Proof.
    intros Ha. rewrite (present_lookup keq comp Hko) // list_lookup_fmap. by destruct (les !! _).
  Qed.
  Lemma wp_sv_find fuel v les k : asc les.*2 → length les < ulim → probes (length les) ≤ fuel →
    svmP v les ⊢ wp (sv_find keq comp ulim fuel v k) (λ i, ⌜i = pos_of keq comp k les.*2⌝ ∧ svmP v les).
  Proof.
    iIntros (Ha Hlim Hf) "H". iDestruct (svmP_last with "H") as %[Hl He]. unfold sv_find. wstep.
    iApply (wp_wand with "[H]"); [by iApply (wp_sv_bsearch with "H")|].
    iIntros (r) "[-> H]". wstep. iSplit; [|done]. iPureIntro. unfold pos_of. rewrite fmap_length -Hl //.
  Qed.
  Lemma wp_sv_pos fuel v les k : asc les.*2 → length les < ulim → probes (length les) ≤ fuel →
    svmP v les ⊢ wp (sv_find_insert_pos keq comp ulim fuel v k) (λ i, ⌜i = lb k les⌝ ∧ svmP v les).
  Proof.
    iIntros (Ha Hlim Hf) "H". unfold sv_find_insert_pos. wstep.
    iApply (wp_wand with "[H]"); [by iApply (wp_sv_bsearch with "H")|].
    iIntros (r) "[-> H]". wstep. by iSplit.
  Qed.
  Lemma wp_key_at v les i k : i ≤ length les →
    svmP v les ⊢ wp (key_at keq v i k)
      (λ b : bool, ⌜b = match les !! i with Some le => keq le.2.1 k | None => false end⌝ ∧ svmP v les).
  Proof.
    iIntros (Hi) "H". iDestruct (svmP_last with "H") as %[Hl He]. unfold key_at.
    destruct (decide (i ≠ sv_last v)) as [Hne|Heq].
    - destruct (lookup_lt_is_Some_2 les i) as [[l e] Hle]; [lia|].
      iDestruct "H" as (rest Hr) "[Ha H]".
      iApply (wp_probe with "Ha H"); [done|]. iIntros "Ha H". wstep. rewrite Hle. iSplit; [done|].
      iExists rest. iSplit; [done|]. iFrame.
    - wstep. rewrite lookup_ge_None_2; [|lia]. by iSplit.
  Qed.
  Lemma wp_slot_at v les i l e Q : les !! i = Some (l, e) →
    svmP v les -∗ (svmP v les -∗ Q (Some l)) -∗ wp (slot_rd (sv_arr v) i) Q.
  Proof.
    iIntros (Hi) "H HQ". iDestruct "H" as (rest Hr) "[Ha H]".
    iApply (wp_slot_rd with "Ha"); [apply lookup_app_l_Some; by eapply pl_lookup|]. iIntros "Ha".
    iApply "HQ". iExists rest. iSplit; [done|]. iFrame.
  Qed.
  Lemma wp_ent_at v les i l e Q : les !! i = Some (l, e) →
    svmP v les -∗ (svmP v les -∗ Q e) -∗ wp (ent_rd (Some l)) Q.
  Proof.
    iIntros (Hi) "H HQ". iDestruct "H" as (rest Hr) "[Ha H]".
    iDestruct (ents_acc_same with "H") as "[Hl H]"; [done|].
    iApply (wp_ent_rd with "Hl"). iIntros "Hl". iSpecialize ("H" with "Hl").
    iApply "HQ". iExists rest. iSplit; [done|]. iFrame.
  Qed.
  Lemma wp_ent_put v les i l e x Q : les !! i = Some (l, e) →
    svmP v les -∗ (svmP v (<[i := (l, (e.1, x))]> les) -∗ Q tt) -∗ wp (ent_wr (Some l) x) Q.
  Proof.
    iIntros (Hi) "H HQ". iDestruct "H" as (rest [Hl He]) "[Ha H]".
    iDestruct (ents_acc with "H") as "[Hl H]"; [done|].
    iApply (wp_ent_wr with "Hl"). iIntros "Hl". iSpecialize ("H" with "Hl").
    iApply "HQ". iExists rest. rewrite insert_length. iSplit; [done|]. iFrame "H".
    replace (pl (<[i:=(l, (e.1, x))]> les)) with (pl les); [done|].
    unfold pl. rewrite list_fmap_insert /=. rewrite list_insert_id //. by rewrite list_lookup_fmap Hi.
  Qed.
  Lemma wp_sv_upper fuel v les k : asc les.*2 → length les < ulim → length les + 2 ≤ fuel →
    svmP v les ⊢ wp (sv_upper_bound keq comp ulim fuel v k) (λ i, ⌜i = length (not_above comp k les.*2)⌝ ∧ svmP v les).
  Proof.
    iIntros (Ha Hlim Hf) "H". pose proof (probes_le (length les)). unfold sv_upper_bound. wstep.
    iApply (wp_wand with "[H]"); [iApply (wp_sv_pos with "H"); [done|done|lia]|].
    iIntros (i) "[-> H]". rewrite (not_above_length keq comp Hko) // has_lookup //.
    pose proof (lb_le k les) as Hlb.
    destruct fuel as [|[|fuel]]; [lia..|]. cbn [loop]. wstep. wstep.
    iApply (wp_wand with "[H]"); [by iApply (wp_key_at with "H")|]. iIntros (b) "[-> H]".
    destruct (les !! lb k les) as [[l e]|] eqn:Hle; simpl; [destruct (keq e.1 k) eqn:Hk|].
    - wstep. wstep. wstep.
      iApply (wp_wand with "[H]"); [iApply (wp_key_at with "H"); apply lookup_lt_Some in Hle; lia|]. iIntros (b) "[-> H]".
      destruct (les !! S (lb k les)) as [[l' e']|] eqn:Hle'; simpl; [destruct (keq e'.1 k) eqn:Hk'|].
      + exfalso. assert (S (lb k les) = lb k les); [|lia]. eapply (keq_at_cut keq comp Hko); [done| |done].
        by rewrite list_lookup_fmap Hle'.
      + wsteps. iSplit; [iPureIntro; lia|done].
      + wsteps. iSplit; [iPureIntro; lia|done].
    - wsteps. iSplit; [iPureIntro; lia|done].
    - wsteps. iSplit; [iPureIntro; lia|done].
  Qed.

  (** *** Insertion *)
  (** [les] with the new element [(l,e)] at its place, everything else where it was *)
  Definition with_new les l e : list (loc * E) := take (lb e.1 les) les ++ (l, e) :: drop (lb e.1 les) les.
  Lemma with_new_spec les l e (v' : svm) (c : nat) : asc les.*2 → has e.1 les = false → sv_end v' = newcap c (length les) →
    ((with_new les l e).*2, sv_end v') = sv_add keq comp e.1 e.2 (les.*2, c).
  Proof.
    intros Ha Hp Hc. unfold sv_add. rewrite /= Hp. rewrite Hc. unfold newcap. rewrite fmap_length. f_equal.
    unfold with_new. pose proof (asc_cut keq comp Hko e.1 les.*2 Ha) as Hcut. revert Hcut.
    generalize (length (below comp e.1 les.*2)). intros n Hcut.
    destruct (cut_below _ _ _ _ Hcut) as (->&->&_).
    rewrite fmap_app fmap_cons fmap_take fmap_drop -surjective_pairing //.
  Qed.
  Lemma with_new_lookup les l e : with_new les l e !! lb e.1 les = Some (l, e).
  Proof. unfold with_new. apply lookup_mid. rewrite take_length. pose proof (lb_le e.1 les). lia. Qed.
  Lemma wp_sv_insert_new fuel v les r e : asc les.*2 → eok les r e → has e.1 les = false →
    sv_end v + 2 < fuel → ¬ (length les = 1 ∧ sv_end v = 1) →
    svmP v les ⊢ wp (sv_insert_before fuel v (lb e.1 les) r) (λ '(v', i), ∃ l,
      ⌜i = lb e.1 les ∧ ((with_new les l e).*2, sv_end v') = sv_add keq comp e.1 e.2 (les.*2, sv_end v)⌝ ∧
      svmP v' (with_new les l e)).
  Proof.
    iIntros (Ha Hr Hp Hf Hcap) "H". iDestruct (svmP_last with "H") as %[Hl He].
    pose proof (lb_le e.1 les).
    iApply (wp_wand with "[H]").
    { iApply (wp_sv_insert_before fuel v (take (lb e.1 les) les) (drop (lb e.1 les) les) _ r e).
      - rewrite take_length. lia.
      - by rewrite take_drop.
      - rewrite take_drop. lia.
      - lia.
      - by rewrite take_drop.
      - by rewrite take_drop. }
    iIntros ([v' i]) "H". iDestruct "H" as (l [-> Hc]) "H". rewrite take_drop in Hc. iExists l. iSplit; [|done].
    iPureIntro. split; [done|]. by apply with_new_spec.
  Qed.
  Lemma wp_sv_insert fuel v les r e : asc les.*2 → eok les r e → length les < ulim →
    (has e.1 les = true ∨ ¬ (length les = 1 ∧ sv_end v = 1)) → sv_end v + 2 < fuel →
    svmP v les ⊢ wp (sv_insert keq comp ulim fuel v r) (λ '(v', i, b), ∃ les',
      ⌜i = lb e.1 les ∧ b = negb (has e.1 les) ∧
       (les'.*2, sv_end v') = sv_add keq comp e.1 e.2 (les.*2, sv_end v) ∧
       (if has e.1 les then v' = v ∧ les' = les else ∃ l, les' = with_new les l e)⌝ ∧ svmP v' les').
  Proof.
    iIntros (Ha Hr Hlim Hcap Hf) "H". iDestruct (svmP_last with "H") as %[Hl He].
    pose proof (probes_le (length les)). unfold sv_insert. wstep.
    iAssert (wp (ederef r) (λ y : E, ⌜y = e⌝ ∧ svmP v les))%I with "[H]" as "H".
    { iDestruct "H" as (rest Hrest) "[Ha H]". iApply (wp_ederef with "H"); [done|]. iIntros "H". iSplit; [done|].
      iExists rest. iSplit; [done|]. iFrame. }
    iApply (wp_wand with "H"). iIntros (y) "[-> H]". wstep.
    iApply (wp_wand with "[H]"); [iApply (wp_sv_pos with "H"); [done|done|lia]|]. iIntros (i) "[-> H]". wstep.
    iApply (wp_wand with "[H]"); [iApply (wp_key_at with "H"); apply lb_le|]. iIntros (b) "[%Hb H]".
    rewrite -has_lookup // in Hb. subst b. destruct (has e.1 les) eqn:Hp.
    - wstep. iExists les. iSplit; [|done]. iPureIntro. split_and!; try done. unfold sv_add. by rewrite /= Hp.
    - wstep. destruct Hcap as [|Hcap]; [done|].
      iApply (wp_wand with "[H]"); [by iApply (wp_sv_insert_new with "H")|].
      iIntros ([v' i]) "H". iDestruct "H" as (l [-> Hc]) "H". wstep. iExists (with_new les l e).
      iSplit; [|done]. iPureIntro. split_and!; try done. by exists l.
  Qed.
  Lemma wp_sv_index fuel v les k : asc les.*2 → length les < ulim →
    (has k les = true ∨ ¬ (length les = 1 ∧ sv_end v = 1)) → sv_end v + 2 < fuel →
    svmP v les ⊢ wp (sv_index keq comp dfltT ulim fuel v k) (λ '(v', q), ∃ les' l e,
      ⌜q = Some l ∧ les' !! lb k les = Some (l, e) ∧ keq e.1 k = true ∧
       e.2 = default dfltT (value_of keq k les.*2) ∧
       (les'.*2, sv_end v') = sv_add keq comp k dfltT (les.*2, sv_end v) ∧
       (if has k les then v' = v ∧ les' = les else ∃ l, les' = with_new les l (k, dfltT))⌝ ∧ svmP v' les').
  Proof.
    iIntros (Ha Hlim Hcap Hf) "H". iDestruct (svmP_last with "H") as %[Hl He].
    pose proof (probes_le (length les)). unfold sv_index. wstep.
    iApply (wp_wand with "[H]"); [iApply (wp_sv_pos with "H"); [done|done|lia]|]. iIntros (i) "[-> H]". wstep.
    iApply (wp_wand with "[H]"); [iApply (wp_key_at with "H"); apply lb_le|]. iIntros (b) "[%Hb H]".
    rewrite -has_lookup // in Hb. subst b.
    pose proof (has_lookup k les Ha) as Hh. pose proof (value_of_lookup keq comp Hko k les.*2 Ha) as Hv.
    rewrite list_lookup_fmap in Hv.
    destruct (has k les) eqn:Hp.
    - destruct (les !! lb k les) as [[l e]|] eqn:Hle; [|done]. simpl in Hh, Hv. rewrite -Hh in Hv.
      wstep. iApply (wp_slot_at with "H"); [done|]. iIntros "H". wstep. iExists les, l, e. iSplit; [|done].
      iPureIntro. split_and!; try done; [by rewrite Hv|]. unfold sv_add. by rewrite /= Hp.
    - wstep. destruct Hcap as [|Hcap]; [done|].
      iApply (wp_wand with "[H]"); [by iApply (wp_sv_insert_new fuel v les (EVal (k, dfltT)) (k, dfltT) with "H")|].
      iIntros ([v' i]) "H". iDestruct "H" as (l [-> Hc]) "H". simpl. wstep.
      iApply (wp_slot_at with "H"); [apply (with_new_lookup les l (k, dfltT))|]. iIntros "H". wstep.
      iExists (with_new les l (k, dfltT)), l, (k, dfltT).
      iSplit; [|done]. iPureIntro. split_and!; try done.
      + apply (with_new_lookup les l (k, dfltT)).
      + by apply (keq_refl keq comp Hko).
      + apply (value_none keq) in Hp. by rewrite Hp.
      + by exists l.
  Qed.
  Lemma wp_sv_at fuel v les k : asc les.*2 → length les < ulim → length les + 2 ≤ fuel → has k les = true →
    svmP v les ⊢ wp (sv_at keq comp ulim fuel v k) (λ q, ∃ l e,
      ⌜q = Some l ∧ les !! lb k les = Some (l, e) ∧ keq e.1 k = true ∧ value_of keq k les.*2 = Some e.2⌝ ∧ svmP v les).
  Proof.
    iIntros (Ha Hlim Hf Hp) "H". pose proof (probes_le (length les)). unfold sv_at. wstep.
    iApply (wp_wand with "[H]"); [iApply (wp_sv_find with "H"); [done|done|lia]|]. iIntros (i) "[-> H]".
    unfold pos_of. rewrite Hp.
    pose proof (has_lookup k les Ha) as Hh. pose proof (value_of_lookup keq comp Hko k les.*2 Ha) as Hv.
    rewrite list_lookup_fmap in Hv. rewrite Hp in Hh.
    destruct (les !! lb k les) as [[l e]|] eqn:Hle; [|done]. simpl in Hh, Hv. rewrite -Hh in Hv.
    iApply (wp_slot_at with "H"); [done|]. iIntros "H". iExists l, e. by iSplit.
  Qed.
  Lemma sv_set_at k x xs i e : asc xs → xs !! i = Some e → keq e.1 k = true →
    sv_set keq k x xs = <[i := (e.1, x)]> xs.
  Proof.
    intros Ha Hi Hk. apply list_eq. intros j. unfold sv_set. rewrite list_lookup_fmap.
    destruct (decide (i = j)) as [<-|Hne].
    - rewrite list_lookup_insert; [|by eapply lookup_lt_Some]. rewrite Hi /= Hk //.
    - rewrite list_lookup_insert_ne //. destruct (xs !! j) as [f|] eqn:Hj; [|done]. simpl.
      destruct (keq f.1 k) eqn:Hf; [|done]. exfalso. apply Hne.
      rewrite (keq_at_cut keq comp Hko k xs i e) // (keq_at_cut keq comp Hko k xs j f) //.
  Qed.
End svm.
