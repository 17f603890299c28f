(** vector_map: the calls refine the abstract map. Proof file. *)
From Verif Require Export VmapSpec VecHistory.
From iris.proofmode Require Import tactics.

Section proofs.
  Context {K T : Type} `{Allocator (list (option (K * T)))}.
  Context (keq : K → K → bool) (dfltK : K) (dfltT : T) (eqb : K * T → K * T → bool).
  Notation E := (K * T)%type.
  Notation block := (list (option E)).
  Notation iProp := (bi_car (hpropI block)).
  Implicit Types (xs : list E) (k : K) (x : T) (v : tvec) (i c : nat).

  Lemma kpos_le k xs : kpos keq k xs ≤ length xs.
  Proof. induction xs as [|e xs IH]; simpl; [done|]. destruct (keq _ _); lia. Qed.

  Lemma wp_vm_find_key fuel v xs c i k : i ≤ length xs → length xs - i < fuel →
    vecP v xs c ⊢ wp (vm_find_key keq fuel v i k) (λ r, ⌜r = (i + kpos keq k (drop i xs))%nat⌝ ∧ vecP v xs c).
  Proof.
    intros Hi. revert i Hi. induction fuel as [|fuel IH]; intros i Hi Hf; [lia|]. iIntros "H".
    iDestruct (vecP_last with "H") as %(Hl&_). unfold vm_find_key. cbn [loop]. wstep.
    destruct (decide _) as [Hne|He].
    - destruct (lookup_lt_is_Some_2 xs i) as [e Hx]; [lia|]. wstep.
      iApply (vecP_rd with "H"); [done|]. iIntros "H". rewrite (drop_S _ _ _ Hx) /=.
      destruct (keq k e.1).
      + wstep. wstep. rewrite Nat.add_0_r. by iSplit.
      + wstep. iApply (wp_wand with "[H]"); [iApply (IH (S i) with "H"); lia|].
        iIntros (r) "[-> H]". iSplit; [iPureIntro; lia|done].
    - apply dec_stable in He. wstep. wstep. iSplit; [|done]. iPureIntro. rewrite drop_ge; [simpl; lia|lia].
  Qed.
  Lemma wp_vm_find fuel v xs c k : length xs < fuel →
    vecP v xs c ⊢ wp (vm_find keq fuel v k) (λ r, ⌜r = kpos keq k xs⌝ ∧ vecP v xs c).
  Proof.
    intros Hf. iIntros "H". unfold vm_find.
    iApply (wp_wand with "[H]"); [iApply (wp_vm_find_key with "H"); lia|]. iIntros (r) "[-> H]".
    rewrite drop_0. by iSplit.
  Qed.
  Lemma wp_vm_insert fuel v xs c r e : length xs + 1 < fuel → vrefers v xs r e →
    vecP v xs c ⊢ wp (vm_insert keq fuel v r) (λ '(v', i, b),
      ⌜i = kpos keq e.1 xs ∧ b = vm_new keq e.1 xs⌝ ∧
      vecP v' (vm_add keq e.1 e.2 (xs, c)).1 (vm_add keq e.1 e.2 (xs, c)).2).
  Proof.
    intros Hf Hr. iIntros "H". unfold vm_insert. wstep. iDestruct (vecP_last with "H") as %(Hl&_).
    assert (∀ (Q : E → iProp), vecP v xs c -∗ (vecP v xs c -∗ Q e) -∗ wp (deref r) Q) as Hd.
    { iIntros (Q) "H HQ". destruct r as [y|p j]; simpl in *.
      - subst y. wstep. by iApply "HQ".
      - destruct Hr as [-> Hx]. by iApply (vecP_rd with "H"). }
    iApply (Hd with "H"). iIntros "H". wstep. 
    iApply (wp_wand with "[H]"); [iApply (wp_vm_find with "H"); lia|]. iIntros (i) "[-> H]".
    pose proof (kpos_le e.1 xs). rewrite Hl. unfold vm_new, vm_add. simpl.
    destruct (decide (kpos keq e.1 xs ≠ length xs)) as [Hne|He].
    - wstep. destruct (decide _); [|lia]. simpl. rewrite bool_decide_eq_false_2 //. by iSplit.
    - apply dec_stable in He. destruct (decide _); [lia|]. wstep. unfold v_insert.
      iApply (wp_wand with "[H]").
      { iApply (wp_v_insert_n fuel v xs c (kpos keq e.1 xs) 1 r e with "H"); [lia|lia|done|].
        destruct r as [|p j]; [done|]. destruct Hr as [_ Hx]. apply lookup_lt_Some in Hx. lia. }
      iIntros ([v' i]) "(%Hi&_&H)". simpl in Hi. wstep. rewrite bool_decide_eq_true_2 //. simpl.
      rewrite He ins_end. destruct e. iSplit; [|done]. iPureIntro. split; [congruence|done].
  Qed.
  Lemma wp_vm_index fuel v xs c k : length xs + 1 < fuel →
    vecP v xs c ⊢ wp (vm_index keq dfltT fuel v k) (λ '(v', i),
      ⌜i = kpos keq k xs⌝ ∧
      vecP v' (vm_add keq k dfltT (xs, c)).1 (vm_add keq k dfltT (xs, c)).2).
  Proof.
    intros Hf. iIntros "H". unfold vm_index. wstep. iDestruct (vecP_last with "H") as %(Hl&_).
    iApply (wp_wand with "[H]"); [iApply (wp_vm_find with "H"); lia|]. iIntros (i) "[-> H]".
    pose proof (kpos_le k xs). rewrite Hl. unfold vm_add. simpl.
    destruct (decide (kpos keq k xs ≠ length xs)) as [Hne|He].
    - wstep. destruct (decide _); [|lia]. simpl. by iSplit.
    - apply dec_stable in He. destruct (decide _); [lia|]. unfold v_insert.
      iApply (wp_wand with "[H]").
      { iApply (wp_v_insert_n fuel v xs c (kpos keq k xs) 1 (VExt (k, dfltT)) with "H"); [lia|lia|done|done]. }
      iIntros ([v' i]) "(%Hi&_&H)". simpl in Hi |- *.
      rewrite He ins_end. iSplit; [|done]. iPureIntro. congruence.
  Qed.
  Lemma vm_add_lookup k x xs c : is_Some ((vm_add keq k x (xs, c)).1 !! kpos keq k xs).
  Proof.
    unfold vm_add. simpl. pose proof (kpos_le k xs). destruct (decide _); simpl.
    - by apply lookup_lt_is_Some.
    - apply lookup_lt_is_Some. rewrite app_length /=. lia.
  Qed.
  Lemma vm_add_length k x (s : ve_state E) : length s.1 ≤ length (vm_add keq k x s).1.
  Proof. unfold vm_add. destruct (decide _); [done|]. simpl. rewrite app_length. lia. Qed.
  Lemma wp_vm_count fuel v xs c k : length xs < fuel → kpos keq k xs = length xs →
    vecP v xs c ⊢ wp (vm_count keq fuel v k) (λ n, ⌜n = 0⌝ ∧ vecP v xs c).
  Proof.
    intros Hf Hk. iIntros "H". unfold vm_count. iDestruct (vecP_last with "H") as %(Hl&_).
    match goal with |- context [loop fuel ?body _] => set (bd := body) end.
    assert (∃ f, fuel = S f) as [f Hff] by (destruct fuel; [lia|eauto]). rewrite {1}Hff. cbn [loop].
    unfold bd at 1. wstep. wstep.
    iApply (wp_wand with "[H]"); [iApply (wp_vm_find_key with "H"); lia|]. iIntros (r) "[-> H]".
    rewrite drop_0 Hk Hl. destruct (decide _); [done|]. wstep. wstep. by iSplit.
  Qed.

  Lemma alter_insert (f : E → E) i xs e : xs !! i = Some e → alter f i xs = <[i := f e]> xs.
  Proof.
    revert i. induction xs as [|y xs IH]; intros [|i] He; simplify_eq/=; [done|]. f_equal. by apply IH.
  Qed.

  Definition vmpost (s' o' : ve_state E) (out : vm_out K T) (r : tvec * tvec * vm_out K T) : iProp :=
    ⌜r.2 = out⌝ ∧ vecR r.1.1 s' ∗ vecR r.1.2 o'.
  Lemma wp_vm_step fuel this other s o op s' o' out :
    vm_spec keq dfltK dfltT eqb s o op = Some (s', o', out) →
    vneed s + vneed o + vneed s' + vneed o' < fuel →
    vecR this s ∗ vecR other o ⊢ wp (vm_step keq dfltK dfltT eqb fuel this other op) (vmpost s' o' out).
  Proof.
    destruct s as [xs c]. iIntros (Hspec Hf) "[H Ho]". unfold vecR in *. simpl. 
    assert (length xs + 1 < fuel) as Hf'. { unfold vneed in Hf. simpl in Hf. lia. }
    destruct op as [op|k x|j|k|k x|k|k|k]; simpl in Hspec; unfold vm_step; cbn beta iota;
      repeat match goal with
        | H : _ ≫= _ = Some _ |- _ => apply bind_Some in H as (?&?&?)
        | H : (if decide _ then _ else _) = Some _ |- _ => case_decide; simplify_eq/=
        end; simplify_eq/=.
    - destruct x as [[s1 o1] r1]. simplify_eq. wstep.
      iApply (wp_wand with "[H Ho]"); [iApply (wp_ve_step _ _ _ _ _ (xs, c) o with "[$H $Ho]"); done|].
      iIntros ([[v w] r]) "(%Hr&H&Ho)". wstep. simpl in *. iSplit; [by rewrite /= Hr|iFrame].
    - wstep. iApply (wp_wand with "[H]"); [by iApply (wp_vm_insert _ _ _ _ (VExt (k,x)) (k,x) with "H")|].
      iIntros ([[v i] b]) "[%Hib H]". destruct Hib as [-> ->]. wstep. iSplit; [done|iFrame].
    - wstep. iApply (wp_wand with "[H]"); [by iApply (wp_vm_insert _ _ _ _ (vown this j) with "H")|].
      iIntros ([[v i] b]) "[%Hib H]". destruct Hib as [-> ->]. wstep. iSplit; [done|iFrame].
    - wstep. iApply (wp_wand with "[H]"); [by iApply (wp_vm_index with "H")|].
      iIntros ([v i]) "[-> H]". wstep. iApply (vecP_rd with "H"); [done|]. iIntros "H". wstep.
      iSplit; [done|iFrame].
    - wstep. iApply (wp_wand with "[H]"); [by iApply (wp_vm_index with "H")|].
      iIntros ([v i]) "[-> H]". destruct (vm_add_lookup k dfltT xs c) as [e He].
      wstep. iApply (vecP_rd with "H"); [done|]. iIntros "H". wstep.
      iApply (wp_wand with "[H]").
      { iApply (wp_v_set_at _ _ _ _ (e.1, x) with "H"). by eapply lookup_lt_Some. }
      iIntros (_) "H". wstep. iSplit; [done|]. simpl. iFrame "Ho". unfold set_val.
      rewrite (alter_insert _ _ _ e) //.
    - wstep. iApply (wp_wand with "[H]"); [iApply (wp_vm_find with "H"); lia|].
      iIntros (i) "[-> H]". wstep. iSplit; [done|iFrame].
    - unfold vm_at. wstep. wstep. iApply (wp_wand with "[H]"); [iApply (wp_vm_find with "H"); lia|].
      iIntros (i) "[-> H]". wstep. iApply (vecP_rd with "H"); [done|]. iIntros "H". wstep. wstep.
      iSplit; [done|iFrame].
    - wstep. iApply (wp_wand with "[H]"); [iApply (wp_vm_count with "H"); [lia|done]|].
      iIntros (i) "[-> H]". wstep. iSplit; [done|iFrame].
  Qed.
End proofs.
