(** Threads using vector, fixed_vector and vector_map. Proof file. *)
From Verif Require Export ThreadSpec ClientsLogic.
From Verif Require Import VecHistory VmapProofs FixedHistory.
From iris.proofmode Require Import tactics.
Local Open Scope general_if_scope.

Section threads.
  Context {V : Type} (dflt : V) (eqb : V → V → bool).
  Notation block := (list (option V)).
  Notation A := (Allocator block).
  Notation iProp := (bi_car (hpropI block)).

  Lemma tr_v_push_back fuel v r : Tr 0 2 (λ al : A, v_push_back fuel v r).
  Proof. tr. Qed.
  Definition ve_split (op : ve_op V) : Prop :=
    match op with EAssignRange _ | EAssignOther _ _ | ERecreateRange _ => True | _ => False end.
  Lemma tr_ve_step fuel this other op : ¬ ve_split op → Tr 0 2 (λ al : A, ve_step dflt eqb fuel this other op).
  Proof. intros Hop. destruct op; try (by destruct (Hop I)); clear Hop; unfold ve_step; cbv iota; tr. Qed.
  Lemma tr_ve_reads fuel this other op : vector_reads op → Tr 3 3 (λ al : A, ve_step dflt eqb fuel this other op).
  Proof. destruct op; intros []; unfold ve_step; cbv iota; tr. Qed.

  Record apx := Apx { ax_xs : list V; ax_c : nat; ax_vs : list V; ax_F : iProp }.
  Definition ap_ok (fuel n : nat) (g : vrange V) (x : apx) : Prop :=
    length (ax_xs x) + length (ax_vs x) + 1 < fuel ∧ length (ax_vs x) < n ∧ rng_ok (ax_F x) g (ax_vs x).
  Definition ap_pre (v : tvec) (x : apx) : iProp := vecP v (ax_xs x) (ax_c x) ∗ ax_F x.
  Definition ap_post (x : apx) (v : tvec) : iProp :=
    vecP v (ax_xs x ++ ax_vs x) (grown1 (length (ax_xs x)) (ax_c x) (length (ax_vs x))) ∗ ax_F x.
  Lemma sp_v_append fuel n v g :
    Sp (λ al : A, loop n (λ '(v, g),
      match rnext g with
      | Some (r, g) => let! v := v_push_back fuel v r in ret (inl (v, g))
      | None => ret (inr v)
      end) (v, g)) (ap_ok fuel n g) (ap_pre v) ap_post.
  Proof.
    revert v g. induction n as [|n IH]; intros v g.
    { cbn [loop]. eapply (sp_of_wp 0 0); [tr|]. intros al x (_&?&_). lia. }
    assert ({r : vref V * vrange V | rnext g = Some r} + {rnext g = None}) as [[[r g'] Hg]|Hg]
      by (destruct (rnext g); eauto).
    - cbn [loop]. rewrite Hg.
      eapply (sp_bind _ _ _ _ (λ x s, match ax_vs x with
        | [] => False
        | y :: _ => ∃ v', ⌜s = inl (v', g')⌝ ∧ vecP v' (ax_xs x ++ [y]) (grown (ax_xs x) (ax_c x) 1) ∗ ax_F x end)%I).
      { eapply (sp_of_wp 0 2).
        { refine (tr_bind 0 2 2 (λ al : A, v_push_back fuel v r) _ _ _); [apply tr_v_push_back|].
          intros v'. by apply (tr_ret 2 2 (inl (v', g'))). }
        intros al [xs c vs F] (Hf&Hn&Hr). unfold ap_pre. simpl in *.
        destruct vs as [|y vs]; simpl in Hr; [congruence|].
        destruct Hr as (r'&g2&Hg2&Hr&Hg'). rewrite Hg in Hg2. injection Hg2 as <- <-. simpl in *.
        iIntros "[H HF]". wstep. iDestruct (vecP_last with "H") as %(?&?&?).
        iApply (wp_wand with "[H HF]").
        { iApply (wp_v_push_back fuel v xs c r y F (λ _, True%type) with "[$H $HF]"); [lia|done|apply Hr|done|].
          intros q. apply rok_frame, Hr. }
        iIntros (v') "(_&H&HF)". wstep. iExists v'. iSplit; [done|]. iFrame. }
      intros [[v' g2]|w].
      2:{ eapply (sp_of_wp 0 0); [tr|]. intros al [xs c [|y vs] F] _; simpl; [by iIntros "[]"|].
          iIntros "H". iDestruct "H" as (v') "[%Hx H]". done. }
      eapply sp_conseq; [apply (IH v' g2)|].
      intros [xs c vs F] (Hf&Hn&Hr). simpl in *. destruct vs as [|y vs]; [by iIntros "[]"|].
      destruct Hr as (r'&g3&Hg3&Hr&Hg'). rewrite Hg in Hg3. injection Hg3 as <- <-.
      iIntros "H". iDestruct "H" as (v2) "(%Hv2&H&HF)". injection Hv2 as <- ->.
      iDestruct (vecP_last with "H") as %(?&?&?).
      iExists (Apx (xs ++ [y]) (grown xs c 1) vs F). simpl in *.
      iSplit; [iPureIntro; split_and!; simpl; [rewrite app_length /=; lia|lia|done]|].
      iExists emp%I. iSplitR; [done|]. iSplitL; [unfold ap_pre; simpl; iFrame|].
      iIntros (w) "_ [H HF]". unfold ap_post. simpl. iFrame "HF". rewrite -app_assoc /=. unfold grown1, grown.
      rewrite app_length /=.
      assert ((if decide (c < length xs + 1) then length xs + 1 else c)
        `max` (length xs + 1 + length vs) = c `max` (length xs + S (length vs))) as <-; [|done].
      destruct (decide _); lia.
    - cbn [loop]. rewrite Hg.
      eapply (sp_bind _ _ _ _ (λ x s, ⌜s = inr v⌝ ∧ ap_pre v x)%I).
      { eapply (sp_of_wp 0 0); [tr|]. intros al x Hx. iIntros "H". wstep. by iSplit. }
      intros [[v' g2]|w].
      + eapply sp_conseq; [apply (IH v' g2)|]. intros x Hx. iIntros "[%Hx' H]". done.
      + eapply (sp_of_wp 0 0); [tr|]. intros al [xs c vs F] (Hf&Hn&Hr). simpl in *.
        destruct vs; [|destruct Hr as (?&?&?&_); congruence].
        iIntros "[%Hw [H HF]]". injection Hw as ->. simpl. wstep. unfold ap_post, grown1. simpl.
        iDestruct (vecP_last with "H") as %(?&?&?). rewrite app_nil_r Nat.add_0_r.
        replace (c `max` length xs) with c by lia. iFrame.
  Qed.

  Lemma sp_v_assign_range fuel v g :
    Sp (λ al : A, v_assign_range fuel v g)
      (λ x, length (ax_xs x) + length (ax_vs x) + 1 < fuel ∧ rng_ok (ax_F x) g (ax_vs x)) (ap_pre v)
      (λ x v', vecP v' (ax_vs x) (grown1 0 (ax_c x) (length (ax_vs x))) ∗ ax_F x)%I.
  Proof.
    unfold v_assign_range.
    eapply (sp_bind _ _ _ _ (λ x v', vecP v' [] (ax_c x) ∗ ax_F x)%I).
    { eapply (sp_of_wp 0 2); [tr|]. intros al [xs c vs F] [Hf _]. unfold ap_pre. simpl in *. iIntros "[H HF]".
      iApply (wp_wand with "[H]"); [iApply (wp_v_clear with "H"); lia|]. iIntros (v') "[_ H]". iFrame. }
    intros v'. unfold v_append. eapply sp_conseq; [apply (sp_v_append fuel fuel v' g)|].
    intros [xs c vs F] [Hf Hr]. simpl in *. iIntros "H". iExists (Apx [] c vs F).
    iSplit; [iPureIntro; split_and!; simpl; [lia|lia|done]|].
    iExists emp%I. iSplitR; [done|]. iSplitL; [iExact "H"|]. iIntros (w) "_ H". iExact "H".
  Qed.
  Lemma sp_v_new_range fuel (vs : list V) :
    Sp (λ al : A, v_new_range fuel (RVals vs))
      (λ x : apx, length vs + 1 < fuel) (λ x, ax_F x)
      (λ x v', vecP v' vs (length vs) ∗ ax_F x)%I.
  Proof.
    unfold v_new_range.
    eapply (sp_bind _ _ _ _ (λ x v', vecP v' [] (length vs) ∗ ax_F x)%I).
    { eapply (sp_of_wp 0 2); [tr|]. intros al [xs c vs' F] Hf. simpl in *. iIntros "HF".
      iApply (wp_wand with "[]"); [iApply (wp_v_reserve fuel (Vec None 0 0) [] 0)|].
      - simpl. lia.
      - unfold vecP. simpl. do 3 (iSplit; [iPureIntro; lia|]). done.
      - iIntros (v') "[_ H]". unfold reserved. simpl. iFrame. }
    intros v'. unfold v_append. eapply sp_conseq; [apply (sp_v_append fuel fuel v' (RVals vs))|].
    intros [xs c vs' F] Hf. simpl in *. iIntros "H". iExists (Apx [] (length vs) vs emp).
    iSplit; [iPureIntro; split_and!; simpl; [lia|lia|apply rng_vals]|]. iDestruct "H" as "[H HF]".
    iExists F. iFrame "HF". unfold ap_pre, ap_post, grown1. simpl. rewrite Nat.max_id.
    iSplitL "H"; [iFrame|]. iIntros (w) "HF [H _]". iFrame.
  Qed.

  Lemma sp_ve_step fuel this other op :
    Sp (λ al : A, ve_step dflt eqb fuel this other op)
      (cstep_ok (ve_spec_ok dflt eqb) vneed fuel op) (cstep_pre vecR this other) (cstep_post vecR).
  Proof.
    assert ({ve_split op} + {¬ ve_split op}) as [Hop|Hop] by (destruct op; simpl; auto).
    2:{ eapply sp_of_wp; [by apply tr_ve_step|]. intros al [[s o] [[s' o'] out]] [Hs Hf].
        by apply (wp_ve_step dflt eqb fuel this other s o op s' o' out). }
    destruct op as [| | | | | | | | | | | | | |zs|j k| | | | | | | |zs| | | | | | | | |]; try (by destruct Hop); clear Hop; unfold ve_step; cbv iota.
    - (* assign(first, last) *)
      unfold vdone. eapply (sp_bind _ _ _ _ (λ x v', vecP v' zs (grown1 0 x.1.1.2 (length zs)) ∗ vecR other x.1.2)%I).
      { eapply sp_conseq; [apply sp_v_assign_range|].
        intros [[[xs c] [ys d]] [[s' o'] out]] [Hs Hf]. unfold cstep_pre, vecR. simpl in *.
        unfold ve_spec_ok, ve_spec in Hs. case_decide; [|done]. simpl in Hs. simplify_eq. unfold vneed in Hf. simpl in *.
        iIntros "[H Ho]". iExists (Apx xs c zs emp). iSplit; [iPureIntro; split; simpl; [lia|apply rng_vals]|].
        iExists (vecP other ys d). iFrame "Ho". unfold ap_pre. simpl. iSplitL; [iFrame|]. iIntros (w) "Ho [H _]". iFrame. }
      intros v'. eapply (sp_of_wp 0 0); [tr|]. intros al [[[xs c] [ys d]] [[s' o'] out]] [Hs Hf].
      simpl in *. unfold ve_spec_ok, ve_spec in Hs. case_decide; [|done]. simpl in Hs. simplify_eq.
      iIntros "[H Ho]". wstep. unfold cstep_post, vecR. simpl. iSplit; [done|]. iFrame.
    - (* assign(other.begin() + j, other.begin() + k) *)
      unfold vdone. eapply (sp_bind _ _ _ _ (λ x v', vecP v' (slice j k x.1.2.1) (grown1 0 x.1.1.2 (k - j)) ∗ vecR other x.1.2)%I).
      { eapply sp_conseq; [apply sp_v_assign_range|].
        intros [[[xs c] [ys d]] [[s' o'] out]] [Hs Hf]. unfold cstep_pre, vecR. simpl in *.
        unfold ve_spec_ok, ve_spec in Hs. case_decide; [|done]. simpl in Hs. case_decide as Hjk; [|done]. simplify_eq/=. unfold vneed in Hf. simpl in *.
        iIntros "[H (%Hlo&%Heo&%Hco&Ho)]".
        iExists (Apx xs c (slice j k ys) (blk (v_buf other) (lv ys ++ raw (d - length ys)))).
        iSplit; [iPureIntro; split; simpl; [rewrite slice_length in Hf |- *; lia|by apply rng_slice]|].
        iExists emp%I. iSplitR; [done|]. iSplitL; [unfold ap_pre; simpl; iFrame|].
        iIntros (w) "_ [H Ho]". simpl. rewrite slice_length //. iFrame. by do 3 (iSplit; [done|]). }
      intros v'. eapply (sp_of_wp 0 0); [tr|]. intros al [[[xs c] [ys d]] [[s' o'] out]] [Hs Hf].
      simpl in *. unfold ve_spec_ok, ve_spec in Hs. case_decide; [|done]. simpl in Hs. case_decide as Hjk; [|done]. simplify_eq/=.
      iIntros "[H Ho]". wstep. unfold cstep_post, vecR. simpl. iSplit; [done|]. iFrame.
    - (* re-created from a range *)
      eapply (sp_bind _ _ _ _ (λ x _, vecR other x.1.2)%I).
      { eapply (sp_of_wp 0 2); [tr|]. intros al [[[xs c] [ys d]] [[s' o'] out]] [Hs Hf].
        unfold cstep_pre, vecR. simpl. unfold vneed in Hf. simpl in Hf. iIntros "[H Ho]".
        iApply (wp_wand with "[H]"); [iApply (wp_v_destroy with "H"); lia|]. by iIntros (_) "_". }
      intros []. unfold vdone. eapply (sp_bind _ _ _ _ (λ x v', vecP v' zs (length zs) ∗ vecR other x.1.2)%I).
      { eapply sp_conseq; [apply sp_v_new_range|].
        intros [[[xs c] [ys d]] [[s' o'] out]] [Hs Hf]. unfold vecR. simpl in *.
        unfold ve_spec_ok, ve_spec in Hs. case_decide; [|done]. simpl in Hs. simplify_eq. unfold vneed in Hf. simpl in *.
        iIntros "Ho". iExists (Apx [] 0 [] (vecP other ys d)). iSplit; [iPureIntro; lia|].
        iExists emp%I. iSplitR; [done|]. simpl. iFrame "Ho". iIntros (w) "_ H". iExact "H". }
      intros v'. eapply (sp_of_wp 0 0); [tr|]. intros al [[[xs c] [ys d]] [[s' o'] out]] [Hs Hf].
      simpl in *. unfold ve_spec_ok, ve_spec in Hs. case_decide; [|done]. simpl in Hs. simplify_eq.
      iIntros "[H Ho]". wstep. unfold cstep_post, vecR. simpl. iSplit; [done|]. iFrame.
  Qed.
  Lemma vector_threads ops0 cs :
    threads_correct (λ al : A, v_new) (λ al, v_destroy) (λ al, ve_step dflt eqb)
      ([], 0) (ve_spec_ok dflt eqb) vector_reads (λ _, True) ops0 cs.
  Proof.
    apply (clients_correct _ _ _ _ _ _ _ vecR vneed).
    - intros al. apply vec_new_R.
    - intros al fuel a s _ Hf. iIntros "H". iApply (wp_v_destroy with "H"). unfold vneed in Hf. lia.
    - intros al fuel this other s o op s' o' out Hs Hf. by apply (wp_ve_step dflt eqb fuel this other s o op s' o' out).
    - tr.
    - intros. tr.
    - intros. apply sp_ve_step.
    - intros. by apply tr_ve_reads.
  Qed.

  Context (N : nat).
  Lemma tr_fx_step fuel this other op : Tr 0 2 (λ al : A, fx_step N dflt eqb fuel this other op).
  Proof. destruct op as [op|]; [destruct op|]; unfold fx_step; cbv iota; tr. Qed.
  Lemma tr_fx_reads fuel this other op : fixed_reads op → Tr 3 3 (λ al : A, fx_step N dflt eqb fuel this other op).
  Proof. destruct op as [op|]; [destruct op|]; intros []; unfold fx_step; cbv iota; tr. Qed.
  Lemma fixed_threads ops0 cs :
    threads_correct (λ al : A, fv_new N) (λ al, fv_destroy) (λ al, fx_step N dflt eqb)
      [] (fx_spec_ok N dflt eqb) fixed_reads (λ _, True) ops0 cs.
  Proof.
    apply (clients_correct_tr _ _ _ _ _ _ _ (fvecP N) (λ _, S N)).
    - intros al. apply wp_fv_new.
    - intros al fuel a s _ Hf. iIntros "H". iDestruct (fvecP_last with "H") as %[??].
      iApply (wp_fv_destroy with "H"). lia.
    - intros al fuel this other s o op s' o' out Hc Hf. apply wp_fx_step; [|lia].
      unfold fx_spec_ok in Hc. unfold fx_code. case_decide; [|done]. by rewrite Hc.
    - tr.
    - intros. tr.
    - intros. apply tr_fx_step.
    - intros. by apply tr_fx_reads.
  Qed.
End threads.

Section mapthreads.
  Context {K T : Type} (keq : K → K → bool) (dfltK : K) (dfltT : T) (eqb : K * T → K * T → bool).
  Notation A := (Allocator (list (option (K * T)))).
  Definition vm_base (op : vm_op K T) : Prop := match op with MBase _ => True | _ => False end.
  Lemma tr_vm_step fuel this other op : ¬ vm_base op → Tr 0 2 (λ al : A, vm_step keq dfltK dfltT eqb fuel this other op).
  Proof. intros Hop. destruct op; try (by destruct (Hop I)); clear Hop; unfold vm_step; cbv iota; tr. Qed.
  Lemma tr_vm_reads fuel this other op : vmap_reads op → Tr 3 3 (λ al : A, vm_step keq dfltK dfltT eqb fuel this other op).
  Proof.
    destruct op as [op| | | | | | |]; simpl; intros Hop; try done; unfold vm_step; cbv iota; [|clear Hop; tr..].
    refine (tr_bind 3 3 3 (λ al : A, ve_step (dfltK, dfltT) eqb fuel this other op) _ _ _).
    - by apply tr_ve_reads.
    - intros [[v o] r]. by apply (tr_ret 3 3 (v, o, OBase r)).
  Qed.
  Lemma sp_vm_step fuel this other op :
    Sp (λ al : A, vm_step keq dfltK dfltT eqb fuel this other op)
      (cstep_ok (vm_spec keq dfltK dfltT eqb) vneed fuel op) (cstep_pre vecR this other) (cstep_post vecR).
  Proof.
    assert ({vm_base op} + {¬ vm_base op}) as [Hop|Hop] by (destruct op; simpl; auto).
    2:{ eapply sp_of_wp; [by apply tr_vm_step|]. intros al [[s o] [[s' o'] out]] [Hs Hf].
        by apply (wp_vm_step keq dfltK dfltT eqb fuel this other s o op s' o' out). }
    destruct op as [op| | | | | | |]; try (by destruct Hop). clear Hop. unfold vm_step.
    eapply (sp_bind _ _ _ _ (λ x r, ⌜x.2.2 = OBase r.2⌝ ∧ vecR r.1.1 x.2.1.1 ∗ vecR r.1.2 x.2.1.2)%I).
    { eapply sp_conseq; [apply (sp_ve_step (dfltK, dfltT) eqb fuel this other op)|].
      intros [[s o] [[s' o'] out]] [Hs Hf]. simpl in *. apply bind_Some in Hs as ([[s1 o1] r]&Hs&?). simplify_eq.
      iIntros "H". iExists (s, o, (s', o', r)). iSplit; [done|]. iExists emp%I. iSplitR; [done|].
      iSplitL; [iExact "H"|]. iIntros (a) "_ [%Ha H]". simpl in *. iSplit; [iPureIntro; by rewrite Ha|]. iExact "H". }
    intros [[v w] r]. eapply (sp_of_wp 0 0); [tr|]. intros al [[s o] [[s' o'] out]] [Hs Hf]. simpl in *.
    iIntros "[%Hr H]". wstep. unfold cstep_post. simpl. iSplit; [done|]. iExact "H".
  Qed.
  Lemma vmap_threads ops0 cs :
    threads_correct (λ al : A, v_new) (λ al, v_destroy) (λ al, vm_step keq dfltK dfltT eqb)
      ([], 0) (vm_spec keq dfltK dfltT eqb) vmap_reads (λ _, True) ops0 cs.
  Proof.
    apply (clients_correct _ _ _ _ _ _ _ vecR vneed).
    - intros al. apply vec_new_R.
    - intros al fuel a s _ Hf. iIntros "H". iApply (wp_v_destroy with "H"). unfold vneed in Hf. lia.
    - intros al fuel this other s o op s' o' out Hs Hf. by apply (wp_vm_step keq dfltK dfltT eqb fuel this other s o op s' o' out).
    - tr.
    - intros. tr.
    - intros. apply sp_vm_step.
    - intros. by apply tr_vm_reads.
  Qed.
End mapthreads.
