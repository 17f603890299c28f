(** Threads using set and map. Proof file. *)
From Verif Require Export ThreadSpec ClientsLogic.
From Verif Require Import MapHistory.
From iris.proofmode Require Import tactics.

Section fixpoints.
  Context {K V : Type} (keyof : V → K) (lt eqb : K → K → bool).
  Lemma tr_postorder_destroy s n p : s ≠ 1 → s ≤ 2 → Tr s s (λ al : Allocator (rbcell V), postorder_destroy n p).
  Proof. intros Hs Hs2. revert p. induction n as [|n IH]; intros p; simpl; [apply tr_nofuel|]. destruct p; tr. Qed.
  Lemma tr_preorder_copy n p : Tr 1 1 (λ al : Allocator (rbcell V), preorder_copy n p).
  Proof. revert p. induction n as [|n IH]; intros p; simpl; [apply tr_nofuel|]. destruct p; tr. Qed.
  Lemma tr_m_insert_range n this vs : Tr 1 1 (λ al : Allocator (rbcell V), m_insert_range keyof lt eqb n this vs).
  Proof. induction vs as [|v vs IH]; simpl; tr. Qed.
End fixpoints.
Ltac tr_hint h ::=
  lazymatch h with
  | @postorder_destroy => tr_by @tr_postorder_destroy
  | @preorder_copy => tr_by @tr_preorder_copy
  | @m_insert_range => tr_by @tr_m_insert_range
  end.

Section threads.
  Context {K V : Type} (keyof : V → K) (lt eqb : K → K → bool) (veqb : V → V → bool).
  Notation A := (Allocator (rbcell V)).

  Lemma tr_m_reads fuel this other op : set_reads op → Tr 3 3 (λ al : A, m_step keyof lt eqb veqb fuel this other op).
  Proof. destruct op; intros []; unfold m_step; cbv iota; tr. Qed.
  Lemma tr_m_step fuel this other op : op ≠ MRecopy → Tr 0 2 (λ al : A, m_step keyof lt eqb veqb fuel this other op).
  Proof. intros Hop. destruct op; [..|by destruct Hop|]; clear Hop; unfold m_step; cbv iota; tr. Qed.

  Lemma tr_map_reads_gen fuel this other op : set_reads op →
    Tr 3 3 (λ al : A, keep_this (m_step keyof lt eqb veqb) fuel this other op).
  Proof.
    intros Hop. unfold keep_this. refine (tr_bind 3 3 3 (λ al : A, m_step keyof lt eqb veqb fuel this other op) _ _ _).
    { by apply tr_m_reads. } intros [o r]. by apply (tr_ret 3 3 (this, o, r)).
  Qed.

  Context (Hord : RbSpec.key_order lt eqb).
  Lemma sp_m_recopy {Y} fuel this other :
    Sp (λ al : A, m_step keyof lt eqb veqb fuel this other MRecopy)
      (λ x : list V * list V * Y, mneed x.1.1 + mneed x.1.2 < fuel)
      (λ x, mrep keyof lt this x.1.1 ∗ mrep keyof lt other x.1.2)%I
      (λ x r, ⌜r.2 = UDone⌝ ∧ mrep keyof lt this x.1.1 ∗ mrep keyof lt r.1 x.1.1)%I.
  Proof.
    unfold m_step.
    eapply (sp_bind _ _ _ _ (λ x _, mrep keyof lt this x.1.1)%I).
    { eapply (sp_of_wp 0 2); [tr|]. intros al [[s o'] y] Hf.
      iIntros "[H Ho]". iApply (wp_wand with "[Ho]").
      - iApply (wp_m_destroy_rep _ _ _ Hord with "Ho"); unfold mneed in *; simpl in *; lia.
      - by iIntros (_) "_". }
    intros _.
    eapply (sp_bind _ _ _ _ (λ x o, mrep keyof lt this x.1.1 ∗ mrep keyof lt o x.1.1)%I).
    2:{ intros o. eapply (sp_of_wp 0 0); [tr|]. intros al x Hx. iIntros "H". wstep. by iSplit. }
    unfold m_copy.
    eapply (sp_bind _ _ _ _ (λ x o, mrep keyof lt this x.1.1 ∗ rzip o [] Leaf)%I).
    { eapply (sp_of_wp 0 2); [tr|]. intros al x Hx. iIntros "H". iApply wp_rb_new. iIntros (hdr) "Hh". iFrame. }
    intros o.
    eapply (sp_bind _ _ _ _ (λ x _, mrep keyof lt this x.1.1 ∗ mrep keyof lt o x.1.1)%I).
    2:{ intros []. eapply (sp_of_wp 0 0); [tr|]. intros al x Hx. iIntros "H". by wstep. }
    eapply (sp_of_wp 0 2); [tr|]. intros al [[s o'] y] Hf. cbn [fst snd] in *.
    iIntros "[H Ho]". iDestruct (mrep_open _ _ _ Hord with "H") as (xs) "[%Hx H]". destruct Hx as (<-&Hasc&Hasc'&Hnd&Hlg&Hlen).
    iDestruct (rbt_open with "H") as (t0 m0) "[%Hx H]". destruct Hx as (HE0&Hr0&Hb0&Hh0&Hm0).
    iApply (wp_rb_assign with "Ho H"); [simpl; lia|lia|]. iIntros (t') "%Hcp Ho H".
    iSplitL "H".
    - iApply mrep_close; [done|]. rewrite -HE0. by iApply (rbt_close with "H").
    - assert ((elems t').*2 = xs.*2) as Hv by (rewrite -HE0; by apply copy_of_vals).
      rewrite -Hv. iApply mrep_close; [by rewrite Hv|].
      iApply (rbt_close with "Ho"); [by rewrite (copy_of_isred _ _ Hcp)|by eapply copy_of_balanced].
  Qed.
  Lemma sp_m_step fuel this other op :
    Sp (λ al : A, keep_this (m_step keyof lt eqb veqb) fuel this other op)
      (cstep_ok (m_spec keyof lt eqb veqb) mneed fuel op) (cstep_pre (mrep keyof lt) this other)
      (cstep_post (mrep keyof lt)).
  Proof.
    assert ({op = MRecopy} + {op ≠ MRecopy}) as [->|Hop] by (destruct op; auto).
    - unfold keep_this. eapply sp_bind.
      { eapply sp_conseq; [apply (sp_m_recopy (Y:=list V * list V * m_out V) fuel this other)|].
        intros x [_ Hx]. iIntros "H". iExists x. iSplit; [iPureIntro; lia|]. iExists emp%I. iSplitR; [done|].
        iSplitL; [iExact "H"|]. iIntros (a) "_ H". iExact "H". }
      intros [o r]. eapply (sp_of_wp 0 0); [tr|]. intros al [[s o'] [[s' o''] out]] [Hs Hf]. simpl in *. simplify_eq.
      iIntros "[%Hr [H Ho]]". wstep. unfold cstep_post. simpl. iSplit; [done|]. iFrame.
    - unfold keep_this. eapply (sp_bind _ _ _ _ (λ x r, ⌜r.2 = x.2.2⌝ ∧ mrep keyof lt this x.2.1.1 ∗ mrep keyof lt r.1 x.2.1.2)%I).
      { eapply sp_of_wp; [by apply tr_m_step|]. intros al [[s o] [[s' o'] out]] [Hs Hf].
        iIntros "H". by iApply (wp_m_step _ _ _ _ Hord _ _ _ _ _ _ _ _ _ Hs Hf with "H"). }
      intros [o r]. eapply (sp_of_wp 0 0); [tr|]. intros al [[s o'] [[s' o''] out]] [Hs Hf]. simpl in *.
      iIntros "H". wstep. iExact "H".
  Qed.
  Lemma set_threads ops0 cs :
    threads_correct (λ al : A, rb_new) (λ al, rb_destroy) (λ al, keep_this (m_step keyof lt eqb veqb))
      [] (m_spec keyof lt eqb veqb) set_reads (λ _, True) ops0 cs.
  Proof.
    apply (clients_correct _ _ _ _ _ _ _ (mrep keyof lt) mneed).
    - intros al. by apply wp_m_new_rep.
    - intros al fuel a s _ Hf. by apply (wp_m_destroy_rep _ _ _ Hord).
    - intros al fuel this other s o op s' o' out Hs Hf. iIntros "H". iApply wp_keep_this.
      iApply (wp_m_step _ _ _ _ Hord _ _ _ _ _ _ _ _ _ Hs Hf with "H").
    - tr.
    - intros. tr.
    - intros. apply sp_m_step.
    - intros. by apply tr_map_reads_gen.
  Qed.
End threads.

Section mapthreads.
  Context {K T : Type} (lt eqb : K → K → bool) (veqb : K * T → K * T → bool) (dflt : T).
  Notation A := (Allocator (rbcell (K * T))).
  Lemma tr_map_reads fuel this other op : map_reads op →
    Tr 3 3 (λ al : A, keep_this (map_step lt eqb veqb dflt) fuel this other op).
  Proof.
    intros Hop. unfold keep_this. refine (tr_bind 3 3 3 (λ al : A, map_step lt eqb veqb dflt fuel this other op) _ _ _);
      [|intros [o r]; by apply (tr_ret 3 3 (this, o, r))].
    destruct op as [op| | |]; simpl in Hop; try done; unfold map_step; cbv iota; [|tr].
    refine (tr_bind 3 3 3 (λ al : A, m_step fst lt eqb veqb fuel this other op) _ _ _).
    - by apply tr_m_reads.
    - intros [o r]. by apply (tr_ret 3 3 (o, OGen r)).
  Qed.
  Lemma tr_map_step fuel this other op : op ≠ MapGen MRecopy →
    Tr 0 2 (λ al : A, map_step lt eqb veqb dflt fuel this other op).
  Proof.
    intros Hop. destruct op as [op| | |]; unfold map_step; cbv iota; [|clear Hop; tr..].
    refine (tr_bind 0 2 2 (λ al : A, m_step fst lt eqb veqb fuel this other op) _ _ _).
    - apply tr_m_step. congruence.
    - intros [o r]. by apply (tr_ret 2 2 (o, OGen r)).
  Qed.

  Context (Hord : RbSpec.key_order lt eqb).
  Lemma sp_map_step fuel this other op :
    Sp (λ al : A, keep_this (map_step lt eqb veqb dflt) fuel this other op)
      (cstep_ok (map_spec lt eqb veqb dflt) mneed fuel op) (cstep_pre (mrep fst lt) this other)
      (cstep_post (mrep fst lt)).
  Proof.
    unfold keep_this.
    eapply (sp_bind _ _ _ _ (λ x r, ⌜r.2 = x.2.2⌝ ∧ mrep fst lt this x.2.1.1 ∗ mrep fst lt r.1 x.2.1.2)%I).
    2:{ intros [o r]. eapply (sp_of_wp 0 0); [tr|]. intros al [[s o'] [[s' o''] out]] [Hs Hf]. simpl in *.
        iIntros "H". wstep. iExact "H". }
    assert ({op = MapGen MRecopy} + {op ≠ MapGen MRecopy}) as [->|Hop] by (destruct op as [[]| | |]; auto).
    - unfold map_step. eapply sp_bind.
      { eapply sp_conseq; [apply (sp_m_recopy fst lt eqb veqb Hord (Y:=list (K * T) * list (K * T) * map_out K T) fuel this other)|].
        intros x [_ Hx]. iIntros "H". iExists x. iSplit; [iPureIntro; lia|]. iExists emp%I. iSplitR; [done|].
        iSplitL; [iExact "H"|]. iIntros (a) "_ H". iExact "H". }
      intros [o r]. eapply (sp_of_wp 0 0); [tr|]. intros al [[s o'] [[s' o''] out]] [Hs Hf]. simpl in *. simplify_eq.
      iIntros "[%Hr [H Ho]]". wstep. simpl in *. iSplit; [by subst|]. iFrame.
    - eapply sp_of_wp; [by apply tr_map_step|]. intros al [[s o] [[s' o'] out]] [Hs Hf].
      iIntros "H". by iApply (wp_map_step _ _ _ _ Hord _ _ _ _ _ _ _ _ _ Hs Hf with "H").
  Qed.
  Lemma map_threads ops0 cs :
    threads_correct (λ al : A, rb_new) (λ al, rb_destroy) (λ al, keep_this (map_step lt eqb veqb dflt))
      [] (map_spec lt eqb veqb dflt) map_reads (λ _, True) ops0 cs.
  Proof.
    apply (clients_correct _ _ _ _ _ _ _ (mrep fst lt) mneed).
    - intros al. by apply wp_m_new_rep.
    - intros al fuel a s _ Hf. by apply (wp_m_destroy_rep _ _ _ Hord).
    - intros al fuel this other s o op s' o' out Hs Hf. iIntros "H". iApply wp_keep_this.
      iApply (wp_map_step _ _ _ _ Hord _ _ _ _ _ _ _ _ _ Hs Hf with "H").
    - tr.
    - intros. tr.
    - intros. apply sp_map_step.
    - intros. by apply tr_map_reads.
  Qed.
End mapthreads.
