(** Running out of memory in the constructors of list, backward_list, lazy_queue and
    sorted_vector_map. Proof file. *)
From Verif Require Export FaultSpec FaultLogic FaultThrow.
From Verif Require Import ThreadSl ThreadDl FaultSl FaultDl FaultCtor FaultBl FaultLq FaultSvm DlistProofs SvmSpec SvmProofs2 SvmHistory SvmRuns.
From iris.proofmode Require Import tactics.

Ltac tr_hint h ::=
  lazymatch h with
  | @it_go => tr_by @tr_it_go
  | @dl_insert_n => tr_by @tr_dl_insert_n
  | @dl_insert_ext => tr_by @tr_dl_insert_ext
  end.
Section dlist.
  Context {V : Type}.
  Notation C := (dcell V).
  Notation A := (Allocator C).
  Notation iProp := (bi_car (hpropI C)).

  Lemma th_dl_insert_n v k : ∀ n p x, k < n → dat p x →
    Th (λ al : A, dl_insert_n p n (DExt v)) (dat_pre x) (dat_post (replicate k v) x).
  Proof.
    induction k as [|k IH]; intros n p x Hk Hp; (destruct n as [|n]; [lia|]); cbn [dl_insert_n].
    - apply (th_now 1 1); [|intros y; tr]. unfold new_node. cbn [deref].
      eapply th_conseq; [|reflexivity|apply dat_post_0].
      apply (th_after (λ al : A, ret v) _ _ (λ _, dat_pre x)%I (False)%I).
      + apply xp_ret. intros ? _. by iIntros "H".
      + intros v'. apply (th_now 1 1); [|intros l; tr]. apply th_alloc.
    - apply (th_after (λ al : A, new_node (DExt v)) _ _ (λ y, ∃ l, ⌜y = Some l⌝ ∧ dat_pre x ∗ l ↦ DCell None None (DLive v))%I (dat_pre x)).
      { apply (xp_clean 1); [cw|]. intros al y _. iIntros "H". unfold dat_pre. iDestruct (dlist_flst with "H") as "H". iApply (wp_new_node with "H"); [done|]. iIntros (l) "H Hl". iExists l. iSplit; [done|]. iFrame "Hl". by iApply dlist_flst. }
      intros [l|]; [|apply (th_absurd 1 1); [tr|]; iIntros "H"; by iDestruct "H" as (l Hl) "H"].
      apply (th_after (λ al : A, insert_before p (Some l)) _ _ (λ _, dat_pre (dat_next x l v))%I False%I).
      { apply xp_of_wp; [cw|]. intros al y _. iIntros "H". iDestruct "H" as (l' Hl) "[H Hl]". simplify_eq.
        destruct x as [[this xs] i]. destruct Hp as [Hi ->]. simpl in *. unfold dat_pre. simpl.
        iApply (wp_link with "H Hl"); [done|done|]. by iIntros "H". }
      intros _. eapply th_conseq; [apply (IH n p (dat_next x l v))|done|].
      + lia.
      + by apply dat_next_at.
      + iIntros "H". iApply (dat_post_next with "H"). iPureIntro. apply Hp.
  Qed.
  Lemma th_dl_new_n n k (v : V) : k < n →
    Th (λ al : A, dl_new_n n (DExt v)) emp%I (∃ this zs, ⌜zs.*2 = replicate k v⌝ ∧ dlist this zs)%I.
  Proof.
    intros Hk. unfold dl_new_n. apply (th_after (λ al : A, dl_new) _ _ (λ this, dlist this [])%I emp%I).
    - apply (xp_clean 1); [cw|]. intros al x _. iIntros "_". iApply wp_dl_new. by iIntros (l) "H".
    - intros this. apply (th_now 1 1); [|intros []; tr].
      eapply th_conseq; [apply (th_dl_insert_n v k n (dl_end this) (this, [], 0) Hk); done|done|].
      iIntros "H". iDestruct "H" as (zs Hz) "H". simpl. unfold dins. rewrite /= app_nil_r. iExists this, zs. by iSplit.
  Qed.
  Lemma xp_dl_new_n n (v : V) :
    Xp (λ al : A, dl_new_n n (DExt v)) (λ _ : unit, True) (λ _, emp)%I
      (λ _ this, ∃ zs, ⌜zs.*2 = replicate n v⌝ ∧ dlist this zs)%I
      (λ _, emp ∨ ∃ this zs k, ⌜k < n ∧ zs.*2 = replicate k v⌝ ∧ dlist this zs)%I.
  Proof.
    unfold dl_new_n. apply (xp_bind _ _ _ _ (λ _ this, dlist this [])%I).
    - eapply xp_throw; [apply (xp_clean 1); [cw|]|].
      + intros al x _. iIntros "_". iApply wp_dl_new. by iIntros (l) "H".
      + intros x Hx. iIntros "H". by iLeft.
    - intros this. apply (xp_bind _ _ _ _ (λ _ _, ∃ zs, ⌜zs.*2 = replicate n v⌝ ∧ dlist this zs)%I).
      + eapply xp_conseq; [apply (xp_dl_insert_n n (dl_end this) (DExt v))|]. intros _ _. iIntros "H". iExists ((this, [], 0), v). iSplit; [done|].
        iExists emp%I. iSplitR; [done|]. iFrame "H". iSplit.
        * iIntros (_) "_ H". iDestruct "H" as (zs Hz) "H". simpl. unfold dins. rewrite /= app_nil_r. iExists zs. by iSplit.
        * iIntros "_ H". iDestruct "H" as (zs k Hk Hz) "H". simpl in *. rewrite replicate_length in Hk. rewrite take_replicate Nat.min_l in Hz; [|lia].
          unfold dins. rewrite /= app_nil_r. iRight. iExists this, zs, k. by iSplit.
      + intros []. apply xp_ret. intros _ _. iIntros "H". done.
  Qed.
End dlist.

Section svm.
  Context {K T : Type}.
  Notation C := (svcell K T).
  Notation A := (Allocator C).
  Notation E := (K * T)%type.
  Notation iProp := (bi_car (hpropI C)).
  Implicit Types (les ms ns : list (loc * E)).

  (** [ns], copies of the first elements of [les], in the unfinished copy *)
  Definition copied (v : svm) q les rest ns : iProp :=
    (arrP (sv_arr v) (pl les ++ rest) ∗ ents les ∗ arrP q (pl ns ++ replicate (sv_end v - length ns) None) ∗ ents ns)%I.
  Lemma copied_svm v q les rest ns : sv_last v = length les → sv_end v = length les + length rest → length ns ≤ length les →
    copied v q les rest ns ⊢ svmP v les ∗ svmP (Svm q (length ns) (sv_end v)) ns.
  Proof.
    intros Hl He Hn. iIntros "(Ha&H&Hq&Hns)". iSplitL "Ha H"; [iExists rest; iSplit; [done|]; iFrame|].
    iExists _. iSplit; [|iFrame]. iPureIntro. simpl. split; [done|]. rewrite replicate_length. lia.
  Qed.
  Definition partial_copy v les : iProp :=
    (svmP v les ∗ ∃ v' ns, ⌜length ns < length les ∧ ns.*2 = take (length ns) les.*2⌝ ∧ svmP v' ns)%I.
  Lemma xp_sv_copy fuel v les : length les < fuel →
    Xp (λ al : A, sv_copy fuel v) (λ _ : unit, True) (λ _, svmP v les)
      (λ _ v', ∃ les', ⌜sv_end v' = sv_end v ∧ les'.*2 = les.*2⌝ ∧ svmP v les ∗ svmP v' les')%I
      (λ _, svmP v les ∨ partial_copy v les)%I.
  Proof.
    intros Hf. unfold sv_copy.
    apply (xp_bind _ _ _ _ (λ _ q, ∃ rest, ⌜sv_last v = length les ∧ sv_end v = (length les + length rest)%nat⌝ ∧ copied v q les rest [])%I).
    { eapply xp_throw; [apply (xp_clean 1); [cw|]|].
      - intros al _ _. iIntros "H". iDestruct "H" as (rest [Hl He]) "[Ha H]". iApply wp_new_arr. iIntros (q) "Hq". iExists rest. iSplit; [done|].
        unfold copied. simpl. rewrite Nat.sub_0_r ents_nil. by iFrame.
      - intros x Hx. iIntros "H". by iLeft. }
    intros q.
    match goal with |- Xp (λ al : A, loop fuel (@?bd al) _) _ _ _ _ => set (body := bd) end.
    assert (∀ f0 i o, Xp (λ al : A, loop f0 (body al) (i, o))
      (λ x : list (loc * E) * list (option ptr), sv_last v = length les ∧ sv_end v = length les + length x.2 ∧ i = length x.1 ∧ o = length x.1 ∧
          length x.1 ≤ length les ∧ length les - length x.1 < f0 ∧ x.1.*2 = take (length x.1) les.*2)
      (λ x, copied v q les x.2 x.1)
      (λ x v', ∃ ns, ⌜v' = Svm q (length ns) (sv_end v) ∧ ns.*2 = les.*2⌝ ∧ copied v q les x.2 ns)%I
      (λ x, partial_copy v les)) as Hloop.
    { induction f0 as [|f0 IH]; intros i o.
      { exists PNoFuel. split; [apply perf_nofuel|]. intros x Hx. lia. }
      cbn [loop].
      assert ({i = sv_last v} + {i ≠ sv_last v}) as [Hi|Hi] by apply decide, _.
      - apply (xp_bind (λ al : A, body al (i, o)) (λ al r, match r with inl a => loop f0 (body al) a | inr b => ret b end) _ _
          (λ x r, ⌜r = inr (Svm q o (sv_end v))⌝ ∧ copied v q les x.2 x.1)%I).
        + apply xp_of_wp; [unfold body; cbv beta iota; destruct (decide (i ≠ sv_last v)) as [E|_]; [done|]; cw|].
          intros al x _. iIntros "H". unfold body. cbv beta iota. destruct (decide (i ≠ sv_last v)) as [E|_]; [done|]. wsteps. by iSplit.
        + intros [[i' o']|b].
          * eapply xp_conseq; [apply IH|]. intros x _. iIntros "[%H H]". done.
          * apply xp_ret. intros [ns rest] (Hl&He&->&->&Hle&Hfl&Hns). cbn [fst snd] in *. iIntros "[%Hb H]". injection Hb as ->.
            iExists ns. iSplit; [|done]. iPureIntro. split; [done|]. rewrite Hns Hi Hl -(fmap_length snd les) firstn_all //.
      - apply (xp_bind (λ al : A, body al (i, o)) (λ al r, match r with inl a => loop f0 (body al) a | inr b => ret b end) _ _
          (λ x r, ∃ l e, ⌜r = inl (S i, S o) ∧ les.*2 !! i = Some e⌝ ∧ copied v q les x.2 (x.1 ++ [(l, e)]))%I).
        + eapply xp_throw; [apply (xp_clean 1 (λ al : A, body al (i, o)))|].
          * unfold body. cbv beta iota. destruct (decide (i ≠ sv_last v)) as [_|E]; [|done]. cw.
          * intros al [ns rest] (Hl&He&->&->&Hle&Hfl&Hns). cbn [fst snd] in *. iIntros "(Ha&H&Hq&Hn)". unfold body. cbv beta iota. destruct (decide (length ns ≠ sv_last v)) as [_|E]; [|done].
            destruct (lookup_lt_is_Some_2 les (length ns)) as [[l e] Hle']; [lia|].
            iApply (wp_probe with "Ha H"); [done|]. iIntros "Ha H". wstep.
            iApply wp_new_ent. iIntros (l') "Hl'". wstep.
            iApply (wp_slot_wr with "Hq").
            { rewrite app_length pl_length replicate_length. lia. }
            iIntros "Hq". wstep. iExists l', e. iSplit; [iPureIntro; split; [done|by rewrite list_lookup_fmap Hle']|].
            unfold copied. rewrite pl_app ents_app ents_cons ents_nil app_length /=. iFrame "Ha H Hn Hl'".
            destruct (sv_end v - length ns) as [|d] eqn:Hd; [lia|].
            replace (sv_end v - (length ns + 1)) with d by lia.
            rewrite insert_app_r_alt; [|rewrite pl_length; lia]. rewrite pl_length Nat.sub_diag /= -app_assoc /=. by iFrame.
          * intros [ns rest] (Hl&He&->&->&Hle&Hfl&Hns). cbn [fst snd] in *. iIntros "H". iDestruct (copied_svm with "H") as "[$ H]"; [done..|]. iExists _, ns.
            iSplit; [iPureIntro; split; [lia|done]|done].
        + intros [[i' o']|b].
          * eapply xp_conseq; [apply IH|]. intros [ns rest] (Hl&He&->&->&Hle&Hfl&Hns). cbn [fst snd] in *. iIntros "H". iDestruct "H" as (l e [Hr He']) "H". injection Hr as -> ->.
            assert (length ns < length les) by lia.
            iExists (ns ++ [(l, e)], rest). iSplit; [|iExists emp%I; iSplitR; [done|]; iFrame "H"; iSplit; [iIntros (a) "_ $"|iIntros "_ $"]].
            iPureIntro. cbn [fst snd]. rewrite app_length /=. split_and!; try lia; try done. rewrite fmap_app Hns /= Nat.add_1_r (take_S_r _ _ e) //.
          * apply xp_ret. intros x _. iIntros "H". iDestruct "H" as (l e [Hr _]) "H". done. }
    eapply xp_conseq; [apply Hloop|]. intros _ _. iIntros "H". iDestruct "H" as (rest [Hl He]) "H". iExists ([], rest).
    iSplit; [iPureIntro; cbn [fst snd length]; split_and!; try done; lia|]. iExists emp%I. iSplitR; [done|]. iFrame "H". iSplit.
    - iIntros (v') "_ H". iDestruct "H" as (ns [-> Hns]) "H". iExists ns. iSplit; [done|]. iApply (copied_svm with "H"); [done..|].
      apply (f_equal length) in Hns. rewrite !fmap_length in Hns. lia.
    - iIntros "_ H". by iRight.
  Qed.

  (** [i] copies made *)
  Definition halfway v q les i : iProp :=
    (∃ rest ns, ⌜sv_last v = length les ∧ sv_end v = (length les + length rest)%nat ∧ length ns = i ∧ ns.*2 = take i les.*2⌝ ∧ copied v q les rest ns)%I.
  Lemma th_sv_copy fuel v les k : k < length les → length les < fuel →
    Th (λ al : A, sv_copy fuel v) (svmP v les)
      (svmP v les ∗ ∃ v' ns, ⌜ns.*2 = take k les.*2⌝ ∧ svmP v' ns)%I.
  Proof.
    intros Hk Hf. unfold sv_copy.
    apply (th_after (λ al : A, new_arr (sv_end v)) _ _ (λ q, halfway v q les 0)%I True%I).
    { eapply xp_throw; [apply (xp_clean 1); [cw|]|].
      - intros al x Hx. iIntros "H". iDestruct "H" as (rest [Hl He]) "[Ha H]". iApply wp_new_arr. iIntros (q) "Hq". iExists rest, []. iSplit; [done|].
        unfold copied. simpl. rewrite Nat.sub_0_r ents_nil. by iFrame.
      - intros x Hx. by iIntros "H". }
    intros q.
    match goal with |- Th (λ al : A, loop fuel (@?bd al) _) _ _ => set (body := bd) end.
    assert ({sv_last v = length les} + {sv_last v ≠ length les}) as [Hl|Hl] by apply decide, _.
    2: { apply (th_absurd 1 1); [unfold body; tr|]. iIntros "H". iDestruct "H" as (rest ns (Hl'&_)) "H". done. }
    assert (∀ d f0 i, i + d = k → length les - i < f0 →
      Th (λ al : A, loop f0 (body al) (i, i)) (halfway v q les i) (halfway v q les k)) as Hloop.
    { induction d as [|d IH]; intros f0 i Hi Hf0; (destruct f0 as [|f0]; [lia|]); cbn [loop].
      - apply (th_now 1 1); [|intros [[i' o']|b]; unfold body; tr].
        unfold body. cbv beta iota. destruct (decide (i ≠ sv_last v)) as [_|E]; [|exfalso; lia].
        replace k with i by lia.
        destruct (les !! i) as [[l e]|] eqn:Hle; [|exfalso; apply lookup_ge_None in Hle; lia].
        apply (th_after (λ al : A, slot_rd (sv_arr v) i) _ _ (λ p, ⌜p = Some l⌝ ∧ halfway v q les i)%I False%I).
        { apply xp_of_wp; [cw|]. intros al x Hx. iIntros "H". iDestruct "H" as (rest ns (_&He&Hn&Hns)) "(Ha&H&Hq&Hn)".
          iApply (wp_slot_rd with "Ha"); [rewrite lookup_app_l; [|rewrite pl_length; lia]; unfold pl; by rewrite list_lookup_fmap Hle|].
          iIntros "Ha". iSplit; [done|]. iExists rest, ns. iSplit; [done|]. iFrame. }
        intros p.
        apply (th_after (λ al : A, ent_rd p) _ _ (λ e, halfway v q les i)%I False%I).
        { apply xp_of_wp; [cw|]. intros al x Hx. iIntros "[-> H]". iDestruct "H" as (rest ns (_&He&Hn&Hns)) "(Ha&H&Hq&Hn)".
          iDestruct (ents_acc_same with "H") as "[Hl H]"; [exact Hle|]. iApply (wp_ent_rd with "Hl"). iIntros "Hl".
          iDestruct ("H" with "Hl") as "H". iExists rest, ns. iSplit; [done|]. iFrame. }
        intros e'. apply (th_now 1 1); [|intros x; tr]. unfold new_ent. apply (th_now 1 1); [|intros x; tr]. apply th_alloc.
      - apply (th_after (λ al : A, body al (i, i)) _ _ (λ r, ⌜r = inl (S i, S i)⌝ ∧ halfway v q les (S i))%I True%I).
        + eapply xp_throw; [apply (xp_clean 1 (λ al : A, body al (i, i)))|].
          * unfold body. cbv beta iota. destruct (decide (i ≠ sv_last v)) as [_|E]; [|exfalso; lia]. cw.
          * intros al x Hx. iIntros "H". iDestruct "H" as (rest ns (_&He&Hn&Hns)) "(Ha&H&Hq&Hn)". unfold body. cbv beta iota. destruct (decide (i ≠ sv_last v)) as [_|E]; [|exfalso; lia].
            destruct (lookup_lt_is_Some_2 les i) as [[l e] Hle']; [lia|].
            iApply (wp_probe with "Ha H"); [done|]. iIntros "Ha H". wstep.
            iApply wp_new_ent. iIntros (l') "Hl'". wstep.
            iApply (wp_slot_wr with "Hq").
            { rewrite app_length pl_length replicate_length. lia. }
            iIntros "Hq". wstep. iSplit; [done|]. iExists rest, (ns ++ [(l', e)]). iSplit.
            { iPureIntro. split_and!; [done..|rewrite app_length /=; lia|]. rewrite fmap_app Hns (take_S_r _ _ e) //. by rewrite list_lookup_fmap Hle'. }
            unfold copied. rewrite pl_app ents_app ents_cons ents_nil app_length /=. iFrame "Ha H Hn Hl'".
            destruct (sv_end v - length ns) as [|d'] eqn:Hd; [lia|].
            replace (sv_end v - (length ns + 1)) with d' by lia.
            rewrite insert_app_r_alt; [|rewrite pl_length; lia]. rewrite pl_length Hn Nat.sub_diag /= -app_assoc /=. by iFrame.
          * intros x Hx. by iIntros "H".
        + intros [[i' o']|b].
          * assert ({(i', o') = (S i, S i)} + {(i', o') ≠ (S i, S i)}) as [[= -> ->]|Hne] by apply decide, _.
            2: { apply (th_absurd 1 1); [unfold body; tr|]. iIntros "[%H1 H2]". congruence. }
            eapply th_conseq; [apply (IH f0 (S i)); lia|by iIntros "[_ H]"|reflexivity].
          * apply (th_absurd 1 1); [tr|]. iIntros "[%H1 H2]". done. }
    eapply th_conseq; [apply (Hloop k fuel 0); lia|reflexivity|].
    iIntros "H". iDestruct "H" as (rest ns (_&He&Hn&Hns)) "H". iDestruct (copied_svm with "H") as "[$ H]"; [done..|lia|].
    iExists _, ns. iSplit; [done|]. iFrame.
  Qed.
End svm.
