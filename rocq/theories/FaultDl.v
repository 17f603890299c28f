(** Running out of memory in list. Proof file. *)
From Verif Require Export FaultSpec FaultLogic.
From Verif Require Import ThreadDl DlistHistory.
From iris.proofmode Require Import tactics.

Section go.
  Context {V : Type}.
  Lemma cl_it_go s n p : s ≤ 1 → Cl s s (λ al : Allocator (dcell V), it_go n p).
  Proof. intros Hs. revert p. induction n as [|n IH]; intros p; simpl; cw. Qed.
End go.
Ltac cw_hint h ::=
  lazymatch h with
  | @it_go => cw_by @cl_it_go
  end.

Section dlist.
  Context {V : Type}.
  Notation C := (dcell V).
  Notation A := (Allocator C).
  Notation iProp := (bi_car (hpropI C)).
  Notation elems := (list (loc * V)).


  (** insertions at position [i] of the list [this] *)
  Notation ix := (loc * elems * nat)%type.
  Definition dat (p : ptr) (x : ix) : Prop := x.2 ≤ length x.1.2 ∧ p = dpos x.1.1 x.1.2 x.2.
  Definition dat_pre (x : ix) : iProp := dlist x.1.1 x.1.2.
  Definition dat_post (vs : list V) (x : ix) : iProp :=
    ∃ zs, ⌜zs.*2 = vs⌝ ∧ dlist x.1.1 (dins x.2 zs x.1.2).
  Definition dat_throw (vs : list V) (x : ix) : iProp :=
    ∃ zs k, ⌜k < length vs⌝ ∧ ⌜zs.*2 = take k vs⌝ ∧ dlist x.1.1 (dins x.2 zs x.1.2).
  Definition dat_next (x : ix) (l : loc) (v : V) : ix := (x.1.1, dins x.2 [(l,v)] x.1.2, S x.2).
  Lemma dat_next_at p x l v : dat p x → dat p (dat_next x l v).
  Proof.
    destruct x as [[this xs] i]. intros [Hi ->]. simpl in *. split; simpl.
    - rewrite dins_length /=. lia.
    - by rewrite dpos_dins.
  Qed.
  Lemma dat_throw_next (x : ix) l v vs : dat_throw vs (dat_next x l v) ⊢ ⌜x.2 ≤ length x.1.2⌝ → dat_throw (v :: vs) x.
  Proof.
    destruct x as [[this xs] i]. unfold dat_throw, dat_next. simpl. iIntros "H %Hi". iDestruct "H" as (zs k Hk Hz) "H".
    iExists ((l,v) :: zs), (S k). iSplit; [iPureIntro; lia|]. iSplit; [iPureIntro; by rewrite fmap_cons Hz|]. by rewrite dins_S.
  Qed.
  Lemma dat_post_next (x : ix) l v vs : dat_post vs (dat_next x l v) ⊢ ⌜x.2 ≤ length x.1.2⌝ → dat_post (v :: vs) x.
  Proof.
    destruct x as [[this xs] i]. unfold dat_post, dat_next. simpl. iIntros "H %Hi". iDestruct "H" as (zs Hz) "H".
    iExists ((l,v) :: zs). iSplit; [iPureIntro; by rewrite fmap_cons Hz|]. by rewrite dins_S.
  Qed.
  Lemma dat_throw_0 (x : ix) v vs : dat_pre x ⊢ dat_throw (v :: vs) x.
  Proof.
    iIntros "H". iExists [], 0. iSplit; [iPureIntro; simpl; lia|]. iSplit; [done|]. by rewrite dins_nil.
  Qed.
  Lemma dat_post_0 (x : ix) : dat_pre x ⊢ dat_post [] x.
  Proof. iIntros "H". iExists []. iSplit; [done|]. by rewrite dins_nil. Qed.
  Lemma wp_dins (al : A) (x : ix) p r v : dat p x → drefers x.1.2 r v →
    dat_pre x ⊢ wp (let! n := new_node r in insert_before p n) (λ _, ∃ l, dat_pre (dat_next x l v)).
  Proof.
    destruct x as [[this xs] i]. intros [Hi ->] Hr. simpl in *. iIntros "H".
    iApply (wp_dl_insert this xs i r v with "H"); [done|done|]. iIntros (l) "H". by iExists l.
  Qed.

  Lemma xp_dl_insert_n n p r :
    Xp (λ al : A, dl_insert_n p n r) (λ y : ix * V, dat p y.1 ∧ drefers y.1.1.2 r y.2) (λ y, dat_pre y.1)
      (λ y _, dat_post (replicate n y.2) y.1) (λ y, dat_throw (replicate n y.2) y.1).
  Proof.
    induction n as [|n IH]; cbn [dl_insert_n].
    { apply xp_ret. intros y _. simpl. apply dat_post_0. }
    apply (xp_assoc (λ al : A, new_node r) (λ (al : A) x, insert_before p x) (λ al _, dl_insert_n p n r) _ _
      (λ y _, ∃ l, dat_pre (dat_next y.1 l y.2))%I _ _ 1).
    - cw.
    - intros a. cw.
    - intros al [x v] [Hp Hr]. by apply wp_dins.
    - intros [x v] _. simpl. apply dat_throw_0.
    - intros _. eapply xp_conseq; [apply IH|]. intros [x v] [Hp Hr]. simpl in *. iIntros "H". iDestruct "H" as (l) "H".
      iExists (dat_next x l v, v). iSplit.
      { iPureIntro. split; [by apply dat_next_at|]. by apply drefers_dins. }
      iExists emp%I. iSplitR; [done|]. iFrame "H". iSplit.
      + iIntros (_) "_ H". iApply (dat_post_next with "H"). iPureIntro. apply Hp.
      + iIntros "_ H". iApply (dat_throw_next with "H"). iPureIntro. apply Hp.
  Qed.
  Lemma xp_dl_insert_ext vs p :
    Xp (λ al : A, dl_insert_ext p vs) (dat p) dat_pre (λ x _, dat_post vs x) (dat_throw vs).
  Proof.
    induction vs as [|v vs IH]; cbn [dl_insert_ext].
    { apply xp_ret. intros y _. apply dat_post_0. }
    apply (xp_assoc (λ al : A, new_node (DExt v)) (λ (al : A) x, insert_before p x) (λ al _, dl_insert_ext p vs) _ _
      (λ x _, ∃ l, dat_pre (dat_next x l v))%I _ _ 1).
    - cw.
    - intros a. cw.
    - intros al x Hp. by apply wp_dins.
    - intros x _. apply dat_throw_0.
    - intros _. eapply xp_conseq; [apply IH|]. intros x Hp. simpl in *. iIntros "H". iDestruct "H" as (l) "H".
      iExists (dat_next x l v). iSplit; [iPureIntro; by apply dat_next_at|].
      iExists emp%I. iSplitR; [done|]. iFrame "H". iSplit.
      + iIntros (_) "_ H". iApply (dat_post_next with "H"). iPureIntro. apply Hp.
      + iIntros "_ H". iApply (dat_throw_next with "H"). iPureIntro. apply Hp.
  Qed.

  (** a range [ms] of another list; if it is empty, [this] is not touched *)
  Notation iy := (ix * ptr * (loc * ptr * elems * elems * elems))%type.
  Definition dits_ok (fuel : nat) (p f l : ptr) (y : iy) : Prop :=
    let '(x, pv, (other, po, ks, ms, rs)) := y in
    (ms ≠ [] → dat p x) ∧ length ms < fuel ∧ f = dfirst (ms ++ rs) (Some other) ∧ l = dfirst rs (Some other).
  Definition dits_pre (y : iy) : iProp :=
    let '(x, pv, (other, po, ks, ms, rs)) := y in
    ((if decide (ms = []) then flst x.1.1 pv x.1.2 else dat_pre x) ∗ flst other po (ks ++ ms ++ rs))%I.
  Definition dits_post (y : iy) : iProp :=
    let '(x, pv, (other, po, ks, ms, rs)) := y in
    ((if decide (ms = []) then flst x.1.1 pv x.1.2 else dat_post ms.*2 x) ∗ flst other po (ks ++ ms ++ rs))%I.
  Definition dits_throw (y : iy) : iProp :=
    let '(x, pv, (other, po, ks, ms, rs)) := y in (dat_throw ms.*2 x ∗ flst other po (ks ++ ms ++ rs))%I.
  Lemma range_ne other po (ks : elems) k (w : V) (ms rs : elems) : flst other po (ks ++ ((k, w) :: ms) ++ rs) ⊢ ⌜Some k ≠ dfirst rs (Some other)⌝.
  Proof.
    rewrite flst_nodup. iIntros (Hnd). iPureIntro. intros He. destruct rs as [|[k' w'] rs]; simpl in He.
    - simplify_eq. apply NoDup_cons in Hnd as [Hn _]. apply Hn. rewrite fmap_app /=.
      apply elem_of_app. right. left.
    - simplify_eq. apply NoDup_cons in Hnd as [_ Hnd]. rewrite fmap_app /= in Hnd.
      apply NoDup_app in Hnd as (_&_&Hnd). apply NoDup_cons in Hnd as [Hn _]. apply Hn.
      change (k' ∈ (ms ++ (k', w') :: rs).*1). rewrite fmap_app /=. apply elem_of_app. right. left.
  Qed.
  Lemma xp_dl_insert_its fuel p f l :
    Xp (λ al : A, dl_insert_its fuel p f l) (dits_ok fuel p f l) dits_pre (λ y _, dits_post y) dits_throw.
  Proof.
    unfold dl_insert_its.
    match goal with |- Xp (λ al : A, loop fuel (@?bd al) _) _ _ _ _ => set (body := bd) end.
    revert f. induction fuel as [|fuel IH]; intros f.
    { exists PNoFuel. split; [apply perf_nofuel|]. intros [[x pv] [[[[other po] ks] ms] rs]] (_&Hx&_). lia. }
    cbn [loop]. assert ({f ≠ l} + {¬ f ≠ l}) as [Hne|He] by apply decide, _.
    2: { apply (xp_bind (λ al : A, body al f)
           (λ al r, match r with inl a => loop fuel (body al) a | inr b => ret b end) _ _ (λ y r, ⌜r = inr tt⌝ ∧ dits_post y)%I).
      - apply xp_of_wp.
        + unfold body. cbv beta iota. destruct (decide (f ≠ l)); [done|]. cw.
        + intros al [[x pv] [[[[other po] ks] ms] rs]] (Hx&Hf&Hf'&Hl). iIntros "[H Ho]". unfold body. cbv beta iota. destruct (decide (f ≠ l)); [done|]. wsteps.
          iSplit; [done|]. unfold dits_post. destruct ms as [|[k w] ms]; [by iFrame|].
          iDestruct (range_ne with "Ho") as %Hk. exfalso. apply He. subst f l. done.
      - intros [a|[]].
        + eapply xp_conseq; [apply (IH a)|]. intros y _. iIntros "[%H H]". done.
        + apply xp_ret. intros y _. by iIntros "[_ H]". }
    apply (xp_bind (λ al : A, body al f)
      (λ al r, match r with inl a => loop fuel (body al) a | inr b => ret b end) _ _
      (λ y r, let '(x, pv, (other, po, ks, ms, rs)) := y in
         ∃ k w ms' n, ⌜ms = (k, w) :: ms'⌝ ∧ ⌜r = inl (dfirst (ms' ++ rs) (Some other))⌝ ∧
           dat_pre (dat_next x n w) ∗ flst other po (ks ++ ms ++ rs))%I).
    - eapply xp_throw; [apply (xp_clean 1 (λ al : A, body al f) (dits_ok (S fuel) p f l) dits_pre)|].
      + unfold body. cbv beta iota. cw.
      + intros al [[[[this xs] i] pv] [[[[other po] ks] ms] rs]] (Hx&Hf&Hf'&Hl). unfold dits_pre. destruct ms as [|[k w] ms].
        { exfalso. apply Hne. by subst f l. }
        destruct (Hx ltac:(done)) as [Hi Hp]. simpl in Hf', Hf, Hi, Hp. subst f.
        destruct (decide ((k, w) :: ms = [])) as [|_]; [done|]. unfold body. cbv beta iota. destruct (decide (Some k ≠ l)) as [_|?]; [|done].
        iIntros "[H Ho]". unfold dat_pre. cbn [fst snd]. wstep. wstep. wstep.
        iApply (wp_new_node _ _ _ (DNode k) w with "Ho"); [simpl; apply elem_of_app; right; left|].
        iIntros (n) "Ho Hl". wstep. subst p. iApply (wp_link with "H Hl"); [done|done|]. iIntros "H". wstep. unfold it_next.
        iApply (flst_mid_next with "Ho"). iIntros "Ho". wstep. iExists k, w, ms, n. iSplit; [done|]. iSplit; [done|].
        unfold dat_next. simpl. iFrame.
      + intros [[x pv] [[[[other po] ks] ms] rs]] (Hx&Hf&Hf'&Hl). unfold dits_pre, dits_throw. destruct ms as [|[k w] ms].
        { exfalso. apply Hne. by subst f l. }
        destruct (decide ((k, w) :: ms = [])) as [|_]; [done|]. iIntros "[H $]". by iApply dat_throw_0.
    - intros [f'|b].
      + eapply xp_conseq; [apply (IH f')|]. intros [[x pv] [[[[other po] ks] ms] rs]] (Hx&Hf&Hf'&Hl). iIntros "H".
        iDestruct "H" as (k w ms' n -> Hr) "[H Ho]". injection Hr as ->. assert (dat p x) as Hp by (by apply Hx). simpl in Hf.
        set (x' := dat_next x n w).
        iExists (x', dlast x'.1.2 (Some x'.1.1), (other, po, ks ++ [(k,w)], ms', rs)). iSplit.
        { iPureIntro. split_and!; [|lia|done|done]. intros _. by apply dat_next_at. }
        iExists emp%I. iSplitR; [done|]. unfold dits_pre. rewrite -app_assoc. iFrame "Ho". iSplitL "H".
        { destruct (decide (ms' = [])); [|done]. by iApply dlist_flst. }
        iSplit.
        * iIntros (_) "_ H". unfold dits_post. rewrite -app_assoc. iDestruct "H" as "[H $]".
          destruct (decide ((k, w) :: ms' = [])); [done|]. cbn [fmap list_fmap snd]. iApply (dat_post_next x n with "[-]"); [|iPureIntro; apply Hp].
          destruct (decide (ms' = [])) as [->|]; [|done]. iApply dat_post_0. unfold dat_pre. by iApply dlist_flst.
        * iIntros "_ H". unfold dits_throw. rewrite -app_assoc. iDestruct "H" as "[H $]". iApply (dat_throw_next with "H"). iPureIntro. apply Hp.
      + apply xp_ret. intros [[x pv] [[[[other po] ks] ms] rs]] _. iIntros "H". iDestruct "H" as (k w ms' n _ Hr) "H". done.
  Qed.

  (** growing by resize *)
  Lemma xp_dl_grow fuel this n r siz :
    Xp (λ al : A, loop fuel (λ siz,
          if decide (siz < n) then
            let! x := new_node r in
            insert_before (Some this) x ;!
            ret (inl (S siz))
          else ret (inr tt)) siz)
      (λ y : elems * V, siz = length y.1 ∧ n - length y.1 < fuel ∧ drefers y.1 r y.2) (λ y, dlist this y.1)
      (λ y _, ∃ zs, ⌜zs.*2 = replicate (n - length y.1) y.2⌝ ∧ dlist this (y.1 ++ zs))%I
      (λ y, ∃ zs k, ⌜k < n - length y.1⌝ ∧ ⌜zs.*2 = replicate k y.2⌝ ∧ dlist this (y.1 ++ zs))%I.
  Proof.
    match goal with |- Xp (λ al : A, loop fuel (@?bd al) _) _ _ _ _ => set (body := bd) end.
    revert siz. induction fuel as [|fuel IH]; intros siz.
    { exists PNoFuel. split; [apply perf_nofuel|]. intros y (_&Hx&_). lia. }
    cbn [loop]. assert ({siz < n} + {¬ siz < n}) as [Hlt|Hge] by apply decide, _.
    2: { apply (xp_bind (λ al : A, body al siz)
           (λ al r, match r with inl a => loop fuel (body al) a | inr b => ret b end) _ _ (λ y r, ⌜r = inr tt⌝ ∧ dlist this y.1)%I).
      - apply xp_of_wp.
        + unfold body. cbv beta iota. destruct (decide (siz < n)); [done|]. cw.
        + intros al y _. iIntros "H". unfold body. destruct (decide (siz < n)); [done|]. wsteps. by iFrame.
      - intros [a|[]].
        + eapply xp_conseq; [apply (IH a)|]. intros y _. iIntros "[%H H]". done.
        + apply xp_ret. intros [xs v] (->&_&_). simpl in *. iIntros "[_ H]". iExists []. rewrite app_nil_r. iFrame. iPureIntro.
          by replace (n - length xs) with 0 by lia. }
    apply (xp_bind (λ al : A, body al siz)
      (λ al r, match r with inl a => loop fuel (body al) a | inr b => ret b end) _ _
      (λ y r, ∃ l, ⌜r = inl (S siz)⌝ ∧ dlist this (y.1 ++ [(l, y.2)]))%I).
    - eapply xp_throw; [apply (xp_clean 1 (λ al : A, body al siz)
        (λ y : elems * V, siz = length y.1 ∧ n - length y.1 < S fuel ∧ drefers y.1 r y.2) (λ y, dlist this y.1))|].
      + unfold body. cw.
      + intros al [xs v] (->&Hf&Hr). simpl in *. unfold body. destruct (decide (length xs < n)); [|lia]. iIntros "H".
        wstep. rewrite dlist_flst. iApply (wp_new_node with "H"); [done|]. iIntros (ln) "H Hl".
        rewrite -dlist_flst. wstep. rewrite -(dpos_end this xs).
        iApply (wp_link with "H Hl"); [done|done|]. iIntros "H". wstep. iExists ln. iSplit; [done|].
        unfold dins. by rewrite firstn_all drop_all.
      + intros [xs v] (->&Hf&Hr). simpl in *. iIntros "H". iExists [], 0. rewrite app_nil_r. iFrame. iPureIntro. split_and!; [lia|done|done].
    - intros [siz'|b].
      + eapply xp_conseq; [apply (IH siz')|]. intros [xs v] (->&Hf&Hr). simpl in *. iIntros "H". iDestruct "H" as (l Hs) "H".
        injection Hs as ->. iExists (xs ++ [(l,v)], v). iSplit.
        { iPureIntro. simpl. rewrite app_length /=. split_and!; [lia|lia|]. destruct r; simpl in *; [done|]. apply elem_of_app; by left. }
        iExists emp%I. iSplitR; [done|]. iFrame "H". cbn [fst snd]. rewrite app_length. cbn [length]. iSplit.
        * iIntros (_) "_ H". iDestruct "H" as (zs Hz) "H". iExists ((l,v)::zs). rewrite -app_assoc. iFrame. iPureIntro.
          rewrite fmap_cons Hz. by replace (n - length xs) with (S (n - (length xs + 1))) by lia.
        * iIntros "_ H". iDestruct "H" as (zs k Hk Hz) "H". iExists ((l,v)::zs), (S k). rewrite -app_assoc. iFrame. iPureIntro.
          split; [lia|]. by rewrite fmap_cons Hz.
      + apply xp_ret. intros y _. iIntros "H". iDestruct "H" as (l Hs) "H". done.
  Qed.

  (** the walk of resize *)
  Definition rwalk (al : A) fuel (this : loc) (n : nat) (p : ptr) : M (gmap loc C) (option nat) :=
    loop fuel (λ '(p, siz),
      if decide (p ≠ Some this) then
        if decide (S siz = n) then
          dl_cut fuel this p ;! ret (inr None)
        else
          let! p := get_next p in ret (inl (p, S siz))
      else ret (inr (Some siz))) (p, 0).
  Definition rwalk_post (this : loc) (n : nat) (xs : elems) (r : option nat) : iProp :=
    match r with
    | Some m => ⌜m = length xs ∧ m < n⌝ ∧ dlist this xs
    | None => ⌜n ≤ length xs⌝ ∧ dlist this (take n xs)
    end.
  Lemma wp_rwalk (al : A) fuel this xs n : n ≠ 0 → length xs < fuel →
    dlist this xs ⊢ wp (rwalk al fuel this n (dfirst xs (Some this))) (rwalk_post this n xs).
  Proof.
    iIntros (Hn0 Hf) "H". unfold rwalk.
    match goal with |- context [wp (loop fuel ?body _) ?Post] => set (bd := body); set (Q' := Post) end.
    assert (∀ (rs ks : elems) f, length rs < f → xs = ks ++ rs → length ks < n →
      dlist this xs -∗ wp (loop f bd (dfirst rs (Some this), length ks)) Q') as Hg.
    { intros rs. induction rs as [|[l w] rs IH]; intros ks f Hf' Hxs Hk;
        (destruct f as [|f]; [lia|]); iIntros "H"; cbn [loop dfirst]; unfold bd at 1; wstep.
      - destruct (decide (Some this ≠ Some this)); [done|]. wstep. wstep. rewrite app_nil_r in Hxs. subst ks.
        unfold Q'. iFrame. done.
      - simpl in Hf'. subst xs. rewrite dlist_flst. iDestruct (flst_mid_ne with "H") as %?. rewrite -dlist_flst.
        destruct (decide (Some l ≠ Some this)) as [_|Hn]; [|destruct Hn; congruence].
        destruct (decide (S (length ks) = n)) as [Hn|Hn].
        + wstep. iApply (wp_dl_cut with "H"); [rewrite app_length /= in Hf; lia|]. iIntros "H". wstep. wstep.
          unfold Q'. iSplit; [iPureIntro; rewrite app_length /=; lia|].
          rewrite -Hn (cons_middle _ ks rs) (app_assoc ks _ rs) take_app_alt; [done|]. rewrite app_length /=; lia.
        + wstep. rewrite dlist_flst. iApply (flst_mid_next with "H"). iIntros "H". rewrite -dlist_flst. wstep.
          replace (S (length ks)) with (length (ks ++ [(l,w)])) by (rewrite app_length /=; lia).
          iApply (IH with "H"); [lia|by rewrite -app_assoc|rewrite app_length /=; lia]. }
    iApply (Hg xs [] with "H"); [done|done|simpl; lia].
  Qed.
  Definition rs_ok fuel (n : nat) (r : dref V) (y : elems * V) : Prop := length y.1 < fuel ∧ n < fuel ∧ drefers y.1 r y.2.
  Lemma xp_dl_resize fuel this n r : n ≠ 0 →
    Xp (λ al : A, dl_resize fuel this n r) (rs_ok fuel n r)
      (λ y, dlist this y.1)
      (λ y _, ∃ zs, ⌜zs.*2 = replicate (n - length y.1) y.2⌝ ∧ dlist this (take n y.1 ++ zs))%I
      (λ y, ∃ zs k, ⌜k < n - length y.1⌝ ∧ ⌜zs.*2 = replicate k y.2⌝ ∧ dlist this (y.1 ++ zs))%I.
  Proof.
    intros Hn. unfold dl_resize.
    apply (xp_bind _ _ _ _ (λ y p, ⌜p = dfirst y.1 (Some this)⌝ ∧ dlist this y.1)%I).
    { apply xp_of_wp; [cw|]. intros al [xs v] _. simpl. iIntros "H". iDestruct (dlist_flst with "H") as "H".
      iApply (flst_next with "H"). iIntros "H". iSplit; [done|]. by iApply dlist_flst. }
    intros p. apply (xp_pure _ _ (λ y : elems * V, p = dfirst y.1 (Some this))).
    apply (xp_bind (λ al : A, rwalk al fuel this n p) _ _ _ (λ y r, rwalk_post this n y.1 r)).
    { apply xp_of_wp; [cw|]. intros al [xs v] [(H1&H2&H3) ->]. simpl in *. by apply wp_rwalk. }
    intros [m|].
    - eapply xp_conseq; [apply (xp_dl_grow fuel this n r m)|]. intros [xs v] [(H1&H2&H3) Hp]. simpl in *.
      iIntros "[%Hm H]". destruct Hm as [-> Hm]. iExists (xs, v). iSplit; [iPureIntro; split_and!; [done|simpl; lia|done]|]. iExists emp%I.
      iSplitR; [done|]. simpl. iFrame "H". iSplit.
      + iIntros (_) "_ H". iDestruct "H" as (zs Hz) "H". iExists zs. iSplit; [done|]. rewrite take_ge; [done|lia].
      + iIntros "_ $".
    - apply xp_ret. intros [xs v] _. simpl. iIntros "[%Hm H]". iExists []. iSplit; [|by rewrite app_nil_r].
      iPureIntro. by replace (n - length xs) with 0 by lia.
  Qed.
  Lemma cl_resize_0 fuel this r : Cl 1 1 (λ al : A, dl_resize fuel this 0 r).
  Proof.
    unfold dl_resize. apply (cw_bind 1 1 1); [cw|]. intros p. apply (cw_bind 1 1 1); [cw|].
    intros [m|]; [|cw]. apply cw_loop; [|lia..]. intros a. destruct (decide (a < 0)); [lia|cw].
  Qed.
End dlist.

Section steps.
  Context {V : Type} (eqb : V → V → bool) (rfirst : bool).
  Notation C := (dcell V).
  Notation A := (Allocator C).
  Notation iProp := (bi_car (hpropI C)).
  Notation elems := (list (loc * V)).
  Notation state := (list V * bool)%type.
  Notation ok := (cstep_ok (dl_fault_spec eqb) dneed).
  Notation step := (λ al : A, keep_this (dl_step eqb rfirst)).
  Notation dlX fuel this other op :=
    (XStep step (dl_fault_spec eqb) dl_aborted same_members dlR dneed fuel this other op).

  Lemma wp_dl_x al fuel this other op x :
    ok fuel op x → cstep_pre dlR this other x ⊢ wp (step al fuel this other op) (cstep_post dlR x).
  Proof.
    destruct x as [[s o] [[s' o'] out]]. intros [Hs Hf]. simpl in Hs, Hf. unfold cstep_pre, cstep_post. simpl.
    assert (dl_spec eqb s o op = Some (s', o', out)) as Hs' by (by destruct op).
    iIntros "H". iApply wp_keep_this. iApply (wp_wand with "[H]"); [iApply (wp_dl_step _ _ _ _ _ _ _ _ _ _ _ Hs' Hf with "H")|].
    iIntros ([o1 r]) "H". done.
  Qed.

  (** the addresses become part of the index *)
  Notation ny := (elems * ptr * (elems * ptr) * (state * state * (state * state * dl_out V)))%type.
  Definition dok fuel this other op (y : ny) : Prop :=
    ok fuel op y.2 ∧ (y.1.1.1.*2 = y.2.1.1.1 ∧ marked this y.2.1.1.2 y.1.1.2 y.1.1.1) ∧
    (y.1.2.1.*2 = y.2.1.2.1 ∧ marked other y.2.1.2.2 y.1.2.2 y.1.2.1).
  Definition dop this other (y : ny) : iProp := flst this y.1.1.2 y.1.1.1 ∗ flst other y.1.2.2 y.1.2.1.

  Lemma xpd_open fuel this other op (m : A → M (gmap loc C) (dl_out V)) :
    Xp m (dok fuel this other op) (dop this other)
      (λ y r, cstep_post dlR y.2 (this, other, r)) (λ y, cstep_throw dl_aborted same_members dlR this other op y.2) →
    Xp (λ al, let! (o, r) := (let! r := m al in ret (other, r)) in ret (this, o, r)) (ok fuel op) (cstep_pre dlR this other)
      (cstep_post dlR) (cstep_throw dl_aborted same_members dlR this other op).
  Proof.
    intros Hm. apply (xp_bind (λ al, let! r := m al in ret (other, r)) (λ _ '(o, r), ret (this, o, r)) _ _ (λ x or, cstep_post dlR x (this, or.1, or.2))).
    2: { intros [o r]. apply xp_ret. intros x _. by iIntros "H". }
    apply (xp_bind m (λ _ r, ret (other, r)) _ _ (λ x r, cstep_post dlR x (this, other, r))).
    2: { intros r. apply xp_ret. intros x _. by iIntros "H". }
    eapply xp_conseq; [exact Hm|]. intros [[s o] res] Hx. unfold cstep_pre. simpl. iIntros "[H Ho]".
    iDestruct "H" as (xs pv Hxs) "H". iDestruct "Ho" as (ys po Hys) "Ho". iExists (xs, pv, (ys, po), (s, o, res)).
    iSplit; [done|]. iExists emp%I. iSplitR; [done|]. unfold dop. simpl. iFrame. iSplit; [iIntros (a) "_ $"|iIntros "_ $"].
  Qed.
  Lemma xpd_at {X} (this : loc) i (φ : X → Prop) (xs : X → elems) pv F T :
    (∀ x, φ x → i ≤ length (xs x)) →
    Xp (λ al : A, dl_at this i) φ (λ x, flst this (pv x) (xs x) ∗ F x)%I
      (λ x p, ⌜p = dpos this (xs x) i⌝ ∧ flst this (pv x) (xs x) ∗ F x)%I T.
  Proof.
    intros Hi. apply xp_of_wp; [cw|]. intros al x Hx. iIntros "[H HF]".
    iApply (wp_f_at with "H"); [by apply Hi|]. iIntros "H". by iFrame.
  Qed.
  Lemma xpd_own {X} (this : loc) i (φ : X → Prop) (xs : X → elems) pv F T :
    (∀ x, φ x → is_Some (xs x !! i)) →
    Xp (λ al : A, dl_own this i) φ (λ x, flst this (pv x) (xs x) ∗ F x)%I
      (λ x r, ∃ v, ⌜(xs x).*2 !! i = Some v ∧ drefers (xs x) r v⌝ ∧ flst this (pv x) (xs x) ∗ F x)%I T.
  Proof.
    intros Hi. apply xp_of_wp; [cw|]. intros al x Hx. iIntros "[H HF]". destruct (Hi x Hx) as [[l v] Hl].
    iApply (wp_f_own with "H"); [done|]. iIntros "H". iExists v. iSplit; [iPureIntro|by iFrame].
    split; [by rewrite list_lookup_fmap Hl|]. simpl. by eapply elem_of_list_lookup_2.
  Qed.
  Lemma xpd_done {X B} (m : A → M (gmap loc C) B) (φ : X → Prop) P Q T :
    Xp m φ P (λ x _, Q x DDone) T → Xp (λ al, ddone (m al)) φ P Q T.
  Proof.
    intros Hm. unfold ddone. eapply (xp_bind m (λ _ _, ret DDone)); [exact Hm|]. intros a. apply xp_ret. intros x _. by iIntros "H".
  Qed.
  Lemma xd_post this other po xs ys (s o s' o' : state) (out : dl_out V) :
    xs.*2 = s'.1 → s'.2 = false → ys.*2 = o'.1 → marked other o'.2 po ys →
    dlist this xs ∗ flst other po ys ⊢ cstep_post dlR (s, o, (s', o', out)) (this, other, out).
  Proof.
    intros H1 H2 H3 H4. iIntros "[H Ho]". unfold cstep_post. simpl. iSplit; [done|].
    iSplitL "H"; [by iApply (dlR_dlist with "H")|by iApply (dlR_close with "Ho")].
  Qed.
  Lemma xd_throw this other po op xs ys (s o s' : state) (res : state * state * dl_out V) :
    dl_aborted s o op s' o → xs.*2 = s'.1 → s'.2 = false → ys.*2 = o.1 → marked other o.2 po ys →
    dlist this xs ∗ flst other po ys ⊢ cstep_throw dl_aborted same_members dlR this other op (s, o, res).
  Proof.
    intros Ha H1 H2 H3 H4. iIntros "[H Ho]". unfold cstep_throw. simpl. iExists s', o. iSplit; [done|].
    iSplitL "H"; [by iApply (dlR_dlist with "H")|by iApply (dlR_close with "Ho")].
  Qed.
  Lemma xpd_at_r {X} (this : loc) i (φ : X → Prop) (xs : X → elems) pv F T :
    (∀ x, φ x → i ≤ length (xs x)) →
    Xp (λ al : A, dl_at this i) φ (λ x, F x ∗ flst this (pv x) (xs x))%I
      (λ x p, ⌜p = dpos this (xs x) i⌝ ∧ F x ∗ flst this (pv x) (xs x))%I T.
  Proof.
    intros Hi. apply xp_of_wp; [cw|]. intros al x Hx. iIntros "[HF H]".
    iApply (wp_f_at with "H"); [by apply Hi|]. iIntros "H". by iFrame.
  Qed.
  (** what the index says when [this] is not "cleared" *)
  Lemma dok_seq fuel this other op xs pv ys po s o s' o' out :
    dok fuel this other op (xs, pv, (ys, po), (s, o, (s', o', out))) →
    dl_ok s o op ∧ xs.*2 = s.1 ∧ marked this s.2 pv xs ∧ ys.*2 = o.1 ∧ marked other o.2 po ys ∧
    ∃ xs' ys', dl_seq eqb xs.*2 ys.*2 op = Some (xs', ys', out) ∧
      s' = (xs', (dl_marks s o op).1) ∧ o' = (ys', (dl_marks s o op).2) ∧
      length xs + length ys + length xs' + length ys' < fuel.
  Proof.
    intros ([Hs Hf]&[H1 H2]&[H3 H4]). simpl in *.
    assert (dl_spec eqb s o op = Some (s', o', out)) as Hs' by (by destruct op).
    unfold dl_spec in Hs'. destruct (decide (dl_ok s o op)) as [Hok|]; [|done].
    apply bind_Some in Hs' as ([[xs' ys'] out']&Hseq&?). simplify_eq. split_and!; [done..|].
    rewrite -H1 -H3 in Hseq. exists xs', ys'. split_and!; [done..|]. unfold dneed in Hf. simpl in Hf.
    rewrite -H1 -H3 !fmap_length in Hf. lia.
  Qed.

  Local Ltac idx Hy := let H := fresh in intros [[[xs pv] [ys po]] [[s o] [[s' o'] out]]] H; cbv beta in H;
    lazymatch type of H with dok _ _ _ _ _ => idtac | _ => destruct H as [H Hy] end;
    apply dok_seq in H as (Hok&H1&Hm&H3&Hmo&xs'&ys'&Hseq&->&->&Hf); simpl in Hok, Hseq |- *; try simpl in Hy.
  Lemma flst_dlist_at this m pv (xs : elems) : m = false → marked this m pv xs → flst this pv xs ⊢ dlist this xs.
  Proof. intros -> ->. by rewrite dlist_flst. Qed.
  Lemma dl_xstep fuel this other op : dlX fuel this other op.
  Proof.
    destruct op;
      try (apply (xstep_clean _ _ _ _ _ _ 1); [unfold keep_this, dl_step; cbv iota; cw|intros al x; by apply wp_dl_x|done|done]);
      try (apply xstep_none; [unfold keep_this, dl_step; cbv iota; cw|intros al x; by apply wp_dl_x]).
    all: unfold XStep.
    all: try (apply xpd_open).
    - (* insert n *)
      apply (xp_bind _ _ _ _ (λ y p, ⌜p = dpos this y.1.1.1 i⌝ ∧ dop this other y)%I).
      { apply (xpd_at this i _ (λ y : ny, y.1.1.1) (λ y, y.1.1.2)). idx Hy. case_decide; [|done]. rewrite fmap_length in H. lia. }
      intros p. apply (xp_pure _ _ (λ y : ny, p = dpos this y.1.1.1 i)). apply xpd_done.
      eapply xp_conseq; [apply (xp_dl_insert_n n p (DExt v))|]. idx Hy.
      case_decide as Hi; [|done]. simplify_eq. rewrite fmap_length in Hi. unfold dop. simpl. iIntros "[H Ho]".
      iExists ((this, xs, i), v). iSplit; [done|]. iExists (flst other po ys). unfold dat_pre. simpl. iFrame "Ho".
      iDestruct (flst_dlist_at with "H") as "$"; [done|done|]. iSplit.
      + iIntros (_) "Ho H". iDestruct "H" as (zs Hz) "H". iApply (xd_post with "[$H $Ho]"); [|done|done|done].
        by rewrite fmap_dins Hz.
      + iIntros "Ho H". iDestruct "H" as (zs k Hk Hz) "H". simpl. iApply (xd_throw _ _ _ _ _ _ _ _ (dins i (replicate k v) xs.*2, false) with "[$H $Ho]"); [|  |done|done|done].
        * split; [done|]. simpl. rewrite replicate_length in Hk. exists k. by rewrite -H1 Hok.
        * rewrite replicate_length in Hk. rewrite fmap_dins Hz take_replicate Nat.min_l; [done|lia].
    - (* insert own *)
      apply (xp_bind _ _ _ _ (λ y p, ⌜p = dpos this y.1.1.1 i⌝ ∧ dop this other y)%I).
      { apply (xpd_at this i _ (λ y : ny, y.1.1.1) (λ y, y.1.1.2)). idx Hy. apply bind_Some in Hseq as (v&Hv&Hseq). case_decide; [|done]. rewrite fmap_length in H. lia. }
      intros p. apply (xp_pure _ _ (λ y : ny, p = dpos this y.1.1.1 i)).
      apply (xp_bind _ _ _ _ (λ y r, ∃ v, ⌜y.1.1.1.*2 !! j = Some v ∧ drefers y.1.1.1 r v⌝ ∧ dop this other y)%I).
      { apply (xpd_own this j _ (λ y : ny, y.1.1.1) (λ y, y.1.1.2)). idx Hy. apply bind_Some in Hseq as (v&Hv&Hseq).
        rewrite list_lookup_fmap in Hv. destruct (xs !! j); [eauto|done]. }
      intros r. apply xpd_done.
      eapply xp_conseq; [apply (xp_dl_insert_n n p r)|]. idx Hy. iIntros "H". iDestruct "H" as (v [Hv Hr]) "[H Ho]". simpl. simpl in Hv. rewrite Hv /= in Hseq.
      case_decide as Hi; [|done]. simplify_eq. rewrite fmap_length in Hi.
      iExists ((this, xs, i), v). iSplit; [done|]. iExists (flst other po ys). unfold dat_pre. simpl. iFrame "Ho".
      iDestruct (flst_dlist_at with "H") as "$"; [done|done|]. iSplit.
      + iIntros (_) "Ho H". iDestruct "H" as (zs Hz) "H". iApply (xd_post with "[$H $Ho]"); [|done|done|done].
        by rewrite fmap_dins Hz.
      + iIntros "Ho H". iDestruct "H" as (zs k Hk Hz) "H". simpl. iApply (xd_throw _ _ _ _ _ _ _ _ (dins i (replicate k v) xs.*2, false) with "[$H $Ho]"); [|  |done|done|done].
        * split; [done|]. simpl. rewrite replicate_length in Hk. exists v, k. by rewrite -H1 Hok.
        * rewrite replicate_length in Hk. rewrite fmap_dins Hz take_replicate Nat.min_l; [done|lia].
    - (* insert range *)
      apply (xp_bind _ _ _ _ (λ y p, ⌜p = dpos this y.1.1.1 i⌝ ∧ dop this other y)%I).
      { apply (xpd_at this i _ (λ y : ny, y.1.1.1) (λ y, y.1.1.2)). idx Hy. case_decide; [|done]. rewrite fmap_length in H. lia. }
      intros p. apply (xp_pure _ _ (λ y : ny, p = dpos this y.1.1.1 i)). apply xpd_done.
      eapply xp_conseq; [apply (xp_dl_insert_ext vs p)|]. idx Hy.
      case_decide as Hi; [|done]. simplify_eq. rewrite fmap_length in Hi. unfold dop. simpl. iIntros "[H Ho]".
      iExists (this, xs, i). iSplit; [done|]. iExists (flst other po ys). unfold dat_pre. simpl. iFrame "Ho".
      iDestruct (flst_dlist_at with "H") as "$"; [done|done|]. iSplit.
      + iIntros (_) "Ho H". iDestruct "H" as (zs Hz) "H". iApply (xd_post with "[$H $Ho]"); [|done|done|done].
        by rewrite fmap_dins Hz.
      + iIntros "Ho H". iDestruct "H" as (zs k Hk Hz) "H". simpl. iApply (xd_throw _ _ _ _ _ _ _ _ (dins i (take k vs) xs.*2, false) with "[$H $Ho]"); [|  |done|done|done].
        * split; [done|]. simpl. exists k. by rewrite -H1 Hok.
        * by rewrite fmap_dins Hz.
    - (* insert from other *)
      apply (xp_bind _ _ _ _ (λ y p, ⌜p = dpos this y.1.1.1 i⌝ ∧ dop this other y)%I).
      { apply (xpd_at this i _ (λ y : ny, y.1.1.1) (λ y, y.1.1.2)). idx Hy. case_decide as Hi; [|done]. rewrite !fmap_length in Hi. lia. }
      intros p. apply (xp_pure _ _ (λ y : ny, p = dpos this y.1.1.1 i)).
      apply (xp_bind _ _ _ _ (λ y p, ⌜p = dpos other y.1.2.1 j⌝ ∧ dop this other y)%I).
      { apply (xpd_at_r other j _ (λ y : ny, y.1.2.1) (λ y, y.1.2.2)). idx Hy. case_decide as Hi; [|done]. rewrite !fmap_length in Hi. lia. }
      intros f. apply (xp_pure _ _ (λ y : ny, f = dpos other y.1.2.1 j)).
      apply (xp_bind _ _ _ _ (λ y p, ⌜p = dpos other y.1.2.1 k⌝ ∧ dop this other y)%I).
      { apply (xpd_at_r other k _ (λ y : ny, y.1.2.1) (λ y, y.1.2.2)). intros y [Hy0 _]. revert y Hy0. idx Hy. case_decide as Hi; [|done]. rewrite !fmap_length in Hi. lia. }
      intros l. apply (xp_pure _ _ (λ y : ny, l = dpos other y.1.2.1 k)). apply xpd_done.
      eapply xp_conseq; [apply (xp_dl_insert_its fuel p f l)|]. intros y [[[Hy0 Hp] Hj] Hk]. revert y Hy0 Hp Hj Hk. idx Hy. intros Hp Hj Hk. simpl in Hp, Hj, Hk.
      case_decide as Hi; [|done]. simplify_eq. destruct Hi as [Hi Hjk]. rewrite fmap_length in Hi. rewrite fmap_length in Hjk.
      assert (drop j ys = dslice j k ys ++ drop k ys) as Hd.
      { unfold dslice. replace (drop k ys) with (drop (k - j) (drop j ys)); [by rewrite take_drop|].
        rewrite drop_drop. f_equal. lia. }
      assert (ys = take j ys ++ dslice j k ys ++ drop k ys) as Hys by (by rewrite -Hd take_drop).
      unfold dop. simpl. iIntros "[H Ho]".
      iExists ((this, xs, i), pv, (other, po, take j ys, dslice j k ys, drop k ys)). iSplit.
      { iPureIntro. split_and!; [done| |rewrite (dpos_drop other ys j); [by rewrite Hd|lia]|rewrite (dpos_drop other ys k); [done|lia]].
        unfold dslice. rewrite take_length drop_length. lia. }
      iExists emp%I. iSplitR; [done|]. unfold dits_pre. rewrite -Hys. cbn [fst snd]. iFrame "Ho". iSplitL "H".
      { case_decide; [done|]. by iApply (flst_dlist_at with "H"). }
      iSplit.
      + iIntros (_) "_ H". unfold dits_post. rewrite -Hys. cbn [fst snd]. iDestruct "H" as "[H Ho]".
        iAssert (dat_post (dslice j k ys).*2 (this, xs, i)) with "[H]" as "H".
        { case_decide as Hn; [|done]. rewrite Hn. iApply dat_post_0. unfold dat_pre. simpl. by iApply (flst_dlist_at with "H"). }
        iDestruct "H" as (zs Hz) "H". iApply (xd_post with "[$H $Ho]"); [|done|done|done]. by rewrite fmap_dins Hz fmap_dslice.
      + iIntros "_ H". unfold dits_throw. rewrite -Hys. iDestruct "H" as "[H Ho]". iDestruct "H" as (zs m Hm' Hz) "H".
        iApply (xd_throw _ _ _ _ _ _ _ _ (dins i (take m (dslice j k ys.*2)) xs.*2, false) with "[$H $Ho]"); [|  |done|done|done].
        * split; [done|]. simpl. exists m. rewrite -H1 Hok -H3. split; [|done]. rewrite fmap_length in Hm'. unfold dslice in Hm'.
          rewrite take_length drop_length in Hm'. lia.
        * by rewrite fmap_dins Hz fmap_dslice.
    - (* resize *)
      destruct n as [|n].
      { apply (xpd_done (λ al : A, dl_resize fuel this 0 (DExt v))).
        apply xp_of_wp; [apply cl_resize_0|]. intros al. idx Hy. simplify_eq. unfold dop. simpl. iIntros "[H Ho]".
        iApply (wp_dl_resize_0 with "H"); [lia|]. iIntros "H". unfold cstep_post. simpl. iSplit; [done|].
        iSplitL "H"; [iApply (dlR_close with "H")|by iApply (dlR_close with "Ho")]; simpl; [by rewrite H1 Hok|done]. }
      apply xpd_done. eapply xp_conseq; [by apply (xp_dl_resize fuel this (S n) (DExt v))|]. idx Hy. simplify_eq.
      unfold dop. simpl. iIntros "[H Ho]". rewrite app_length take_length replicate_length fmap_length in Hf.
      iExists (xs, v). iSplit; [iPureIntro; split_and!; [simpl; lia|lia|done]|]. iExists (flst other po ys). iFrame "Ho". simpl.
      iDestruct (flst_dlist_at with "H") as "$"; [done|done|]. iSplit.
      + iIntros (_) "Ho H". iDestruct "H" as (zs Hz) "H". iApply (xd_post with "[$H $Ho]"); [|done|done|done].
        cbn [fst]. by rewrite fmap_app Hz (fmap_take _ (S n)) fmap_length.
      + iIntros "Ho H". iDestruct "H" as (zs k Hk Hz) "H". iApply (xd_throw _ _ _ _ _ _ _ _ (xs.*2 ++ replicate k v, false) with "[$H $Ho]"); [|  |done|done|done].
        * split; [done|]. cbn [fst snd]. exists k. rewrite -H1 Hok fmap_length. done.
        * by rewrite fmap_app Hz.
    - (* resize own *)
      apply (xp_bind _ _ _ _ (λ y r, ∃ v, ⌜y.1.1.1.*2 !! i = Some v ∧ drefers y.1.1.1 r v⌝ ∧ dop this other y)%I).
      { apply (xpd_own this i _ (λ y : ny, y.1.1.1) (λ y, y.1.1.2)). idx Hy. apply bind_Some in Hseq as (v&Hv&Hseq).
        rewrite list_lookup_fmap in Hv. destruct (xs !! i); [eauto|done]. }
      intros r. apply xpd_done. destruct n as [|n].
      { apply (xp_of_wp (λ al : A, dl_resize fuel this 0 r)); [apply cl_resize_0|]. intros al. idx Hy. iIntros "H". iDestruct "H" as (v [Hv Hr]) "[H Ho]".
        rewrite -H1 in Hok. simpl in Hv. by rewrite Hok in Hv. }
      eapply xp_conseq; [by apply (xp_dl_resize fuel this (S n) r)|]. idx Hy. iIntros "H". iDestruct "H" as (v [Hv Hr]) "[H Ho]".
      simpl in Hv. rewrite Hv in Hseq. cbn in Hseq. simplify_eq. simpl.
      simpl in Hf. rewrite app_length take_length replicate_length fmap_length in Hf.
      iExists (xs, v). iSplit; [iPureIntro; split_and!; [simpl; lia|lia|done]|]. iExists (flst other po ys). iFrame "Ho". simpl.
      iDestruct (flst_dlist_at with "H") as "$"; [done|done|]. iSplit.
      + iIntros (_) "Ho H". iDestruct "H" as (zs Hz) "H". iApply (xd_post with "[$H $Ho]"); [|done|done|done].
        cbn [fst]. by rewrite fmap_app Hz (fmap_take _ (S n)) fmap_length.
      + iIntros "Ho H". iDestruct "H" as (zs k Hk Hz) "H". iApply (xd_throw _ _ _ _ _ _ _ _ (xs.*2 ++ replicate k v, false) with "[$H $Ho]"); [|  |done|done|done].
        * split; [done|]. cbn [fst snd]. exists v, k. rewrite -H1 Hok fmap_length. done.
        * by rewrite fmap_app Hz.
    - (* assign *)
      apply xpd_done. unfold dl_assign_range. destruct vs as [|v0 vs0].
      { apply xp_of_wp; [cw|]. intros al. idx Hy. simplify_eq. unfold dop. simpl. iIntros "[H Ho]". wstep.
        iApply (wp_dl_clear_R with "[H]"); [|by iApply (dlR_close with "H")|].
        { unfold dneed. rewrite -H1 fmap_length. lia. }
        iIntros "H". wstep. unfold cstep_post. simpl. iSplit; [done|]. iFrame "H". by iApply (dlR_close with "Ho"). }
      apply (xp_bind _ _ _ _ (λ y _, dlist this [] ∗ flst other y.1.2.2 y.1.2.1)%I).
      { apply xp_of_wp; [cw|]. intros al. idx Hy. simplify_eq. destruct Hok as [|[Hs0 Hmk]]; [done|].
        unfold dop. simpl. iIntros "[H Ho]". iApply (wp_dl_clear_R with "[H]"); [|by iApply (dlR_close with "H")|].
        { unfold dneed. rewrite -H1 fmap_length. lia. }
        iIntros "H". iFrame "Ho". rewrite Hs0 Hmk. iDestruct (dlR_open with "H") as (zs [Hz _]) "H"; [by left|].
        simpl in Hz. apply fmap_nil_inv in Hz as ->. done. }
      intros _. eapply xp_conseq; [apply (xp_dl_insert_ext (v0 :: vs0) (dl_end this))|]. idx Hy. simplify_eq. destruct Hok as [|[Hs0 Hmk]]; [done|].
      iIntros "[H Ho]". iExists (this, [], 0). iSplit; [iPureIntro; split; [simpl; lia|done]|]. iExists (flst other po ys). unfold dat_pre. simpl. iFrame.
      rewrite Hs0 in H1. apply fmap_nil_inv in H1 as ->. iSplit.
      + iIntros (_) "Ho H". iDestruct "H" as (zs Hz) "H". iApply (xd_post with "[$H $Ho]"); [| |done|done].
        { by rewrite fmap_dins Hz /dins /= app_nil_r. }
        { by rewrite Hs0 Hmk. }
      + iIntros "Ho H". iDestruct "H" as (zs k Hk Hz) "H". iApply (xd_throw _ _ _ _ _ _ _ _ (take k (v0 :: vs0), false) with "[$H $Ho]"); [|  |done|done|done].
        * split; [done|]. simpl. exists k. by rewrite Hmk.
        * by rewrite fmap_dins Hz /dins app_nil_r.
    - (* assign n *)
      apply xpd_done. unfold dl_assign_n. destruct n as [|n].
      { apply xp_of_wp; [cw|]. intros al. idx Hy. simplify_eq. unfold dop. simpl. iIntros "[H Ho]". wstep.
        iApply (wp_dl_clear_R with "[H]"); [|by iApply (dlR_close with "H")|].
        { unfold dneed. rewrite -H1 fmap_length. lia. }
        iIntros "H". wstep. unfold cstep_post. simpl. iSplit; [done|]. iFrame "H". by iApply (dlR_close with "Ho"). }
      apply (xp_bind _ _ _ _ (λ y _, dlist this [] ∗ flst other y.1.2.2 y.1.2.1)%I).
      { apply xp_of_wp; [cw|]. intros al. idx Hy. simplify_eq. destruct Hok as [|[Hs0 Hmk]]; [done|].
        unfold dop. simpl. iIntros "[H Ho]". iApply (wp_dl_clear_R with "[H]"); [|by iApply (dlR_close with "H")|].
        { unfold dneed. rewrite -H1 fmap_length. lia. }
        iIntros "H". iFrame "Ho". rewrite Hs0 Hmk. iDestruct (dlR_open with "H") as (zs [Hz _]) "H"; [by left|].
        simpl in Hz. apply fmap_nil_inv in Hz as ->. done. }
      intros _. eapply xp_conseq; [apply (xp_dl_insert_n (S n) (dl_end this) (DExt v))|]. idx Hy. simplify_eq. destruct Hok as [|[Hs0 Hmk]]; [done|].
      iIntros "[H Ho]". iExists ((this, [], 0), v). iSplit; [iPureIntro; split_and!; [split; [simpl; lia|done]|done]|]. iExists (flst other po ys). unfold dat_pre. simpl. iFrame.
      rewrite Hs0 in H1. apply fmap_nil_inv in H1 as ->. iSplit.
      + iIntros (_) "Ho H". iDestruct "H" as (zs Hz) "H". iApply (xd_post with "[$H $Ho]"); [| |done|done].
        { by rewrite fmap_dins Hz /dins /= app_nil_r. }
        { by rewrite Hs0 Hmk. }
      + iIntros "Ho H". iDestruct "H" as (zs k Hk Hz) "H". iApply (xd_throw _ _ _ _ _ _ _ _ (replicate k v, false) with "[$H $Ho]"); [|  |done|done|done].
        * split; [done|]. simpl. simpl in Hk. rewrite replicate_length in Hk. exists k. by rewrite Hmk.
        * cbn [fst snd] in *. change (v :: replicate n v) with (replicate (S n) v) in Hz, Hk. rewrite replicate_length in Hk.
          rewrite fmap_dins Hz take_replicate Nat.min_l; [|lia]. by rewrite /dins app_nil_r.
    - (* operator= *)
      apply xpd_done. unfold dl_assign_from.
      apply (xp_bind _ _ _ _ (λ y _, dlR this ([], y.2.1.1.2 || bool_decide (y.2.1.1.1 ≠ [])) ∗ flst other y.1.2.2 y.1.2.1)%I).
      { apply xp_of_wp; [cw|]. intros al. idx Hy. unfold dop. simpl. iIntros "[H Ho]". iApply (wp_dl_clear_R with "[H]"); [|by iApply (dlR_close with "H")|].
        { unfold dneed. rewrite -H1 fmap_length. lia. }
        iIntros "H". iFrame. }
      intros _. apply (xp_bind _ _ _ _ (λ y b, ⌜b = Some this⌝ ∧ dlR this ([], y.2.1.1.2 || bool_decide (y.2.1.1.1 ≠ [])) ∗ flst other y.1.2.2 y.1.2.1)%I).
      { apply xp_of_wp; [cw|]. intros al y _. iIntros "[H Ho]". iDestruct "H" as (zs pz [Hz Hmz]) "H". unfold dl_begin.
        iApply (flst_next with "H"). iIntros "H". simpl in Hz, Hmz. apply fmap_nil_inv in Hz as ->. iSplit; [done|]. iFrame "Ho". by iApply (dlR_close with "H"). }
      intros b. apply (xp_pure _ _ (λ y : ny, b = Some this)).
      apply (xp_bind _ _ _ _ (λ y f, ⌜f = dfirst y.1.2.1 (Some other)⌝ ∧ dlR this ([], y.2.1.1.2 || bool_decide (y.2.1.1.1 ≠ [])) ∗ flst other y.1.2.2 y.1.2.1)%I).
      { apply xp_of_wp; [cw|]. intros al y _. iIntros "[Ho H]". unfold dl_begin.
        iApply (flst_next with "H"). iIntros "H". iSplit; [done|]. iFrame. }
      intros f. eapply xp_conseq; [apply (xp_dl_insert_its fuel b f (dl_end other))|]. idx Hy. simplify_eq.
      iIntros "(%Hff&H&Ho)". iDestruct "H" as (zs pz [Hz Hmz]) "H". simpl in Hz, Hmz. apply fmap_nil_inv in Hz as ->.
      iExists ((this, [], 0), pz, (other, po, [], ys, [])). iSplit.
      { iPureIntro. split_and!; [intros _; split; [simpl; lia|done]|lia|by rewrite app_nil_r|done]. }
      iExists emp%I. iSplitR; [done|]. unfold dits_pre. cbn [fst snd app]. rewrite app_nil_r. iFrame "Ho".
      assert (ys ≠ [] → s.1 = [] ∧ s.2 = false) as Hne.
      { intros Hn. destruct Hok as [Ho|?]; [|done]. rewrite -H3 in Ho. by apply fmap_nil_inv in Ho. }
      iSplitL "H".
      { case_decide as Hn; [done|]. unfold dat_pre. destruct (Hne Hn) as [Hs0 Hmk]. rewrite Hs0 Hmk in Hmz. cbn in Hmz. subst pz. simpl. by iApply dlist_flst. }
      iSplit.
      + iIntros (_) "_ H". unfold dits_post. cbn [fst snd app]. rewrite app_nil_r. iDestruct "H" as "[H Ho]".
        case_decide as Hn.
        * subst ys. unfold cstep_post. simpl. iSplit; [done|]. iSplitL "H"; [by iApply (dlR_close with "H")|by iApply (dlR_close with "Ho")].
        * destruct (Hne Hn) as [Hs0 Hmk]. iDestruct "H" as (zs Hz) "H". iApply (xd_post with "[$H $Ho]"); [| |done|done].
          { by rewrite fmap_dins Hz /dins /= app_nil_r. }
          { by rewrite Hs0 Hmk. }
      + iIntros "_ H". unfold dits_throw. cbn [fst snd app]. rewrite app_nil_r. iDestruct "H" as "[H Ho]".
        iDestruct "H" as (zs k Hk Hz) "H". assert (ys ≠ []) as Hn by (intros ->; simpl in Hk; lia). destruct (Hne Hn) as [Hs0 Hmk].
        iApply (xd_throw _ _ _ _ _ _ _ _ (take k o.1, false) with "[$H $Ho]"); [|  |done|done|done].
        * split; [done|]. simpl. exists k. rewrite Hmk. rewrite H3 in Hk. done.
        * by rewrite fmap_dins Hz /dins app_nil_r H3.
    - eapply xp_never; [apply tr_dl_step|]. intros x [Hx _]. done.
    - eapply xp_never; [apply tr_dl_step|]. intros x [Hx _]. done.
    - eapply xp_never; [apply tr_dl_step|]. intros x [Hx _]. done.
  Qed.
  Lemma dl_survives ops :
    survives_failures (λ al : A, dl_new) (λ al, dl_destroy) step ([], false) (dl_fault_spec eqb) (λ _, True) dl_aborted same_members ops.
  Proof.
    apply (survives_failures_ok _ _ _ _ _ _ _ _ dlR dneed).
    - intros al. apply wp_dl_new_R.
    - intros al fuel a s _ Hf. by apply wp_dl_destroy_R.
    - apply dl_xstep.
  Qed.
End steps.
