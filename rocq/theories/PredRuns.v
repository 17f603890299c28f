(** list.hpp with function objects that keep state or throw: the property lemmas, in the vocabulary of
    Triple.v, DlistSpec.v and PredSpec.v only. *)
From Verif Require Import PredSpec DlistRuns DlistProofs2 DlistProofs3.
From iris.proofmode Require Import tactics.
(*@HEADER
From Verif Require Import PredSpec PredRuns.

Section pred.
  Context {V : Type} `{Allocator (dcell V)}.
@*)
(*@FOOTER
End pred.
@*)

Lemma removing_sub {A} (f : nat → A → option bool) c (xs : list A) :
  sublist (removing f c xs).2 xs ∧
  ((removing f c xs).1 = None → ∃ xs1 x xs2 ks, xs = xs1 ++ x :: xs2 ∧ f (c + length xs1) x = None ∧
     (removing f c xs).2 = ks ++ x :: xs2 ∧ sublist ks xs1).
Proof.
  revert c. induction xs as [|x xs IH]; intros c; cbn [removing]; [done|].
  destruct (f c x) as [[]|] eqn:E.
  - destruct (IH (S c)) as [Hs Hn]. split; [by apply sublist_cons|]. intros (xs1&y&xs2&ks&->&Hf&->&Hk)%Hn.
    exists (x :: xs1), y, xs2, ks. split_and!; [done| |done|by apply sublist_cons]. cbn [length]. by rewrite Nat.add_succ_r.
  - destruct (IH (S c)) as [Hs Hn]. split; [by apply sublist_skip|]. intros (xs1&y&xs2&ks&->&Hf&Hr&Hk)%Hn.
    exists (x :: xs1), y, xs2, (x :: ks). cbn [snd]. rewrite Hr. split_and!; [done| |done|by apply sublist_skip].
    cbn [length]. by rewrite Nat.add_succ_r.
  - split; [done|]. intros _. exists [], x, xs, []. cbn [length]. by rewrite Nat.add_0_r.
Qed.
Lemma uniquing_sub {A} (f : nat → A → A → option bool) c y (xs : list A) :
  sublist (uniquing f c y xs).2 xs ∧
  ((uniquing f c y xs).1 = None → ∃ xs1 x xs2 ks z, xs = xs1 ++ x :: xs2 ∧ f (c + length xs1) x z = None ∧
     (uniquing f c y xs).2 = ks ++ x :: xs2 ∧ sublist ks xs1 ∧ last (y :: ks) = Some z).
Proof.
  revert c y. induction xs as [|x xs IH]; intros c y; cbn [uniquing]; [done|].
  destruct (f c x y) as [[]|] eqn:E.
  - destruct (IH (S c) y) as [Hs Hn]. split; [by apply sublist_cons|]. intros (xs1&w&xs2&ks&z&->&Hf&->&Hk&Hz)%Hn.
    exists (x :: xs1), w, xs2, ks, z. split_and!; [done| |done|by apply sublist_cons|done]. cbn [length]. by rewrite Nat.add_succ_r.
  - destruct (IH (S c) x) as [Hs Hn]. split; [by apply sublist_skip|]. intros (xs1&w&xs2&ks&z&->&Hf&Hr&Hk&Hz)%Hn.
    exists (x :: xs1), w, xs2, (x :: ks), z. cbn [snd]. rewrite Hr. split_and!; [done| |done|by apply sublist_skip|done].
    cbn [length]. by rewrite Nat.add_succ_r.
  - split; [done|]. intros _. exists [], x, xs, [], y. cbn [length]. by rewrite Nat.add_0_r.
Qed.

Lemma loop_sim {S A A' B B'} (R : A' → A → Prop) (g : B → B') (body : A → M S (A + B)) (body' : A' → M S (A' + B')) fuel :
  (∀ a' a h, R a' a → match body a h with
     | Ok (inl b, h1) => ∃ b', body' a' h = Ok (inl b', h1) ∧ R b' b
     | Ok (inr z, h1) => body' a' h = Ok (inr (g z), h1)
     | UB u => body' a' h = UB u
     | NoFuel => body' a' h = NoFuel end) →
  ∀ a' a h, R a' a → loop fuel body' a' h = match loop fuel body a h with Ok (z, h1) => Ok (g z, h1) | UB u => UB u | NoFuel => NoFuel end.
Proof.
  intros Hb. induction fuel as [|fuel IH]; intros a' a h HR; [done|]. cbn [loop]. unfold bind. specialize (Hb a' a h HR).
  destruct (body a h) as [[[b|z] h1]| |]; [|by rewrite Hb..]. destruct Hb as (b'&->&Hb). by apply IH.
Qed.

Section pred.
  Context {V : Type} `{Allocator (dcell V)}.
  Notation C := (dcell V).
  Notation heap := (gmap loc C).
  Notation iProp := (bi_car (hpropI C)).
  Notation elems := (list (loc * V)).
  Implicit Types (this other l : loc) (v : V) (xs ys ks rs os : elems) (Q : option unit → iProp).

  Lemma wp_remove_if fuel this xs f Q : length xs < fuel →
    dlist this xs -∗ (let r := removing (λ c z, f c z.2) 0 xs in dlist this r.2 -∗ Q r.1) -∗
    wp (xdl_remove_if fuel this f) Q.
  Proof.
    iIntros (Hf) "H HQ". unfold xdl_remove_if. wstep. rewrite dlist_flst.
    iApply (flst_next with "H"). iIntros "H". wstep.
    match goal with |- context [loop fuel ?body _] => set (bd := body) end.
    assert (∀ rs ks c f0 (n : ptr), length rs < f0 →
      (∀ l v rs', rs = (l,v) :: rs' → n = dfirst rs' (Some this)) →
      dlist this (ks ++ rs) -∗
      (let r := removing (λ c z, f c z.2) c rs in dlist this (ks ++ r.2) -∗ Q r.1) -∗
      wp (loop f0 bd (c, dfirst rs (Some this), n)) Q) as Hg.
    { intros rs. induction rs as [|[l w] rs IH]; intros ks c f0 n Hf' Hn;
        (destruct f0 as [|f0]; [lia|]); iIntros "H HQ"; cbn [loop dfirst]; unfold bd at 1; wstep.
      - destruct (decide _); [done|]. wstep. wstep. by iApply "HQ".
      - simpl in Hf'. rewrite dlist_flst. iDestruct (flst_mid_ne with "H") as %?.
        destruct (decide _) as [_|Hne]; [|destruct Hne; congruence].
        rewrite (Hn l w rs) //. wstep. iApply (flst_mid_value with "H"). iIntros "H".
        cbn [removing snd]. destruct (f c w) as [b|] eqn:Ef; last first.
        { wstep. wstep. rewrite -dlist_flst. by iApply "HQ". }
        wstep. rewrite -dlist_flst.
        assert (∀ f1 ks', length rs < f1 →
          dlist this (ks' ++ rs) -∗ (let r := removing (λ c z, f c z.2) (S c) rs in dlist this (ks' ++ r.2) -∗ Q r.1) -∗
          wp (get_next (dfirst rs (Some this))) (λ a, wp (ret (inl (S c, dfirst rs (Some this), a)))
            (λ s, wp (match s with inl a' => loop f1 bd a' | inr b => ret b end) Q))) as Hnext.
        { iIntros (f1 ks' Hf1) "H HQ". rewrite dlist_flst. destruct rs as [|[l' w'] rs].
          - cbn [dfirst]. iApply (flst_next with "H"). iIntros "H". wstep. rewrite -dlist_flst.
            iApply (IH ks' (S c) f1 with "H"); [done|done|done].
          - cbn [dfirst]. iApply (flst_mid_next with "H"). iIntros "H". wstep. rewrite -dlist_flst.
            iApply (IH ks' (S c) f1 with "H"); [done| |done].
            intros ??? [= <- <- <-]. done. }
        destruct b.
        + wstep. iApply (wp_mid_unlink with "H"). iIntros "H Hl". iApply (wp_delete_node with "Hl"). wstep.
          iApply (Hnext with "H"); [lia|]. done.
        + wstep. wstep. rewrite (cons_middle _ ks rs) app_assoc.
          iApply (Hnext with "H"); [lia|]. cbn. rewrite -app_assoc. done. }
    destruct xs as [|[l v] xs].
    - cbn [dfirst]. iApply (flst_next with "H"). iIntros "H". rewrite -dlist_flst.
      iApply (Hg [] [] with "H"); [done|done|done].
    - cbn [dfirst]. iApply (flst_mid_next this _ [] with "H"). iIntros "H". rewrite -dlist_flst.
      iApply (Hg ((l,v) :: xs) [] with "H"); [done| |done].
      intros ??? [= <- <- <-]. done.
  Qed.
  Lemma wp_unique_nil fuel this f Q : 0 < fuel →
    dlist this ([] : elems) -∗ (dlist this ([] : elems) -∗ Q (Some tt)) -∗ wp (xdl_unique fuel this f) Q.
  Proof.
    iIntros (Hf) "H HQ". unfold xdl_unique. rewrite dlist_flst. wstep. iApply (flst_next with "H"). iIntros "H". simpl.
    wstep. iApply (flst_next with "H"). iIntros "H". simpl. wstep. iApply (flst_next with "H"). iIntros "H".
    destruct fuel as [|fuel]; [lia|]. cbn [loop]. wstep.
    destruct (decide _); [done|]. wstep. wstep. by iApply "HQ".
  Qed.
  Lemma wp_unique fuel this a y xs f Q : length xs < fuel →
    dlist this ((a,y) :: xs) -∗
    (let r := uniquing (λ c z1 z2, f c z1.2 z2.2) 0 (a,y) xs in dlist this ((a,y) :: r.2) -∗ Q r.1) -∗
    wp (xdl_unique fuel this f) Q.
  Proof.
    iIntros (Hf) "H HQ". unfold xdl_unique. wstep. rewrite dlist_flst.
    iApply (flst_next with "H"). iIntros "H". cbn [dfirst]. wstep.
    iApply (flst_mid_next this _ [] with "H"). iIntros "H". wstep.
    match goal with |- context [loop fuel ?body _] => set (bd := body) end.
    assert (∀ rs ks c a y f0 (n : ptr), length rs < f0 →
      (∀ l v rs', rs = (l,v) :: rs' → n = dfirst rs' (Some this)) →
      dlist this (ks ++ (a,y) :: rs) -∗
      (let r := uniquing (λ c z1 z2, f c z1.2 z2.2) c (a,y) rs in dlist this (ks ++ (a,y) :: r.2) -∗ Q r.1) -∗
      wp (loop f0 bd (c, Some a, dfirst rs (Some this), n)) Q) as Hg.
    { clear. intros rs. induction rs as [|[l w] rs IH]; intros ks c a y f0 n Hf' Hn;
        (destruct f0 as [|f0]; [lia|]); iIntros "H HQ"; cbn [loop dfirst]; unfold bd at 1; wstep.
      - destruct (decide _); [done|]. wstep. wstep. by iApply "HQ".
      - simpl in Hf'. rewrite dlist_flst (cons_middle _ ks) app_assoc.
        iDestruct (flst_mid_ne with "H") as %?.
        destruct (decide _) as [_|Hne]; [|destruct Hne; congruence].
        rewrite (Hn l w rs) //. wstep. iApply (flst_mid_value with "H"). iIntros "H". wstep.
        rewrite -app_assoc. cbn [app]. iApply (flst_mid_value with "H"). iIntros "H".
        rewrite -dlist_flst. cbn [uniquing snd].
        destruct (f c w y) as [b|] eqn:Ef; last first.
        { wstep. wstep. by iApply "HQ". }
        assert (∀ ks' b z f1, length rs < f1 →
          dlist this (ks' ++ (b,z) :: rs) -∗
          (let r := uniquing (λ c z1 z2, f c z1.2 z2.2) (S c) (b,z) rs in dlist this (ks' ++ (b,z) :: r.2) -∗ Q r.1) -∗
          wp (get_next (dfirst rs (Some this))) (λ d, wp (ret (inl (S c, Some b, dfirst rs (Some this), d)))
            (λ s, wp (match s with inl a' => loop f1 bd a' | inr b => ret b end) Q))) as Hnext.
        { iIntros (ks' b' z f1 Hf1) "H HQ". rewrite dlist_flst. destruct rs as [|[l' w'] rs]; cbn [dfirst].
          - iApply (flst_next with "H"). iIntros "H". wstep. rewrite -dlist_flst.
            iApply (IH ks' (S c) b' z f1 with "H"); [done|done|done].
          - rewrite (cons_middle _ ks') app_assoc.
            iApply (flst_mid_next with "H"). iIntros "H". wstep. rewrite -dlist_flst -app_assoc.
            iApply (IH ks' (S c) b' z f1 with "H"); [done| |done].
            intros ??? [= <- <- <-]. done. }
        wstep. destruct b.
        + wstep. rewrite (cons_middle _ ks ((l,w) :: rs)) (app_assoc ks _ ((l,w) :: rs)).
          iApply (wp_mid_unlink _ (ks ++ [(a,y)]) with "H"). iIntros "H Hl". wstep.
          iApply (wp_delete_node with "Hl"). wstep. wstep. rewrite -app_assoc /=.
          iApply (Hnext with "H"); [lia|]. done.
        + wstep. wstep. rewrite (cons_middle _ ks ((l,w) :: rs)) (app_assoc ks _ ((l,w) :: rs)).
          iApply (Hnext (ks ++ [(a,y)]) with "H"); [lia|]. cbn. rewrite -!app_assoc. done. }
    destruct xs as [|[l v] xs]; cbn [dfirst].
    - iApply (flst_next with "H"). iIntros "H". rewrite -dlist_flst.
      iApply (Hg [] [] with "H"); [done|done|done].
    - iApply (flst_mid_next this _ [(a,y)] with "H"). iIntros "H". rewrite -dlist_flst.
      iApply (Hg ((l,v) :: xs) [] with "H"); [done| |done].
      intros ??? [= <- <- <-]. done.
  Qed.

  Definition zcmp (cmp : V → V → bool) (z1 z2 : loc * V) : bool := cmp z1.2 z2.2.
  Lemma dsorted_snd (cmp : V → V → bool) xs : dsorted cmp xs.*2 ↔ dsorted (zcmp cmp) xs.
  Proof.
    unfold dsorted. induction xs as [|x xs IH]; [split; constructor|]. cbn [fmap list_fmap]. split.
    - intros [Hs Hx]%StronglySorted_inv. constructor; [by apply IH|]. by apply Forall_fmap in Hx.
    - intros [Hs Hx]%StronglySorted_inv. constructor; [by apply IH|]. by apply Forall_fmap.
  Qed.
  Lemma ss_app {A} (R : A → A → Prop) (ks rs : list A) :
    StronglySorted R (ks ++ rs) ↔ StronglySorted R ks ∧ StronglySorted R rs ∧ Forall (λ x, Forall (R x) rs) ks.
  Proof.
    induction ks as [|x ks IH]; cbn [app].
    - split; [intros ?; split_and!; [constructor|done|constructor]|by intros (?&?&?)].
    - split.
      + intros [Hs Hx]%StronglySorted_inv. apply IH in Hs as (?&?&?). apply Forall_app in Hx as [??].
        split_and!; [by constructor|done|by constructor].
      + intros (Hk&Hr&Hf). apply StronglySorted_inv in Hk as [? ?]. inversion Hf; subst.
        constructor; [apply IH; by split_and!|]. by apply Forall_app.
  Qed.
  (** the state in which a merge stops: [zs] in the destination, the first [k] of [ys] taken *)
  Definition merging (f : nat → V → V → option bool) xs ys (r : option unit) (zs : elems) (k : nat) : Prop :=
    zs ≡ₚ xs ++ take k ys ∧ sublist xs zs ∧ k ≤ length ys ∧
    match r with Some _ => k = length ys | None => ∃ c x y, f c x y = None end.
  Definition stays (f : nat → V → V → option bool) ks rs os (zs : elems) : Prop :=
    ∀ cmp : V → V → bool, honest f cmp → weak_order cmp → dsorted (zcmp cmp) (ks ++ rs) → dsorted (zcmp cmp) os →
      Forall (λ z, Forall (λ o, zcmp cmp o z = false) os) ks → dsorted (zcmp cmp) zs.

  Lemma wp_merge fuel this xs other ys f Q :
    length xs + 2 * length ys < fuel →
    dlist this xs -∗ dlist other ys -∗
    (∀ r zs k, ⌜merging f xs ys r zs k⌝ → ⌜stays f [] xs ys zs⌝ → dlist this zs -∗ dlist other (drop k ys) -∗ Q r) -∗
    wp (xdl_merge fuel this other f) Q.
  Proof.
    iIntros (Hf) "H Ho HQ". unfold xdl_merge. wstep. rewrite !dlist_flst.
    iApply (flst_next with "Ho"). iIntros "Ho". wstep.
    iApply (flst_next with "H"). iIntros "H". wstep. rewrite -!dlist_flst.
    match goal with |- context [wp (loop fuel ?body _) ?Post] => set (bd := body); set (Q' := Post) end.
    assert (∀ f0 c ks rs os, length rs + 2 * length os < f0 →
      dlist this (ks ++ rs) -∗ dlist other os -∗
      (∀ r zs k, ⌜merging f (ks ++ rs) os r zs k⌝ → ⌜stays f ks rs os zs⌝ → dlist this zs -∗ dlist other (drop k os) -∗ Q r) -∗
      wp (loop f0 bd (c, dfirst os (Some other), dfirst rs (Some this))) Q') as Hg.
    { clear fuel Hf. intros f0. induction f0 as [|f0 IH]; intros c ks rs os Hf; [lia|]. iIntros "H Ho HQ".
      cbn [loop]. unfold bd at 1. wstep. destruct os as [|[o x] os]; cbn [dfirst].
      { destruct (decide _) as [[? _]|_]; [done|]. wstep. wstep. unfold Q'. wstep. destruct (decide _); [done|]. wstep. wstep.
        iApply ("HQ" $! (Some tt) (ks ++ rs) 0 with "[%] [%] H Ho").
        - split_and!; [by rewrite app_nil_r|done|done|done].
        - intros cmp _ _ Hs _ _. done. }
      rewrite (dlist_flst other). iDestruct (flst_mid_ne _ _ [] with "Ho") as %?.
      destruct rs as [|[i y] rs]; cbn [dfirst].
      { destruct (decide _) as [[_ ?]|_]; [done|]. wstep. wstep. unfold Q'. wstep.
        destruct (decide _) as [_|Hn]; [|destruct Hn; congruence]. wstep. iApply (flst_next with "Ho"). iIntros "Ho".
        rewrite -dlist_flst app_nil_r. iDestruct (ring_rotate [DlistLogic.hd other] with "Ho") as "Ho".
        iApply (wp_node_splice (DlistLogic.hd this :: dlive ks) (dlive ((o,x) :: os)) [DlistLogic.hd other] with "H Ho"); [done..|]. iIntros "H Ho".
        wstep. iApply ("HQ" $! (Some tt) (ks ++ (o,x) :: os) (S (length os)) with "[%] [%] [H] [Ho]").
        - split_and!; [by rewrite /= firstn_all|by apply sublist_inserts_r|done|done].
        - intros cmp _ _ Hs Ho Hk. rewrite app_nil_r in Hs. apply ss_app. split_and!; [done|done|].
          eapply Forall_impl; [exact Hk|]. done.
        - unfold dlist. rewrite dlive_app. done.
        - cbn [drop]. rewrite skipn_all. done. }
      rewrite (dlist_flst this). iDestruct (flst_mid_ne with "H") as %?.
      destruct (decide _) as [_|Hn]; [|destruct Hn; split; congruence].
      wstep. iApply (flst_mid_value _ _ [] with "Ho"). iIntros "Ho". wstep.
      iApply (flst_mid_value with "H"). iIntros "H".
      destruct (f c x y) as [b|] eqn:Ec; last first.
      { wstep. wstep. unfold Q'. wstep. rewrite -!dlist_flst. iApply ("HQ" $! None (ks ++ (i,y) :: rs) 0 with "[%] [%] H Ho").
        - split_and!; [by rewrite app_nil_r|done|simpl; lia|by exists c, x, y].
        - intros cmp _ _ Hs _ _. done. }
      destruct b.
      - wstep. iApply (flst_mid_next _ _ [] with "Ho"). iIntros "Ho". wstep.
        rewrite -!dlist_flst. iApply (wp_mid_unlink _ [] with "Ho"). iIntros "Ho Hl". wstep.
        iAssert (wp (insert_before (Some i) (Some o)) (λ _, dlist this (ks ++ (o,x) :: (i,y) :: rs)))%I with "[H Hl]" as "Hw".
        { pose proof (wp_link this (ks ++ (i,y) :: rs) (length ks) o
            (DCell (Some other) (dfirst os (Some other)) (DLive x)) x) as Hlink.
          rewrite dpos_drop in Hlink; [|rewrite app_length /=; lia]. rewrite drop_app in Hlink.
          iApply (Hlink with "H Hl"); [rewrite app_length /=; lia|done|]. iIntros "H".
          unfold dins. rewrite take_app drop_app. done. }
        iApply (wp_wand with "Hw"). iIntros (_) "H". wstep.
        iApply (IH (S c) ks ((o,x) :: (i,y) :: rs) os with "H Ho"); [simpl in *; lia|].
        iIntros (r zs k Hm Hs) "H Ho". iApply ("HQ" $! r zs (S k) with "[%] [%] H Ho").
        + destruct Hm as (Hp&Hsub&Hk&Hr). split_and!.
          * rewrite Hp. cbn [take]. rewrite -!app_assoc. apply Permutation_app_head. cbn [app].
            etrans; [apply perm_swap|]. constructor. apply Permutation_middle.
          * etrans; [|exact Hsub]. apply sublist_app; [done|]. by apply sublist_cons.
          * simpl. lia.
          * destruct r; simpl; [lia|done].
        + intros cmp Hh Hw Hks Hos Hkos. apply Hs; [done|done| | |].
          * unfold dsorted in *. apply ss_app in Hks as (Hk&Hir&Hkir). apply ss_app. split_and!; [done| |].
            -- constructor; [done|]. apply StronglySorted_inv in Hir as [_ Hy].
               pose proof (Hh _ _ _ _ Ec) as Hxy. constructor.
               ++ unfold zcmp. simpl. apply not_true_iff_false. intros Hyx.
                  destruct Hw as [Hirr Htr _]. pose proof (Htr _ _ _ Hyx (eq_sym Hxy)). congruence.
               ++ eapply Forall_impl; [exact Hy|]. intros z Hz. unfold zcmp in *. simpl in *. apply not_true_iff_false. intros Hzx.
                  destruct Hw as [Hirr Htr _]. pose proof (Htr _ _ _ Hzx (eq_sym Hxy)). congruence.
            -- apply Forall_forall. intros z Hz. rewrite Forall_forall in Hkir. rewrite Forall_forall in Hkos.
               constructor; [|by apply Hkir]. specialize (Hkos z Hz). by inversion Hkos.
          * by apply StronglySorted_inv in Hos as [? _].
          * eapply Forall_impl; [exact Hkos|]. intros z Hz. by inversion Hz.
      - wstep. iApply (flst_mid_next with "H"). iIntros "H". wstep. rewrite -!dlist_flst.
        rewrite (cons_middle _ ks rs) app_assoc.
        iApply (IH (S c) (ks ++ [(i,y)]) rs ((o,x) :: os) with "H Ho"); [simpl in *; lia|].
        iIntros (r zs k Hm Hs) "H Ho". iApply ("HQ" $! r zs k with "[%] [%] H Ho"); [done|].
        intros cmp Hh Hw Hks Hos Hkos. apply Hs; [done|done|by rewrite -app_assoc|done|].
        apply Forall_app. split; [done|]. constructor; [|done].
        pose proof (Hh _ _ _ _ Ec) as Hxy. apply StronglySorted_inv in Hos as [_ Ho]. constructor; [done|].
        eapply Forall_impl; [exact Ho|]. intros z Hz. unfold zcmp in *. simpl in *.
        by apply (wo_incomp _ Hw _ x). }
    iApply (Hg fuel 0 [] xs ys with "H Ho"); [done|]. done.
  Qed.
  (*@ C94 remove_if(f), whatever the function object answers and whether or not it throws: f is called
     once for each element, in order; the list is well formed afterwards and holds exactly the
     elements that were not answered with true, those from a throwing call on untouched; the
     others have been freed. *)
  Lemma list_remove_if_throws fuel this (xs : list (loc * V)) (f : nat → V → option bool) :
    length xs < fuel →
    runs (is_dlist this xs) (xdl_remove_if fuel this f)
      (λ q h, q = (removing (λ c z, f c z.2) 0 xs).1 ∧ is_dlist this (removing (λ c z, f c z.2) 0 xs).2 h).
  Proof.
    intros Hf. eapply (runs_from _ _ _ (dlist this xs)
      (λ q, ⌜q = (removing (λ c z, f c z.2) 0 xs).1⌝ ∧ dlist this (removing (λ c z, f c z.2) 0 xs).2)%I); [by rewrite dlist_holds| |].
    - iIntros "H". iApply (wp_remove_if with "H"); [done|]. iIntros "H". by iSplit.
    - intros q. iIntros "[-> H]". iSplit; [done|]. by rewrite plain_dl.
  Qed.
  (*@ C94 in particular, after an exception the list holds, at their old addresses, some of the
     elements before the one f threw on, that element, and all those behind it. *)
  Lemma list_remove_if_rest (xs : list (loc * V)) (f : nat → loc * V → option bool) :
    (removing f 0 xs).1 = None →
    ∃ xs1 x xs2 ks, xs = xs1 ++ x :: xs2 ∧ f (length xs1) x = None ∧
      (removing f 0 xs).2 = ks ++ x :: xs2 ∧ sublist ks xs1.
  Proof. apply (removing_sub f 0 xs). Qed.
  (*@ C94 remove(value) with an operator== [f] that may throw or keep state, where value is not an
     element of the list: the same, each element being compared with value once. (For an element of
     the list itself see C60.) *)
  Lemma list_remove_throws fuel this (v : V) (xs : list (loc * V)) (f : nat → V → V → option bool) :
    length xs < fuel →
    runs (is_dlist this xs) (xdl_remove fuel this (DExt v) f)
      (λ q h, q = (removing (λ c z, f c z.2 v) 0 xs).1 ∧
              is_dlist this (removing (λ c z, f c z.2 v) 0 xs).2 h).
  Proof. apply (list_remove_if_throws fuel this xs (λ c x, f c x v)). Qed.
  (*@ C94 unique(f) of a non-empty list. *)
  Lemma list_unique_throws fuel this (y : loc * V) (xs : list (loc * V)) (f : nat → V → V → option bool) :
    length xs < fuel →
    runs (is_dlist this (y :: xs)) (xdl_unique fuel this f)
      (λ q h, q = (uniquing (λ c z1 z2, f c z1.2 z2.2) 0 y xs).1 ∧
              is_dlist this (y :: (uniquing (λ c z1 z2, f c z1.2 z2.2) 0 y xs).2) h).
  Proof.
    intros Hf. eapply (runs_from _ _ _ (dlist this (y :: xs))
      (λ q, ⌜q = (uniquing (λ c z1 z2, f c z1.2 z2.2) 0 y xs).1⌝ ∧
            dlist this (y :: (uniquing (λ c z1 z2, f c z1.2 z2.2) 0 y xs).2))%I); [by rewrite dlist_holds| |].
    - destruct y as [a y]. iIntros "H". iApply (wp_unique with "H"); [done|]. iIntros "H". by iSplit.
    - intros q. iIntros "[-> H]". iSplit; [done|]. by rewrite plain_dl.
  Qed.
  (*@ C94 ... and of an empty one, where f is not called. *)
  Lemma list_unique_empty fuel this (f : nat → V → V → option bool) :
    0 < fuel →
    runs (is_dlist this []) (xdl_unique fuel this f) (λ q h, q = Some tt ∧ is_dlist this [] h).
  Proof.
    intros Hf. eapply (runs_from _ _ _ (dlist this []) (λ q, ⌜q = Some tt⌝ ∧ dlist this [])%I); [by rewrite dlist_holds| |].
    - iIntros "H". iApply (wp_unique_nil with "H"); [done|]. iIntros "H". by iSplit.
    - intros q. iIntros "[-> H]". iSplit; [done|]. by rewrite plain_dl.
  Qed.
  (*@ C94 after an exception unique has kept the element f threw on and all those behind it. *)
  Lemma list_unique_rest (y : loc * V) (xs : list (loc * V)) (f : nat → loc * V → loc * V → option bool) :
    (uniquing f 0 y xs).1 = None →
    ∃ xs1 x xs2 ks z, xs = xs1 ++ x :: xs2 ∧ f (length xs1) x z = None ∧
      (uniquing f 0 y xs).2 = ks ++ x :: xs2 ∧ sublist ks xs1 ∧ last (y :: ks) = Some z.
  Proof. apply (uniquing_sub f 0 y xs). Qed.
  (*@ C94 merge(other, f), whatever f answers and whether or not it throws: both lists are well formed
     afterwards; the first k elements of the source have moved, the others are untouched; the
     destination holds its own elements in their old order and those k. Without an exception all
     have moved. If f is a strict weak order where it does not throw and both lists were sorted,
     the destination is sorted, also after an exception. *)
  Lemma list_merge_throws fuel this other (xs ys : list (loc * V)) (f : nat → V → V → option bool) :
    length xs + 2 * length ys < fuel →
    runs (both (is_dlist this xs) (is_dlist other ys)) (xdl_merge fuel this other f)
      (λ q h, ∃ zs k, both (is_dlist this zs) (is_dlist other (drop k ys)) h ∧
         Permutation zs (xs ++ take k ys) ∧ sublist xs zs ∧ k ≤ length ys ∧
         match q with Some _ => k = length ys | None => ∃ c x y, f c x y = None end ∧
         ∀ cmp : V → V → bool, honest f cmp → weak_order cmp →
           dsorted cmp xs.*2 → dsorted cmp ys.*2 → dsorted cmp zs.*2).
  Proof.
    intros Hf. eapply (runs_from _ _ _ (dlist this xs ∗ dlist other ys)
      (λ q, ∃ zs k, ⌜merging f xs ys q zs k⌝ ∧ ⌜stays f [] xs ys zs⌝ ∧ (dlist this zs ∗ dlist other (drop k ys)))%I);
      [by rewrite plain_both !dlist_holds| |].
    - iIntros "[H Ho]". iApply (wp_merge with "H Ho"); [done|]. iIntros (r zs k Hm Hs) "H Ho". iExists zs, k.
      iSplit; [done|]. iSplit; [done|]. iFrame.
    - intros q. iIntros "H". iDestruct "H" as (zs k (Hp&Hs&Hk&Hq) Hst) "H". iExists zs, k. iSplit.
      + change (λ h, both (is_dlist this zs) (is_dlist other (drop k ys)) h) with (both (is_dlist this zs) (is_dlist other (drop k ys))).
        by rewrite plain_both !dlist_holds.
      + iPureIntro. split_and!; [done..|]. intros cmp Hh Hw Hx Hy. apply dsorted_snd.
        apply Hst; [done|done|by apply dsorted_snd|by apply dsorted_snd|constructor].
  Qed.
  (*@ C94 When the function object is a plain function these are the calls of C29 and C33. *)
  Lemma list_pred_plain fuel this other (h : gmap loc (dcell V)) :
    (∀ f, xdl_remove_if fuel this (λ _ x, Some (f x)) h = (dl_remove_if fuel this f ;! ret (Some tt)) h) ∧
    (∀ f, xdl_unique fuel this (λ _ x y, Some (f x y)) h = (dl_unique fuel this f ;! ret (Some tt)) h) ∧
    (∀ f, xdl_merge fuel this other (λ _ x y, Some (f x y)) h = (dl_merge f fuel this other ;! ret (Some tt)) h).
  Proof.
    assert (∀ m : M heap unit, ∀ h, (m ;! ret (Some tt)) h = match m h with Ok (_, h') => Ok (Some tt, h') | UB e => UB e | NoFuel => NoFuel end) as Hend.
    { intros m h'. unfold bind. by destruct (m h') as [[[] ?]| |]. }
    split_and!; intros f; rewrite Hend.
    - unfold xdl_remove_if, dl_remove_if, dl_remove_by, bind.
      destruct (get_next (Some this) h) as [[p h1]| |]; [|done|done].
      destruct (get_next p h1) as [[n h2]| |]; [|done|done].
      eapply (loop_sim (λ a' a, a'.1.2 = a.1 ∧ a'.2 = a.2) (λ _, Some tt)); [|done].
      intros [[c p'] n'] [p1 n1] h' [Hp Hn]. simpl in Hp, Hn. subst p' n'. destruct (decide (p1 ≠ Some this)); [|done].
      destruct (d_value p1 h') as [[x h3]| |]; [|done|done]. cbn. destruct (f x).
      + destruct (unlink p1 h3) as [[[] h4]| |]; [|done|done]. destruct (delete_node p1 h4) as [[[] h5]| |]; [|done|done].
        destruct (get_next n1 h5) as [[nn h6]| |]; [|done|done]. cbn. eauto.
      + cbn. destruct (get_next n1 h3) as [[nn h6]| |]; [|done|done]. cbn. eauto.
    - unfold xdl_unique, dl_unique, bind.
      destruct (get_next (Some this) h) as [[pv h0]| |]; [|done|done].
      destruct (get_next pv h0) as [[p h1]| |]; [|done|done].
      destruct (get_next p h1) as [[n h2]| |]; [|done|done].
      eapply (loop_sim (λ a' a, a'.1.1.2 = a.1.1 ∧ a'.1.2 = a.1.2 ∧ a'.2 = a.2) (λ _, Some tt)); [|done].
      intros [[[c v'] p'] n'] [[v1 p1] n1] h' (Hv&Hp&Hn). simpl in Hv, Hp, Hn. subst v' p' n'. destruct (decide (p1 ≠ Some this)); [|done].
      destruct (d_value p1 h') as [[x h3]| |]; [|done|done]. destruct (d_value v1 h3) as [[y h4]| |]; [|done|done]. cbn. destruct (f x y).
      + destruct (unlink p1 h4) as [[[] h5]| |]; [|done|done]. destruct (delete_node p1 h5) as [[[] h6]| |]; [|done|done].
        cbn. destruct (get_next n1 h6) as [[nn h7]| |]; [|done|done]. cbn. eauto.
      + cbn. destruct (get_next n1 h4) as [[nn h7]| |]; [|done|done]. cbn. eauto.
    - unfold xdl_merge, dl_merge, bind.
      destruct (get_next (Some other) h) as [[o h0]| |]; [|done|done].
      destruct (get_next (Some this) h0) as [[i h1]| |]; [|done|done].
      match goal with |- match ?l with _ => _ end = match match loop fuel ?bd ?st ?s with _ => _ end with _ => _ end =>
        assert (l = match loop fuel bd st s with Ok (z, h1) => Ok (Some z, h1) | UB u => UB u | NoFuel => NoFuel end) as -> end.
      { eapply (loop_sim (λ a' a, a'.1.2 = a.1 ∧ a'.2 = a.2) Some); [|done].
        intros [[c o'] i'] [o1 i1] h' [Ho Hi]. simpl in Ho, Hi. subst o' i'. destruct (decide _); [|done].
        destruct (d_value o1 h') as [[x h3]| |]; [|done|done]. destruct (d_value i1 h3) as [[y h4]| |]; [|done|done]. cbn. destruct (f x y).
        - destruct (get_next o1 h4) as [[on h5]| |]; [|done|done]. destruct (unlink o1 h5) as [[[] h6]| |]; [|done|done].
          destruct (insert_before i1 o1 h6) as [[? h7]| |]; [|done|done]. cbn. eauto.
        - destruct (get_next i1 h4) as [[i2 h5]| |]; [|done|done]. cbn. eauto. }
      destruct (loop _ _ _ _) as [[z h2]| |]; [|done|done]. destruct (decide _).
      + destruct (get_next (Some other) h2) as [[fs h3]| |]; [|done|done]. by destruct (node_splice _ _ _ h3) as [[[] ?]| |].
      + done.
  Qed.
  (*@ C94 ... and remove, also when the reference is to an element of the list. *)
  Lemma list_remove_plain fuel this r (eqb : V → V → bool) (h : gmap loc (dcell V)) :
    xdl_remove fuel this r (λ _ x y, Some (eqb x y)) h = (dl_remove eqb fuel this r ;! ret (Some tt)) h.
  Proof.
    assert (∀ m : M heap unit, ∀ h, (m ;! ret (Some tt)) h = match m h with Ok (_, h') => Ok (Some tt, h') | UB e => UB e | NoFuel => NoFuel end) as Hend.
    { intros m h'. unfold bind. by destruct (m h') as [[[] ?]| |]. }
    rewrite Hend. unfold xdl_remove, dl_remove, dl_remove_by, bind.
    destruct (get_next (Some this) h) as [[p h1]| |]; [|done|done].
    destruct (get_next p h1) as [[n h2]| |]; [|done|done].
    eapply (loop_sim (λ a' a, a'.1.2 = a.1 ∧ a'.2 = a.2) (λ _, Some tt)); [|done].
    intros [[c p'] n'] [p1 n1] h' [Hp Hn]. simpl in Hp, Hn. subst p' n'. destruct (decide (p1 ≠ Some this)); [|done].
    destruct (d_value p1 h') as [[x h3]| |]; [|done|done]. destruct (d_deref r h3) as [[v h8]| |]; [|done|done]. cbn. destruct (eqb x v).
    - destruct (unlink p1 h8) as [[[] h4]| |]; [|done|done]. destruct (delete_node p1 h4) as [[[] h5]| |]; [|done|done].
      destruct (get_next n1 h5) as [[nn h6]| |]; [|done|done]. cbn. eauto.
    - cbn. destruct (get_next n1 h8) as [[nn h6]| |]; [|done|done]. cbn. eauto.
  Qed.
End pred.
