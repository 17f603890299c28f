(** erase with a Compare or == that throws: what the loop of rbtree.hpp 463-527 leaves behind. Proof
    file; the invariant is that of RbDel.v. *)
From Verif Require Export CmpSpec RbDel.

Section wp.
  Context {C : Type}.
  Notation heap := (gmap loc C).
  Notation iProp := (bi_car (hpropI C)).

  Lemma wp_ext {A} (m m' : M heap A) Q : (∀ h, m h = m' h) → wp m' Q ⊢ wp m Q.
  Proof.
    intros Hm. apply hentails_intro. intros σ. with_strategy transparent [wp] (unfold wp; simpl).
    intros Hw σf Hd. rewrite Hm. by apply Hw.
  Qed.
  Lemma wp_tdo {A B} (m : M heap A) (k : A → T heap B) c Q :
    wp m (λ a, wp (k a c) Q) ⊢ wp (tbind (tdo m) k c) Q.
  Proof.
    iIntros "H". iApply (wp_ext _ (let! a := m in k a c)).
    { intros h. unfold tbind, tdo, bind, ret. by destruct (m h) as [[a h1]| |]. }
    by iApply wp_bind.
  Qed.
  Lemma wp_tassoc {A B D} (p : T heap A) (k1 : A → T heap B) (k2 : B → T heap D) c Q :
    wp (tbind p (λ a, tbind (k1 a) k2) c) Q ⊢ wp (tbind (tbind p k1) k2 c) Q.
  Proof.
    iIntros "H". iApply wp_ext; [|iExact "H"]. intros h. unfold tbind, bind, ret.
    destruct (p c h) as [[[[a c1]|] h1]| |]; done.
  Qed.
  Lemma wp_tbind_ret {A B} (a : A) (k : A → T heap B) c Q : wp (k a c) Q ⊢ wp (tbind (tret a) k c) Q.
  Proof. iIntros "H". iApply wp_ext; [|iExact "H"]. done. Qed.
  Lemma wp_tret {A} (a : A) c (Q : option (A * nat) → iProp) : Q (Some (a, c)) ⊢ wp (tret a c) Q.
  Proof. iIntros "H". by iApply wp_ret. Qed.
  Lemma wp_tcall {A B} P (f : nat → option A) (b : A) (k : A → T heap B) c Q :
    (∀ c b', f c = Some b' → b' = b) → (P ⊢ Q None) → (P ⊢ wp (k b (S c)) Q) →
    P ⊢ wp (tbind (tcall f) k c) Q.
  Proof.
    intros Hf HP Hk. iIntros "H". destruct (f c) as [b'|] eqn:E.
    - iApply (wp_ext _ (k b (S c))).
      { intros h. unfold tbind, tcall, bind, ret. rewrite E. by rewrite (Hf _ _ E). }
      by iApply Hk.
    - iApply (wp_ext _ (ret None)).
      { intros h. unfold tbind, tcall, bind, ret. by rewrite E. }
      iApply wp_ret. by iApply HP.
  Qed.
  Lemma wp_tbind_val {A B} P2 (p : T heap A) (b : A) (k : A → T heap B) c (Q : option (B * nat) → iProp) P1 :
    (P1 ⊢ wp (p c) (λ z, match z with None => Q None | Some (b', _) => ⌜b' = b⌝ ∧ P2 end)) →
    (∀ c', P2 ⊢ wp (k b c') Q) → P1 ⊢ wp (tbind p k c) Q.
  Proof.
    iIntros (Hp Hk) "H". iApply wp_bind. iApply (wp_wand with "[H]"); [by iApply Hp|].
    iIntros ([[b' c']|]) "H"; [|by iApply wp_ret]. iDestruct "H" as "[-> H]". by iApply Hk.
  Qed.
  Lemma wp_tloop {A B} (I : nat → A → iProp) (body : A → T heap (A + B)) Q :
    (∀ n a c, I n a ⊢ wp (body a c) (λ r,
       match r with
       | None => Q None
       | Some (inl a', _) => ∃ n', ⌜n = S n'⌝ ∧ I n' a'
       | Some (inr b, c') => Q (Some (b, c')) end)) →
    ∀ n a c fuel, n < fuel → I n a ⊢ wp (tloop fuel body a c) Q.
  Proof.
    intros Hbody n a c fuel. revert n a c.
    induction fuel as [|fuel IH]; intros n a c Hn; [lia|].
    cbn [tloop]. iIntros "HI". iApply wp_bind.
    iApply (wp_wand with "[HI]"); [by iApply Hbody|].
    iIntros ([[[a'|b] c']|]) "H".
    - iDestruct "H" as (n' ->) "H". iApply (IH with "H"). lia.
    - by iApply wp_ret.
    - by iApply wp_ret.
  Qed.
End wp.

Ltac tstep :=
  cbn beta iota;
  repeat (lazymatch goal with
  | |- envs_entails _ (wp (tbind (tbind _ _) _ _) _) => iApply wp_tassoc; cbn beta iota
  end);
  lazymatch goal with
  | |- envs_entails _ (wp (tbind (tdo _) _ _) _) => iApply wp_tdo
  | |- envs_entails _ (wp (tbind (tret _) _ _) _) => iApply wp_tbind_ret
  | |- envs_entails _ (wp (tret _ _) _) => iApply wp_tret
  | _ => wstep
  end; cbn beta iota.
Ltac tsteps := repeat tstep.
Ltac tassoc :=
  cbn beta iota;
  repeat (lazymatch goal with
  | |- envs_entails _ (wp (tbind (tbind _ _) _ _) _) => iApply wp_tassoc; cbn beta iota
  end).

Section del.
  Context {K V : Type}.
  Notation C := (rbcell V).
  Notation heap := (gmap loc C).
  Notation iProp := (bi_car (hpropI C)).
  Notation tree := (tree V).
  Notation tframe := (@tframe V).
  Context `{Allocator C}.
  Implicit Types (t : tree) (x n par hdr : loc) (c : bool) (k : list tframe) (p q : ptr) (f : tframe).
  Context (keyof : V → K) (lt eqb : K → K → bool) (Hord : key_order lt eqb).
  Context (ltf eqf : nat → K → K → option bool) (Hlt : answers_like ltf lt) (Heq : answers_like eqf eqb).
  Notation all_lt := (all_lt keyof lt).
  Notation all_gt := (all_gt keyof lt).
  Notation focus_ok := (focus_ok keyof lt).
  Notation lone := (lone keyof lt eqb).

  Definition torn_post {A} hdr (E : list (loc * V)) (z : option A) : iProp :=
    match z with
    | None => (∃ t, ⌜elems t = E⌝ ∧ rzip hdr [] t)%I
    | Some _ => ⌜True⌝%I
    end.
  Lemma torn_now {A} hdr k t E : lefts k ++ elems t ++ rights k = E → rzip hdr k t ⊢ torn_post (A:=A) hdr E None.
  Proof.
    intros HE. iIntros "H". iExists (plug k t). rewrite rzip_plug. iSplit; [|done].
    iPureIntro. by rewrite elems_plug.
  Qed.

  Lemma wp_xremove_loop hdr key t0 (mu : nat) fuel cnt :
    lone key (elems t0) → focus_ok key [] t0 mu → mu < fuel →
    rzip hdr [] t0 -∗
    wp (tloop fuel (λ '(root, pa),
      let@ r := tdo (get_edge root) in
      match r with
      | None => tret (inr (pa, None))
      | Some _ =>
          let@ pa := tdo (getf parent r) in
          let@ d := tdo (node_data r) in
          let@ isless := tcall (λ i, ltf i key (keyof d)) in
          if isless : bool then
            let@ l := tdo (getf left r) in
            let@ b := tdo (some_both_black l) in
            tdo (if b : bool then let! r' := move_left r in set_edge root r' else ret tt) ;@
            let@ r := tdo (get_edge root) in
            let@ a := tdo (addr r) in
            tret (inl (ELeft a, pa))
          else
            let@ l := tdo (getf left r) in
            let@ lr := tdo (is_red l) in
            let@ isless :=
              (if lr : bool then
                 let@ r' := tdo (rotate_right r) in
                 tdo (set_edge root r') ;@
                 let@ r := tdo (get_edge root) in
                 let@ d := tdo (node_data r) in
                 tcall (λ i, ltf i key (keyof d))
               else tret isless) in
            let@ r := tdo (get_edge root) in
            let@ found :=
              (if negb isless then
                 let@ d := tdo (node_data r) in
                 let@ eq := tcall (λ i, eqf i key (keyof d)) in
                 if eq : bool then let@ rr := tdo (getf right r) in tret (negb (nonnull rr))
                 else tret false
               else tret false) in
            if found : bool then
              let@ deleted := tdo (get_edge root) in
              tdo (set_edge root None) ;@
              tret (inr (pa, deleted))
            else
              let@ rr := tdo (getf right r) in
              let@ b := tdo (some_both_black rr) in
              (if b : bool then
                 let@ r' := tdo (move_right r) in
                 tdo (set_edge root r') ;@
                 let@ r := tdo (get_edge root) in
                 let@ d := tdo (node_data r) in
                 tcall (λ i, ltf i key (keyof d))
               else tret false) ;@
              let@ r := tdo (get_edge root) in
              let@ d := tdo (node_data r) in
              let@ eq := tcall (λ i, eqf i key (keyof d)) in
              if eq : bool then
                let@ deleted := tdo (rb_replace_by_min fuel hdr root) in
                let@ pa := tdo (get_edge root) in
                tret (inr (pa, deleted))
              else
                let@ a := tdo (addr r) in
                tret (inl (ERight a, pa))
      end) (EParent hdr, Some hdr) cnt) (torn_post hdr (elems t0)).
  Proof.
    intros Hs Hfo Hf. iIntros "H". set (E := elems t0) in *.
    iApply (wp_tloop (λ i z, ∃ k t mu', ⌜mu' ≤ i ∧ length k + mu' ≤ mu ∧ z.1 = edge_at hdr k ∧
       (t = Leaf → fall_ok hdr k z.2) ∧ lefts k ++ elems t ++ rights k = E ∧
       all_lt key (lefts k) ∧ all_gt key (rights k) ∧ focus_ok key k t mu'⌝ ∧ rzip hdr k t)%I with "[H]").
    2:exact Hf.
    2:{ iExists [], t0, mu. iSplit; [iPureIntro|done]. split_and!; try done; try constructor.
        simpl. by rewrite app_nil_r. }
    clearbody E. clear Hfo t0.
    intros i [root par] cnt'. iIntros "H". iDestruct "H" as (k t mu') "[%Hx H]".
    destruct Hx as (Hi&Hlen&Hroot&Hfall&HE&HL&HR&Hfo). simpl in Hroot, Hfall. subst root.
    tstep. iApply (wp_focus with "H"). iIntros "H".
    destruct t as [|ca l x v r]; cbn beta iota; cbn [rootp].
    { (* fell off *) tstep. done. }
    clear Hfall.
    tstep. iApply (wp_focus_parent with "H"). iIntros "H".
    tstep. iApply (wp_focus_data with "H"). iIntros "H".
    pose proof Hs as Hs'. rewrite -HE in Hs'. simpl in Hs'.
    destruct (nondesc_node _ _ _ Hord key _ _ _ _ _ _ (proj1 Hs')) as [Hs1 Hs2].
    cbn beta iota. iApply (wp_tcall _ _ (lt key (keyof v)) with "H"); [intros ??; apply Hlt|by apply torn_now|]. iIntros "H". cbn beta iota.
    destruct (lt key (keyof v)) eqn:Elt.
    { (* go left *)
      destruct Hfo as [(c0&m&Hc0&Hfo&Hk&->)|(?&?&?&?&?&?&?&_&_&Hx&_)]; [|naive_solver congruence].
      tstep. iApply (wp_focus_left with "H"). iIntros "H".
      tstep. iApply (wp_focus_reads_left with "H"); [apply reads_some_both_black|]. iIntros "H".
      tstep. iApply (wp_maybe_move_left with "H").
      { intros Hb. destruct l; [done|]. split; [done|]. eapply move_right_exists; [exact Hfo|done|done]. }
      iIntros "H".
      assert (Forall (λ a, lt key (keyof a.2) = true) ((x, v) :: elems r ++ rights k)) as HR'.
      { apply (Forall_app _ ((x, v) :: elems r)). split; [by apply Hs2|done]. }
      destruct (nonleaf l && both_blackb l) eqn:Eb.
      - destruct (rem_left_move c0 ca l x v r m Hfo Eb) as (c1&c2&l2&x2&v2&r2&m2&Ht&Hc12&Hf2&Hl2&Hm2&[es Hes]&Hok).
        pose proof (elems_tmovel (Node ca l x v r)) as HE2. rewrite Ht in HE2. rewrite Ht.
        tstep. iApply (wp_focus with "H"). iIntros "H". cbn beta iota; cbn [rootp]. tsteps.
        iExists (pred i). iSplit; [iPureIntro; simpl in *; lia|].
        iExists (FL c1 x2 v2 r2 :: k), l2, (meas l2 m2). rewrite rzip_left. iSplit; [iPureIntro|done].
        split_and!; [simpl in *; lia|simpl in *; lia|done|done| |simpl; by rewrite app_nil_r| |].
        + rewrite -HE. simpl. simpl in HE2. rewrite app_nil_r. rewrite -HE2. by rewrite -!app_assoc.
        + (* rights: x2 and r2 are greater *)
          simpl. rewrite (app_comm_cons (elems r)) Hes -app_assoc in HR'. by apply Forall_app in HR' as [_ HR'].
        + apply focus_child; [done| |done]. exists c2, c0, m. split_and!; [|done|done].
          intros Hk0. simpl. apply Hc12. by rewrite (Hc0 Hk0).
      - destruct (rem_left_stay c0 ca l x v r m Hfo Eb) as (m2&Hf2&Hm2&Hok).
        tstep. iApply (wp_focus with "H"). iIntros "H". cbn beta iota; cbn [rootp]. tsteps.
        iExists (pred i). iSplit; [iPureIntro; simpl in *; lia|].
        iExists (FL ca x v r :: k), l, (meas l m2). rewrite rzip_left. iSplit; [iPureIntro|done].
        split_and!; [simpl in *; lia|simpl in *; lia|done| | |simpl; by rewrite app_nil_r|done|].
        + intros ->. simpl. split; [done|]. exists c0, m. split_and!; [done| |done].
          simpl. by destruct Hfo.
        + rewrite -HE. simpl. rewrite app_nil_r. by rewrite -!app_assoc.
        + apply focus_child; [done| |done]. exists c0, c0, m. split_and!; [|done|done].
          intros Hk0. by rewrite (Hc0 Hk0). }
    (* go right *)
    clear Hs2.
    assert (all_lt key (elems l)) as Hlk.
    { destruct Hs' as [Hs1' Hs2'].
      apply sorted_app in Hs1' as (_&Hs1'&_). apply sorted_app in Hs1' as (Hs1'&_&_).
      apply sorted_mid in Hs1' as [Hs1' _].
      apply sorted_app in Hs2' as (_&Hs2'&_). apply sorted_app in Hs2' as (Hs2'&_&_).
      apply sorted_mid in Hs2' as [Hs2' _].
      unfold all_lt. rewrite Forall_forall. intros a Ha.
      rewrite Forall_forall in Hs1'. rewrite Forall_forall in Hs2'.
      specialize (Hs1' a Ha). specialize (Hs2' a Ha). simpl in *.
      destruct (lt (keyof a.2) key) eqn:Ea; [done|]. exfalso.
      assert (lt key (keyof a.2) = false) as Ea' by exact (ko_ntrans _ _ Hord _ _ _ Elt Hs1').
      assert (eqb key (keyof a.2) = true) as Ee by (by apply (ko_eqb _ _ Hord)).
      specialize (Hs2' Ee). apply (three_way _ _ Hord _ _ Elt) in Hs2'.
      pose proof (le_lt_trans _ _ Hord _ _ _ Hs1' Hs2'). congruence. }
    tstep. iApply (wp_focus_left with "H"). iIntros "H".
    tstep. iApply (wp_focus_reads_left with "H"); [apply reads_is_red|]. iIntros "H".
    destruct (isred l) eqn:El.
    { (* the left child is red: rotate *)
      destruct Hfo as [(c0&m&Hc0&Hfo&Hk&->)|(?&?&?&?&?&?&?&Hx&_)].
      2:{ exfalso. simplify_eq. simpl in Hx. case_match; [done|]. naive_solver congruence. }
      destruct (rem_right_rot c0 ca l x v r m Hfo El) as (a&y&w&b&m2&Ht&->&Hf2&Hm2&Hok).
      iDestruct "H" as "[Hc Ht]". tsteps. iApply (wp_rotate_right with "Ht"). iIntros "Ht".
      tstep. iApply (wp_set_edge with "Hc"). iIntros "Hc".
      iAssert (rzip hdr k (Node ca a y w (Node true b x v r))) with "[Hc Ht]" as "H"; [iFrame|].
      tstep. iApply (wp_focus with "H"). iIntros "H". cbn beta iota; cbn [rootp].
      tstep. iApply (wp_focus_data with "H"). iIntros "H".
      assert (lefts k ++ elems (Node ca a y w (Node true b x v r)) ++ rights k = E) as HE'.
      { rewrite -HE. simpl. by repeat (rewrite -app_assoc; simpl). }
      tassoc. iApply (wp_tcall _ _ (lt key (keyof w)) with "H"); [intros ??; apply Hlt|by apply torn_now|]. iIntros "H".
      assert (lt (keyof w) key = true) as Hw.
      { apply Forall_app in Hlk as [_ Hlk]. by inversion Hlk. }
      assert (lt key (keyof w) = false) as Hw' by (by apply (lt_asym _ _ Hord)).
      assert (eqb key (keyof w) = false) as Hwe by (by apply (eqb_false_gt _ _ Hord)).
      cbn beta. rewrite Hw'.
      tstep. iApply (wp_focus with "H"). iIntros "H". cbn beta iota; cbn [rootp negb].
      tstep. iApply (wp_focus_data with "H"). iIntros "H".
      tassoc. iApply (wp_tcall _ _ (eqb key (keyof w)) with "H"); [intros ??; apply Heq|by apply torn_now|]. iIntros "H".
      cbn beta. rewrite Hwe. tstep.
      tstep. iApply (wp_focus_right with "H"). iIntros "H".
      tstep. iApply (wp_focus_reads_right with "H"); [apply reads_some_both_black|]. iIntros "H".
      cbn [nonleaf both_blackb isred negb andb]. tsteps.
      iApply (wp_focus with "H"). iIntros "H". cbn beta iota; cbn [rootp].
      tstep. iApply (wp_focus_data with "H"). iIntros "H".
      tassoc. iApply (wp_tcall _ _ (eqb key (keyof w)) with "H"); [intros ??; apply Heq|by apply torn_now|]. iIntros "H".
      cbn beta. rewrite Hwe. tsteps.
      iExists (pred i). iSplit; [iPureIntro; simpl in *; lia|].
      iExists (FR ca a y w :: k), (Node true b x v r), (meas (Node true b x v r) m2).
      rewrite rzip_right. iSplit; [iPureIntro|done].
      split_and!; [simpl in *; lia|simpl in *; lia|done|done| | |done|].
      + rewrite -HE. simpl. by rewrite -!app_assoc.
      + simpl. apply Forall_app. split; [done|]. simpl in Hlk.
        rewrite (app_assoc (elems a) [(y, w)] (elems b)) in Hlk. by apply Forall_app in Hlk as [Hlk _].
      + apply focus_child; [done| |done]. exists c0, c0, m. split_and!; [|done|done].
        intros Hk0. by rewrite (Hc0 Hk0). }
    tsteps. iApply (wp_focus with "H"). iIntros "H". cbn beta iota; cbn [rootp negb].
    iApply (wp_tbind_val (rzip hdr k (Node ca l x v r)) _ (eqb key (keyof v) && negb (nonleaf r)) with "H").
    { iIntros "H". tstep. iApply (wp_focus_data with "H"). iIntros "H".
      tassoc. iApply (wp_tcall _ _ (eqb key (keyof v)) with "H"); [intros ??; apply Heq|by apply torn_now|]. iIntros "H".
      cbn beta. destruct (eqb key (keyof v)); [|tstep; by iSplit].
      tstep. iApply (wp_focus_right with "H"). iIntros "H". tstep. iSplit; [|done]. iPureIntro. by destruct r. }
    intros cnt2. iIntros "H".
    assert (eqb key (keyof v) = true → E = (lefts k ++ elems l) ++ (x, v) :: elems r ++ rights k) as HEx.
    { intros _. rewrite -HE. simpl. by rewrite -!app_assoc. }
    assert (eqb key (keyof v) = false → all_lt key (lefts k ++ elems l ++ [(x, v)])) as Hpush.
    { intros He. apply Forall_app. split; [done|]. apply Hs1. by apply (three_way _ _ Hord). }
    destruct (eqb key (keyof v) && negb (nonleaf r)) eqn:Edel.
    { (* delete here *)
      apply andb_true_iff in Edel as [Ee Er]. destruct r; [|done]. clear Er.
      destruct Hfo as [(c0&m&Hc0&Hfo&Hk&->)|(?&?&?&?&?&?&?&Hx&_)].
      2:{ exfalso. simplify_eq. simpl in Hx. case_match; [done|]. naive_solver congruence. }
      destruct (rem_right_leaf _ _ _ _ _ Hfo El) as (->&->&->). simpl in Hk.
      tstep. iApply (wp_focus with "H"). iIntros "H". cbn beta iota; cbn [rootp].
      iDestruct "H" as "[Hc Ht]". simpl. iDestruct "Ht" as "(Hx&_&_)".
      tstep. iApply (wp_set_edge with "Hc"). iIntros "Hc". tstep. done. }
    tstep. iApply (wp_focus_right with "H"). iIntros "H".
    tstep. iApply (wp_focus_reads_right with "H"); [apply reads_some_both_black|]. iIntros "H".
    cbn beta iota.
    destruct (nonleaf r && both_blackb r) eqn:Eb.
    { (* borrow *)
      destruct Hfo as [(c0&m&Hc0&Hfo&Hk&->)|(?&?&?&?&?&?&?&Hx&_)].
      2:{ exfalso. simplify_eq. simpl in Hx. case_match; [done|]. apply andb_true_iff in Eb as [_ Eb].
          unfold both_blackb in Eb. destruct Hx as (_&Hx&_). by rewrite Hx in Eb. }
      assert (l ≠ Leaf ∧ r ≠ Leaf) as [Hl0 Hr0].
      { destruct r; [done|]. split; [|done]. eapply move_left_exists; [exact Hfo|done|done|done]. }
      iDestruct "H" as "[Hc Ht]". tsteps. iApply (wp_move_right with "Ht"); [done..|]. iIntros "Ht".
      tstep. iApply (wp_set_edge with "Hc"). iIntros "Hc".
      iAssert (rzip hdr k (tmover (Node ca l x v r))) with "[Hc Ht]" as "H"; [iFrame|].
      destruct (rem_right_move c0 ca l x v r m Hfo El Eb) as (c1&c2&l2&x2&v2&r2&m2&Ht&Hc12&_&Hm2&Hok&Hcase).
      pose proof (elems_tmover (Node ca l x v r)) as HE2. rewrite Ht in HE2. rewrite Ht.
      assert (lefts k ++ elems (Node c1 l2 x2 v2 r2) ++ rights k = E) as HE3 by (by rewrite HE2).
      simpl in HE2.
      assert (k ≠ [] → c2 = c1) as Hc2.
      { intros Hk0. apply Hc12. by rewrite (Hc0 Hk0). }
      tstep. iApply (wp_focus with "H"). iIntros "H". cbn beta iota; cbn [rootp].
      tstep. iApply (wp_focus_data with "H"). iIntros "H".
      tassoc. iApply (wp_tcall _ _ (lt key (keyof v2)) with "H"); [intros ??; apply Hlt|by apply torn_now|]. iIntros "H".
      tstep. iApply (wp_focus with "H"). iIntros "H". cbn beta iota; cbn [rootp].
      tstep. iApply (wp_focus_data with "H"). iIntros "H".
      tassoc. iApply (wp_tcall _ _ (eqb key (keyof v2)) with "H"); [intros ??; apply Heq|by apply torn_now|]. iIntros "H". cbn beta.
      destruct Hcase as [(->&->&Hel&Hr2&Hf2)|(lr&r2'&Hsp&->&Hel)].
      - assert (elems r2 = elems r) as Her.
        { rewrite Hel in HE2. apply (inj (app (elems l))) in HE2. congruence. }
        assert (r2 ≠ Leaf) by (by apply isred_nonleaf).
        destruct (eqb key (keyof v)) eqn:Ee.
        + (* found: replace by the successor *)
          tstep. iApply (wp_replace_by_min with "H"); [done|done|simpl in *; lia|].
          iIntros (mn mv r' cell) "%Hx H Hx". destruct Hx as (HEr&Hbr&Hcr&Hd).
          tstep. iApply (wp_focus with "H"). iIntros "H". tstep. done.
        + tsteps. iExists (pred i). iSplit; [iPureIntro; simpl in *; lia|].
          iExists (FR c1 l2 x v :: k), r2, (meas r2 m2). rewrite rzip_right. iSplit; [iPureIntro|done].
          split_and!; [simpl in *; lia|simpl in *; lia|done|done| | |done|].
          * rewrite -HE. simpl. rewrite Hel Her. by rewrite -!app_assoc.
          * simpl. rewrite Hel. by apply Hpush.
          * apply focus_child; [done| |done]. exists c2, c0, m. split_and!; done.
      - assert (lt (keyof v2) key = true) as Hw.
        { rewrite Hel in Hlk. apply Forall_app in Hlk as [_ Hlk]. by inversion Hlk. }
        rewrite (eqb_false_gt _ _ Hord _ _ Hw). tsteps.
        iExists (pred i). iSplit; [iPureIntro; simpl in *; lia|].
        iExists (FR c1 l2 x2 v2 :: k), _, (meas (Node false lr x v r2') m2). rewrite rzip_right.
        iSplit; [iPureIntro|iExact "H"].
        split_and!; [simpl in *; lia|simpl in *; lia|done|done| | |done|].
        + rewrite -HE. simpl. simpl in HE2. rewrite -HE2. by repeat (rewrite -app_assoc; simpl).
        + simpl. apply Forall_app. split; [done|]. rewrite Hel (app_assoc (elems l2) [(x2, v2)]) in Hlk.
          by apply Forall_app in Hlk as [Hlk _].
        + right. exists false, lr, x, v, r2', m2. split_and!; [done|done| |done|done].
          exists c2, c0, m. split_and!; [done| |done]. done. }
    (* stay *)
    tstep. tstep.
    assert (∃ c1 c2 m0 m2, (k ≠ [] → c2 = ca) ∧ kok k c1 m0 ∧ rem_focus r m2 ∧ meas r m2 < mu' ∧
      frame_ok (frecolor c2 (FR ca l x v)) (isred r) m2 c1 m0 ∧
      (r = Leaf → balanced (recolor c2 (Node ca l x v r)) m0 ∧ c1 = c2)) as (c1&c2&m0&m2&Hc2&Hk&Hf2&Hm2&Hok&Hlf).
    { destruct Hfo as [(c0&m&Hc0&Hfo&Hk&->)|(?&?&?&?&?&m&?&Hsp&Hk&_&->)].
      - destruct (rem_right_stay c0 ca l x v r m Hfo El Eb) as (m2&Hf2&Hc&Hm2&Hok).
        exists c0, c0, m, m2. split_and!; [done|done|done|done|done|]. intros _. by destruct Hfo.
      - destruct ca; [by simplify_eq|].
        destruct (rem_special_right false l x v r m Hsp) as (m2&Hf2&_&Hr2&Hm2&Hok).
        exists false, false, m, m2. rewrite Hr2. split_and!; [done|done|done|done|done|].
        intros ->. done. }
    iApply (wp_focus with "H"). iIntros "H". cbn beta iota; cbn [rootp].
    tstep. iApply (wp_focus_data with "H"). iIntros "H".
    tassoc. iApply (wp_tcall _ _ (eqb key (keyof v)) with "H"); [intros ??; apply Heq|by apply torn_now|]. iIntros "H". cbn beta.
    destruct (eqb key (keyof v)) eqn:Ee.
    - assert (r ≠ Leaf) as Hrn by (by destruct r).
      tstep. iApply (wp_replace_by_min with "H"); [done|done|simpl in *; lia|].
      iIntros (mn mv r' cell) "%Hx H Hx". destruct Hx as (HEr&Hbr&Hcr&Hd).
      tstep. iApply (wp_focus with "H"). iIntros "H". tstep. done.
    - tsteps. iExists (pred i). iSplit; [iPureIntro; simpl in *; lia|].
      iExists (FR ca l x v :: k), r, (meas r m2). rewrite rzip_right. iSplit; [iPureIntro|done].
      split_and!; [simpl in *; lia|simpl in *; lia|done| | | |done|].
      + intros ->. destruct (Hlf eq_refl) as [Hlf1 ->]. simpl. split; [done|]. exists c2, m0. done.
      + rewrite -HE. simpl. by rewrite -!app_assoc.
      + simpl. by apply Hpush.
      + apply focus_child; [done| |done]. exists c2, c1, m0. split_and!; done.
  Qed.

End del.
