(** Pure facts about the tree shapes of RbSpec.v. Proof file. *)
From Coq Require Export ssreflect.
From Verif Require Export RbSpec.

Ltac rr := repeat (match goal with H : isred ?t = _ |- context [isred ?t] => rewrite H end; simpl).
Ltac bs := simpl in *; destruct_and?; subst; rr; simpl in *; split_and?; try done; try congruence; try (by destruct_or?; congruence); try naive_solver.
Section pure.
  Context {V : Type}.
  Notation tree := (tree V).
  Implicit Types (t l r : tree) (v : V) (n m : nat) (x : loc) (c : bool).

  Definition lsub t := match t with Leaf => Leaf | Node _ l _ _ _ => l end.
  Definition rsub t := match t with Leaf => Leaf | Node _ _ _ _ r => r end.
  Definition recolor c t := match t with Leaf => Leaf | Node _ l x v r => Node c l x v r end.
  Definition negroot t := match t with Leaf => Leaf | Node c l x v r => Node (negb c) l x v r end.
  Definition tflip t := match t with Leaf => Leaf
    | Node c l x v r => Node (negb c) (negroot l) x v (negroot r) end.
  Definition rotl t := match t with
    | Node c a x v (Node _ b y w d) => Node c (Node true a x v b) y w d
    | _ => t end.
  Definition rotr t := match t with
    | Node c (Node _ a x v b) y w d => Node c a x v (Node true b y w d)
    | _ => t end.
  Definition tfix t :=
    let t := if isred (rsub t) && negb (isred (lsub t)) then rotl t else t in
    let t := if isred (lsub t) && isred (lsub (lsub t)) then rotr t else t in
    if isred (lsub t) && isred (rsub t) then tflip t else t.
  Definition set_rsub t' t := match t with Leaf => Leaf | Node c l x v _ => Node c l x v t' end.
  Definition tmovel t :=
    let t := tflip t in
    if isred (lsub (rsub t)) then tflip (rotl (set_rsub (rotr (rsub t)) t)) else t.
  Definition tmover t :=
    let t := tflip t in
    if isred (lsub (lsub t)) then tflip (rotr t) else t.

  Lemma elems_recolor c t : elems (recolor c t) = elems t.
  Proof. by destruct t. Qed.
  Lemma elems_negroot t : elems (negroot t) = elems t.
  Proof. by destruct t. Qed.
  Lemma elems_tflip t : elems (tflip t) = elems t.
  Proof. destruct t; [done|]. simpl. by rewrite !elems_negroot. Qed.
  Lemma elems_rotl t : elems (rotl t) = elems t.
  Proof. destruct t as [|?? ? ? []]; simpl; try done. by rewrite -app_assoc. Qed.
  Lemma elems_rotr t : elems (rotr t) = elems t.
  Proof. destruct t as [|? [] ? ? ?]; simpl; try done. by rewrite -app_assoc. Qed.
  Lemma elems_tfix t : elems (tfix t) = elems t.
  Proof.
    unfold tfix. repeat case_match; rewrite ?elems_tflip ?elems_rotr ?elems_rotl; done.
  Qed.
  Lemma elems_set_rsub t t' : elems t' = elems (rsub t) → elems (set_rsub t' t) = elems t.
  Proof. destruct t; [done|]. simpl. by intros ->. Qed.
  Lemma elems_tmovel t : elems (tmovel t) = elems t.
  Proof.
    unfold tmovel. case_match; rewrite ?elems_tflip ?elems_rotl; [|done].
    by rewrite elems_set_rsub ?elems_tflip ?elems_rotr.
  Qed.
  Lemma elems_tmover t : elems (tmover t) = elems t.
  Proof. unfold tmover. case_match; rewrite ?elems_tflip ?elems_rotr ?elems_tflip; done. Qed.

  (** Contexts. *)
  Inductive tframe := FL c x v r | FR c l x v.
  Definition fill f t := match f with FL c x v r => Node c t x v r | FR c l x v => Node c l x v t end.
  Definition fnode f := match f with FL _ x _ _ | FR _ _ x _ => x end.
  Definition fval f := match f with FL _ _ v _ | FR _ _ _ v => v end.
  Definition frecolor c f := match f with FL _ x v r => FL c x v r | FR _ l x v => FR c l x v end.
  Definition fcolor f := match f with FL c _ _ _ | FR c _ _ _ => c end.
  Fixpoint plug (k : list tframe) t := match k with [] => t | f :: k => plug k (fill f t) end.
  Definition flefts f : list (loc * V) :=
    match f with FL _ _ _ _ => [] | FR _ l x v => elems l ++ [(x, v)] end.
  Definition frights f : list (loc * V) :=
    match f with FL _ x v r => (x, v) :: elems r | FR _ _ _ _ => [] end.
  Fixpoint lefts (k : list tframe) : list (loc * V) :=
    match k with [] => [] | f :: k => lefts k ++ flefts f end.
  Fixpoint rights (k : list tframe) : list (loc * V) :=
    match k with [] => [] | f :: k => frights f ++ rights k end.
  Lemma elems_fill f t : elems (fill f t) = flefts f ++ elems t ++ frights f.
  Proof. destruct f; simpl; [done|]. by rewrite app_nil_r -app_assoc. Qed.
  Lemma elems_plug k t : elems (plug k t) = lefts k ++ elems t ++ rights k.
  Proof.
    revert t. induction k as [|f k IH]; intros t; simpl; [by rewrite app_nil_r|].
    by rewrite IH elems_fill -!app_assoc.
  Qed.

  (** All fixups on the way to the root. *)
  Fixpoint climb (k : list tframe) t := match k with [] => t | f :: k => climb k (tfix (fill f t)) end.
  Lemma elems_climb k t : elems (climb k t) = lefts k ++ elems t ++ rights k.
  Proof.
    revert t. induction k as [|f k IH]; intros t; simpl; [by rewrite app_nil_r|].
    by rewrite IH elems_tfix elems_fill -!app_assoc.
  Qed.

  (** ** Balance of insertion *)
  (** A hole of black height [n] that accepts red trees iff [c]; the tframe
      filled has height [n'] and is accepted red iff [c']. *)
  Definition bframe f c n c' n' : Prop :=
    match f with
    | FL true _ _ r => c = false ∧ isred r = false ∧ balanced r n ∧ n' = n ∧ c' = true
    | FL false _ _ r => c = true ∧ isred r = false ∧ balanced r n ∧ n' = S n
    | FR true l _ _ => c = false ∧ isred l = false ∧ balanced l n ∧ n' = n ∧ c' = true
    | FR false l _ _ => c = false ∧ balanced l n ∧ n' = S n
    end.
  Fixpoint bctx (k : list tframe) c n : Prop :=
    match k with
    | [] => c = true
    | f :: k => ∃ c' n', bframe f c n c' n' ∧ bctx k c' n'
    end.
  Definition redred t n : Prop :=
    match t with
    | Node true l _ _ r => isred l = true ∧ isred r = false ∧ balanced l n ∧ balanced r n
    | _ => False
    end.

  Lemma balanced_blacken t n : balanced t n → ∃ m, balanced (recolor false t) m.
  Proof.
    destruct t as [|[] l x v r]; simpl; intros H.
    - by exists 0.
    - exists (S n). naive_solver.
    - by exists n.
  Qed.
  Lemma redred_blacken t n : redred t n → ∃ m, balanced (recolor false t) m.
  Proof. destruct t as [|[] l x v r]; simpl; [done| |done]. intros ?. exists (S n). naive_solver. Qed.

  Lemma bctx_fill f k c n t :
    bctx (f :: k) c n → balanced t n → (isred t = true → c = true) →
    ∃ c' n', bctx k c' n' ∧ balanced (fill f t) n' ∧ (isred (fill f t) = true → c' = true).
  Proof.
    simpl. intros (c'&n'&Hf&Hk) Hb Hc. exists c', n'. split; [done|].
    destruct f as [[] x v r|[] l x v]; simpl in *; destruct_and?; subst; simpl;
      destruct (isred t) eqn:E; naive_solver.
  Qed.
  Lemma bctx_plug k c n t :
    bctx k c n → balanced t n → (isred t = true → c = true) → ∃ m, balanced (plug k t) m.
  Proof.
    revert c n t. induction k as [|f k IH]; intros c n t Hk Hb Hc; [by exists n|].
    destruct (bctx_fill _ _ _ _ _ Hk Hb Hc) as (c'&n'&Hk'&Hb'&Hc'). by eapply IH.
  Qed.

  (** Descending: a balanced focus gives a typed tframe. *)
  Lemma bframe_left c l x v r n :
    balanced (Node c l x v r) n →
    ∃ m, balanced l m ∧ bframe (FL c x v r) (negb c) m true n.
  Proof.
    destruct c; simpl.
    - intros (?&?&?&?). exists n. naive_solver.
    - destruct n as [|m]; [naive_solver|]. intros (?&?&?). exists m. naive_solver.
  Qed.
  Lemma bframe_right c l x v r n :
    balanced (Node c l x v r) n →
    ∃ m, balanced r m ∧ bframe (FR c l x v) false m true n.
  Proof.
    destruct c; simpl.
    - intros (?&?&?&?). exists n. naive_solver.
    - destruct n as [|m]; [naive_solver|]. intros (?&?&?). exists m. naive_solver.
  Qed.
  Lemma bframe_weaken f c n n' c' : bframe f c n true n' → (fcolor f = true → c' = true) → bframe f c n c' n'.
  Proof. destruct f as [[] x v r|[] l x v]; simpl; naive_solver. Qed.

  (** One step of the insertion climb. *)
  Definition ins_ok t c n : Prop :=
    balanced t n ∨ (c = true ∧ redred t n).
  Lemma ins_step f c n c' n' t :
    bframe f c n c' n' → ins_ok t c n →
    isred (lsub (fill f t)) || isred (rsub (fill f t)) = true →
    ins_ok (tfix (fill f t)) c' n'.
  Proof.
    intros Hf Ht Hr. unfold ins_ok in *.
    destruct f as [[] x v r|[] l x v]; simpl in *; destruct_and?; subst; simpl in *.
    - (* FL red *) destruct Ht as [Ht|[? _]]; [|done].
      right. split; [done|]. unfold tfix; simpl. destruct t as [|[] tl y w tr]; simpl in *;
        [congruence| |congruence].
      destruct_and?. rr. naive_solver.
    - (* FL black *) unfold tfix; simpl. destruct (isred r) eqn:Er; [done|]. simpl.
      rewrite orb_false_r in Hr. destruct t as [|[] tl y w tr]; simpl in *; try done.
      destruct Ht as [Ht|[_ Ht]]; destruct_and?; rr.
      + left. naive_solver.
      + left. destruct tl as [|[] ? ? ? ?]; simpl in *; try done. naive_solver.
    - (* FR red *) destruct Ht as [Ht|[? _]]; [|done].
      right. split; [done|]. destruct (isred l) eqn:El; [done|]. simpl in Hr. unfold tfix; simpl. rr.
      destruct t as [|[] tl y w tr]; simpl in *; try done. destruct_and?. rr. naive_solver.
    - (* FR black *) destruct Ht as [Ht|[? _]]; [|done]. left.
      unfold tfix; simpl. destruct t as [|[] tl y w tr]; simpl in *.
      + subst. destruct l as [|[] ? ? ? ?]; simpl in *; try done. destruct_and?.
        rr. naive_solver.
      + destruct_and?. destruct l as [|[] ? ? ? ?]; simpl in *; destruct_and?; rr; naive_solver.
      + destruct l as [|[] ? ? ? ?]; simpl in *; try done. destruct_and?.
        rr. naive_solver.
  Qed.
  (** The early exit. *)
  Lemma ins_exit f c n c' n' t :
    bframe f c n c' n' → ins_ok t c n →
    isred (lsub (fill f t)) || isred (rsub (fill f t)) = false →
    balanced (fill f t) n' ∧ (isred (fill f t) = true → c' = true).
  Proof.
    intros Hf Ht Hr. unfold ins_ok in *. apply orb_false_iff in Hr as [Hr1 Hr2].
    destruct f as [[] x v r|[] l x v]; simpl in *; destruct_and?; subst; simpl in *;
      destruct Ht as [Ht|[? Ht]]; try (destruct t as [|[] ? ? ? ?]; simpl in *; done);
      naive_solver.
  Qed.

  (** ** Balance of removal *)
  (** Filling a tframe and fixing up. *)
  Definition frame_ok f c n c' n' : Prop :=
    ∀ t, balanced t n → (isred t = true → c = true) →
      balanced (tfix (fill f t)) n' ∧ (isred (tfix (fill f t)) = true → c' = true).
  (** The colour of the root node itself is irrelevant ([k = []]): any colour
      may be assumed for it. *)
  Fixpoint kok (k : list tframe) c n : Prop :=
    match k with
    | [] => True
    | f :: k => ∃ c2 c' n', (k ≠ [] → c2 = fcolor f) ∧ frame_ok (frecolor c2 f) c n c' n' ∧ kok k c' n'
    end.

  Lemma recolor_tfix c t : recolor false (tfix (recolor c t)) = recolor false (tfix t).
  Proof.
    destruct t as [|c0 l x v r]; [done|].
    by destruct l as [|[] [|[] ? ? ? ?] ? ? ?], r as [|[] [|[] ? ? ? ?] ? ? [|[] ? ? ? ?]].
  Qed.
  Lemma fill_recolor c f t : fill (frecolor c f) t = recolor c (fill f t).
  Proof. by destruct f. Qed.
  Lemma kok_climb k c n t :
    kok k c n → balanced t n → (isred t = true → c = true) →
    ∃ m, balanced (recolor false (climb k t)) m.
  Proof.
    revert c n t. induction k as [|f k IH]; intros c n t Hk Hb Hc; simpl in *.
    { by eapply balanced_blacken. }
    destruct Hk as (c2&c'&n'&Hc2&Hf&Hk). destruct (Hf t Hb Hc) as [Hb' Hc'].
    rewrite fill_recolor in Hb', Hc'.
    destruct k as [|f' k].
    - simpl. rewrite -(recolor_tfix c2). by eapply balanced_blacken.
    - eapply IH; [done| |].
      + rewrite (Hc2 ltac:(done)) in Hb'. by destruct f.
      + rewrite (Hc2 ltac:(done)) in Hc'. by destruct f.
  Qed.

  (** What the removal loop knows about its focus: *)
  Definition rem_focus t n : Prop :=
    balanced t n ∧ (t = Leaf ∨ isred t = true ∨ isred (lsub t) = true).
  Definition rem_special t n : Prop :=
    match t with
    | Node false l x v r =>
        isred l = false ∧ isred r = true ∧
        match n with 0 => False | S m => balanced l m ∧ balanced r m end
    | _ => False
    end.

  (** Upper bound on the levels below the focus. *)
  Definition meas t n : nat := 2 * n + (if isred t then 1 else 0).

  Lemma rem_root t n : balanced t n → isred t = false → ∃ c m, rem_focus (recolor c t) m ∧ meas (recolor c t) m ≤ 2 * n.
  Proof.
    destruct t as [|[] l x v r]; simpl; intros Hb Hr; [|done|].
    - exists true, 0. split; [split; [done|by left]|unfold meas; simpl; lia].
    - destruct n as [|m]; [by destruct_and?|].
      destruct (isred l) eqn:E.
      + exists false, (S m). split; [split; [done|]; right; right; done|unfold meas; simpl; lia].
      + exists true, m. split; [split; [simpl; naive_solver|]; right; left; done|unfold meas; simpl; lia].
  Qed.

  Definition both_blackb t : bool := negb (isred t) && negb (isred (lsub t)).
  Definition nonleaf t : bool := match t with Leaf => false | _ => true end.

  (** Going left. *)
  Lemma rem_left_stay c c0 l x v r n :
    rem_focus (Node c l x v r) n → nonleaf l && both_blackb l = false →
    ∃ m, rem_focus l m ∧ meas l m < meas (Node c l x v r) n ∧
      frame_ok (frecolor c (FL c0 x v r)) (isred l) m c n.
  Proof.
    intros [Hb Ht] Hl. destruct c; simpl in *.
    - destruct_and?. exists n. split; [split; [done|]|split; [unfold meas; simpl; rr; lia|]].
      + destruct l as [|[] ll ? ? lr]; simpl in *; [by left|done|].
        unfold both_blackb in Hl. simpl in Hl. right. right. by destruct (isred ll).
      + intros t Hbt Hct. assert (isred t = false) as Et by (destruct (isred t); [|done]; bs).
        unfold tfix. simpl. rr. bs.
    - destruct n as [|m]; [by destruct_and?|]. destruct_and?. exists m.
      split; [split; [done|]|split; [unfold meas; simpl; destruct (isred l); lia|]].
      + destruct l as [|[] ll ? ? lr]; simpl in *; [by left|right; by left|].
        unfold both_blackb in Hl. simpl in Hl. right. right. by destruct (isred ll).
      + intros t Hbt Hct. unfold tfix. simpl. rr.
        destruct (isred t) eqn:E; simpl.
        * destruct t as [|[] tl ? ? tr]; simpl in *; try done. destruct_and?.
          rr. simpl. bs.
        * rr. simpl. bs.
  Qed.
  Lemma rem_left_move c c0 l x v r n :
    rem_focus (Node c l x v r) n → nonleaf l && both_blackb l = true →
    ∃ c1 c2 l2 x2 v2 r2 m,
      tmovel (Node c0 l x v r) = Node c1 l2 x2 v2 r2 ∧ (c0 = c → c2 = c1) ∧
      rem_focus l2 m ∧ l2 ≠ Leaf ∧ meas l2 m < meas (Node c l x v r) n ∧
      (∃ es, (x, v) :: elems r = es ++ (x2, v2) :: elems r2) ∧
      frame_ok (frecolor c2 (FL c1 x2 v2 r2)) (isred l2) m c n.
  Proof.
    intros [Hb Ht] Hl. unfold both_blackb in Hl. apply andb_true_iff in Hl as [Hl1 Hl2].
    apply andb_true_iff in Hl2 as [Hl2 Hl3].
    destruct l as [|[] ll lx lv lr]; simpl in *; try done.
    destruct c; [|bs].
    destruct_and?. destruct n as [|m]; [by destruct_and?|]. destruct_and?.
    destruct r as [|[] rl rx rv rr]; simpl in *; [bs|bs|].
    destruct_and?. destruct (isred ll) eqn:Ell; [done|].
    destruct rl as [|[] a y w b]; simpl in *; unfold tmovel; simpl.
    - (* rl leaf *)
      exists (negb c0), false, (Node true ll lx lv lr), x, v, (Node true Leaf rx rv rr), m.
      split_and!; [done|by intros ->| |done|unfold meas; simpl; lia|by exists []|].
      + split; [simpl; bs|]. right. by left.
      + intros t Hbt _. unfold tfix. simpl. destruct t as [|[] tl ? ? tr]; simpl in *.
        * bs.
        * bs.
        * bs.
    - (* rl red: rotate *)
      exists c0, true, (Node false (Node true ll lx lv lr) x v a), y, w, (Node false b rx rv rr), (S m).
      destruct_and?.
      split_and!; [by rewrite negb_involutive|by intros ->| |done|unfold meas; simpl; lia|exists ((x, v) :: elems a); simpl; by rewrite -app_assoc|].
      + split; [simpl; bs|]. right. by right.
      + intros t Hbt Hct. unfold tfix. simpl in *. destruct (isred t) eqn:E; [bs|].
        simpl. rr. bs.
    - (* rl black *)
      exists (negb c0), false, (Node true ll lx lv lr), x, v, (Node true (Node false a y w b) rx rv rr), m.
      split_and!; [done|by intros ->| |done|unfold meas; simpl; lia|by exists []|].
      + split; [simpl; bs|]. right. by left.
      + intros t Hbt _. unfold tfix. simpl. destruct t as [|[] tl ? ? tr]; simpl in *.
        * bs.
        * bs.
        * bs.
  Qed.

  (** Going right: the left child is red. *)
  Lemma rem_right_rot c c0 l x v r n :
    rem_focus (Node c l x v r) n → isred l = true →
    ∃ a y w b m, rotr (Node c0 l x v r) = Node c0 a y w (Node true b x v r) ∧
      l = Node true a y w b ∧
      rem_focus (Node true b x v r) m ∧ meas (Node true b x v r) m < meas (Node c l x v r) n ∧
      frame_ok (frecolor c (FR c0 a y w)) true m c n.
  Proof.
    intros [Hb Ht] Hl. destruct l as [|[] a y w b]; simpl in *; try done.
    destruct c; [bs|]. destruct n as [|m]; [by destruct_and?|]. destruct_and?.
    exists a, y, w, b, m. split; [done|]. split; [done|]. split_and!; [|unfold meas; simpl; lia|].
    - split; [simpl; bs|]. right. by left.
    - intros t Hbt _. unfold tfix; simpl. destruct t as [|[] tl ? ? tr]; simpl in *.
      + rr. bs.
      + rr. simpl. bs.
      + rr. bs.
  Qed.
  (** The left child is black and the right one is not to be borrowed from. *)
  Lemma rem_right_stay c c0 l x v r n :
    rem_focus (Node c l x v r) n → isred l = false → nonleaf r && both_blackb r = false →
    ∃ m, rem_focus r m ∧ c = true ∧ meas r m < meas (Node c l x v r) n ∧
      frame_ok (frecolor c (FR c0 l x v)) (isred r) m c n.
  Proof.
    intros [Hb Ht] Hl Hr. simpl in *. destruct c; [|bs]. destruct_and?.
    exists n. split_and!; [split; [done|]|done|unfold meas; simpl; rr; lia|].
    - destruct r as [|[] rl ? ? rr]; simpl in *; [by left|done|].
      unfold both_blackb in Hr. simpl in Hr. right. right. by destruct (isred rl).
    - intros t Hbt Hct. assert (isred t = false) as Et by (destruct (isred t); [|done]; bs).
      unfold tfix. simpl. rr. bs.
  Qed.
  (** Deleting a node without right child. *)
  Lemma rem_right_leaf c l x v n :
    rem_focus (Node c l x v Leaf) n → isred l = false → c = true ∧ l = Leaf ∧ n = 0.
  Proof.
    intros [Hb Ht] Hl. simpl in *. destruct c; [|bs]. destruct_and?.
    subst. destruct l as [|[] ? ? ? ?]; simpl in *; bs.
  Qed.
  (** The left child is black; borrow. *)
  Lemma rem_right_move c c0 l x v r n :
    rem_focus (Node c l x v r) n → isred l = false → nonleaf r && both_blackb r = true →
    ∃ c1 c2 l2 x2 v2 r2 m,
      tmover (Node c0 l x v r) = Node c1 l2 x2 v2 r2 ∧ (c0 = c → c2 = c1) ∧ nonleaf l = true ∧ meas r2 m < meas (Node c l x v r) n ∧
      frame_ok (frecolor c2 (FR c1 l2 x2 v2)) (isred r2) m c n ∧
      ((x2 = x ∧ v2 = v ∧ elems l2 = elems l ∧ isred r2 = true ∧ rem_focus r2 m) ∨
       (∃ lr r2', rem_special r2 m ∧ r2 = Node false lr x v r2' ∧ elems l = elems l2 ++ (x2, v2) :: elems lr)).
  Proof.
    intros [Hb Ht] Hl Hr. unfold both_blackb in Hr. apply andb_true_iff in Hr as [Hr1 Hr2].
    apply andb_true_iff in Hr2 as [Hr2 Hr3]. simpl in *.
    destruct c; [|bs]. destruct_and?.
    destruct r as [|[] rl rx rv rr]; simpl in *; try done.
    destruct n as [|m]; [by destruct_and?|]. destruct_and?.
    destruct l as [|[] ll lx lv lr]; simpl in *; [bs|bs|].
    destruct_and?. destruct (isred rl) eqn:Erl; [done|].
    unfold tmover. simpl. destruct ll as [|[] a y w b]; simpl in *.
    - exists (negb c0), false, (Node true Leaf lx lv lr), x, v, (Node true rl rx rv rr), m.
      split_and!; [done|by intros ->|done|unfold meas; simpl; lia| |left; split_and!; [done|done|done|done|]].
      + intros t Hbt _. unfold tfix. simpl. destruct t as [|[] tl ? ? tr]; bs.
      + split; [simpl; bs|]. right. by left.
    - destruct_and?.
      exists c0, true, (Node false a y w b), lx, lv, (Node false lr x v (Node true rl rx rv rr)), (S m).
      split_and!; [by rewrite negb_involutive|by intros ->|done|unfold meas; simpl; lia| |right; exists lr, (Node true rl rx rv rr); split_and!; [|done|done]].
      + intros t Hbt Hct. simpl in *. unfold tfix. simpl. destruct (isred t) eqn:E; [bs|].
        simpl. bs.
      + simpl. bs.
    - exists (negb c0), false, (Node true (Node false a y w b) lx lv lr), x, v, (Node true rl rx rv rr), m.
      split_and!; [done|by intros ->|done|unfold meas; simpl; lia| |left; split_and!; [done|done|done|done|]].
      + intros t Hbt _. unfold tfix. simpl. destruct t as [|[] tl ? ? tr]; bs.
      + split; [simpl; bs|]. right. by left.
  Qed.
  (** The special focus left behind by a rotating borrow. *)
  Lemma rem_special_right c0 l x v r n :
    rem_special (Node false l x v r) n →
    ∃ m, rem_focus r m ∧ isred l = false ∧ isred r = true ∧ meas r m < meas (Node false l x v r) n ∧
      frame_ok (frecolor false (FR c0 l x v)) true m false n.
  Proof.
    simpl. intros (Hl&Hr&Hb). destruct n as [|m]; [done|]. destruct_and?.
    exists m. split; [split; [done|by right; left]|]. split; [done|]. split; [done|].
    split; [unfold meas; simpl; rr; lia|].
    intros t Hbt _. unfold tfix; simpl. destruct t as [|[] tl ? ? tr]; simpl in *.
    + rr. bs.
    + rr. simpl. bs.
    + rr. bs.
  Qed.

  (** ** Sizes *)
  Lemma balanced_size t n :
    balanced t n → 2 ^ n ≤ S (length (elems t)).
  Proof.
    revert n. induction t as [|[] l IHl x v r IHr]; simpl; intros n Hb.
    - subst. simpl. lia.
    - destruct_and?. rewrite app_length /=. specialize (IHl n ltac:(done)). lia.
    - destruct n as [|m]; [by destruct_and?|]. destruct_and?. rewrite app_length /=.
      specialize (IHl m ltac:(done)). specialize (IHr m ltac:(done)). simpl. lia.
  Qed.
  Lemma balanced_height t n :
    balanced t n → height t ≤ 2 * n + (if isred t then 1 else 0).
  Proof.
    revert n. induction t as [|[] l IHl x v r IHr]; simpl; intros n Hb.
    - lia.
    - destruct_and?. specialize (IHl n ltac:(done)). specialize (IHr n ltac:(done)).
      destruct (isred l), (isred r); try done; lia.
    - destruct n as [|m]; [by destruct_and?|]. destruct_and?.
      specialize (IHl m ltac:(done)). specialize (IHr m ltac:(done)).
      destruct (isred l), (isred r); lia.
  Qed.
  Lemma height_log t n :
    balanced t n → isred t = false → height t ≤ 2 * Nat.log2 (S (length (elems t))).
  Proof.
    intros Hb Hr. pose proof (balanced_height _ _ Hb) as Hh. rewrite Hr in Hh.
    pose proof (balanced_size _ _ Hb) as Hs.
    apply Nat.log2_le_mono in Hs. rewrite Nat.log2_pow2 in Hs; lia.
  Qed.
End pure.
