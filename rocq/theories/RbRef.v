(** Passing references into the container is the same as passing the value: no
    tree function changes the value of an element or releases its node while it
    still reads the argument. Proof file. *)
From Verif Require Export RbRefModel Triple.

Section agree.
  Context {K V : Type} `{Allocator (rbcell V)} (keyof : V → K) (lt eqb : K → K → bool).
  Notation heap := (gmap loc (rbcell V)).
  Notation HM := (M heap).

  (** The node [x] is there and holds [v]. *)
  Definition data_at (x : loc) (v : V) (h : heap) : Prop :=
    ∃ c, h !! x = Some c ∧ data c = Some v.

  Context (x : loc) (v : V).
  Notation D := (data_at x v).

  (** From every heap in which [D] holds, [m] and [m'] do the same and keep [D]. *)
  Definition agree {A} (m m' : HM A) : Prop :=
    ∀ h, D h → m h = m' h ∧ ∀ r h', m' h = Ok (r, h') → D h'.

  Lemma agree_ret {A} (a : A) : agree (ret a) (ret a).
  Proof. intros h Hh. split; [done|]. intros r h' [= <- <-]. done. Qed.
  Lemma agree_fail {A} u : agree (A:=A) (fail u) (fail u).
  Proof. intros h Hh. split; [done|]. intros r h' [=]. Qed.
  Lemma agree_bind {A B} (m m' : HM A) (f f' : A → HM B) :
    agree m m' → (∀ a, agree (f a) (f' a)) → agree (bind m f) (bind m' f').
  Proof.
    intros Hm Hf h Hh. destruct (Hm h Hh) as [E1 E2]. unfold bind. rewrite E1.
    destruct (m' h) as [[a h1]|u|] eqn:E; [|done|done]. exact (Hf a h1 (E2 _ _ eq_refl)).
  Qed.
  (** A read of the reference on the left only. *)
  Lemma agree_read {A B} (rd : HM A) (a : A) (f : A → HM B) (m' : HM B) :
    (∀ h, D h → rd h = Ok (a, h)) → agree (f a) m' → agree (bind rd f) m'.
  Proof. intros Hr Hf h Hh. unfold bind. rewrite (Hr h Hh). exact (Hf h Hh). Qed.
  Lemma agree_loop {A B} fuel (b b' : A → HM (A + B)) (a : A) :
    (∀ a, agree (b a) (b' a)) → agree (loop fuel b a) (loop fuel b' a).
  Proof.
    intros Hb. revert a. induction fuel as [|fuel IH]; intros a; simpl.
    - intros h Hh. split; [done|]. intros r h' [=].
    - apply agree_bind; [done|]. intros [a'|r]; [apply IH|apply agree_ret].
  Qed.
  Lemma agree_addr p : agree (addr p) (addr p).
  Proof. destruct p; [apply agree_ret|apply agree_fail]. Qed.
  Lemma agree_load l : agree (load l) (load l).
  Proof.
    intros h Hh. split; [done|]. intros r h'. unfold load. destruct (h !! l); [|done]. by intros [= <- <-].
  Qed.
  Lemma agree_modify l g : (∀ c, data (g c) = data c) → agree (modify l g) (modify l g).
  Proof.
    intros Hg h Hh. split; [done|]. intros r h'. unfold modify. destruct (h !! l) as [c|] eqn:E; [|done].
    intros [= <- <-]. destruct Hh as (c0&Hl&Hd). unfold data_at. destruct (decide (l = x)) as [->|Hne].
    - exists (g c). rewrite lookup_insert, Hg. split; [done|]. congruence.
    - exists c0. by rewrite lookup_insert_ne.
  Qed.
  Lemma agree_allocate c : agree (allocate c) (allocate c).
  Proof.
    intros h Hh. split; [done|]. intros r h'. unfold allocate. intros [= <- <-].
    destruct Hh as (c0&Hl&Hd). exists c0. split; [|done]. rewrite lookup_insert_ne; [done|].
    intros Heq. rewrite <-Heq in Hl. by rewrite alloc_addr_fresh in Hl.
  Qed.
  Lemma agree_getf {A} (f : rbcell V → A) p : agree (getf f p) (getf f p).
  Proof.
    unfold getf, loadp. apply agree_bind; [|intros; apply agree_ret].
    apply agree_bind; [apply agree_addr|]. intros. apply agree_load.
  Qed.
  Lemma agree_setf g p : (∀ c, data (g c) = data c) → agree (setf g p) (setf g p).
  Proof.
    intros. unfold setf, modifyp. apply agree_bind; [apply agree_addr|]. intros. by apply agree_modify.
  Qed.
  Lemma agree_node_data p : agree (node_data p) (node_data (V:=V) p).
  Proof.
    unfold node_data. apply agree_bind.
    - unfold loadp. apply agree_bind; [apply agree_addr|]. intros. apply agree_load.
    - intros c. destruct (data c); [apply agree_ret|apply agree_fail].
  Qed.

  Ltac hd_of t := match t with ?f _ => hd_of f | _ => t end.
  Ltac ag :=
    repeat first
      [ apply agree_ret | apply agree_fail | apply agree_getf | apply agree_addr | apply agree_node_data
      | apply agree_allocate | apply agree_setf; [intros; done]
      | apply agree_loop; intros
      | apply agree_bind; [|intros]
      | match goal with |- agree (match ?a with _ => _ end) _ => destruct a end
      | match goal with |- agree ?m _ => let h := hd_of m in unfold h end
      | progress (cbn beta iota zeta) ].
  Lemma read_own_key h : D h → read_key keyof (NodeKey x) h = Ok (keyof v, h).
  Proof.
    intros (c&Hl&Hd). unfold read_key, node_data, loadp, addr, bind, load, ret. by rewrite Hl, Hd.
  Qed.
  Lemma read_own_data h : D h → read_data (NodeData x) h = Ok (v, h).
  Proof.
    intros (c&Hl&Hd). unfold read_data, node_data, loadp, addr, bind, load, ret. by rewrite Hl, Hd.
  Qed.
  Ltac agr := repeat first
      [ apply agree_ret | apply agree_fail | apply agree_getf | apply agree_addr | apply agree_node_data
      | apply agree_allocate | apply agree_setf; [intros; done]
      | apply agree_loop; intros
      | apply agree_read with (a := keyof v); [exact read_own_key|cbn beta]
      | apply agree_read with (a := v); [exact read_own_data|cbn beta]
      | apply agree_bind; [|intros]
      | progress (cbn beta iota zeta)
      | match goal with |- agree (match ?a with _ => _ end) _ => destruct a end
      | match goal with |- agree ?m ?m' => let h := hd_of m in let h' := hd_of m' in unfold h, h' end ].

  Lemma agree_count fuel hdr :
    agree (rb_count_ref keyof lt eqb fuel hdr (NodeKey x)) (rb_count keyof lt eqb fuel hdr (keyof v)).
  Proof. agr. Qed.
  Lemma agree_find fuel hdr :
    agree (rb_find_ref keyof lt eqb fuel hdr (NodeKey x)) (rb_find keyof lt eqb fuel hdr (keyof v)).
  Proof. agr. Qed.
  Lemma agree_lower fuel hdr :
    agree (rb_lower_bound_ref keyof lt fuel hdr (NodeKey x)) (rb_lower_bound keyof lt fuel hdr (keyof v)).
  Proof. agr. Qed.
  Lemma agree_upper fuel hdr :
    agree (rb_upper_bound_ref keyof lt fuel hdr (NodeKey x)) (rb_upper_bound keyof lt fuel hdr (keyof v)).
  Proof. agr. Qed.
  Lemma agree_insert_equal fuel hdr :
    agree (rb_insert_equal_ref keyof lt fuel hdr (NodeData x)) (rb_insert_equal keyof lt fuel hdr v).
  Proof. agr. Qed.
  Lemma agree_insert_unique fuel hdr :
    agree (rb_insert_unique_ref keyof lt eqb fuel hdr (NodeData x)) (rb_insert_unique keyof lt eqb fuel hdr v).
  Proof. agr. Qed.
  Lemma agree_remove fuel hdr :
    agree (rb_remove_ref keyof lt eqb fuel hdr (NodeKey x)) (rb_remove keyof lt eqb fuel hdr (keyof v)).
  Proof. agr. Qed.
End agree.
