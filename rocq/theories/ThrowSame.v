(** A copy constructor that never throws: the functions of ThrowModel.v do what those of VecModel.v
    and FixedModel.v do. *)
From Verif Require Export ThrowSpec.

Section same.
  Context {V Mb : Type} `{Allocator (list (option V))}.
  Notation HM A := (M (gmap loc (list (option V))) A).
  Notation X A := (X V Mb A).

  Lemma same_ret {A R} (a : A) (m : Mb) (r : R) (g : R → Mb * A) : g r = (m, a) → same (xret a : X A) m (ret r) g.
  Proof. intros Hg h. unfold bind, ret, xret. by rewrite Hg. Qed.
  Lemma same_bind {A B R T} (p : X A) (k : A → X B) m (q : HM R) (k' : R → HM T) g g' :
    same p m q g → (∀ r, same (k (g r).2) (g r).1 (k' r) g') → same (xbind p k) m (bind q k') g'.
  Proof.
    intros Hp Hk h. specialize (Hp h). unfold xbind. unfold bind in *. rewrite Hp.
    destruct (q h) as [[r h']| |]; simpl; [|done|done]. apply (Hk r h').
  Qed.
  Lemma same_do {A} (q : HM A) (m : Mb) : same (xdo q) m q (λ a, (m, a)).
  Proof. done. Qed.
  Lemma same_do_bind {A B T} (q : HM A) (k : A → X B) m (k' : A → HM T) g :
    (∀ a, same (k a) m (k' a) g) → same (xbind (xdo q) k) m (bind q k') g.
  Proof. intros Hk. eapply same_bind; [apply same_do|]. done. Qed.
  Lemma same_this {B T} (k : Mb → X B) m (q : HM T) g : same (k m) m q g → same (xbind xthis k) m q g.
  Proof. done. Qed.
  Lemma same_set {B T} (k : unit → X B) m m' (q : HM T) g : same (k tt) m' q g → same (xbind (xset m') k) m q g.
  Proof. done. Qed.
  Lemma same_assoc {A B D T} (p : X A) (k : A → X B) (k' : B → X D) m (q : HM T) g :
    same (xbind p (λ a, xbind (k a) k')) m q g → same (xbind (xbind p k) k') m q g.
  Proof.
    intros Hs h. rewrite <- (Hs h). unfold xbind, bind. destruct (p m None h) as [[[m' f a|m'] h']| |]; done.
  Qed.
  Lemma same_ret_bind {A B T} (a : A) (k : A → X B) m (q : HM T) g : same (k a) m q g → same (xbind (xret a) k) m q g.
  Proof. done. Qed.
  Lemma same_copy {B T} p i x (k : unit → X B) m (k' : unit → HM T) g :
    same (k tt) m (k' tt) g → same (xbind (xcopy p i x) k) m (bind (construct p i x) k') g.
  Proof.
    intros Hk. eapply (same_bind _ _ _ _ _ (λ u, (m, u))); [|by intros []].
    intros h. unfold xcopy, bind. by destruct (construct p i x h) as [[[] ?]| |].
  Qed.
  Lemma same_fail {A R} u m (g : R → Mb * A) : same (xdo (fail u) : X A) m (fail u) g.
  Proof. done. Qed.
  Lemma same_if {A R P} `{Decision P} (p p' : X A) m (q q' : HM R) g :
    (P → same p m q g) → (¬ P → same p' m q' g) → same (if decide P then p else p') m (if decide P then q else q') g.
  Proof. intros. destruct (decide P); auto. Qed.
  Lemma same_loop {A B S T} (body : A → X (A + B)) (body' : S → HM (S + T)) fuel s (φ : S → A) (μ : S → Mb) (g : T → Mb * B) :
    (∀ s, same (body (φ s)) (μ s) (body' s)
       (λ r, match r with inl s => (μ s, inl (φ s)) | inr t => ((g t).1, inr (g t).2) end)) →
    same (xloop fuel body (φ s)) (μ s) (loop fuel body' s) g.
  Proof.
    intros Hb. revert s. induction fuel as [|fuel IH]; intros s; [done|]. cbn [xloop loop].
    eapply same_bind; [apply Hb|]. intros [s'|t]; [apply IH|]. cbn [fst snd].
    apply same_ret. by destruct (g t).
  Qed.
  Lemma same_map {A R} (p : X A) m (q : HM R) g g' : same p m q g → (∀ r, g r = g' r) → same p m q g'.
  Proof. intros Hs Hg h. rewrite (Hs h). unfold bind. destruct (q h) as [[r h']| |]; [|done|done]. by rewrite Hg. Qed.
  Lemma same_bind_ret {A R T} (p : X A) m (q : HM R) k (φ : R → T) (g : T → Mb * A) :
    same p m q (λ r, g (φ r)) → (∀ r, k r = ret (φ r)) → same p m (bind q k) g.
  Proof. intros Hs Hk h. rewrite (Hs h). unfold bind, ret. destruct (q h) as [[r h']| |]; [|done|done]. by rewrite Hk. Qed.

  (** *** loops that do not change the members *)
  Lemma same_copy_up fuel p i e q o (m : Mb) : same (xcopy_up (V:=V) fuel p i e q o) m (copy_up fuel p i e q o) (λ r, (m, r)).
  Proof.
    unfold xcopy_up, copy_up. apply (same_loop _ _ _ (i, o) (λ s, s) (λ _, m)). intros [i' o'].
    apply same_if; intros _; [|by apply same_ret]. apply same_do_bind. intros x. apply same_copy. by apply same_ret.
  Qed.
  Lemma same_vc p o args (m : Mb) : same (xvc (V:=V) p o args) m (vc p o args) (λ r, (m, r)).
  Proof.
    unfold xvc, vc. destruct args as [r|g].
    - apply same_do_bind. intros x. apply same_copy. by apply same_ret.
    - destruct (rnext g) as [[r g']|]; [|apply same_fail].
      apply same_do_bind. intros x. apply same_copy. by apply same_ret.
  Qed.
  Lemma same_vc_loop fuel p o n args (m : Mb) : same (xvc_loop (V:=V) fuel p o n args) m (vc_loop fuel p o n args) (λ r, (m, r)).
  Proof.
    unfold xvc_loop, vc_loop. apply (same_loop _ _ _ (n, o, args) (λ s, s) (λ _, m)). intros [[n' o'] args'].
    destruct n' as [|n']; [by apply same_ret|].
    eapply same_bind; [apply same_vc|]. intros r. by apply same_ret.
  Qed.
  Lemma same_shift_up fuel p i o pos (m : Mb) : same (xshift_up (V:=V) fuel p i o pos) m (shift_up fuel p i o pos) (λ r, (m, r)).
  Proof.
    unfold xshift_up, shift_up. apply (same_loop _ _ _ (i, o) (λ s, s) (λ _, m)). intros [i' o'].
    apply same_if; intros _; [|by apply same_ret].
    apply same_do_bind. intros o1. apply same_do_bind. intros i1. apply same_do_bind. intros x. apply same_copy.
    apply same_do_bind. intros _. by apply same_ret.
  Qed.
  Lemma same_shift_down fuel p i o last (m : Mb) :
    same (xshift_down (V:=V) fuel p i o last) m (shift_down fuel p i o last) (λ r, (m, r)).
  Proof.
    unfold xshift_down, shift_down. apply (same_loop _ _ _ (i, o) (λ s, s) (λ _, m)). intros [i' o'].
    apply same_if; intros _; [|by apply same_ret].
    apply same_do_bind. intros x. apply same_copy. apply same_do_bind. intros _. by apply same_ret.
  Qed.
End same.

(** One step on the throwing side. *)
Ltac sstep :=
  match goal with
  | |- same (xbind (xbind _ _) _) _ _ _ => apply same_assoc
  | |- same (xbind xthis _) _ _ _ => apply same_this
  | |- same (xbind (xset _) _) _ _ _ => apply same_set
  | |- same (xbind (xret _) _) _ _ _ => apply same_ret_bind
  end.
Section vector.
  Context {V : Type} `{Allocator (list (option V))} (dflt : V).
  Implicit Types (v other : tvec) (r : vref V) (args : vc_args V).
  Local Notation un := (λ v : tvec, (v, tt)).

  (** ::new(last_++) T(x), then [k] *)
  Lemma same_push {B T} r (k : unit → X V tvec B) b la e (k' : unit → M (gmap loc (list (option V))) T) g :
    same (k tt) (Vec b (S la) e) (k' tt) g →
    same (xbind (xpush r) k) (Vec b la e) (let! x := deref r in construct b la x ;! k' tt) g.
  Proof.
    intros Hk. unfold xpush, xlast. repeat sstep.
    apply same_do_bind. intros x. by apply (same_copy _ _ _ _ _ (λ _, k' tt)).
  Qed.
  Lemma same_fill_up fuel v n r : same (xfill_up fuel n r) v (fill_up fuel v n r) un.
  Proof.
    unfold xfill_up, fill_up. destruct v as [b la e].
    apply (same_loop _ _ _ (n, la) fst (λ s, Vec b s.2 e)). intros [n' la']. cbn [fst snd].
    destruct n' as [|n']; [by apply same_ret|].
    apply (same_push _ _ _ _ _ (λ _, ret (inl (n', S la')))). by apply same_ret.
  Qed.
  Lemma same_copy_end fuel v p i e o :
    v_last v = o → same (xcopy_end (V:=V) fuel p i e) v (copy_up fuel p i e (v_buf v) o) (λ io, (v_set_last v io.2, tt)).
  Proof.
    intros <-. unfold xcopy_end, copy_up. destruct v as [b la en].
    apply (same_loop _ _ _ (i, la) fst (λ s, Vec b s.2 en)). intros [i' la']. cbn [fst snd].
    apply same_if; intros _; [|by apply same_ret].
    apply (same_push (VSlot p i') _ b la' en (λ _, ret (inl (S i', S la')))). by apply same_ret.
  Qed.
  Lemma same_vc_end fuel v n args :
    same (xvc_end fuel n args) v (vc_loop fuel (v_buf v) (v_last v) n args) (λ la, (v_set_last v la, tt)).
  Proof.
    unfold xvc_end, vc_loop. destruct v as [b la e].
    apply (same_loop _ _ _ (n, la, args) (λ s, (s.1.1, s.2)) (λ s, Vec b s.1.2 e)). intros [[n' la'] args']. cbn [fst snd].
    destruct n' as [|n']; [by apply same_ret|]. unfold xlast.
    repeat sstep.
    eapply same_bind; [apply same_vc|]. intros a. by apply same_ret.
  Qed.

  (** *** vector.hpp *)
  Lemma same_clear fuel v : same (V:=V) (xv_clear fuel) v (v_clear fuel v) un.
  Proof.
    unfold xv_clear. apply same_this. intros h. unfold xbind, xdo, xset, bind, ret.
    by destruct (v_clear fuel v h) as [[r h']| |].
  Qed.
  Lemma same_reserve fuel v n : same (V:=V) (xv_reserve fuel n) v (v_reserve fuel v n) un.
  Proof.
    unfold xv_reserve, v_reserve. apply same_this. apply same_if; intros _; [by apply same_ret|].
    apply same_do_bind. intros q. eapply same_bind; [apply same_copy_up|]. intros [i o].
    cbn [fst snd]. apply same_do_bind. intros _. apply same_do_bind. intros _. done.
  Qed.
  Lemma same_insert_values fuel v pos n args :
    same (xv_insert_values fuel pos n args) v (v_insert_values fuel v pos n args) id.
  Proof.
    unfold xv_insert_values, v_insert_values. apply same_this. apply same_if; intros _; [|by apply same_ret].
    apply same_if; intros _; [|apply same_if; intros _].
    - apply same_do_bind. intros q. eapply same_bind; [apply same_copy_up|]. intros [i o]. cbn [fst snd].
      eapply same_bind; [apply same_vc_loop|]. intros o'. cbn [fst snd].
      eapply same_bind; [apply same_copy_up|]. intros [i' o'']. cbn [fst snd].
      apply same_do_bind. intros _. apply same_do_bind. intros _. apply same_set. by apply same_ret.
    - apply same_set. eapply same_bind; [apply same_shift_up|]. intros []. cbn [fst snd].
      eapply same_bind; [apply same_vc_loop|]. intros o. by apply same_ret.
    - eapply same_bind; [apply same_vc_end|]. intros la. by apply same_ret.
  Qed.
  Lemma same_insert_n fuel v pos n r : same (xv_insert_n fuel pos n r) v (v_insert_n fuel v pos n r) id.
  Proof. apply same_insert_values. Qed.
  Lemma same_insert_range fuel v pos g : same (V:=V) (xv_insert_range fuel pos g) v (v_insert_range fuel v pos g) id.
  Proof. apply same_insert_values. Qed.
  Lemma same_push_back fuel v r : same (xv_push_back fuel r) v (v_push_back fuel v r) un.
  Proof.
    unfold xv_push_back, v_push_back. apply same_this. apply same_if; intros _.
    - destruct v as [b la e]. intros h.
      pose proof (same_push r (λ _, xret tt) b la e (λ _, ret (v_set_last (Vec b la e) (S la))) un) as Hp.
      specialize (Hp ltac:(by apply same_ret) h). cbn [v_buf v_last] in *. rewrite <- Hp.
      unfold xbind, xret, bind, ret. destruct (xpush r (Vec b la e) None h) as [[[m' f []|m'] h']| |]; done.
    - eapply same_bind; [apply same_insert_n|]. intros [v' i]. by apply same_ret.
  Qed.
  Lemma same_append fuel v g : same (V:=V) (xv_append fuel g) v (v_append fuel v g) un.
  Proof.
    unfold xv_append, v_append. apply (same_loop _ _ _ (v, g) snd fst). intros [v' g']. cbn [fst snd].
    destruct (rnext g') as [[r g'']|]; [|by apply same_ret].
    eapply same_bind; [apply same_push_back|]. intros v''. by apply same_ret.
  Qed.
  Lemma same_assign_range fuel v g : same (V:=V) (xv_assign_range fuel g) v (v_assign_range fuel v g) un.
  Proof. eapply same_bind; [apply same_clear|]. intros v'. apply same_append. Qed.
  Lemma same_assign_n fuel v n r : same (xv_assign_n fuel n r) v (v_assign_n fuel v n r) un.
  Proof.
    eapply same_bind; [apply same_clear|]. intros v'. eapply same_bind; [apply same_reserve|]. intros v''.
    apply same_fill_up.
  Qed.
  Lemma same_assign fuel v other : same (V:=V) (xv_assign fuel other) v (v_assign fuel v other) un.
  Proof.
    eapply same_bind; [apply same_clear|]. intros v'. eapply same_bind; [apply same_reserve|]. intros v''.
    eapply (same_bind_ret _ _ _ _ (λ io, v_set_last v'' io.2)); [by apply same_copy_end|]. by intros [].
  Qed.
  Lemma same_new_n fuel v0 n r : same (xv_new_n fuel n r) v0 (v_new_n fuel n r) un.
  Proof. unfold xv_new_n, v_new_n. apply same_do_bind. intros q. sstep. apply same_fill_up. Qed.
  Lemma same_copy_ctor fuel v0 other : same (V:=V) (xv_copy fuel other) v0 (v_copy fuel other) un.
  Proof.
    unfold xv_copy, v_copy. apply same_do_bind. intros q. sstep.
    eapply (same_bind_ret _ _ _ _ (λ io, Vec q io.2 (v_size other))); [|by intros []].
    eapply same_map; [by apply (same_copy_end fuel (Vec q 0 (v_size other)))|]. done.
  Qed.
  Lemma same_new_range fuel v0 g : same (V:=V) (xv_new_range fuel g) v0 (v_new_range fuel g) un.
  Proof.
    unfold xv_new_range, v_new_range. sstep. eapply same_bind; [apply same_reserve|]. intros v. apply same_append.
  Qed.
  Lemma same_resize fuel v n : same (xv_resize dflt fuel n) v (v_resize dflt fuel v n) un.
  Proof.
    unfold xv_resize, v_resize. sstep. apply same_if; intros _.
    - intros h. unfold xbind, xdo, xset, bind, ret. by destruct (v_truncate fuel v n h) as [[r h']| |].
    - eapply same_bind; [apply same_insert_n|]. intros [v' i]. by apply same_ret.
  Qed.
  Lemma same_resize_to fuel v n r : same (xv_resize_to dflt fuel n r) v (v_resize_to dflt fuel v n r) un.
  Proof.
    unfold xv_resize_to, v_resize_to. sstep. apply same_if; intros _; [apply same_resize|].
    eapply same_bind; [apply same_insert_n|]. intros [v' i]. by apply same_ret.
  Qed.
  Lemma same_erase_range fuel v i j : same (V:=V) (xv_erase_range fuel i j) v (v_erase_range fuel v i j) id.
  Proof.
    unfold xv_erase_range, v_erase_range. sstep. apply same_do_bind. intros _.
    eapply same_bind; [apply same_shift_down|]. intros o. cbn [fst snd]. sstep. by apply same_ret.
  Qed.
End vector.

Section fixed.
  Context {V : Type} `{Allocator (list (option V))} (N : nat) (dflt : V).
  Implicit Types (v other : fvec) (r : vref V).
  Local Notation un := (λ v : fvec, (v, tt)).

  Lemma same_f_push {B T} r (k : unit → X V fvec B) v (k' : M (gmap loc (list (option V))) T) g :
    same (k tt) (fv_set_last v (S (fv_last v))) k' g →
    same (xbind (xf_push r) k) v (let! x := deref r in construct (fv_p v) (fv_last v) x ;! k') g.
  Proof.
    intros Hk. unfold xf_push. repeat sstep. apply same_do_bind. intros x. by apply (same_copy _ _ _ _ _ (λ _, k')).
  Qed.
  Lemma same_f_clear fuel v : same (V:=V) (xf_clear fuel) v (fv_clear fuel v) un.
  Proof.
    unfold xf_clear. sstep. intros h. unfold xbind, xdo, xset, bind, ret.
    by destruct (fv_clear fuel v h) as [[r h']| |].
  Qed.
  Lemma same_f_fill fuel v n r : same (xf_fill N fuel n r) v (fv_fill N fuel v n r) un.
  Proof.
    unfold xf_fill, fv_fill. apply (same_loop _ _ _ (n, v) fst snd). intros [n' v']. cbn [fst snd].
    destruct n' as [|n']; [by apply same_ret|]. sstep. destruct (fv_full N v'); [by apply same_ret|].
    apply same_f_push. by apply same_ret.
  Qed.
  Lemma same_f_append fuel v g : same (V:=V) (xf_append N fuel g) v (fv_append N fuel v g) un.
  Proof.
    unfold xf_append, fv_append. apply (same_loop _ _ _ (v, g) snd fst). intros [v' g']. cbn [fst snd].
    destruct (rnext g') as [[r g'']|]; [|by apply same_ret]. sstep. destruct (fv_full N v'); [by apply same_ret|].
    apply same_f_push. by apply same_ret.
  Qed.
  Lemma same_f_copy_end fuel v p i e o :
    fv_last v = o → same (xf_copy_end (V:=V) fuel p i e) v (copy_up fuel p i e (fv_p v) o) (λ io, (fv_set_last v io.2, tt)).
  Proof.
    intros <-. unfold xf_copy_end, copy_up. destruct v as [b la].
    apply (same_loop _ _ _ (i, la) fst (λ s, FVec b s.2)). intros [i' la']. cbn [fst snd].
    apply same_if; intros _; [|by apply same_ret].
    apply (same_f_push (VSlot p i') _ (FVec b la')). by apply same_ret.
  Qed.
  Lemma same_f_new_n fuel v0 n r : same (xf_new_n N fuel n r) v0 (fv_new_n N fuel n r) un.
  Proof. unfold xf_new_n, fv_new_n. apply same_do_bind. intros v. sstep. apply same_f_fill. Qed.
  Lemma same_f_copy fuel v0 other : same (V:=V) (xf_copy N fuel other) v0 (fv_copy N fuel other) un.
  Proof. unfold xf_copy, fv_copy. apply same_do_bind. intros v. sstep. apply same_f_append. Qed.
  Lemma same_f_assign fuel v other : same (V:=V) (xf_assign fuel other) v (fv_assign fuel v other) un.
  Proof.
    eapply same_bind; [apply same_f_clear|]. intros v'. cbn [fst snd].
    eapply (same_bind_ret _ _ _ _ (λ io, fv_set_last v' io.2)); [by apply same_f_copy_end|]. by intros [].
  Qed.
  Lemma same_f_assign_n fuel v n r : same (xf_assign_n N fuel n r) v (fv_assign_n N fuel v n r) un.
  Proof. eapply same_bind; [apply same_f_clear|]. intros v'. apply same_f_fill. Qed.
  Lemma same_f_assign_range fuel v g : same (V:=V) (xf_assign_range N fuel g) v (fv_assign_range N fuel v g) un.
  Proof. eapply same_bind; [apply same_f_clear|]. intros v'. apply same_f_append. Qed.
  Lemma same_f_put_n fuel v o n r (m : fvec) : same (xf_put_n N fuel v o n r) m (fv_put_n N fuel v o n r) (λ u, (m, u)).
  Proof.
    unfold xf_put_n, fv_put_n. apply (same_loop _ _ _ (n, o) (λ s, s) (λ _, m)). intros [n' o'].
    destruct n' as [|n']; [by apply same_ret|]. apply same_if; intros _; [|by apply same_ret].
    apply same_do_bind. intros x. apply same_copy. by apply same_ret.
  Qed.
  Lemma same_f_put_range fuel v o g (m : fvec) :
    same (V:=V) (xf_put_range N fuel v o g) m (fv_put_range N fuel v o g) (λ u, (m, u)).
  Proof.
    unfold xf_put_range, fv_put_range. apply (same_loop _ _ _ (g, o) (λ s, s) (λ _, m)). intros [g' o'].
    destruct (rnext g') as [[r g'']|]; [|by apply same_ret]. apply same_if; intros _; [|by apply same_ret].
    apply same_do_bind. intros x. apply same_copy. by apply same_ret.
  Qed.
  Lemma same_f_make_room fuel v p n : same (V:=V) (xf_make_room N fuel p n) v (fv_make_room N fuel v p n) un.
  Proof.
    unfold xf_make_room, fv_make_room. sstep. apply same_do_bind. intros [o i]. sstep.
    set (o' := if decide (N < o) then N else o).
    eapply (same_bind_ret _ _ _ _ (λ _, fv_set_last v o')); [|done].
    eapply same_map; [apply same_shift_up|]. by intros [].
  Qed.
  Lemma same_f_insert_n fuel v pos n r : same (xf_insert_n N fuel pos n r) v (fv_insert_n N fuel v pos n r) id.
  Proof.
    unfold xf_insert_n, fv_insert_n. apply same_if; intros _; [by apply same_ret|]. sstep. apply same_if; intros _.
    - eapply same_bind; [apply same_f_make_room|]. intros v'. cbn [fst snd].
      sstep.
      eapply same_bind; [apply same_f_put_n|]. intros []. by apply same_ret.
    - eapply same_bind; [apply same_f_fill|]. intros v'. by apply same_ret.
  Qed.
  Lemma same_f_insert_range fuel v pos g : same (V:=V) (xf_insert_range N fuel pos g) v (fv_insert_range N fuel v pos g) id.
  Proof.
    unfold xf_insert_range, fv_insert_range. apply same_if; intros _; [by apply same_ret|]. sstep. apply same_if; intros _.
    - eapply same_bind; [apply same_f_make_room|]. intros v'. cbn [fst snd]. sstep.
      eapply same_bind; [apply same_f_put_range|]. intros []. by apply same_ret.
    - eapply same_bind; [apply same_f_append|]. intros v'. by apply same_ret.
  Qed.
  Lemma same_f_push_back v r : same (xf_push_back N r) v (fv_push_back N v r) un.
  Proof.
    unfold xf_push_back, fv_push_back. sstep. destruct (fv_full N v); [by apply same_ret|]. intros h.
    pose proof (same_f_push r (λ _, xret tt) v (ret (fv_set_last v (S (fv_last v)))) un) as Hp.
    specialize (Hp ltac:(by apply same_ret) h). rewrite <- Hp.
    unfold xbind, xret, bind, ret. destruct (xf_push r v None h) as [[[m' f []|m'] h']| |]; done.
  Qed.
  Lemma same_f_resize fuel v n : same (xf_resize N dflt fuel n) v (fv_resize N dflt fuel v n) un.
  Proof.
    unfold xf_resize. sstep. destruct (decide (n < fv_size v)) as [Hn|Hn].
    - intros h. unfold xbind, xdo, xset, bind, ret. by destruct (fv_resize N dflt fuel v n h) as [[r h']| |].
    - unfold fv_resize. destruct (decide (n < fv_size v)) as [Hn'|_]; [done|].
      eapply same_bind; [apply same_f_insert_n|]. intros [v' i]. by apply same_ret.
  Qed.
  Lemma same_f_erase_range fuel v i j : same (V:=V) (xf_erase_range fuel i j) v (fv_erase_range fuel v i j) id.
  Proof.
    unfold xf_erase_range, fv_erase_range. sstep. apply same_do_bind. intros _.
    eapply same_bind; [apply same_shift_down|]. intros o. cbn [fst snd]. sstep. by apply same_ret.
  Qed.
End fixed.
