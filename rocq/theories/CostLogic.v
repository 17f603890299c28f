(** The number of memory accesses: bounds by recursion over the program text. Proof file. *)
From Coq Require Import ssreflect.
From Verif Require Export Cost Reify.
Local Open Scope general_if_scope.

(** costs, [None] for a path that does not exist *)
Definition omax (a b : option nat) : option nat :=
  match a, b with
  | Some n, Some m => Some (n `max` m)
  | Some n, None | None, Some n => Some n
  | None, None => None
  end.
Definition oadd (n : nat) (a : option nat) : option nat := match a with Some m => Some (n + m) | None => None end.
Definition oval (a : option nat) : nat := match a with Some m => m | None => 0 end.
Definition ole (n : nat) (a : option nat) : Prop := match a with Some m => n ≤ m | None => False end.
Lemma ole_max_l n a b : ole n a → ole n (omax a b).
Proof. destruct a, b; simpl; lia. Qed.
Lemma ole_max_r n a b : ole n b → ole n (omax a b).
Proof. destruct a, b; simpl; lia. Qed.
Lemma ole_add n m a : ole n a → ole (m + n) (oadd m a).
Proof. destruct a; simpl; lia. Qed.
Lemma ole_val n a : ole n a → n ≤ oval a.
Proof. destruct a; simpl; [done|lia]. Qed.
Lemma ole_le n m a : ole n a → m ≤ n → ole m a.
Proof. destruct a; simpl; lia. Qed.

Section cost.
  Context {C : Type}.
  Notation heap := (gmap loc C).

  (** every path of the tree that returns [a] makes at most [g a - s] accesses *)
  Fixpoint bounded {A} (s : nat) (g : A → option nat) (p : prog C A) : Prop :=
    match p with
    | PRet a => ole s (g a)
    | PUB _ | PNoFuel => True
    | PLoad _ k => ∀ c, bounded (S s) g (k c)
    | PModify _ _ k => bounded (S s) g k
    | PAlloc _ k => ∀ l, bounded (S s) g (k l)
    | PFree _ k => bounded (S s) g k
    end.
  Lemma bounded_le {A} s s' (g g' : A → option nat) (p : prog C A) :
    (∀ n a, ole (s + n) (g a) → ole (s' + n) (g' a)) → bounded s g p → bounded s' g' p.
  Proof.
    revert s s'. induction p as [a|u| |l q IH|l f q IH|c q IH|l q IH]; intros s s' Hg Hp; simpl in *; try done.
    - specialize (Hg 0 a). rewrite !Nat.add_0_r in Hg. auto.
    - intros c. apply (IH c (S s)); [|done]. intros n a. specialize (Hg (S n) a). by rewrite -!plus_n_Sm in Hg.
    - apply (IH (S s)); [|done]. intros n a. specialize (Hg (S n) a). by rewrite -!plus_n_Sm in Hg.
    - intros l. apply (IH l (S s)); [|done]. intros n a. specialize (Hg (S n) a). by rewrite -!plus_n_Sm in Hg.
    - apply (IH (S s)); [|done]. intros n a. specialize (Hg (S n) a). by rewrite -!plus_n_Sm in Hg.
  Qed.
  Lemma bounded_bind {A B} s n (g : B → option nat) (p : prog C A) (q : A → prog C B) :
    bounded s (λ _, Some n) p → (∀ a, bounded n g (q a)) → bounded s g (pbind p q).
  Proof.
    intros Hp Hq. revert s Hp. induction p as [a|u| |l k IH|l f k IH|c k IH|l k IH]; intros s Hp; simpl in *; try done.
    - eapply bounded_le; [|apply Hq]. intros m b. simpl in *. intros H. eapply ole_le; [done|]. lia.
    - intros c. apply IH, Hp.
    - apply IH, Hp.
    - intros l. apply IH, Hp.
    - apply IH, Hp.
  Qed.
  Lemma bounded_bind2 {A1 A2 B} s c d (g : B → option nat) (p : prog C (A1 + A2)) (q : A1 + A2 → prog C B) :
    bounded s (λ r, match r with inl _ => c | inr _ => d end) p →
    (∀ a n, c = Some n → bounded n g (q (inl a))) → (∀ a n, d = Some n → bounded n g (q (inr a))) →
    bounded s g (pbind p q).
  Proof.
    intros Hp Hq1 Hq2. revert s Hp. induction p as [a|u| |l k IH|l f k IH|c' k IH|l k IH]; intros s Hp; simpl in *; try done.
    - destruct a as [a|a]; [destruct c as [n|]|destruct d as [n|]]; simpl in Hp; try done.
      + eapply bounded_le; [|by apply Hq1]. intros m b H. eapply ole_le; [done|]. lia.
      + eapply bounded_le; [|by apply Hq2]. intros m b H. eapply ole_le; [done|]. lia.
    - intros c'. apply IH, Hp.
    - apply IH, Hp.
    - intros l. apply IH, Hp.
    - apply IH, Hp.
  Qed.
  Lemma bounded_accesses {A} al s (g : A → option nat) (p : prog C A) h a h' :
    bounded s g p → interp al p h = Ok (a, h') → ole (s + accesses al p h) (g a).
  Proof.
    revert s h. induction p as [b|u| |l q IH|l f q IH|c q IH|l q IH]; intros s h Hp Hi; simpl in *; try done.
    - simplify_eq. by rewrite Nat.add_0_r.
    - destruct (h !! l) as [c|]; [|done]. rewrite -plus_n_Sm. by apply (IH c (S s)).
    - destruct (h !! l) as [c|]; [|done]. rewrite -plus_n_Sm. by apply (IH (S s)).
    - rewrite -plus_n_Sm. by apply (IH _ (S s)).
    - destruct (h !! l) as [c|]; [|done]. rewrite -plus_n_Sm. by apply (IH (S s)).
  Qed.

  (** [q] is [p] with more fuel *)
  Fixpoint ext {A} (p q : prog C A) : Prop :=
    match p with
    | PRet a => q = PRet a
    | PUB u => q = PUB u
    | PNoFuel => True
    | PLoad l k => ∃ k', q = PLoad l k' ∧ ∀ c, ext (k c) (k' c)
    | PModify l f k => ∃ k', q = PModify l f k' ∧ ext k k'
    | PAlloc c k => ∃ k', q = PAlloc c k' ∧ ∀ l, ext (k l) (k' l)
    | PFree l k => ∃ k', q = PFree l k' ∧ ext k k'
    end.
  Lemma ext_bind {A B} (p p' : prog C A) (q q' : A → prog C B) :
    ext p p' → (∀ a, ext (q a) (q' a)) → ext (pbind p q) (pbind p' q').
  Proof.
    intros Hp Hq. revert p' Hp. induction p as [a|u| |l k IH|l f k IH|c k IH|l k IH]; intros p' Hp; simpl in *; try done.
    - subst p'. simpl. apply Hq.
    - by subst p'.
    - destruct Hp as (k'&->&Hp). simpl. eexists. split; [done|]. intros c. apply IH, Hp.
    - destruct Hp as (k'&->&Hp). simpl. eexists. split; [done|]. apply IH, Hp.
    - destruct Hp as (k'&->&Hp). simpl. eexists. split; [done|]. intros c'. apply IH, Hp.
    - destruct Hp as (k'&->&Hp). simpl. eexists. split; [done|]. apply IH, Hp.
  Qed.
  Lemma ext_accesses {A} al (p q : prog C A) h a h' : ext p q → interp al p h = Ok (a, h') →
    accesses al q h = accesses al p h.
  Proof.
    revert q h. induction p as [b|u| |l k IH|l f k IH|c k IH|l k IH]; intros q h He Hi; simpl in *; try done.
    - by subst.
    - destruct He as (k'&->&He). simpl. f_equal. destruct (h !! l) as [c|]; [|done]. by eapply IH.
    - destruct He as (k'&->&He). simpl. f_equal. destruct (h !! l) as [c|]; [|done]. by eapply IH.
    - destruct He as (k'&->&He). simpl. f_equal. by eapply IH.
    - destruct He as (k'&->&He). simpl. f_equal. destruct (h !! l) as [c|]; [|done]. by eapply IH.
  Qed.

  (** [Tg F f g m]: the program of [m] with fuel [F] makes at most [g a] accesses if it returns [a],
      and its program with fuel [f] extends it *)
  Definition Tg {A} (F f : nat) (g : A → option nat) (m : nat → Allocator C → M heap A) : Type :=
    {pq : prog C A * prog C A | performs (m F) pq.1 ∧ performs (m f) pq.2 ∧ bounded 0 g pq.1 ∧ ext pq.1 pq.2}.
  Definition Tk {A} (F f n : nat) (m : nat → Allocator C → M heap A) : Type := Tg F f (λ _, Some n) m.
  (** bodies of loops: [c] if the loop goes on, [d] if it ends *)
  Definition Tb {A B} (F f : nat) (c d : option nat) (m : nat → Allocator C → M heap (A + B)) : Type :=
    Tg F f (λ r, match r with inl _ => c | inr _ => d end) m.

  Context (F f : nat).
  Lemma tg_le {A} (g g' : A → option nat) (m : nat → Allocator C → M heap A) :
    (∀ n a, ole n (g a) → ole n (g' a)) → Tg F f g m → Tg F f g' m.
  Proof.
    intros Hg [[p q] (?&?&?&?)]. exists (p, q). split_and!; [done|done| |done]. eapply bounded_le; [|done]. simpl. auto.
  Qed.
  Lemma tk_le {A} n n' (m : nat → Allocator C → M heap A) : Tk F f n m → n ≤ n' → Tk F f n' m.
  Proof. intros H ?. eapply tg_le; [|exact H]. simpl. lia. Qed.
  Lemma tk_max_l {A} n n' (m : nat → Allocator C → M heap A) : Tk F f n m → Tk F f (n `max` n') m.
  Proof. intros. apply (tk_le n); [done|lia]. Qed.
  Lemma tk_max_r {A} n n' (m : nat → Allocator C → M heap A) : Tk F f n' m → Tk F f (n `max` n') m.
  Proof. intros. apply (tk_le n'); [done|lia]. Qed.
  Lemma tb_max_l {A B} c d c' d' (m : nat → Allocator C → M heap (A + B)) : Tb F f c d m → Tb F f (omax c c') (omax d d') m.
  Proof. apply tg_le. intros n [a|a]; apply ole_max_l. Qed.
  Lemma tb_max_r {A B} c d c' d' (m : nat → Allocator C → M heap (A + B)) : Tb F f c' d' m → Tb F f (omax c c') (omax d d') m.
  Proof. apply tg_le. intros n [a|a]; apply ole_max_r. Qed.
  Lemma tb_of_tk {A B} n (m : nat → Allocator C → M heap (A + B)) : Tk F f n m → Tb F f (Some n) (Some n) m.
  Proof. apply tg_le. by intros k [a|a]. Qed.
  Lemma tb_inl {A B} (a : A) : Tb F f (Some 0) None (λ _ _, ret (inl (B:=B) a)).
  Proof. exists (PRet (inl a), PRet (inl a)). split_and!; [apply perf_ret..|simpl; lia|done]. Qed.
  Lemma tb_inr {A B} (b : B) : Tb F f None (Some 0) (λ _ _, ret (inr (A:=A) b)).
  Proof. exists (PRet (inr b), PRet (inr b)). split_and!; [apply perf_ret..|simpl; lia|done]. Qed.
  Lemma tb_fail {A B} u : Tb F f None None (λ _ _, fail (A:=A + B) u).
  Proof. exists (PUB u, PUB u). split_and!; [apply perf_fail..|done|done]. Qed.
  Lemma tk_ret {A} (a : A) : Tk F f 0 (λ _ _, ret a).
  Proof. exists (PRet a, PRet a). split_and!; [apply perf_ret..|simpl; lia|done]. Qed.
  Lemma tk_fail {A} u : Tk F f 0 (λ _ _, fail (A:=A) u).
  Proof. exists (PUB u, PUB u). split_and!; [apply perf_fail..|done|done]. Qed.
  Lemma tk_nofuel {A} : Tk F f 0 (λ _ _ _, NoFuel (A:=A * heap)).
  Proof. exists (PNoFuel, PNoFuel). split_and!; [apply perf_nofuel..|done|done]. Qed.
  Lemma tk_load l : Tk F f 1 (λ _ _, load l).
  Proof. exists (PLoad l PRet, PLoad l PRet). split_and!; [apply perf_load..|simpl; auto|]. simpl. eauto. Qed.
  Lemma tk_modify l g : Tk F f 1 (λ _ _, modify l g).
  Proof. exists (PModify l g (PRet tt), PModify l g (PRet tt)). split_and!; [apply perf_modify..|simpl; auto|]. simpl. eauto. Qed.
  Lemma tk_alloc c : Tk F f 1 (λ _ al, @allocate C al c).
  Proof. exists (PAlloc c PRet, PAlloc c PRet). split_and!; [apply perf_alloc..|simpl; auto|]. simpl. eauto. Qed.
  Lemma tk_free l : Tk F f 1 (λ _ _, deallocate l).
  Proof. exists (PFree l (PRet tt), PFree l (PRet tt)). split_and!; [apply perf_free..|simpl; auto|]. simpl. eauto. Qed.
  Lemma tg_bind {A B} n (g : B → option nat) (m : nat → Allocator C → M heap A) (k : nat → Allocator C → A → M heap B) :
    Tk F f n m → (∀ a, Tg F f g (λ fu al, k fu al a)) → Tg F f (λ b, oadd n (g b)) (λ fu al, bind (m fu al) (k fu al)).
  Proof.
    intros [[p q] (H1&H2&H3&H4)] Hk. simpl in *.
    exists (pbind p (λ a, (proj1_sig (Hk a)).1), pbind q (λ a, (proj1_sig (Hk a)).2)). simpl. split_and!.
    - apply perf_bind; [done|]. intros a. apply (proj2_sig (Hk a)).
    - apply perf_bind; [done|]. intros a. apply (proj2_sig (Hk a)).
    - eapply bounded_bind; [done|]. intros a. destruct (proj2_sig (Hk a)) as (_&_&Hb&_).
      eapply bounded_le; [|exact Hb]. simpl. intros j b. apply ole_add.
    - apply ext_bind; [done|]. intros a. apply (proj2_sig (Hk a)).
  Qed.
  Lemma tk_bind {A B} n n' (m : nat → Allocator C → M heap A) (k : nat → Allocator C → A → M heap B) :
    Tk F f n m → (∀ a, Tk F f n' (λ fu al, k fu al a)) → Tk F f (n + n') (λ fu al, bind (m fu al) (k fu al)).
  Proof. intros Hm Hk. exact (tg_bind n (λ _, Some n') m k Hm Hk). Qed.
  Lemma tb_bind {A B1 B2} n c d (m : nat → Allocator C → M heap A) (k : nat → Allocator C → A → M heap (B1 + B2)) :
    Tk F f n m → (∀ a, Tb F f c d (λ fu al, k fu al a)) → Tb F f (oadd n c) (oadd n d) (λ fu al, bind (m fu al) (k fu al)).
  Proof.
    intros Hm Hk. eapply tg_le; [|exact (tg_bind n _ m k Hm Hk)]. by intros j [b|b].
  Qed.
  Lemma tk_loop {A B} c d (b : nat → Allocator C → A → M heap (A + B)) a :
    F ≤ f → (∀ a, Tb F f c d (λ fu al, b fu al a)) → Tk F f (F * oval c + oval d) (λ fu al, loop fu (b fu al) a).
  Proof.
    intros HF Hb. set (F0 := F) at 2. set (f0 := f).
    assert (F0 ≤ f0) as H0 by done. revert H0.
    assert ({pq : prog C B * prog C B | F0 ≤ f0 → performs (λ al, loop F0 (b F al) a) pq.1 ∧ performs (λ al, loop f0 (b f al) a) pq.2 ∧
      bounded 0 (λ _, Some (F0 * oval c + oval d)) pq.1 ∧ ext pq.1 pq.2}) as Hgen.
    { generalize f0, F0. clear f0 F0. intros f0 F0. revert f0 a. induction F0 as [|F0 IH]; intros f0 a.
      - destruct (Hb a) as [[p q] _].
        assert ({q : prog C B | performs (λ al, loop f0 (b f al) a) q}) as [q' Hq'].
        { clear p q. revert a. induction f0 as [|f0 IH]; intros a; [exists PNoFuel; apply perf_nofuel|].
          exists (pbind (proj1_sig (Hb a)).2 (λ r, match r with inl a' => proj1_sig (IH a') | inr b' => PRet b' end)).
          apply (perf_bind _ _ (λ al, b f al a) (λ al r, match r with inl a' => loop f0 (b f al) a' | inr b' => ret b' end)).
          - apply (proj2_sig (Hb a)).
          - intros [a'|b']; [apply (proj2_sig (IH a'))|apply perf_ret]. }
        exists (PNoFuel, q'). intros _. split_and!; [apply perf_nofuel|done|done|done].
      - destruct f0 as [|f0]; [exists (PNoFuel, PNoFuel); intros; lia|].
        exists (pbind (proj1_sig (Hb a)).1 (λ r, match r with inl a' => (proj1_sig (IH f0 a')).1 | inr b' => PRet b' end),
                pbind (proj1_sig (Hb a)).2 (λ r, match r with inl a' => (proj1_sig (IH f0 a')).2 | inr b' => PRet b' end)).
        intros Hle. apply le_S_n in Hle. cbn [fst snd]. split_and!.
        + apply (perf_bind _ _ (λ al, b F al a) (λ al r, match r with inl a' => loop F0 (b F al) a' | inr b' => ret b' end)).
          * apply (proj2_sig (Hb a)).
          * intros [a'|b']; [apply (proj2_sig (IH f0 a') Hle)|apply perf_ret].
        + apply (perf_bind _ _ (λ al, b f al a) (λ al r, match r with inl a' => loop f0 (b f al) a' | inr b' => ret b' end)).
          * apply (proj2_sig (Hb a)).
          * intros [a'|b']; [apply (proj2_sig (IH f0 a') Hle)|apply perf_ret].
        + eapply bounded_bind2; [apply (proj2_sig (Hb a))|..].
          * intros a' j ->. destruct (proj2_sig (IH f0 a') Hle) as (H1&_&Hbd&_).
            eapply bounded_le; [|exact Hbd]. simpl. intros n _. lia.
          * intros b' j ->. simpl. lia.
        + apply ext_bind; [apply (proj2_sig (Hb a))|]. intros [a'|b']; [apply (proj2_sig (IH f0 a') Hle)|done]. }
    intros H0. destruct Hgen as [pq Hpq]. exists pq. exact (Hpq H0).
  Qed.
End cost.

Section within.
  Context {C : Type}.
  Notation heap := (gmap loc C).
  Lemma takes_of {A} F f n n' (P : heap → Prop) (m : nat → Allocator C → M heap A) (Q Q' : A → heap → Prop) :
    Tk F f n m → n ≤ n' → (∀ al, runs P (m F al) Q) → (∀ al, runs P (m f al) Q') → takes_at_most n' P (m f).
  Proof.
    intros [[p q] (H1&H2&H3&H4)] Hn HF Hf. simpl in *. exists q. split; [done|].
    intros al h hf Hh Hd. destruct (HF al h hf Hh Hd) as (a&h'&Hm&_). destruct (Hf al h hf Hh Hd) as (a2&h2&Hm2&_).
    exists a2, (h2 ∪ hf). split; [done|].
    rewrite (performs_interp _ _ H1) in Hm. rewrite (ext_accesses _ _ _ _ _ _ H4 Hm).
    pose proof (bounded_accesses al 0 _ p (h ∪ hf) _ _ H3 Hm) as Hle. simpl in Hle. lia.
  Qed.
  (** the usual case: the triple holds for every fuel above [F] *)
  Lemma takes_fuel {A} F f n n' (P : heap → Prop) (m : nat → Allocator C → M heap A) (Q : A → heap → Prop) :
    F < f → Tk (S F) f n m → n ≤ n' → (∀ al fu, F < fu → runs P (m fu al) Q) → takes_at_most n' P (m f).
  Proof. intros Hf Ht Hn HF. eapply (takes_of (S F) f); [done|done|..]; intros al; apply HF; lia. Qed.
  (** no fuel *)
  Lemma takes_flat {A} n n' (P : heap → Prop) (m : Allocator C → M heap A) (Q : A → heap → Prop) :
    Tk 0 0 n (λ _, m) → n ≤ n' → (∀ al, runs P (m al) Q) → takes_at_most n' P m.
  Proof. intros Ht Hn HF. by eapply (takes_of 0 0 _ _ _ (λ _, m)). Qed.
End within.

(** [tk]: proves [Tk F f ?n m], [tb]: [Tb F f ?c ?d m], finding the costs *)
Ltac tk_hint h := fail.
Ltac tk_by L := eapply L; tr_side.
Ltac tk_head m :=
  let C := lazymatch type of m with nat → Allocator ?C → _ => C end in
  let b := eval cbv beta in (m 0 (bump_allocator C)) in
  term_head b.
Ltac tk :=
  cbv beta iota zeta;
  lazymatch goal with
  | |- Tk ?F ?f _ (fun fu al => bind (@?m fu al) (@?k fu al)) =>
      eapply (tk_bind F f _ _ m k); [tk|intros ?; tk]
  | |- Tk _ _ _ (fun fu al => ret _) => apply tk_ret
  | |- Tk _ _ _ (fun fu al => fail _) => apply tk_fail
  | |- Tk _ _ _ (fun fu al => load _) => apply tk_load
  | |- Tk _ _ _ (fun fu al => modify _ _) => apply tk_modify
  | |- Tk _ _ _ (fun fu al => allocate _) => apply tk_alloc
  | |- Tk _ _ _ (fun fu al => deallocate _) => apply tk_free
  | |- Tk ?F ?f _ (fun fu al => loop fu (@?b fu al) ?a) =>
      eapply (tk_loop F f _ _ b a); [tr_side|intros ?; tb]
  | |- Tk _ _ _ (fun fu al => match ?x with _ => _ end) =>
      tryif (assert_succeeds (destruct x; [])) then (destruct x; tk)
      else tryif (assert_succeeds (destruct x; [|])) then
        (refine (_ : Tk _ _ (_ `max` _) _); destruct x; [apply tk_max_l; tk|apply tk_max_r; tk])
      else
        (refine (_ : Tk _ _ (_ `max` (_ `max` _)) _); destruct x;
         [apply tk_max_l; tk|apply tk_max_r, tk_max_l; tk|apply tk_max_r, tk_max_r; tk])
  | |- Tk _ _ _ (fun fu al h => NoFuel) => apply tk_nofuel
  | |- Tk _ _ _ ?m => let h := tk_head m in tryif tk_hint h then idtac else (unfold h; tk)
  end
with tb :=
  cbv beta iota zeta;
  lazymatch goal with
  | |- Tb ?F ?f _ _ (fun fu al => bind (@?m fu al) (@?k fu al)) =>
      eapply (tb_bind F f _ _ _ m k); [tk|intros ?; tb]
  | |- Tb _ _ _ _ (fun fu al => ret (inl _)) => apply tb_inl
  | |- Tb _ _ _ _ (fun fu al => ret (inr _)) => apply tb_inr
  | |- Tb _ _ _ _ (fun fu al => fail _) => apply tb_fail
  | |- Tb _ _ _ _ (fun fu al => match ?x with _ => _ end) =>
      tryif (assert_succeeds (destruct x; [])) then (destruct x; tb)
      else (refine (_ : Tb _ _ (omax _ _) (omax _ _) _); destruct x; [apply tb_max_l; tb|apply tb_max_r; tb])
  | |- Tb _ _ _ _ _ => apply tb_of_tk; tk
  end.
Ltac cost_le := cbn [Nat.add Nat.max Nat.mul oadd omax oval]; lia.
