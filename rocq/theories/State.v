(** Programs over a state without a heap: what a run gives, and rules to prove it. *)
From Verif Require Export Base.
From Coq Require Import ssreflect.

(** [m] started in [s] terminates without undefined behaviour, and result and final state
    are related by [Q]. *)
Definition gives {S A} (m : M S A) (s : S) (Q : A → S → Prop) : Prop :=
  ∃ a s', m s = Ok (a, s') ∧ Q a s'.
(** [m] started in [s] runs into undefined behaviour. *)
Definition goes_wrong {S A} (m : M S A) (s : S) (u : ub) : Prop := m s = UB u.

Section rules.
  Context {S : Type}.
  Lemma gives_ret {A} (a : A) (s : S) (Q : A → S → Prop) : Q a s → gives (ret a) s Q.
  Proof. intros. by exists a, s. Qed.
  Lemma gives_bind {A B} (m : M S A) (k : A → M S B) s (Q : B → S → Prop) :
    gives m s (λ a s', gives (k a) s' Q) → gives (bind m k) s Q.
  Proof.
    intros (a&s'&Hm&(b&s2&Hk&HQ)). exists b, s2. split; [|done]. unfold bind. by rewrite Hm.
  Qed.
  Lemma gives_conseq {A} (m : M S A) s (Q R : A → S → Prop) :
    gives m s Q → (∀ a s', Q a s' → R a s') → gives m s R.
  Proof. intros (a&s2&?&?) HQR. exists a, s2. auto. Qed.
  Lemma gives_eq {A} (m : M S A) s (a : A) s' (Q : A → S → Prop) : m s = Ok (a, s') → Q a s' → gives m s Q.
  Proof. intros. by exists a, s'. Qed.
  Lemma gives_inv {A} (m : M S A) s a s' (Q : A → S → Prop) : gives m s Q → m s = Ok (a, s') → Q a s'.
  Proof. intros (a'&s2&Hm&HQ) H. rewrite Hm in H. by simplify_eq. Qed.
  (** A loop with invariant [I] and variant [f]. *)
  Lemma gives_loop {A B} (I : A → S → Prop) (f : A → nat) (Q : B → S → Prop) (body : A → M S (A + B)) fuel a s :
    I a s → f a < fuel →
    (∀ a s, I a s → gives (body a) s (λ r s', match r with inl a' => I a' s' ∧ f a' < f a | inr b => Q b s' end)) →
    gives (loop fuel body a) s Q.
  Proof.
    intros HI Hf Hbody. revert a s HI Hf. induction fuel as [|fuel IH]; intros a s HI Hf; [lia|].
    cbn [loop]. apply gives_bind. eapply gives_conseq; [by apply Hbody|].
    intros [a'|b] s'; simpl.
    - intros [HI' Hf']. apply IH; [done|lia].
    - intros. by apply gives_ret.
  Qed.
  Lemma gives_unfold {A B} (body : A → M S (A + B)) fuel a s (Q : B → S → Prop) :
    gives (body a) s (λ r s', match r with inl a' => gives (loop fuel body a') s' Q | inr b => Q b s' end) →
    gives (loop (Datatypes.S fuel) body a) s Q.
  Proof.
    intros H. cbn [loop]. apply gives_bind. eapply gives_conseq; [exact H|].
    intros [a'|b] s'; simpl; [done|]. intros. by apply gives_ret.
  Qed.
  (** undefined behaviour *)
  Lemma wrong_bind_l {A B} (m : M S A) (k : A → M S B) s u : goes_wrong m s u → goes_wrong (bind m k) s u.
  Proof. unfold goes_wrong, bind. by intros ->. Qed.
  Lemma wrong_bind {A B} (m : M S A) (k : A → M S B) s (Q : A → S → Prop) u :
    gives m s Q → (∀ a s', Q a s' → goes_wrong (k a) s' u) → goes_wrong (bind m k) s u.
  Proof. intros (a&s'&Hm&HQ) H. unfold goes_wrong, bind. rewrite Hm. by apply H. Qed.
End rules.
