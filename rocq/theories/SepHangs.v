(** Programs that do not terminate within their fuel, in the separation logic. Proof file. *)
From Verif Require Export Sep.
From iris.proofmode Require Import tactics.

(** Not terminating within the fuel. *)
Definition ihangs {C A} (P : bi_car (hpropI C)) (m : M (gmap loc C) A) : Prop :=
  ∀ σ σf, hholds P σ → σ ##ₘ σf → m (σ ∪ σf) = NoFuel.
Section ihangs.
  Context {C : Type}.
  Notation heap := (gmap loc C).
  Notation iProp := (bi_car (hpropI C)).
  Lemma hangs_of {A} (P : heap → Prop) (m : M heap A) P' :
    (Sep.plain P ⊢ P') → ihangs P' m → hangs P m.
  Proof. intros HP Hm h hf Hh Hd. apply Hm; [|done]. eapply hentails; [exact HP|]. by apply plain_holds. Qed.
  Lemma ihangs_conseq {A} (P P' : iProp) (m : M heap A) : (P ⊢ P') → ihangs P' m → ihangs P m.
  Proof. intros HP Hm σ σf Hh Hd. apply Hm; [|done]. by eapply hentails. Qed.
  Lemma ihangs_wp {A B} (P : iProp) (m : M heap A) (k : A → M heap B) (F : iProp) a :
    (∀ Q, P -∗ (F -∗ Q a) -∗ wp m Q) → ihangs F (k a) → ihangs P (bind m k).
  Proof.
    intros Hm Hk σ σf HP Hd.
    destruct (wp_run m P (λ b, ⌜b = a⌝ ∧ F)%I) with σ σf as (b&σ'&He&Hd'&HQ); [|done..|].
    { iIntros "H". iApply (Hm with "H"). iIntros "H". by iSplit. }
    apply hand_unfold in HQ as [->%hpure_unfold HQ]. unfold bind. rewrite He. by apply Hk.
  Qed.
End ihangs.
