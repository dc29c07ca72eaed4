(** The items a parsed glob is made of fit the conditions for star scanning. *)
From Verif Require Import Model.Glob Spec.Class Spec.Safe Spec.GlobSpec Spec.StarSpec.
From Verif Require Import Proof.LangP Proof.SafeP Proof.StarsP Proof.PanicP Proof.MinP.
From Coq Require Import Lia ZifyBool ZifyN ZifyNat.

Lemma made_sfits it : made it -> sfits it.
Proof.
  destruct it as [| | | | | | |vals mn mx|]; try easy. intros (_ & Z & _) L E. apply Z in E as (v & J & F). destruct (L v J) as (i & its & Ei & _ & M).
  rewrite Ei in F. inversion F as [|? ? F1 _]; subst. unfold empty_min in F1. lia.
Qed.
