(** Matching reports no error: it returns an answer unless it panics. *)
From Verif Require Import Model.Glob Proof.LangP Proof.MatchP Proof.TermP.
From Coq Require Import Lia ZifyBool ZifyN ZifyNat.

Definition ne {A} (r : res A) : Prop := match r with Err _ => False | _ => True end.
Lemma ne_bind {A C} (r : res A) (k : A -> res C) : ne r -> (forall a, ne (k a)) -> ne (bind r k).
Proof. destruct r; cbn; auto. Qed.
Lemma ne_cont f s rest next : (forall s items next, ne (matchItems f s items next)) ->
  ne (if null rest then if next_empty next then Ok (null s)
      else let '(its, nx) := next_next next in bind (matchItems f s its nx) (fun '(m, _) => Ok m)
    else bind (matchItems f s rest next) (fun '(m, _) => Ok m)).
Proof.
  intros H. destruct (null rest).
  - destruct (next_empty next); [exact I|]. destruct (next_next next) as [its nx]. apply ne_bind; [apply H|intros [? ?]; exact I].
  - apply ne_bind; [apply H|intros [? ?]; exact I].
Qed.
Theorem match_ne : forall f, (forall s items next, ne (matchItems f s items next)) /\ (forall s items next, ne (matchStarItems f s items next)) /\
  (forall s items next, ne (starLoop f s items next)) /\ (forall s rest next, ne (optLoop f s rest next)) /\ (forall s vals rest next, ne (listLoop f s vals rest next)).
Proof.
  induction f as [|f (IM & ISI & ISL & IO & IL)]; [repeat split; intros; exact I|].
  split; [|split; [|split; [|split]]].
  - intros s items next. cbn [matchItems]. destruct items as [|it rest].
    + destruct (next_empty next); [exact I|]. destruct (next_next next) as [its nx]. apply ne_bind; [apply IM|intros [? ?]; exact I].
    + destruct (zlen s <? item_min it)%Z; [exact I|]. destruct (item_match it s) as [[off|] fl]; [|exact I]. set (s1 := skipn off s). clearbody s1.
      destruct fl; try exact I.
      * apply IM.
      * destruct it; try exact I. apply ne_bind; [destruct (sl_optional l); [now apply ne_cont|exact I]|].
        intros [|]; [exact I|]. generalize (sl_vals l). intro vs. induction vs as [|v vs IH]; [exact I|].
        destruct (match_val s1 v); auto. apply ne_bind; [now apply ne_cont|]. intros [|]; [exact I|auto].
      * destruct (null rest).
        -- destruct (next_empty next); [exact I|]. destruct (next_next next) as [its nx]. apply ISI.
        -- apply ISI.
      * destruct it as [| | | | | | |vals mn mx|]; try exact I. apply ne_bind; [destruct (group_optional mn); [now apply ne_cont|exact I]|].
        intros [|]; [exact I|]. induction vals as [|v vs IH]; [exact I|]. apply ne_bind; [apply IM|]. intros [[|] ?]; [exact I|auto].
  - intros s items next. cbn [matchStarItems]. destruct items as [|it rest].
    + destruct (next_empty next); [exact I|]. destruct (next_next next) as [its nx]. apply ISI.
    + apply ISL.
  - intros s items next. cbn [starLoop]. destruct items as [|it rest].
    + destruct (next_empty next); [exact I|]. destruct (next_next next) as [its nx]. apply ne_bind; [apply IM|intros [? ?]; exact I].
    + destruct (zlen s <? item_min it)%Z; [exact I|]. destruct (item_find it s) as [[[off|] len] fl]; [|exact I]. set (s1 := skipn off s). clearbody s1.
      assert (Sh : forall its, ne (let '(_, n) := decode_rune s1 in if Nat.eqb n 0 then Ok (false, false) else starLoop f (skipn n s1) its next)).
      { intros its. destruct (decode_rune s1) as [r n]. destruct (Nat.eqb n 0); [exact I|apply ISL]. }
      destruct fl; try exact I.
      * destruct (after_found len s1); [|exact I]. apply ne_bind; [apply IM|]. intros [m a]. destruct (m || a); [exact I|apply Sh].
      * destruct it; try exact I. apply ne_bind; [destruct (sl_optional l); [apply IO|exact I]|].
        intros [m [|]]; [exact I|]. apply ne_bind; [apply IL|intros; exact I].
      * destruct (null rest).
        -- destruct (next_empty next); [exact I|]. destruct (next_next next) as [its nx]. apply ne_bind; [apply ISI|]. intros [[|] ?]; [exact I|apply Sh].
        -- apply Sh.
      * destruct it as [| | | | | | |vals mn mx|]; try exact I. apply ne_bind.
        -- destruct (group_optional mn); [|exact I]. destruct (null rest).
           ++ destruct (next_empty next); [exact I|]. destruct (next_next next) as [its nx]. apply ne_bind; [apply ISI|intros [? ?]; exact I].
           ++ apply ne_bind; [apply ISI|intros [? ?]; exact I].
        -- intros [|]; [exact I|]. induction vals as [|v vs IH]; [exact I|]. apply ne_bind; [apply ISI|]. intros [[|] ?]; [exact I|auto].
  - intros s rest next. cbn [optLoop].
    assert (Sh : ne (let '(_, n) := decode_rune s in if Nat.eqb n 0 then Ok (false, false) else optLoop f (skipn n s) rest next)).
    { destruct (decode_rune s) as [r n]. destruct (Nat.eqb n 0); [exact I|apply IO]. }
    destruct (null rest).
    + destruct (next_empty next); [destruct (null s); [exact I|exact Sh]|]. destruct (next_next next) as [its nx]. apply ne_bind; [apply IM|]. intros [[|] ?]; [exact I|exact Sh].
    + apply ne_bind; [apply ISI|]. intros [[|] ?]; [exact I|exact Sh].
  - intros s vals rest next. cbn [listLoop]. apply ne_bind.
    + generalize (@None nat). generalize vals. intro vs. induction vs as [|v vs IH]; intro off; [exact I|].
      destruct (find_val s v) as [o|]; [|apply IH]. apply ne_bind; [now apply ne_cont|]. intros [|]; [exact I|apply IH].
    + intros [u|[o|]]; try exact I. cbv zeta. destruct (decode_rune (skipn o s)) as [r n]. destruct (Nat.eqb n 0); [exact I|apply IL].
Qed.
Lemma glob_match_ne g s : ne (glob_match g s).
Proof.
  unfold glob_match. repeat match goal with |- context [if ?b then _ else _] => destruct b; try exact I end.
  unfold match_items. apply ne_bind; [apply match_ne|intros [? ?]; exact I].
Qed.
Lemma glob_answers g s : glob_match g s <> Panic -> exists b, glob_match g s = Ok b.
Proof. intro N. pose proof (glob_match_ne g s) as E. pose proof (glob_match_fin g s) as F. destruct (glob_match g s) as [b|e| |]; [eauto|easy|easy|easy]. Qed.
