(** Matching always finishes: for any items and any bytes. *)
From Verif Require Import Model.Glob Proof.LangP Proof.ItemP Proof.MatchP.
From Coq Require Import Lia ZifyBool ZifyN ZifyNat.

Lemma bind_fin {A C} (r : res A) (k : A -> res C) : r <> Fuel -> (forall a, k a <> Fuel) -> bind r k <> Fuel.
Proof. destruct r; cbn; auto; try discriminate. Qed.
Lemma skipn_le {A} n (l : list A) : length (skipn n l) <= length l.
Proof. rewrite skipn_length. lia. Qed.
Lemma decode_skip s n : snd (decode_rune s) = n -> n <> 0 -> length (skipn n s) < length s.
Proof.
  intros E N. destruct s as [|c s]; [cbn in E; lia|]. rewrite skipn_length. cbn [length]. lia.
Qed.

Definition TM f := forall s items next, fuelM s (wts items + wnext next) <= f -> matchItems f s items next <> Fuel.
Definition TSI f := forall s items next, fuelM s (wts items + wnext next) + 2 <= f -> matchStarItems f s items next <> Fuel.
Definition TSL f := forall s items next, fuelM s (wts items + wnext next) + 1 <= f -> starLoop f s items next <> Fuel.
Definition TO f := forall s rest next, fuelM s (wts rest + wnext next) + 3 <= f -> optLoop f s rest next <> Fuel.
Definition TL f := forall s vals rest next, fuelM s (wts rest + wnext next) + 1 <= f -> listLoop f s vals rest next <> Fuel.

Lemma fin_cont f s rest next : TM f -> fuelM s (wts rest + wnext next) <= f ->
  (if null rest then if next_empty next then Ok (null s)
      else let '(its, nx) := next_next next in bind (matchItems f s its nx) (fun '(m, _) => Ok m)
    else bind (matchItems f s rest next) (fun '(m, _) => Ok m)) <> Fuel.
Proof.
  intros H L. destruct (null rest).
  - destruct (next_empty next) eqn:E; [discriminate|]. pose proof (next_next_spec next E) as N. destruct (next_next next) as [its nx]. destruct N as (_ & Lw & _).
    apply bind_fin; [|intros [? ?]; discriminate]. apply H. unfold fuelM in *. lia.
  - apply bind_fin; [|intros [? ?]; discriminate]. now apply H.
Qed.

Lemma val_weight v vals : In v vals -> wts (val_items v) <= list_sum (map wt vals).
Proof. intro I. pose proof (in_list_sum wt vals v I). pose proof (wts_val v). lia. Qed.

Theorem terminates : forall f, TM f /\ TSI f /\ TSL f /\ TO f /\ TL f.
Proof.
  induction f as [|f (IM & ISI & ISL & IO & IL)].
  { repeat split; intros ? *; unfold fuelM; lia. }
  split; [|split; [|split; [|split]]].
  - intros s items next L. cbn [matchItems]. destruct items as [|it rest].
    + destruct (next_empty next) eqn:E; [discriminate|]. pose proof (next_next_spec next E) as N. destruct (next_next next) as [its nx]. destruct N as (_ & Lw & _).
      apply bind_fin; [|intros [? ?]; discriminate]. apply IM. change (wts []) with 0 in L. unfold fuelM in *. lia.
    + rewrite wts_cons in L. pose proof (wt_pos it) as Wp. destruct (zlen s <? item_min it)%Z; [discriminate|].
      destruct (item_match it s) as [[off|] fl]; [|discriminate].
      pose proof (skipn_le off s) as Ls. set (s1 := skipn off s) in *. clearbody s1.
      assert (L1 : fuelM s1 (wts rest + wnext next) <= f) by (unfold fuelM in *; lia).
      destruct fl; try discriminate.
      * now apply IM.
      * destruct it; try discriminate. apply bind_fin; [destruct (sl_optional l); [now apply fin_cont|discriminate]|].
        intros [|]; [discriminate|]. generalize (sl_vals l). intro vs. induction vs as [|v vs IH]; [discriminate|].
        destruct (match_val s1 v); auto. apply bind_fin; [apply fin_cont; auto; pose proof (skipn_le n s1); unfold fuelM in *; lia|].
        intros [|]; [discriminate|auto].
      * destruct (null rest) eqn:En.
        -- destruct (next_empty next) eqn:E; [discriminate|]. pose proof (next_next_spec next E) as N. destruct (next_next next) as [its nx]. destruct N as (_ & Lw & _).
           apply ISI. unfold fuelM in *. lia.
        -- apply ISI. unfold fuelM in *. lia.
      * destruct it as [| | | | | | |vals mn mx|]; try discriminate. apply bind_fin; [destruct (group_optional mn); [now apply fin_cont|discriminate]|].
        intros [|]; [discriminate|].
        assert (K : forall v, In v vals -> matchItems f s1 (val_items v) (rest :: next) <> Fuel).
        { intros v I. apply IM. pose proof (val_weight v vals I). rewrite wnext_cons. cbn [wt] in L. unfold fuelM in *. lia. }
        clear L Wp. induction vals as [|v vs IH]; [discriminate|]. apply bind_fin; [apply K; now left|]. intros [[|] ?]; [discriminate|]. apply IH. intros v' I. apply K. now right.
  - intros s items next L. cbn [matchStarItems]. destruct items as [|it rest].
    + destruct (next_empty next) eqn:E; [discriminate|]. pose proof (next_next_spec next E) as N. destruct (next_next next) as [its nx]. destruct N as (_ & Lw & _).
      apply ISI. change (wts []) with 0 in L. unfold fuelM in *. lia.
    + apply ISL. unfold fuelM in *. lia.
  - intros s items next L. cbn [starLoop]. destruct items as [|it rest].
    + destruct (next_empty next) eqn:E; [discriminate|]. pose proof (next_next_spec next E) as N. destruct (next_next next) as [its nx]. destruct N as (_ & Lw & _).
      apply bind_fin; [|intros [? ?]; discriminate]. apply IM. change (wts []) with 0 in L. unfold fuelM in *. lia.
    + pose proof (wt_pos it) as Wp. assert (Wc : wts (it :: rest) = wt it + wts rest) by reflexivity. destruct (zlen s <? item_min it)%Z; [discriminate|].
      destruct (item_find it s) as [[[off|] len] fl]; [|discriminate].
      pose proof (skipn_le off s) as Ls. set (s1 := skipn off s) in *. clearbody s1.
      assert (Sh : forall its, wts its <= wts (it :: rest) -> (let '(_, n) := decode_rune s1 in if Nat.eqb n 0 then Ok (false, false) else starLoop f (skipn n s1) its next) <> Fuel).
      { intros its Lw. destruct (decode_rune s1) as [r n] eqn:Ed. destruct (Nat.eqb_spec n 0) as [|N0]; [discriminate|].
        assert (Sn : snd (decode_rune s1) = n) by now rewrite Ed. pose proof (decode_skip s1 n Sn N0). apply ISL. unfold fuelM in *. lia. }
      destruct fl; try discriminate.
      * destruct (after_found len s1) as [sub|] eqn:Ea; [|discriminate]. apply after_found_inv in Ea as (n & _ & _ & ->). apply bind_fin.
        -- apply IM. pose proof (skipn_le n s1). unfold fuelM in *. lia.
        -- intros [m a]. destruct (m || a); [discriminate|]. now apply Sh.
      * destruct it; try discriminate. apply bind_fin; [destruct (sl_optional l); [apply IO; unfold fuelM in *; lia|discriminate]|].
        intros [m [|]]; [discriminate|]. apply bind_fin; [apply IL; unfold fuelM in *; lia|discriminate].
      * destruct (null rest) eqn:En.
        -- destruct (next_empty next) eqn:E; [discriminate|]. pose proof (next_next_spec next E) as N. destruct (next_next next) as [its nx]. destruct N as (_ & Lw & _).
           apply bind_fin; [apply ISI; unfold fuelM in *; lia|]. intros [[|] ?]; [discriminate|]. apply Sh. lia.
        -- apply Sh. lia.
      * destruct it as [| | | | | | |vals mn mx|]; try discriminate. apply bind_fin.
        -- destruct (group_optional mn); [|discriminate]. destruct (null rest).
           ++ destruct (next_empty next) eqn:E; [discriminate|]. pose proof (next_next_spec next E) as N. destruct (next_next next) as [its nx]. destruct N as (_ & Lw & _).
              apply bind_fin; [apply ISI; unfold fuelM in *; lia|intros [? ?]; discriminate].
           ++ apply bind_fin; [apply ISI; unfold fuelM in *; lia|intros [? ?]; discriminate].
        -- intros [|]; [discriminate|].
           assert (K : forall v, In v vals -> matchStarItems f s1 (val_items v) (rest :: next) <> Fuel).
           { intros v I. apply ISI. pose proof (val_weight v vals I). rewrite wnext_cons. cbn [wt] in Wc. unfold fuelM in *. lia. }
           clear - K. induction vals as [|v vs IH]; [discriminate|]. apply bind_fin; [apply K; now left|]. intros [[|] ?]; [discriminate|]. apply IH. intros v' I. apply K. now right.
  - intros s rest next L. cbn [optLoop].
    assert (Sh : (let '(_, n) := decode_rune s in if Nat.eqb n 0 then Ok (false, false) else optLoop f (skipn n s) rest next) <> Fuel).
    { destruct (decode_rune s) as [r n] eqn:Ed. destruct (Nat.eqb_spec n 0) as [|N0]; [discriminate|].
      assert (Sn : snd (decode_rune s) = n) by now rewrite Ed. pose proof (decode_skip s n Sn N0). apply IO. unfold fuelM in *. lia. }
    destruct (null rest).
    + destruct (next_empty next) eqn:E; [destruct (null s); [discriminate|exact Sh]|].
      pose proof (next_next_spec next E) as N. destruct (next_next next) as [its nx]. destruct N as (_ & Lw & _).
      apply bind_fin; [apply IM; unfold fuelM in *; lia|]. intros [[|] ?]; [discriminate|exact Sh].
    + apply bind_fin; [apply ISI; unfold fuelM in *; lia|]. intros [[|] ?]; [discriminate|exact Sh].
  - intros s vals rest next L. cbn [listLoop]. apply bind_fin.
    + assert (C : forall o, (if null rest then if next_empty next then Ok (null (skipn o s))
          else let '(its, nx) := next_next next in bind (matchItems f (skipn o s) its nx) (fun '(m, _) => Ok m)
          else bind (matchItems f (skipn o s) rest next) (fun '(m, _) => Ok m)) <> Fuel).
      { intro o. apply fin_cont; auto. pose proof (skipn_le o s). unfold fuelM in *. lia. }
      generalize (@None nat). generalize vals. intro vs. induction vs as [|v vs IH]; intro off; [discriminate|].
      destruct (find_val s v) as [o|]; [|apply IH]. apply bind_fin; [apply C|]. intros [|]; [discriminate|]. apply IH.
    + intros [u|[o|]]; try discriminate. cbv zeta. pose proof (skipn_le o s). destruct (decode_rune (skipn o s)) as [r n] eqn:Ed.
      destruct (Nat.eqb_spec n 0) as [|N0]; [discriminate|].
      assert (Sn : snd (decode_rune (skipn o s)) = n) by now rewrite Ed. pose proof (decode_skip (skipn o s) n Sn N0). apply IL. unfold fuelM in *. lia.
Qed.
Lemma match_items_fin s items : match_items s items <> Fuel.
Proof.
  unfold match_items. apply bind_fin; [|intros [? ?]; discriminate]. destruct (terminates (match_fuel s items)) as (T & _). apply T.
  unfold fuelM, match_fuel. pose proof (wts_weight items). change (wnext []) with 0. nia.
Qed.
Lemma glob_match_fin g s : glob_match g s <> Fuel.
Proof.
  unfold glob_match. repeat match goal with |- context [if ?b then _ else _] => destruct b; try discriminate end. apply match_items_fin.
Qed.
