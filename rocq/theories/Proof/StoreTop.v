(** The statements of Props/PStore.v. *)
From Verif Require Import Model.Store Spec.StoreSpec.
From Coq Require Import Lia ZifyBool.

Lemma stored_from_snoc ops o : forall acc, stored_from acc (ops ++ [o]) = stored_from (stored_from acc ops) [o].
Proof. induction ops as [|[|n|s i] ops IH]; intros acc; cbn [app stored_from]; auto; rewrite IH; reflexivity. Qed.
Lemma fold_snoc {A B} (f : A -> B -> A) l x a : fold_left f (l ++ [x]) a = f (fold_left f l a) x.
Proof. now rewrite fold_left_app. Qed.
Lemma index_init_nil n : index_init n = [].
Proof. destruct n; reflexivity. Qed.
Lemma string_init_nil n : string_init n = [].
Proof. destruct n; reflexivity. Qed.

Lemma min_ok ops : (forall s i, In (SPut s i) ops -> (0 <= i)%Z) ->
  least (map snd (stored ops)) (fold_left min_do ops min_new) /\ (forall x, In x (map snd (stored ops)) -> (0 <= x)%Z).
Proof.
  induction ops as [|o ops IH] using rev_ind; intro H.
  - cbn. split; [left; auto|easy].
  - assert (IH' := IH (fun s i I => H s i (in_or_app _ _ _ (or_introl I)))). clear IH. destruct IH' as [IH P].
    unfold stored in *. rewrite fold_snoc, stored_from_snoc. destruct o as [|n|s i]; cbn [stored_from min_do].
    + split; [left; auto|easy].
    + auto.
    + assert (0 <= i)%Z by (apply (H s i), in_or_app; right; now left).
      rewrite map_app. cbn [map snd]. set (l := map snd (stored_from [] ops)) in *. set (m := fold_left min_do ops min_new) in *.
      split; [|intros x I; apply in_app_iff in I as [I|[<-|[]]]; auto].
      right. unfold min_put. destruct IH as [[-> ->]|[I L]].
      * cbn. split; auto. intros x [<-|[]]. lia.
      * pose proof (P _ I). destruct ((m <? 0)%Z || (i <? m)%Z) eqn:E; split.
        -- apply in_app_iff; right; now left.
        -- intros x J. apply in_app_iff in J as [J|[<-|[]]]; [|lia]. apply L in J. lia.
        -- apply in_app_iff; now left.
        -- intros x J. apply in_app_iff in J as [J|[<-|[]]]; [|lia]. now apply L.
Qed.

(** C69: after any history of calls with non-negative indexes, Min is the least index stored since the last
    Init, and -1 if there is none. *)
Lemma c69_min_store_l : forall ops : list store_op, (forall s i, In (SPut s i) ops -> (0 <= i)%Z) ->
  least (map snd (stored ops)) (fold_left min_do ops min_new).
Proof. intros ops H. now apply min_ok. Qed.
(*EX
Example c69_example : let ops := [SPut (B "a") 1; SInit; SPut (B "b") 7; SPut (B "c") 3; SGrow 5; SPut (B "d") 4]%Z in
  (forall s i, In (SPut s i) ops -> (0 <= i)%Z) /\ fold_left min_do ops min_new = 3%Z /\ map snd (stored ops) = [7; 3; 4]%Z.
Proof.
  split; [|split; reflexivity]. intros s i I. cbn in I.
  repeat (destruct I as [I|I]; [try discriminate; injection I as <- <-; discriminate|]). easy.
Qed.
XE*)
(** The restriction to non-negative indexes is needed. *)
Lemma c69_negative_refuted_l : exists ops, ~ least (map snd (stored ops)) (fold_left min_do ops min_new).
Proof.
  exists [SPut [] (-5)%Z; SPut [] 7%Z]. cbn. intros [[H _]|[I L]]; [discriminate|]. specialize (L (-5)%Z (or_introl eq_refl)). lia.
Qed.

Lemma index_ok ops : fold_left index_do ops index_new = map snd (stored ops).
Proof.
  induction ops as [|o ops IH] using rev_ind; auto. unfold stored in *. rewrite fold_snoc, stored_from_snoc, IH.
  destruct o as [|n|s i]; cbn [stored_from index_do]; [apply index_init_nil|apply firstn_all|now rewrite map_app].
Qed.
Lemma string_ok ops : fold_left string_do ops string_new = map fst (stored ops).
Proof.
  induction ops as [|o ops IH] using rev_ind; auto. unfold stored in *. rewrite fold_snoc, stored_from_snoc, IH.
  destruct o as [|n|s i]; cbn [stored_from string_do]; [apply string_init_nil|apply firstn_all|now rewrite map_app].
Qed.
(** C70: the collecting stores hold exactly what was stored since the last Init, in order. *)
Lemma c70_collect_l : forall ops : list store_op,
  fold_left index_do ops index_new = map snd (stored ops) /\ fold_left string_do ops string_new = map fst (stored ops).
Proof. intro ops. split; [apply index_ok|apply string_ok]. Qed.
(*EX
Example c70_example : let ops := [SPut (B "a") 1; SInit; SPut (B "b") 7; SGrow 5; SPut (B "c") 3]%Z in
  fold_left index_do ops index_new = [7; 3]%Z /\ fold_left string_do ops string_new = [B "b"; B "c"].
Proof. split; reflexivity. Qed.
XE*)

Lemma all_parts ops : forall a, fold_left all_do ops a =
  mkAll (fold_left min_do ops (as_min a)) (fold_left index_do ops (as_idx a)) (fold_left string_do ops (as_str a)).
Proof. induction ops as [|[|n|s i] ops IH]; intros [x y z]; cbn [fold_left]; auto; rewrite IH; reflexivity. Qed.
(** C71: a new AllStore on which Init was called behaves as the three stores side by side. *)
Lemma c71_all_store_l : forall ops : list store_op, fold_left all_do (SInit :: ops) all_new =
  mkAll (fold_left min_do ops min_new) (fold_left index_do ops index_new) (fold_left string_do ops string_new).
Proof. intro ops. cbn [fold_left]. now rewrite all_parts. Qed.
(** Without Init the least index is wrong: it stays 0. *)
Lemma c71_no_init_refuted_l : forall ops : list store_op,
  (forall s i, In (SPut s i) ops -> (0 <= i)%Z) -> ~ In SInit ops -> as_min (fold_left all_do ops all_new) = 0%Z.
Proof.
  intros ops H N. rewrite all_parts. cbn [as_min all_new]. induction ops as [|[|n|s i] ops IH]; auto.
  - elim N. now left.
  - apply IH; [intros s i I; apply (H s i); now right|intro I; apply N; now right].
  - cbn [fold_left min_do]. unfold min_put. assert (0 <= i)%Z by (apply (H s i); now left).
    replace ((0 <? 0)%Z || (i <? 0)%Z) with false by lia.
    apply IH; [intros s' i' I; apply (H s' i'); now right|intro I; apply N; now right].
Qed.
(*EX
Example c71_example : as_min (fold_left all_do [SPut (B "a") 5]%Z all_new) = 0%Z /\
  as_min (fold_left all_do [SInit; SPut (B "a") 5]%Z all_new) = 5%Z.
Proof. split; reflexivity. Qed.
XE*)
