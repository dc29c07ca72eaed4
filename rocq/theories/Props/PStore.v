(** C69-C71: stores. *)
From Verif Require Import Model.Store Spec.StoreSpec.
From Verif Require Import Proof.StoreTop.


(** C69: after any history of calls with non-negative indexes, Min is the least index stored since the last
    Init, and -1 if there is none. *)
Theorem c69_min_store : forall ops : list store_op, (forall s i, In (SPut s i) ops -> (0 <= i)%Z) ->
  least (map snd (stored ops)) (fold_left min_do ops min_new).
Proof. exact c69_min_store_l. Qed.
Print Assumptions c69_min_store.

Example c69_example : let ops := [SPut (B "a") 1; SInit; SPut (B "b") 7; SPut (B "c") 3; SGrow 5; SPut (B "d") 4]%Z in
  (forall s i, In (SPut s i) ops -> (0 <= i)%Z) /\ fold_left min_do ops min_new = 3%Z /\ map snd (stored ops) = [7; 3; 4]%Z.
Proof.
  split; [|split; reflexivity]. intros s i I. cbn in I.
  repeat (destruct I as [I|I]; [try discriminate; injection I as <- <-; discriminate|]). easy.
Qed.

(** The restriction to non-negative indexes is needed. *)
Theorem c69_negative_refuted : exists ops, ~ least (map snd (stored ops)) (fold_left min_do ops min_new).
Proof. exact c69_negative_refuted_l. Qed.
Print Assumptions c69_negative_refuted.

(** C70: the collecting stores hold exactly what was stored since the last Init, in order. *)
Theorem c70_collect : forall ops : list store_op,
  fold_left index_do ops index_new = map snd (stored ops) /\ fold_left string_do ops string_new = map fst (stored ops).
Proof. exact c70_collect_l. Qed.
Print Assumptions c70_collect.

Example c70_example : let ops := [SPut (B "a") 1; SInit; SPut (B "b") 7; SGrow 5; SPut (B "c") 3]%Z in
  fold_left index_do ops index_new = [7; 3]%Z /\ fold_left string_do ops string_new = [B "b"; B "c"].
Proof. split; reflexivity. Qed.

(** C71: a new AllStore on which Init was called behaves as the three stores side by side. *)
Theorem c71_all_store : forall ops : list store_op, fold_left all_do (SInit :: ops) all_new =
  mkAll (fold_left min_do ops min_new) (fold_left index_do ops index_new) (fold_left string_do ops string_new).
Proof. exact c71_all_store_l. Qed.
Print Assumptions c71_all_store.

(** Without Init the least index is wrong: it stays 0. *)
Theorem c71_no_init_refuted : forall ops : list store_op,
  (forall s i, In (SPut s i) ops -> (0 <= i)%Z) -> ~ In SInit ops -> as_min (fold_left all_do ops all_new) = 0%Z.
Proof. exact c71_no_init_refuted_l. Qed.
Print Assumptions c71_no_init_refuted.

Example c71_example : as_min (fold_left all_do [SPut (B "a") 5]%Z all_new) = 0%Z /\
  as_min (fold_left all_do [SInit; SPut (B "a") 5]%Z all_new) = 5%Z.
Proof. split; reflexivity. Qed.
