(** C28, C29: canonical text. *)
From Verif Require Import Model.Glob Spec.Symbols Spec.Class Spec.GlobSpec Spec.StarSpec Spec.Same.
From Verif Require Import Proof.Utf8P Proof.SymbolsP Proof.SortP Proof.ListP Proof.ItemP Proof.DenotesP Proof.ParseP Proof.NextP Proof.GlobP Proof.GlobMatchP Proof.OrderP Proof.NodeP Proof.CheckP Proof.ItemTop Proof.GlobTop.
From Verif Require Import Proof.NodeTop.


(** C28: the canonical text kept for a parsed glob denotes what the parsed text denotes. *)
Theorem c28_node : forall (g : str) (gl : glob), clean g -> ~ In (byte_of 0) g -> ~ In (byte_of 127) g ->
  plain_singles g -> plain_classes g -> glob_parse g = Ok gl ->
  forall w, denotes (g_node gl) w <-> denotes g w.
Proof. exact c28_node_l. Qed.
Print Assumptions c28_node.

Example c28_node_example : let g := B "x{b?,a}[a-cb]**?y" in
  clean g /\ plain_singles g /\ plain_classes g /\ (exists gl, glob_parse g = Ok gl /\ g_node gl = B "x{a,b?}[a-c]*?y").
Proof.
  cbv zeta. split; [exists (map code (B "x{b?,a}[a-cb]**?y")); split; [repeat constructor; discriminate|reflexivity]|]. split; [|split].
  - intros a body b E N U. exfalso.
    assert (Eb : body = B "b?,a").
    { unfold braced in E. rewrite <- app_comm_cons, <- app_assoc in E. cbn [app] in E.
      repeat (destruct a as [|? a]; cbn [app] in E; [try discriminate E|first [discriminate E|injection E as <- E]]).
      injection E as E. change (B "b?,a" ++ "}"%char :: B "[a-cb]**?y" = body ++ "}"%char :: b) in E. apply cut_unique in E as [<- <-]; auto. nin. }
    subst body. specialize (U (B "a") (B "b?")). assert (B "a" = B "b?") by (apply U; apply alternative_split; cbn; auto). discriminate.
  - intros a body b c E N M U.
    assert (Eb : body = B "a-cb").
    { unfold bracketed in E. rewrite <- app_comm_cons, <- app_assoc in E. cbn [app] in E.
      repeat (destruct a as [|? a]; cbn [app] in E; [try discriminate E|first [discriminate E|injection E as <- E]]).
      injection E as E. change (B "a-cb" ++ "]"%char :: B "**?y" = body ++ "]"%char :: b) in E. apply cut_unique in E as [<- <-]; auto. nin. }
    subst body.
    assert (X : forall r, (97 <= r <= 99)%N -> in_class (B "a-cb") r).
    { intros r L. exists [97; 45; 99; 98]%N, [(97, 99); (98, 98)]%N. split; [repeat constructor; discriminate|]. split; [reflexivity|]. split.
      - apply (cp_range 97%N [45]%N 99%N [98]%N); try discriminate; [repeat constructor|]. apply cp_last; [discriminate|constructor].
      - exists 97%N, 99%N. split; [now left|lia]. }
    pose proof (proj1 (U 97%N) (X 97%N ltac:(lia))). pose proof (proj1 (U 98%N) (X 98%N ltac:(lia))). congruence.
  - eexists. split; vm_compute; reflexivity.
Qed.

(** C28, for the de-duplication of the trees: texts with the same canonical text denote the same, and the globs
    match the same strings. *)
Theorem c28_same_node : forall (g1 g2 : str) (gl1 gl2 : glob),
  clean g1 -> ~ In (byte_of 0) g1 -> ~ In (byte_of 127) g1 -> plain_singles g1 -> plain_classes g1 -> glob_parse g1 = Ok gl1 ->
  clean g2 -> ~ In (byte_of 0) g2 -> ~ In (byte_of 127) g2 -> plain_singles g2 -> plain_classes g2 -> glob_parse g2 = Ok gl2 ->
  g_node gl1 = g_node gl2 ->
  (forall w, denotes g1 w <-> denotes g2 w) /\
  (exact_lists g1 -> exact_lists g2 -> forall s, clean s \/ (lone_classes g1 /\ lone_classes g2) -> glob_match gl1 s = glob_match gl2 s).
Proof. exact c28_same_node_l. Qed.
Print Assumptions c28_same_node.

Example c28_same_node_example : good_glob_b (B "x{b,a}[a-cb]**?y") = true /\ good_glob_b (B "x{a,b,a}[c-ca-b]?*y") = true /\ exists gl1 gl2, glob_parse (B "x{b,a}[a-cb]**?y") = Ok gl1 /\ glob_parse (B "x{a,b,a}[c-ca-b]?*y") = Ok gl2 /\
  g_node gl1 = B "x{a,b}[a-c]*?y" /\ g_node gl2 = g_node gl1.
Proof.
  split; [vm_compute; reflexivity|]. split; [vm_compute; reflexivity|]. do 2 eexists. split; [vm_compute; reflexivity|]. repeat match goal with |- _ /\ _ => split end; vm_compute; reflexivity.
Qed.

(** C28 without its conditions: a one-symbol class of a wildcard character loses its brackets, *)
Theorem c28_class_refuted : exists gl, glob_parse (B "a[*]b") = Ok gl /\ denotes (g_node gl) (symbols (B "axb")) /\ ~ denotes (B "a[*]b") (symbols (B "axb")).
Proof. exact c28_class_refuted_l. Qed.
Print Assumptions c28_class_refuted.

(** ... and a class with the last two ASCII characters is printed without the last one. *)
Theorem c28_del_refuted : let g := "["%char :: byte_of 127 :: B "~a]" in
  exists gl, glob_parse g = Ok gl /\ denotes g [[byte_of 127]] /\ ~ denotes (g_node gl) [[byte_of 127]].
Proof. exact c28_del_refuted_l. Qed.
Print Assumptions c28_del_refuted.

(** ... a class with NUL is printed without it, *)
Theorem c28_nul_refuted : let g := "["%char :: zero :: B "a]" in
  exists gl, glob_parse g = Ok gl /\ g_node gl = B "a" /\ denotes g [[zero]] /\ ~ denotes (g_node gl) [[zero]].
Proof. exact c28_nul_refuted_l. Qed.
Print Assumptions c28_nul_refuted.

(** ... and the only value of a list is taken literally but printed without the braces, so that the glob parsed
    from the canonical text matches other strings. *)
Theorem c28_single_refuted : exists gl gl', glob_parse (B "{a*}") = Ok gl /\ g_node gl = B "a*" /\ glob_parse (g_node gl) = Ok gl' /\
  glob_match gl (B "ax") = Ok false /\ glob_match gl' (B "ax") = Ok true.
Proof. exact c28_single_refuted_l. Qed.
Print Assumptions c28_single_refuted.

(** C29: the order and the number of repetitions of the values of a list do not matter: after any text with
    closed brackets and before any text, two lists with the same values give the same result. *)
Theorem c29_order : forall a body body' b : str, brackets_closed a -> ~ In "}"%char body -> ~ In "}"%char body' ->
  (forall v, alternative body v <-> alternative body' v) ->
  same_parse (glob_parse (a ++ braced body ++ b)) (glob_parse (a ++ braced body' ++ b)).
Proof. exact c29_order_l. Qed.
Print Assumptions c29_order.

Example c29_order_example : brackets_closed (B "x*") /\ (forall v, alternative (B "b?,a,b?") v <-> alternative (B "a,b?") v) /\
  exists gl, glob_parse (B "x*{b?,a,b?}[cd]") = Ok gl /\ g_node gl = B "x*{a,b?}[c-d]".
Proof.
  split; [apply bc_text; [nin|]; apply bc_star, bc_end|]. split; [|eexists; split; vm_compute; reflexivity].
  intro v. rewrite !alternative_split. cbn. intuition.
Qed.
