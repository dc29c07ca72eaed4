(** Lemmas about dotted paths. *)
From Verif Require Import Model.GGlob Spec.PathSpec.
From Verif Require Import Proof.SortP Proof.ListP Proof.DenotesP Proof.NextP.
From Coq Require Import Lia ZifyBool ZifyN ZifyNat.

Lemma dotted_join l : dotted l = join_with dot l.
Proof. induction l as [|x [|y l] IH]; auto. change (dotted (x :: y :: l)) with (x ++ dot :: dotted (y :: l)). now rewrite IH. Qed.
Lemma dotted_cons p r : r <> [] -> dotted (p :: r) = p ++ "."%char :: dotted r.
Proof. destruct r; [easy|reflexivity]. Qed.

Lemma last_dot_iff p : last_is_dot p = true <-> exists q, p = q ++ ["."%char].
Proof.
  unfold last_is_dot. destruct (rev p) as [|c r] eqn:E.
  - split; [discriminate|]. intros (q & ->). rewrite rev_app_distr in E. discriminate.
  - assert (p = rev r ++ [c]) as -> by (rewrite <- (rev_involutive p), E; reflexivity). split.
    + intro H. apply Ascii.eqb_eq in H. subst. eauto.
    + intros (q & H). apply app_inj_tail in H as [_ ->]. reflexivity.
Qed.
Lemma firstn_snoc {A} (q : list A) x : firstn (length (q ++ [x]) - 1) (q ++ [x]) = q.
Proof. rewrite app_length. cbn. rewrite firstn_app, Nat.add_sub, firstn_all, Nat.sub_diag. cbn. now rewrite app_nil_r. Qed.

Definition trim (p : str) : str := if last_is_dot p then firstn (length p - 1) p else p.
Lemma trim_iff p q : trimmed p q <-> q = trim p.
Proof.
  unfold trimmed, trim. destruct (last_is_dot p) eqn:E.
  - apply last_dot_iff in E as (q' & ->). rewrite firstn_snoc. split.
    + intros [H|[_ H]]; [now apply app_inj_tail in H as [-> _]|]. now elim (H q').
    + intros ->. now left.
  - assert (N : forall q', p <> q' ++ ["."%char]). { intros q' ->. rewrite (proj2 (last_dot_iff _)) in E; [discriminate|eauto]. }
    split; [|intros ->; auto]. intros [H|[-> _]]; auto. now apply N in H.
Qed.

Lemma split_on_nonempty c s : split_on c s <> [].
Proof. destruct s as [|x s]; cbn; [discriminate|]. destruct (Ascii.eqb c x); [discriminate|]. destruct (split_on c s); discriminate. Qed.
Lemma split_dotless s : dotless (split_on dot s).
Proof.
  induction s as [|x s IH]; intros p I.
  - destruct I as [<-|[]]. easy.
  - cbn [split_on] in I. destruct (Ascii.eqb_spec dot x) as [<-|N].
    + destruct I as [<-|I]; [easy|auto].
    + destruct (split_on dot s) as [|h r]; [destruct I as [<-|[]]; intros [E|[]]; auto|].
      destruct I as [<-|I]; [|apply IH; now right]. intros [E|J]; [auto|]. revert J. apply IH. now left.
Qed.
Lemma dotted_split s : dotted (split_on dot s) = s.
Proof. rewrite dotted_join. apply split_join. Qed.
Lemma split_dotted l : l <> [] -> dotless l -> split_on dot (dotted l) = l.
Proof.
  intros NE D. induction l as [|x l IH]; [easy|]. destruct l as [|y l].
  - apply split_on_none. apply D. now left.
  - rewrite dotted_cons by discriminate. change "."%char with dot. rewrite split_on_app, split_on_none by (apply D; now left). cbn [app]. f_equal.
    apply IH; [discriminate|]. intros p I. apply D. now right.
Qed.
Lemma parts_of_iff p ps : parts_of p ps <-> p <> [] /\ ps = split_on dot (trim p).
Proof.
  unfold parts_of. rewrite trim_iff. split.
  - intros (NE & N & D & E). split; auto. rewrite <- E. now rewrite split_dotted.
  - intros (NE & ->). repeat split; auto; [apply split_on_nonempty|apply split_dotless|apply dotted_split].
Qed.
Lemma path_split_trim p : p <> [] -> path_split p = split_on dot (trim p).
Proof. intro N. unfold path_split, trim. destruct p; [easy|]. cbn [null]. now destruct (last_is_dot _). Qed.

Lemma count_split c s : length (split_on c s) = S (count_byte c s).
Proof.
  induction s as [|x s IH]; auto. cbn [split_on count_byte]. destruct (Ascii.eqb c x); cbn; [lia|].
  destruct (split_on c s) eqn:E; [now apply split_on_nonempty in E|]. cbn in *. lia.
Qed.
Lemma count_app c a b : count_byte c (a ++ b) = count_byte c a + count_byte c b.
Proof. induction a as [|x a IH]; auto. cbn. rewrite IH. lia. Qed.
Lemma path_level_trim p : p <> [] -> path_level p = (trim p, length (split_on dot (trim p))).
Proof.
  intro N. unfold path_level, trim. destruct p as [|c p]; [easy|]. cbn [null]. destruct (last_is_dot (c :: p)) eqn:E.
  - apply last_dot_iff in E as (q & E). rewrite E, firstn_snoc, count_split, count_app. cbn. f_equal. lia.
  - rewrite count_split. f_equal. lia.
Qed.

Lemma cut_none c s : ~ In c s -> cut c s = (s, [], false).
Proof. intro N. unfold cut. destruct (index_byte s c) as [i|] eqn:E; auto. apply index_byte_cut in E as (a & b & -> & _ & _). elim N. apply in_or_app. right. now left. Qed.
Lemma cut_some c a b : ~ In c a -> cut c (a ++ c :: b) = (a, b, true).
Proof.
  intro N. unfold cut. rewrite (index_byte_some _ c a b N eq_refl). destruct (cut_firstn a c b) as [_ ->].
  rewrite firstn_app, firstn_all, Nat.sub_diag. cbn. now rewrite app_nil_r.
Qed.
Lemma cut_dotted p r : ~ In dot p -> dotless r -> cut dot (dotted (p :: r)) = (p, dotted r, negb (null r)).
Proof.
  intros N D. destruct r as [|q r]; [now apply cut_none|]. rewrite dotted_cons by discriminate. now apply cut_some.
Qed.
Lemma dotted_nil l : (forall p, In p l -> p <> []) -> (dotted l = [] <-> l = []).
Proof.
  intro N. split; [|now intros ->]. destruct l as [|x l]; auto. intro E. exfalso. destruct l as [|y l].
  - cbn in E. apply (N x); auto. now left.
  - rewrite dotted_cons in E by discriminate. now destruct x.
Qed.

Definition full (ps : list str) : Prop := forall p, In p ps -> p <> [].
Lemma psb_full ps : forall fuel acc, dotless ps -> full ps -> length (dotted ps) <= fuel ->
  path_split_b_loop fuel (dotted ps) acc = Ok (acc ++ ps, true).
Proof.
  induction ps as [|p ps IH]; intros fuel acc D F L; [destruct fuel; now rewrite app_nil_r|].
  assert (Np : p <> []) by (apply F; now left). assert (Dp : ~ In dot p) by (apply D; now left).
  assert (Dr : dotless ps) by (intros x I; apply D; now right). assert (Fr : full ps) by (intros x I; apply F; now right).
  destruct fuel as [|fuel]; [destruct p; [easy|]; destruct ps; cbn in L; lia|].
  assert (C := cut_dotted p ps Dp Dr). destruct (dotted (p :: ps)) as [|c q] eqn:E; [destruct p; [easy|]; destruct ps; discriminate|].
  cbn [path_split_b_loop]. match type of C with _ = ?r => assert (C2 : cut dot (c :: q) = r) by (rewrite <- E; exact C) end. rewrite C2. destruct p as [|c0 p]; [easy|]. cbn [null]. rewrite IH; auto.
  - now rewrite <- app_assoc.
  - apply (f_equal (@length ascii)) in E. destruct ps as [|p2 ps]; [cbn; lia|]. rewrite dotted_cons, app_length in E by discriminate. cbn [length] in *. unfold str in *. lia.
Qed.
Lemma psb_last ps : forall fuel acc, dotless ps -> full ps -> length (dotted (ps ++ [[]])) <= fuel ->
  path_split_b_loop fuel (dotted (ps ++ [[]])) acc = Ok (acc ++ ps, true).
Proof.
  induction ps as [|p ps IH]; intros fuel acc D F L; [destruct fuel; now rewrite app_nil_r|].
  assert (Np : p <> []) by (apply F; now left). assert (Dp : ~ In dot p) by (apply D; now left).
  assert (Dr : dotless (ps ++ [[]])). { intros x I. apply in_app_or in I as [I|[<-|[]]]; [apply D; now right|easy]. }
  assert (Fr : full ps) by (intros x I; apply F; now right).
  assert (Ne : ps ++ [[]] <> []) by now destruct ps.
  destruct fuel as [|fuel]; [cbn [app] in L; rewrite dotted_cons, app_length in L by auto; cbn [length] in L; lia|].
  cbn [app] in *. assert (C := cut_dotted p (ps ++ [[]]) Dp Dr). destruct (dotted (p :: ps ++ [[]])) as [|c q] eqn:E; [destruct p; [easy|]; now destruct ps|].
  cbn [path_split_b_loop]. match type of C with _ = ?r => assert (C2 : cut dot (c :: q) = r) by (rewrite <- E; exact C) end. rewrite C2. destruct p as [|c0 p]; [easy|]. cbn [null]. rewrite IH; auto.
  - now rewrite <- app_assoc.
  - intros x I. apply D. now right.
  - apply (f_equal (@length ascii)) in E. rewrite dotted_cons, app_length in E by auto. cbn [length] in *. unfold str in *. lia.
Qed.
Lemma psb_bad ps : forall fuel acc, dotless ps -> In [] (removelast ps) -> length (dotted ps) <= fuel ->
  exists qs, path_split_b_loop fuel (dotted ps) acc = Ok (qs, false).
Proof.
  induction ps as [|p ps IH]; intros fuel acc D I L; [easy|].
  assert (Dp : ~ In dot p) by (apply D; now left). assert (Dr : dotless ps) by (intros x J; apply D; now right).
  destruct ps as [|p2 ps]; [easy|].
  destruct fuel as [|fuel]; [rewrite dotted_cons, app_length in L by discriminate; cbn [length] in L; lia|].
  assert (C := cut_dotted p (p2 :: ps) Dp Dr). destruct (dotted (p :: p2 :: ps)) as [|c q] eqn:E; [rewrite dotted_cons in E by discriminate; destruct p; discriminate|].
  cbn [path_split_b_loop]. match type of C with _ = ?r => assert (C2 : cut dot (c :: q) = r) by (rewrite <- E; exact C) end. rewrite C2. destruct p as [|c0 p]; [cbn [null]; eauto|]. cbn [null].
  destruct I as [I|I]; [discriminate|]. apply IH; auto.
  apply (f_equal (@length ascii)) in E. rewrite dotted_cons, app_length in E by discriminate. cbn [length] in *. unfold str in *. lia.
Qed.
Lemma trim_length p : length (trim p) <= length p.
Proof. unfold trim. destruct (last_is_dot p); auto. rewrite firstn_length. lia. Qed.
Lemma psb_unfold p : p <> [] -> path_split_b p = path_split_b_loop (length p) (trim p) [].
Proof. destruct p; [easy|]. reflexivity. Qed.

(** ** C38-C40 *)
Definition gtrue (g : glob) (s : str) : Prop := glob_match g s = Ok true.
Lemma gg_loop_iff gs : forall p, (gg_match_loop gs p = Ok true <-> exists ps, dotless ps /\ full ps /\ Forall2 gtrue gs ps /\ (p = dotted ps \/ (ps <> [] /\ p = dotted ps ++ ["."%char]))).
Proof.
  induction gs as [|g gs IH]; intro p; cbn [gg_match_loop].
  - split.
    + intro H. destruct p; [|discriminate]. exists []. repeat split; auto; easy.
    + intros (ps & _ & _ & F & E). inversion F; subst. destruct E as [->|[E _]]; easy.
  - split.
    + intro H. destruct (cut dot p) as [[part rest] fd] eqn:C.
      assert (X : ~ In dot part /\ (p = part ++ dot :: rest \/ (p = part /\ rest = []))).
      { destruct (index_byte p dot) as [i|] eqn:E.
        - apply index_byte_cut in E as (a & b & -> & <- & N). rewrite cut_some in C by auto. injection C as <- <- _. auto.
        - apply index_byte_no in E. rewrite cut_none in C by auto. injection C as <- <- _. auto. }
      destruct X as [N X]. destruct part as [|c part]; [discriminate|]. cbn [null] in H.
      destruct (glob_match g (c :: part)) as [[]|e| |] eqn:E; try discriminate. cbn [bind] in H. apply IH in H as (ps & D & F & F2 & EP).
      exists ((c :: part) :: ps). split; [intros x [<-|I]; auto|]. split; [intros x [<-|I]; auto; discriminate|]. split; [now constructor|].
      destruct ps as [|q ps].
      * destruct EP as [->|[EP _]]; [|easy]. cbn in X |- *. destruct X as [-> |[-> _]]; [right; split; [discriminate|reflexivity]|now left].
      * rewrite dotted_cons by discriminate. destruct X as [X|[-> ->]].
        -- rewrite X. destruct EP as [-> |[_ ->]]; [now left|right; split; [discriminate|]]. now rewrite <- app_assoc.
        -- exfalso. assert (dotted (q :: ps) <> []). { intro Z. apply dotted_nil in Z; [discriminate|exact F]. }
           destruct EP as [EP|[_ EP]]; [congruence|]. now destruct (dotted (q :: ps)).
    + intros (ps & D & F & F2 & E). inversion F2 as [|? part ? ps' G F2']; subst.
      assert (Dp : ~ In dot part) by (apply D; now left). assert (Dr : dotless ps') by (intros x J; apply D; now right). assert (Fr : full ps') by (intros x J; apply F; now right).
      assert (Np : part <> []) by (apply F; now left).
      assert (C : exists fd rest, cut dot p = (part, rest, fd) /\ (rest = dotted ps' \/ (ps' <> [] /\ rest = dotted ps' ++ ["."%char]))).
      { destruct E as [->|[_ ->]].
        - rewrite cut_dotted by auto. eauto.
        - destruct ps' as [|q ps']; [cbn [dotted]; change "."%char with dot; rewrite cut_some by auto; eauto|].
          rewrite dotted_cons, <- app_assoc by discriminate. change "."%char with dot at 1. cbn [app]. rewrite cut_some by auto. do 2 eexists. split; [reflexivity|]. right. split; [discriminate|reflexivity]. }
      destruct C as (fd & rest & -> & Er). destruct part; [easy|]. cbn [null]. red in G. rewrite G. cbn [bind]. apply IH. eauto 6.
Qed.
Lemma gg_parts_iff gs : forall ps, length gs = length ps -> (gg_match_parts_loop gs ps = Ok true <-> Forall2 gtrue gs ps).
Proof.
  induction gs as [|g gs IH]; intros [|p ps] L; try discriminate; cbn [gg_match_parts_loop].
  - split; auto.
  - split.
    + intro H. destruct (glob_match g p) as [[]|e| |] eqn:E; try discriminate. constructor; [exact E|]. apply IH; auto.
    + intro F. inversion F as [|? ? ? ? G F2]; subst. red in G. rewrite G. cbn [bind]. apply IH; auto.
Qed.
