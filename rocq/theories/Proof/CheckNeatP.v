(** Computable checks of the conditions of Spec/Neat.v and Spec/SteadySpec.v; the examples beside the theorems use them. *)
From Verif Require Import Model.Glob Spec.Symbols Spec.Class Spec.GlobSpec Spec.StarSpec Spec.ApartSpec Spec.Neat Spec.SteadySpec.
From Verif Require Import Proof.Utf8P Proof.RangesP Proof.CheckP Proof.ApartP.
From Coq Require Import Lia ZifyBool ZifyN ZifyNat.

Definition neat_classes_b (g : str) : bool := forallb (fun '(a, body, b) =>
  clean_b body && match ranges_expand (bracketed body) with
  | None => false
  | Some rs => negb (rr_contains rs 2047%N && rr_contains rs 2048%N) && negb (rr_contains rs 65535%N && rr_contains rs 65536%N)
  end) (bodies "[" "]" [] g).
Lemma neat_classes_ok g : neat_classes_b g = true -> neat_classes g.
Proof.
  unfold neat_classes_b. rewrite forallb_forall. intros H a body b E N. specialize (H _ (bracketed_body _ _ _ _ E N)). cbn beta iota in H.
  apply andb_prop in H as [C H]. apply clean_b_ok in C. destruct (ranges_expand (bracketed body)) as [rs|] eqn:R; [|discriminate].
  destruct (ranges_expand_ok _ _ C R) as (_ & _ & _ & D). apply andb_prop in H as [H1 H2].
  split; intros [X Y]; apply D in X, Y; rewrite X, Y in *; discriminate.
Qed.
Fixpoint no_pair_b (c d : ascii) (s : str) : bool :=
  match s with
  | x :: t => negb (Ascii.eqb x c && match t with y :: _ => Ascii.eqb y d | [] => false end) && no_pair_b c d t
  | [] => true
  end.
Lemma no_pair_ok c d s : no_pair_b c d s = true -> forall x y, s <> x ++ c :: d :: y.
Proof.
  induction s as [|e s IH]; intros H x y E; [destruct x; discriminate|]. cbn [no_pair_b] in H. apply andb_prop in H as [H1 H2].
  destruct x as [|e' x]; injection E as -> E; [|now apply (IH H2 x y)]. subst s. rewrite !Ascii.eqb_refl in H1. discriminate.
Qed.
Definition neat_lists_b (g : str) : bool := forallb (fun '(a, body, b) =>
  negb (existsb (Ascii.eqb "[") body) && no_pair_b "*" "*" body && no_pair_b "?" "*" body) (bodies "{" "}" [] g).
Lemma neat_lists_ok g : neat_lists_b g = true -> neat_lists g.
Proof.
  unfold neat_lists_b. rewrite forallb_forall. intros H a body b E N. specialize (H _ (braced_body _ _ _ _ E N)). cbn beta iota in H.
  apply andb_prop in H as [H H3]. apply andb_prop in H as [H1 H2]. split; [apply not_in_b; now destruct (existsb (Ascii.eqb "[") body)|].
  split; [exact (no_pair_ok _ _ _ H2)|exact (no_pair_ok _ _ _ H3)].
Qed.
Definition steady_b (g : str) : bool := node_glob_b g && neat_classes_b g && neat_lists_b g && calm_glob_b g.
Lemma steady_ok g : steady_b g = true -> steady g.
Proof.
  unfold steady_b. intro H. apply andb_prop in H as [H H4]. apply andb_prop in H as [H H3]. apply andb_prop in H as [H1 H2].
  destruct (node_glob_ok g H1) as (A1 & A2 & A3 & A4 & A5). apply neat_classes_ok in H2. apply neat_lists_ok in H3. apply calm_glob_ok in H4. split; [|exact H4]. unfold neat. auto 10.
Qed.
