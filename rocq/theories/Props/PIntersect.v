(** C30: the common prefix of globs. *)
From Verif Require Import Model.Intersect Spec.Symbols Spec.GlobSpec Spec.IntersectSpec.
From Verif Require Import Proof.Utf8P Proof.SymbolsP Proof.ListP.
From Verif Require Import Proof.IntersectTop.


(** C30: IntersectGlobs returns the beginning of the first glob that ends at its first wildcard character (or malformed symbol), or
    as soon as its length reaches that of another glob, or at its end. *)
Theorem c30_exact : forall (g : str) (others : list str), exists pre post,
  symbols g = pre ++ post /\ intersect_globs (g :: others) = Ok (concat pre) /\ Forall plain_symbol pre /\
  (forall p q, pre = p ++ q -> q <> [] -> forall o, In o others -> length (concat p) < length o) /\
  (post = [] \/ (exists x l, post = x :: l /\ ~ plain_symbol x) \/ exists o, In o others /\ length o <= length (concat pre)).
Proof. exact c30_exact_l. Qed.
Print Assumptions c30_exact.

Example c30_exact_example : intersect_globs [B "aж.b*c"; B "aж.b?d"; B "aж.b"] = Ok (B "aж.b") /\ intersect_globs [B "aж.b*c"; B "aж"] = Ok (B "aж") /\ intersect_globs [] = Ok [].
Proof. repeat match goal with |- _ /\ _ => split end; vm_compute; reflexivity. Qed.

(** C30: it returns for all globs, a beginning of the first one, without wildcard characters. *)
Theorem c30_first : forall (g : str) (others : list str), exists p t, intersect_globs (g :: others) = Ok p /\ g = p ++ t /\ forall c, In c p -> ~ In c metas.
Proof. exact c30_first_l. Qed.
Print Assumptions c30_first.

(** C30: of one glob in well-formed UTF-8, everything up to the first wildcard character. *)
Theorem c30_single : forall g : str, clean g -> exists p t, intersect_globs [g] = Ok p /\ g = p ++ t /\ (forall c, In c p -> ~ In c metas) /\
  (t = [] \/ exists c t', t = c :: t' /\ In c metas).
Proof. exact c30_single_l. Qed.
Print Assumptions c30_single.

Example c30_single_example : intersect_globs [B "aж.b[cd]e"] = Ok (B "aж.b") /\ intersect_globs [B "plain"] = Ok (B "plain").
Proof. split; vm_compute; reflexivity. Qed.

(** C30: with several globs the result need not be common to them: the first glob is compared with itself. *)
Theorem c30_common_refuted : intersect_globs [B "abc"; B "xyz"] = Ok (B "abc") /\ ~ common_prefix (B "abc") [B "abc"; B "xyz"].
Proof. exact c30_common_refuted_l. Qed.
Print Assumptions c30_common_refuted.
