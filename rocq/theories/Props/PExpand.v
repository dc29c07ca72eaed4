(** C45-C50, C73: expansion. *)
From Verif Require Import Spec.ExpandSpec Proof.Utf8P Proof.SymbolsP Proof.RangesP Proof.MergeP Proof.DenotesP Proof.ExpandP Proof.ExpandReadP Proof.ExpandFacP Proof.ExpandAllP Proof.ExpandWeakP.
From Verif Require Import Proof.ExpandTop.
Local Open Scope Z_scope.

(** C45: Expand returns exactly the expansion of the text: with any limit and depth, for every text
    that can be read, in order and with repetitions. *)
Theorem c45_expand : forall (s : str) (fs : list fac) (max depth : Z), expandable s fs max ->
  expand s max depth = Ok (expansion max depth fs).
Proof. exact c45_expand_l. Qed.
Print Assumptions c45_expand.

(** C45: Without a limit and a depth Expand returns all combinations of the values, the leftmost
    varying slowest. *)
Theorem c45_unlimited : forall (s : str) (fs : list fac) (max depth : Z), max < 0 -> depth <= 0 -> expandable s fs max ->
  expand s max depth = Ok (product (map values fs)).
Proof. exact c45_unlimited_l. Qed.
Print Assumptions c45_unlimited.

Example c45_example : expandable demo demo_factors (-1) /\
  product (map values demo_factors) = map B ["ab.xd*"; "ab.yd*"; "ab.zd*"; "ac.xd*"; "ac.yd*"; "ac.zd*"]%string /\
  expansion 4 0 demo_factors = map B ["ab.[x-z]d*"; "ac.[x-z]d*"]%string /\
  expansion (-1) 1 demo_factors = map B ["ab.[x-z]d*"; "ac.[x-z]d*"]%string.
Proof.
  split; [apply demo_ok; reflexivity|]. repeat match goal with |- _ /\ _ => split end; vm_compute; reflexivity.
Qed.

(** C45 fails for classes that contain U+FFFD: the values from it to the end of its interval are lost. *)
Theorem c45_replacement_refuted : exists rs, Forall (fun r => valid_rune r = true) rs /\
  class_pairs rs [(65531, 65535)%N] /\
  expand (bracketed (encode_all rs)) (-1) 0 = Ok (map encode_rune [65531; 65532])%N.
Proof. exact c45_replacement_refuted_l. Qed.
Print Assumptions c45_replacement_refuted.

(** C45 fails for a class that contains NUL: it is lost. *)
Theorem c45_nul_refuted : in_class [zero; "a"%char] 0%N /\ expand (bracketed [zero; "a"%char]) (-1) 0 = Ok [B "a"].
Proof. exact c45_nul_refuted_l. Qed.
Print Assumptions c45_nul_refuted.

(** C46: With a limit max Expand returns at most max strings, whatever the text and the depth. *)
Theorem c46_limit : forall (s : str) (max depth : Z) (rs : list str), 0 < max < 2 ^ 31 -> Z.of_nat (length s) < 2 ^ 31 ->
  expand s max depth = Ok rs -> Z.of_nat (length rs) <= max.
Proof. exact c46_limit_l. Qed.
Print Assumptions c46_limit.

(** C46: The limit takes nothing away when all combinations fit into it. *)
Theorem c46_fits : forall (s : str) (fs : list fac) (max depth : Z), 0 < max -> depth <= 0 -> size fs <= max ->
  expandable s fs max -> expand s max depth = Ok (product (map values fs)).
Proof. exact c46_fits_l. Qed.
Print Assumptions c46_fits.

Example c46_example : expand demo 4 0 = Ok (map B ["ab.[x-z]d*"; "ac.[x-z]d*"]%string) /\
  expandable demo demo_factors 6 /\ size demo_factors = 6.
Proof. split; [vm_compute; reflexivity|]. split; [apply demo_ok; reflexivity|vm_compute; reflexivity]. Qed.

Theorem c47_disabled : forall (s : str) (fs : list fac) (depth : Z), expandable s fs 0 ->
  expand s 0 depth = Ok [concat (map raw fs)].
Proof. exact c47_disabled_l. Qed.
Print Assumptions c47_disabled.

(** C47: So the text comes back unchanged when every bracket pair in it is a choice. *)
Theorem c47_unchanged : forall (s : str) (fs : list fac) (depth : Z), all_choices s fs -> size fs <= 2 ^ 44 ->
  expand s 0 depth = Ok [s].
Proof. exact c47_unchanged_l. Qed.
Print Assumptions c47_unchanged.

(** C47: The text does not always come back: a class with a reversed interval loses its brackets. *)
Theorem c47_bad_class_refuted : expand (B "a[z-b]{c,d}") 0 0 = Ok [B "az-b{c,d}"] /\ expand (B "a[z-b]{c,d}") (-1) 0 = Ok [B "az-bc"; B "az-bd"].
Proof. exact c47_bad_class_refuted_l. Qed.
Print Assumptions c47_bad_class_refuted.

Example c47_example : expandable demo demo_factors 0 /\ concat (map raw demo_factors) = B "a{b,c}.[x-z]d*" /\
  exists fs, all_choices (B "a{b,c}*") fs /\ size fs <= 2 ^ 44.
Proof.
  split; [apply demo_ok; reflexivity|]. split; [vm_compute; reflexivity|]. eexists. split.
  - apply (ac_pair (B "a") (B "{b,c}") (B "{b,c}") [B "b"; B "c"] (B "*")); [plain_tac| |].
    { apply (b_list (B "b,c")); [plain_tac|cbn; auto|]. split; [discriminate|]. split; [reflexivity|]. plain_tac. }
    apply (ac_rest [] (B "*")); [constructor|]. split.
    + intros c t X. injection X as <- <-. cbn. auto 10.
    + intros (b & r & _ & [X|X]); discriminate.
  - vm_compute. congruence.
Qed.

(** C48: ExpandTry returns one string: the first one that Expand returns. *)
Theorem c48_try : forall (s : str) (fs : list fac) (max depth : Z), expandable s fs max ->
  exists r rs, expand s max depth = Ok (r :: rs) /\ expand_try s max depth = Ok [r].
Proof. exact c48_try_l. Qed.
Print Assumptions c48_try.

Example c48_example : expandable demo demo_factors (-1) /\ expand_try demo (-1) 0 = Ok [B "ab.xd*"].
Proof. split; [apply demo_ok; reflexivity|vm_compute; reflexivity]. Qed.

(** C49: Expand returns on every text that is read, unless nothing is left of the text. *)
Theorem c49_returns : forall (s : str) (fs : list fac) (max depth : Z), factors s fs -> size fs <= 2 ^ 44 -> fits64 max fs ->
  (void s fs -> expand s max depth = Panic) /\ (~ void s fs -> exists rs, expand s max depth = Ok rs).
Proof. exact c49_returns_l. Qed.
Print Assumptions c49_returns.

(** C49 is false: Expand panics on "{}", on "[]{}", and, whatever the limit, when the number of all
    combinations is too large (here 2^50 with the limit 1). *)
Theorem c49_panic_refuted : expand (B "{}") (-1) 0 = Panic /\ expand (B "[]{}") (-1) 0 = Panic /\
  expand (concat (repeat (B "{a,b}") 50)) 1 0 = Panic.
Proof. exact c49_panic_refuted_l. Qed.
Print Assumptions c49_panic_refuted.

Example c49_example : factors demo demo_factors /\ ~ void demo demo_factors /\ size demo_factors <= 2 ^ 44 /\ fits64 (-1) demo_factors.
Proof. apply demo_ok. reflexivity. Qed.
Example c49_example_void : exists fs, factors (B "{}") fs /\ void (B "{}") fs.
Proof.
  eexists. split; [apply (f_pair [] (B "{}") (Text []) []); [constructor| |]|].
  - apply (b_one []); [constructor|easy].
  - apply (f_rest [] []); [constructor|]. split; [discriminate|]. intros (b & r & _ & [X|X]); discriminate.
  - split; [discriminate|reflexivity].
Qed.

(** C73: Expressions.Expand without the try flag leaves the parsed expression as it was, so calling it
    again gives the same result. *)
Theorem c73_restores : forall (s : str) (exps exps' : list expr) (max depth : Z) (rs : list str),
  parse_expr s = Ok exps -> exps_expand exps max depth false = Ok (exps', rs) ->
  exps' = exps /\ exps_expand exps' max depth false = Ok (exps', rs).
Proof. exact c73_restores_l. Qed.
Print Assumptions c73_restores.

(** C73 fails with the try flag: the next call continues from where it stopped. *)
Theorem c73_try_refuted : exists exps exps', parse_expr (B "{a,b}{c,d}") = Ok exps /\
  exps_expand exps (-1) 0 true = Ok (exps', [B "ac"]) /\
  (exists e2, exps_expand exps' (-1) 0 false = Ok (e2, [B "bd"])) /\
  (exists e2, exps_expand exps (-1) 0 false = Ok (e2, [B "ac"; B "ad"; B "bc"; B "bd"])).
Proof. exact c73_try_refuted_l. Qed.
Print Assumptions c73_try_refuted.

Example c73_example : exists exps, parse_expr demo = Ok exps /\ exists rs, exps_expand exps 4 0 false = Ok (exps, rs) /\ length rs = 2%nat.
Proof. eexists. split; [vm_compute; reflexivity|]. eexists. split; [vm_compute; reflexivity|reflexivity]. Qed.

(** C50: Expansion agrees with the meaning of the text as a glob: without a limit Expand returns exactly
    the strings that the glob denotes, when no wildcard is left over and there is no class [-]. *)
Theorem c50_glob : forall (s : str) (fs : list fac) (rs : list str), expandable s fs (-1) ->
  (forall t, In (Text t) fs -> plain t) -> (forall f v, In f fs -> In v (values f) -> clean v) ->
  (forall a b, s <> a ++ B "[-]" ++ b) ->
  expand s (-1) 0 = Ok rs -> forall w, In w rs <-> denotes s (symbols w).
Proof. exact c50_glob_l. Qed.
Print Assumptions c50_glob.

(** C50 fails for the class [-]: as a glob it has no members and is ignored, but it expands to '-'. *)
Theorem c50_dash_refuted : expand (B "a[-]") (-1) 0 = Ok [B "a-"] /\ denotes (B "a[-]") (symbols (B "a")) /\ ~ denotes (B "a[-]") (symbols (B "a-")).
Proof. exact c50_dash_refuted_l. Qed.
Print Assumptions c50_dash_refuted.

Definition demo2 : str := B "a{b,c}".
Example c50_example : exists fs, expandable demo2 fs (-1) /\ (forall t, In (Text t) fs -> plain t) /\
  (forall f v, In f fs -> In v (values f) -> clean v) /\ (forall a b, demo2 <> a ++ B "[-]" ++ b) /\
  expand demo2 (-1) 0 = Ok [B "ab"; B "ac"].
Proof.
  exists [Text (B "a"); Choice (B "{b,c}") [B "b"; B "c"]; Text []]. split; [|split; [|split; [|split]]].
  - split; [|split; [intros [_ X]; discriminate|split; [vm_compute; congruence|]]].
    + apply (f_pair (B "a") (B "{b,c}") _ []); [plain_tac| |].
      { apply (b_list (B "b,c")); [plain_tac|cbn; auto|]. split; [discriminate|]. split; [reflexivity|]. plain_tac. }
      apply (f_rest [] []); [constructor|]. split; [discriminate|]. intros (b & r & _ & [X|X]); discriminate.
    + split; [lia|]. intros r vs I. lia.
  - intros t I. cbn in I. repeat (destruct I as [I|I]; [try discriminate; injection I as <-; plain_tac|]). destruct I.
  - assert (K : forall v : str, In v [B "a"; B "b"; B "c"; []] -> clean v).
    { intros v I. cbn [In] in I. destruct I as [<-|[<-|[<-|[<-|[]]]]].
      - exists [97%N]. split; [repeat constructor; vm_compute; congruence|reflexivity].
      - exists [98%N]. split; [repeat constructor; vm_compute; congruence|reflexivity].
      - exists [99%N]. split; [repeat constructor; vm_compute; congruence|reflexivity].
      - exists []. split; [constructor|reflexivity]. }
    intros f v I J. apply K. cbn [In] in I. destruct I as [<-|[<-|[<-|[]]]]; cbn in J; cbn [In].
    + left. destruct J as [J|[]]. exact J.
    + destruct J as [J|[J|[]]]; auto.
    + destruct J as [J|[]]; auto.
  - intros a b X. apply (f_equal (existsb (Ascii.eqb "-"))) in X. rewrite !existsb_app in X. cbn in X. now rewrite orb_true_r in X.
  - vm_compute. reflexivity.
Qed.
