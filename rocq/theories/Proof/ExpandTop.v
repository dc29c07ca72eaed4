(** C45-C50, C73: expansion. *)
From Coq Require Import Lia ZifyBool ZifyN ZifyNat.
From Verif Require Import Spec.ExpandSpec Proof.Utf8P Proof.SymbolsP Proof.RangesP Proof.MergeP Proof.DenotesP Proof.ExpandP Proof.ExpandReadP Proof.ExpandFacP Proof.ExpandAllP Proof.ExpandWeakP.
Local Open Scope Z_scope.

(** A concrete text for the examples. *)
Lemma class_xz : class_values (B "x-z") [B "x"; B "y"; B "z"].
Proof.
  exists [120; 121; 122]%N. split; [repeat constructor|]. split; [|reflexivity]. intros r.
  assert (G : good_class (B "x-z")).
  { exists [120; 45; 122]%N, [(120, 122)]%N. split; [repeat constructor; vm_compute; congruence|]. split; [reflexivity|].
    split; [|repeat constructor; vm_compute; congruence].
    apply (cp_range 120%N [45%N] 122%N [] []); try (vm_compute; congruence); repeat constructor. }
  destruct (good_class_pairs _ G) as (rs & ps & S & E & C & _ & M). rewrite M.
  assert (RS : rs = [120; 45; 122]%N).
  { pose proof (range_encode rs (scalar_valid _ S)) as R. rewrite <- E in R. rewrite <- R. reflexivity. }
  remember [120; 45; 122]%N as l eqn:EL. clear E. rewrite RS in C. clear RS. destruct C as [|t q C|c t q D N C|c ds D N|c ds d t q D NE F D' C].
  - discriminate.
  - injection EL as X _. discriminate.
  - injection EL as _ ->. exfalso. now apply (N 45%N [122%N]).
  - injection EL as _ ->. inversion N as [|? ? _ N2]; subst. inversion N2 as [|? ? X _]. discriminate.
  - injection EL as -> EL.
    assert (HH : ds = [45%N] /\ d = 122%N /\ t = []).
    { destruct ds as [|x [|y ds]]; [easy| |].
      - cbn in EL. injection EL as -> -> ->. auto.
      - inversion_clear F as [|? ? F1 F2]. inversion_clear F2 as [|? ? F3 F4]. cbn in EL. injection EL as _ EL _. unfold is_dash, dash in F3. congruence. }
    destruct HH as (_ & -> & ->). inversion C; subst. unfold in_pairs. cbn [In]. split.
    + intros I. exists 120%N, 122%N. split; [now left|]. lia.
    + intros (a & b & [I|[]] & L). injection I as <- <-. lia.
Qed.
Definition demo : str := B "a{b,c}.[x-z]{d}*".
Definition demo_factors : list fac :=
  [Text (B "a"); Choice (B "{b,c}") [B "b"; B "c"]; Text (B "."); Choice (B "[x-z]") [B "x"; B "y"; B "z"]; Text []; Text (B "d"); Text (B "*")].
Ltac plain_tac := repeat constructor; cbn; intuition discriminate.
Lemma demo_ok max : max < 2 ^ 60 -> expandable demo demo_factors max.
Proof.
  intros M. split.
  - apply (f_pair (B "a") (B "{b,c}") _ (B ".[x-z]{d}*")); [plain_tac| |].
    { apply (b_list (B "b,c")); [plain_tac|cbn; auto|]. split; [discriminate|]. split; [reflexivity|]. plain_tac. }
    apply (f_pair (B ".") (B "[x-z]") _ (B "{d}*")); [plain_tac| |].
    { pose proof class_xz as V. destruct V as (rs & SS & MM & E).
      apply (b_class (B "x-z")); [plain_tac|cbn; lia| | | |exact class_xz|discriminate].
      - exists [120; 45; 122]%N, [(120, 122)]%N. split; [repeat constructor; vm_compute; congruence|]. split; [reflexivity|].
        split; [|repeat constructor; vm_compute; congruence].
        apply (cp_range 120%N [45%N] 122%N [] []); try (vm_compute; congruence); repeat constructor.
      - intros I. apply MM in I. apply (in_map encode_rune) in I. rewrite <- E in I. vm_compute in I. intuition discriminate.
      - intros I. apply MM in I. apply (in_map encode_rune) in I. rewrite <- E in I. vm_compute in I. intuition discriminate. }
    apply (f_pair [] (B "{d}") _ (B "*")); [constructor| |].
    { apply (b_one (B "d")); [plain_tac|cbn; intuition discriminate]. }
    apply (f_rest [] (B "*")); [constructor|]. split.
    + intros c t X. injection X as <- <-. cbn. auto 10.
    + intros (b & r & _ & [X|X]); discriminate.
  - split; [intros [_ X]; discriminate|]. split; [vm_compute; congruence|]. split; [lia|].
    intros r vs I. cbn in I. repeat (destruct I as [I|I]; [injection I as <- <- || discriminate; cbn; lia|]). destruct I.
Qed.

(** C45: Expand returns exactly the expansion of the text: with any limit and depth, for every text
    that can be read, in order and with repetitions. *)
Lemma c45_expand_l : forall (s : str) (fs : list fac) (max depth : Z), expandable s fs max ->
  expand s max depth = Ok (expansion max depth fs).
Proof. intros s fs max depth (F & V & S & W). now apply expand_spec. Qed.
(** C45: without a limit these are all combinations. *)
Lemma chosen_all max depth fs : max < 0 -> depth <= 0 -> forall n d, chosen max depth n d true fs = map values fs.
Proof.
  intros M D. induction fs as [|[t|r vs] fs IH]; intros n d; cbn [chosen map values]; [reflexivity| |].
  - now rewrite IH.
  - cbv zeta. replace (max <? 0) with true by lia. replace (depth <=? 0) with true by lia.
    replace (max =? 0) with false by lia. cbn [orb andb negb]. now rewrite IH.
Qed.
(** C45: Without a limit and a depth Expand returns all combinations of the values, the leftmost
    varying slowest. *)
Lemma c45_unlimited_l : forall (s : str) (fs : list fac) (max depth : Z), max < 0 -> depth <= 0 -> expandable s fs max ->
  expand s max depth = Ok (product (map values fs)).
Proof.
  intros s fs max depth M D E. rewrite (c45_expand_l s fs max depth E). unfold expansion. now rewrite chosen_all.
Qed.
(*EX
Example c45_example : expandable demo demo_factors (-1) /\
  product (map values demo_factors) = map B ["ab.xd*"; "ab.yd*"; "ab.zd*"; "ac.xd*"; "ac.yd*"; "ac.zd*"]%string /\
  expansion 4 0 demo_factors = map B ["ab.[x-z]d*"; "ac.[x-z]d*"]%string /\
  expansion (-1) 1 demo_factors = map B ["ab.[x-z]d*"; "ac.[x-z]d*"]%string.
Proof.
  split; [apply demo_ok; reflexivity|]. repeat match goal with |- _ /\ _ => split end; vm_compute; reflexivity.
Qed.
XE*)

(** C45 fails for classes that contain U+FFFD: the values from it to the end of its interval are lost. *)
Lemma c45_replacement_refuted_l : exists rs, Forall (fun r => valid_rune r = true) rs /\
  class_pairs rs [(65531, 65535)%N] /\
  expand (bracketed (encode_all rs)) (-1) 0 = Ok (map encode_rune [65531; 65532])%N.
Proof.
  exists [65531; 45; 65535]%N. split; [repeat constructor|]. split; [|vm_compute; reflexivity].
  apply (cp_range 65531%N [45%N] 65535%N [] []); try (vm_compute; congruence); repeat constructor.
Qed.
(** C45 fails for a class that contains NUL: it is lost. *)
Lemma c45_nul_refuted_l : in_class [zero; "a"%char] 0%N /\ expand (bracketed [zero; "a"%char]) (-1) 0 = Ok [B "a"].
Proof.
  split; [|vm_compute; reflexivity]. exists [0; 97]%N, [(0, 0); (97, 97)]%N.
  split; [repeat constructor; vm_compute; congruence|]. split; [reflexivity|]. split.
  - apply cp_single; [vm_compute; congruence| |].
    + intros d t X. injection X as <- <-. vm_compute. congruence.
    + apply cp_single; [vm_compute; congruence|discriminate|constructor].
  - exists 0%N, 0%N. split; [now left|lia].
Qed.

(** C46: With a limit max Expand returns at most max strings, whatever the text and the depth. *)
Lemma c46_limit_l : forall (s : str) (max depth : Z) (rs : list str), 0 < max < 2 ^ 31 -> Z.of_nat (length s) < 2 ^ 31 ->
  expand s max depth = Ok rs -> Z.of_nat (length rs) <= max.
Proof. exact expand_bound. Qed.
(** C46: The limit takes nothing away when all combinations fit. *)
Lemma size_prefix f fs : 1 <= size fs -> values f <> [] -> Z.of_nat (length (values f)) <= size (f :: fs).
Proof.
  intros S V. unfold size in *. cbn [fold_right]. assert (1 <= Z.of_nat (length (values f))) by (destruct (values f); [congruence|cbn; lia]). nia.
Qed.
Lemma chosen_fits max depth fs : 0 < max -> depth <= 0 -> (forall r vs, In (Choice r vs) fs -> vs <> []) ->
  forall n d, 1 <= n -> n * size fs <= max -> chosen max depth n d true fs = map values fs.
Proof.
  intros M D. induction fs as [|[t|r vs] fs IH]; intros V n d N L; cbn [chosen map values]; [reflexivity| |].
  - rewrite IH; auto. { intros r vs I. apply (V r). now right. } change (size (Text t :: fs)) with (1 * size fs) in L. lia.
  - cbv zeta. assert (V' : forall r vs, In (Choice r vs) fs -> vs <> []) by (intros r' vs' I; apply (V r'); now right).
    pose proof (size_pos fs V') as SP. assert (K : 1 <= Z.of_nat (length vs)).
    { specialize (V r vs (or_introl eq_refl)). destruct vs; [congruence|cbn; lia]. }
    change (size (Choice r vs :: fs)) with (Z.of_nat (length vs) * size fs) in L.
    assert (n * Z.of_nat (length vs) <= max) by nia. replace (n * Z.of_nat (length vs) <=? max) with true by lia.
    replace (depth <=? 0) with true by lia. replace (max =? 0) with false by lia. rewrite orb_true_r. cbn [orb andb negb].
    rewrite IH; auto; nia.
Qed.
Lemma factors_values s fs : factors s fs -> forall r vs, In (Choice r vs) fs -> vs <> [].
Proof.
  induction 1 as [p w P St|p u f s fs P U Fs IH]; intros r vs I.
  - destruct I as [I|[]]. discriminate.
  - destruct I as [I|[I|I]]; [discriminate| |eauto]. subst f. inversion U; subst; auto. unfold list_values in *. tauto.
Qed.
(** C46: The limit takes nothing away when all combinations fit into it. *)
Lemma c46_fits_l : forall (s : str) (fs : list fac) (max depth : Z), 0 < max -> depth <= 0 -> size fs <= max ->
  expandable s fs max -> expand s max depth = Ok (product (map values fs)).
Proof.
  intros s fs max depth M D L E. rewrite (c45_expand_l s fs max depth E). destruct E as (F & _). unfold expansion.
  rewrite chosen_fits; auto; try lia. exact (factors_values s fs F).
Qed.
(*EX
Example c46_example : expand demo 4 0 = Ok (map B ["ab.[x-z]d*"; "ac.[x-z]d*"]%string) /\
  expandable demo demo_factors 6 /\ size demo_factors = 6.
Proof. split; [vm_compute; reflexivity|]. split; [apply demo_ok; reflexivity|vm_compute; reflexivity]. Qed.
XE*)

(** C47: With the limit 0 Expand returns one string: the factors as they are written. *)
Lemma product_singles {A} (f : A -> str) (l : list A) : product (map (fun x => [f x]) l) = [concat (map f l)].
Proof. induction l as [|x l IH]; [reflexivity|]. cbn [map product flat_map concat]. rewrite IH. reflexivity. Qed.
Lemma c47_disabled_l : forall (s : str) (fs : list fac) (depth : Z), expandable s fs 0 ->
  expand s 0 depth = Ok [concat (map raw fs)].
Proof.
  intros s fs depth E. rewrite (c45_expand_l s fs 0 depth E). unfold expansion.
  now rewrite chosen_zero, product_singles.
Qed.
(** A bracket pair that is a choice is written as it is. *)
Lemma bracket_choice u r vs : bracket u (Choice r vs) -> r = u.
Proof. inversion 1; auto. Qed.
Lemma all_choices_raw s fs : all_choices s fs -> factors s fs /\ concat (map raw fs) = s.
Proof.
  induction 1 as [p w P S|p u r vs s fs P U A (F & E)].
  - split; [now constructor|]. cbn. apply app_nil_r.
  - split; [now constructor|]. cbn [map concat raw]. rewrite E. now rewrite (bracket_choice u r vs U).
Qed.
(** C47: So the text comes back unchanged when every bracket pair in it is a choice. *)
Lemma c47_unchanged_l : forall (s : str) (fs : list fac) (depth : Z), all_choices s fs -> size fs <= 2 ^ 44 ->
  expand s 0 depth = Ok [s].
Proof.
  intros s fs depth A S. destruct (all_choices_raw s fs A) as [F E]. rewrite (c47_disabled_l s fs depth), E; [reflexivity|].
  split; [exact F|]. split; [intros [N X]; congruence|]. split; [exact S|]. split; [lia|]. intros; lia.
Qed.
(** C47: The text does not always come back: a class with a reversed interval loses its brackets. *)
Lemma c47_bad_class_refuted_l : expand (B "a[z-b]{c,d}") 0 0 = Ok [B "az-b{c,d}"] /\ expand (B "a[z-b]{c,d}") (-1) 0 = Ok [B "az-bc"; B "az-bd"].
Proof. split; vm_compute; reflexivity. Qed.
(*EX
Example c47_example : expandable demo demo_factors 0 /\ concat (map raw demo_factors) = B "a{b,c}.[x-z]d*" /\
  exists fs, all_choices (B "a{b,c}*") fs /\ size fs <= 2 ^ 44.
Proof.
  split; [apply demo_ok; reflexivity|]. split; [vm_compute; reflexivity|]. eexists. split.
  - apply (ac_pair (B "a") (B "{b,c}") (B "{b,c}") [B "b"; B "c"] (B "*")); [plain_tac| |].
    { apply (b_list (B "b,c")); [plain_tac|cbn; auto|]. split; [discriminate|]. split; [reflexivity|]. plain_tac. }
    apply (ac_rest [] (B "*")); [constructor|]. split.
    + intros c t X. injection X as <- <-. cbn. auto 10.
    + intros (b & r & _ & [X|X]); discriminate.
  - vm_compute. congruence.
Qed.
XE*)

(** C48: ExpandTry returns one string: the first one that Expand returns. *)
Lemma c48_try_l : forall (s : str) (fs : list fac) (max depth : Z), expandable s fs max ->
  exists r rs, expand s max depth = Ok (r :: rs) /\ expand_try s max depth = Ok [r].
Proof.
  intros s fs max depth (F & V & S & W). destruct (expand_spec s fs max depth F V S W) as [E1 E2].
  assert (NE : expansion max depth fs <> []).
  { pose proof (factors_values s fs F) as FV. unfold expansion. apply hd_product.
    clear - FV. generalize 1, 0, true. induction fs as [|[t|r vs] fs IH]; intros n d go; cbn [chosen]; [constructor| |].
    - constructor; [discriminate|]. apply IH. intros r vs I. apply (FV r). now right.
    - assert (FV' : forall r vs, In (Choice r vs) fs -> vs <> []) by (intros r' vs' I; apply (FV r'); now right).
      cbv zeta. destruct (_ && _ && _); (constructor; [|now apply IH]); [|discriminate]. apply (FV r). now left. }
  destruct (expansion max depth fs) as [|r rs]; [easy|]. exists r, rs. split; [exact E1|exact E2].
Qed.
(*EX
Example c48_example : expandable demo demo_factors (-1) /\ expand_try demo (-1) 0 = Ok [B "ab.xd*"].
Proof. split; [apply demo_ok; reflexivity|vm_compute; reflexivity]. Qed.
XE*)

(** C49: Expand returns on every text that is read, unless nothing is left of the text. *)
Lemma c49_returns_l : forall (s : str) (fs : list fac) (max depth : Z), factors s fs -> size fs <= 2 ^ 44 -> fits64 max fs ->
  (void s fs -> expand s max depth = Panic) /\ (~ void s fs -> exists rs, expand s max depth = Ok rs).
Proof.
  intros s fs max depth F S W. split.
  - intros V. destruct (parse_spec s fs F) as [[_ E]|[NV _]]; [|contradiction]. unfold expand. now rewrite E.
  - intros NV. destruct (expand_spec s fs max depth F NV S W) as [E _]. eauto.
Qed.
(** C49 is false: Expand panics on "{}", on "[]{}", and, whatever the limit, when the number of all
    combinations is too large (here 2^50 with the limit 1). *)
Lemma c49_panic_refuted_l : expand (B "{}") (-1) 0 = Panic /\ expand (B "[]{}") (-1) 0 = Panic /\
  expand (concat (repeat (B "{a,b}") 50)) 1 0 = Panic.
Proof. repeat match goal with |- _ /\ _ => split end; vm_compute; reflexivity. Qed.
(*EX
Example c49_example : factors demo demo_factors /\ ~ void demo demo_factors /\ size demo_factors <= 2 ^ 44 /\ fits64 (-1) demo_factors.
Proof. apply demo_ok. reflexivity. Qed.
Example c49_example_void : exists fs, factors (B "{}") fs /\ void (B "{}") fs.
Proof.
  eexists. split; [apply (f_pair [] (B "{}") (Text []) []); [constructor| |]|].
  - apply (b_one []); [constructor|easy].
  - apply (f_rest [] []); [constructor|]. split; [discriminate|]. intros (b & r & _ & [X|X]); discriminate.
  - split; [discriminate|reflexivity].
Qed.
XE*)

(** C73: Expressions.Expand without the try flag leaves the parsed expression as it was, so calling it
    again gives the same result. *)
Lemma c73_restores_l : forall (s : str) (exps exps' : list expr) (max depth : Z) (rs : list str),
  parse_expr s = Ok exps -> exps_expand exps max depth false = Ok (exps', rs) ->
  exps' = exps /\ exps_expand exps' max depth false = Ok (exps', rs).
Proof.
  intros s exps exps' max depth rs P E. pose proof (expand_restores s exps max depth exps' rs P E) as X. subst exps'. split; [reflexivity|exact E].
Qed.
(** C73 fails with the try flag: the next call continues from where it stopped. *)
Lemma c73_try_refuted_l : exists exps exps', parse_expr (B "{a,b}{c,d}") = Ok exps /\
  exps_expand exps (-1) 0 true = Ok (exps', [B "ac"]) /\
  (exists e2, exps_expand exps' (-1) 0 false = Ok (e2, [B "bd"])) /\
  (exists e2, exps_expand exps (-1) 0 false = Ok (e2, [B "ac"; B "ad"; B "bc"; B "bd"])).
Proof.
  eexists. eexists. split; [vm_compute; reflexivity|]. split; [vm_compute; reflexivity|].
  split; eexists; vm_compute; reflexivity.
Qed.
(*EX
Example c73_example : exists exps, parse_expr demo = Ok exps /\ exists rs, exps_expand exps 4 0 false = Ok (exps, rs) /\ length rs = 2%nat.
Proof. eexists. split; [vm_compute; reflexivity|]. eexists. split; [vm_compute; reflexivity|reflexivity]. Qed.
XE*)

(** C50 *)
Lemma plain_not s c : plain s -> In c metas -> ~ In c s.
Proof. intros P M I. unfold plain in P. rewrite Forall_forall in P. now apply (P c). Qed.
Lemma clean_encode_inv r : clean (encode_rune r) -> scalar r.
Proof.
  intros (rs & S & E). assert (V : valid_rune r = true).
  { destruct (valid_rune r) eqn:V; auto. exfalso.
    assert (X : encode_rune r = encode_rune RuneError).
    { pose proof V as V2. unfold encode_rune. unfold valid_rune in V2. cbv zeta.
      destruct (r <? 128)%N eqn:A; [lia|]. destruct (r <? 2048)%N eqn:A2; [lia|]. rewrite V. reflexivity. }
    rewrite X in E. pose proof (symbols_encode RuneError [] eq_refl) as Y. rewrite app_nil_r in Y.
    rewrite E, symbols_encode_all in Y by (eapply Forall_impl; [|exact S]; intros ? [? _]; auto).
    destruct rs as [|x [|y rs]]; try discriminate. cbn [map] in Y. injection Y as Y.
    inversion_clear S as [|? ? [V1 V2] _]. apply V2. apply (encode_app_inj x RuneError [] [] V1 eq_refl).
    rewrite (app_nil_r (encode_rune RuneError)), E, encode_all_cons. reflexivity. }
  split; [exact V|]. intros ->. pose proof (symbols_encode RuneError [] eq_refl) as Y. rewrite app_nil_r in Y.
  rewrite E, symbols_encode_all in Y by (eapply Forall_impl; [|exact S]; intros ? [? _]; auto).
  destruct rs as [|x [|y rs]]; try discriminate. cbn [map] in Y. injection Y as Y.
  inversion_clear S as [|? ? [V1 V2] _]. apply V2. apply (encode_app_inj x RuneError [] [] V1 eq_refl).
  rewrite (app_nil_r (encode_rune RuneError)), E, encode_all_cons. reflexivity.
Qed.

Lemma clean_byte c : clean [c] -> (code c < 128)%N.
Proof.
  intros (rs & S & E). destruct rs as [|r rs]; [discriminate|]. rewrite encode_all_cons in E.
  pose proof (encode_len_pos r) as L. destruct (encode_rune r) as [|x [|y l]] eqn:X; [cbn in L; lia| |discriminate].
  inversion_clear S as [|? ? [V _] _]. pose proof (encode_len_valid r V) as Z. rewrite X in Z. cbn in Z.
  injection E as E _. subst x. unfold rune_len in Z. destruct (r <? 128)%N eqn:A.
  - rewrite encode_ascii in X by lia. injection X as <-. rewrite code_byte_of by lia. lia.
  - rewrite V in Z. cbn [negb] in Z. destruct (r <? 2048)%N, (r <? 65536)%N; lia.
Qed.
Lemma byte_class c : (code c < 128)%N -> c <> "-"%char -> forall r, in_class [c] r <-> r = code c.
Proof.
  intros L D. assert (ND : code c <> dash).
  { intros X. apply D. rewrite <- (byte_of_code c), X. reflexivity. }
  assert (SC : scalar (code c)) by (split; [unfold valid_rune|unfold RuneError]; lia).
  assert (G : good_class [c]).
  { exists [code c], [(code c, code c)]. split; [constructor; [exact SC|constructor]|]. split; [cbn; now rewrite string_byte_ascii|].
    split; [apply cp_single; [auto|discriminate|constructor]|]. repeat constructor. cbn. lia. }
  destruct (good_class_pairs _ G) as (rs & ps & S & E & C & _ & M). intros r. rewrite M.
  assert (RS : rs = [code c]).
  { pose proof (range_encode rs (scalar_valid _ S)) as R. rewrite <- E in R. rewrite <- R.
    pose proof (range_encode [code c] (scalar_valid _ (Forall_cons _ SC (Forall_nil _)))) as R2. cbn in R2.
    rewrite string_byte_ascii in R2 by auto. exact R2. }
  rewrite RS in C. clear E RS. remember [code c] as l eqn:EL.
  assert (ONE : ps = [(code c, code c)]).
  { destruct C as [|t q C|x t q D1 N C|x ds D1 N|x ds d t q D1 NE F D2 C].
    - discriminate.
    - injection EL as X _. congruence.
    - injection EL as -> ->. inversion C. reflexivity.
    - injection EL as -> ->. reflexivity.
    - injection EL as _ EL. now destruct ds. }
  subst ps. unfold in_pairs. cbn [In]. split.
  - intros (a & b & [I|[]] & X). injection I as <- <-. lia.
  - intros ->. exists (code c), (code c). split; [now left|lia].
Qed.

Definition reads (s : str) (vss : list (list str)) : Prop :=
  forall ws, denotes s ws <-> exists w, In w (product vss) /\ ws = symbols w.
Lemma in_product_cons w vs r : In w (product (vs :: r)) <-> exists v t, In v vs /\ In t (product r) /\ w = v ++ t.
Proof.
  cbn [product]. rewrite in_flat_map. split.
  - intros (v & I & J). apply in_map_iff in J as (t & <- & J). eauto.
  - intros (v & t & I & J & ->). exists v. split; auto. now apply in_map.
Qed.
Lemma product_clean vss : (forall vs v, In vs vss -> In v vs -> clean v) -> forall w, In w (product vss) -> clean w.
Proof.
  induction vss as [|vs r IH]; intros H w I.
  - destruct I as [<-|[]]. apply clean_nil.
  - apply in_product_cons in I as (v & t & I & J & ->). apply clean_app.
    + apply (H vs); auto. now left.
    + apply IH; auto. intros vs' v' I1 I2. apply (H vs'); auto. now right.
Qed.

Lemma denotes_product s fs : factors s fs ->
  (forall t, In (Text t) fs -> plain t) -> (forall f v, In f fs -> In v (values f) -> clean v) ->
  (forall a b, s <> a ++ B "[-]" ++ b) -> reads s (map values fs).
Proof.
  induction 1 as [p w P St|p u f s fs P U Fs IH]; intros TP CV ND ws.
  - assert (W : w = []).
    { destruct w as [|c t]; auto. exfalso. destruct St as [H _]. apply (plain_not (p ++ c :: t) c).
      - apply TP. now left.
      - now apply (H c t).
      - apply in_app_iff. right. now left. }
    subst w. rewrite app_nil_r in *. rewrite (denotes_text p ws).
    + cbn [map values product flat_map app In]. split.
      * intros ->. exists p. split; [left; apply app_nil_r|reflexivity].
      * intros (x & [<-|[]] & ->). now rewrite app_nil_r.
    + apply (CV (Text p)); now left.
    + intros c I M. now apply (plain_not p c).
  - assert (TP' : forall t, In (Text t) fs -> plain t) by (intros t I; apply TP; cbn; auto).
    assert (CV' : forall f v, In f fs -> In v (values f) -> clean v) by (intros f' v' I J; apply (CV f'); cbn; auto).
    assert (ND' : forall a b, s <> a ++ B "[-]" ++ b).
    { intros a b ->. apply (ND (p ++ u ++ a) b). now rewrite <- !app_assoc. }
    specialize (IH TP' CV' ND'). unfold reads in IH.
    assert (CP : forall t, In t (product (map values fs)) -> bnd t).
    { intros t I. apply bnd_clean. revert t I. apply product_clean. intros vs v I J. apply in_map_iff in I as (f' & <- & I). now apply (CV' f'). }
    assert (CF : forall v, In v (values f) -> clean v) by (intros v I; apply (CV f); cbn; auto).
    assert (BR : forall ws, denotes (u ++ s) ws <-> exists v t, In v (values f) /\ In t (product (map values fs)) /\ ws = symbols (v ++ t)).
    { clear ws TP CV. intros ws.
      assert (SY : forall v t, In v (values f) -> In t (product (map values fs)) -> symbols (v ++ t) = symbols v ++ symbols t) by (intros v t I J; apply symbols_app; auto).
      revert CF SY ND. destruct U as [body vs PB I (NE & J & F)|body PB I| |c M|body vs PB L G N0 NR V NE|body PB L G V]; intros CF SY ND.
      - rewrite denotes_list by (apply (plain_not body); [auto|cbn; auto 10]). rewrite <- J, split_joined by auto. cbn [values] in *.
        assert (PV : forall v c, In v vs -> In c v -> ~ In c metas).
        { intros v c Iv Ic Mc. apply (plain_not body c PB Mc). rewrite <- J. clear - Iv Ic.
          induction vs as [|x [|y vs] IH]; [easy|destruct Iv as [<-|[]]; auto|].
          change (joined (x :: y :: vs)) with (x ++ ","%char :: joined (y :: vs)). apply in_app_iff.
          destruct Iv as [<-|Iv]; [now left|right; right; now apply IH]. }
        split.
        + intros (v & w1 & w2 & -> & Iv & D1 & D2). apply IH in D2 as (t & It & ->).
          apply (denotes_text v w1) in D1; [|now apply CF|intros c Ic; now apply (PV v)]. subst w1.
          exists v, t. rewrite SY; auto.
        + intros (v & t & Iv & It & ->). exists v, (symbols v), (symbols t). split; [now apply SY|]. split; [auto|].
          split; [|apply IH; eauto]. apply denotes_text; [now apply CF|intros c Ic; now apply (PV v)|reflexivity].
      - rewrite denotes_list by (apply (plain_not body); [auto|cbn; auto 10]). rewrite split_on_none by auto. cbn [values] in *.
        assert (D : forall w1, denotes body w1 <-> w1 = symbols body).
        { intros w1. apply denotes_text; [apply CF; now left|]. intros c Ic Mc. now apply (plain_not body c). }
        split.
        + intros (v & w1 & w2 & -> & [<-|[]] & D1 & D2). apply IH in D2 as (t & It & ->). apply D in D1 as ->.
          exists body, t. rewrite SY; cbn; auto.
        + intros (v & t & [<-|[]] & It & ->). exists body, (symbols body), (symbols t). rewrite SY by (cbn; auto).
          split; [auto|]. split; [now left|]. split; [now apply D|]. apply IH. eauto.
      - rewrite denotes_class by easy.
        assert (E : forall r, ~ in_class [] r).
        { intros r (rs & ps & S & X & C & (a & b & I & _)). destruct rs as [|x rs].
          - inversion C; subst. destruct I.
          - rewrite encode_all_cons in X. pose proof (encode_nonempty x). destruct (encode_rune x); [congruence|discriminate]. }
        rewrite IH. cbn [values In]. split.
        + intros [(r & w' & _ & _ & C & _)|(_ & t & It & ->)]; [now apply E in C|]. exists [], t. auto.
        + intros (v & t & [<-|[]] & It & ->). right. split; [exact E|]. eauto.
      - assert (A : (code c < 128)%N) by (apply clean_byte, CF; now left).
        assert (NDc : c <> "-"%char). { intros ->. now apply (ND p s). }
        rewrite denotes_class.
        2:{ intros [->|[]]. apply M. cbn. auto 10. }
        assert (SCc : scalar (code c)) by (split; [unfold valid_rune|unfold RuneError]; lia).
        pose proof (byte_class c A NDc) as BC. cbn [values In]. split.
        + intros [(r & w' & -> & _ & C & D)|(C & _)]; [|exfalso; now apply (C (code c)), BC].
          apply BC in C as ->. apply IH in D as (t & It & ->). exists [c], t. rewrite string_byte_ascii by auto.
          split; [auto|]. split; [auto|]. cbn [app]. now rewrite symbols_ascii.
        + intros (v & t & [<-|[]] & It & ->). left. exists (code c), (symbols t). rewrite string_byte_ascii by auto.
          split; [cbn [app]; now rewrite symbols_ascii|]. split; [exact SCc|]. split; [now apply BC|]. apply IH. eauto.
      - rewrite denotes_class by (apply (plain_not body); [auto|cbn; auto 10]). cbn [values] in *.
        destruct V as (rs & SS & MM & ->). split.
        + intros [(r & w' & -> & S & C & D)|(C & _)].
          * apply IH in D as (t & It & ->). exists (encode_rune r), t. split; [now apply in_map, MM|]. split; [auto|].
            rewrite symbols_encode by apply S. reflexivity.
          * exfalso. destruct rs as [|r rs]; [now apply NE|]. apply (C r), MM. now left.
        + intros (v & t & Iv & It & ->). pose proof (CF v Iv) as Cv. apply in_map_iff in Iv as (r & <- & Ir).
          apply clean_encode_inv in Cv. left. exists r, (symbols t). rewrite symbols_encode by apply Cv.
          split; [reflexivity|]. split; [exact Cv|]. split; [now apply MM|]. apply IH. eauto.
      - rewrite denotes_class by (apply (plain_not body); [auto|cbn; auto 10]).
        assert (E : forall r, ~ in_class body r).
        { destruct V as (rs & _ & MM & E). symmetry in E. apply map_eq_nil in E. subst rs. intros r H. now apply MM in H. }
        rewrite IH. cbn [values In]. split.
        + intros [(r & w' & _ & _ & C & _)|(_ & t & It & ->)]; [now apply E in C|]. exists [], t. auto.
        + intros (v & t & [<-|[]] & It & ->). right. split; [exact E|]. eauto. }
    rewrite denotes_literal.
    + cbn [map values]. assert (CPP : clean p) by (apply (CV (Text p)); now left). split.
      * intros (w' & -> & D). apply BR in D as (v & t & Iv & It & ->). exists (p ++ v ++ t). split.
        -- apply in_product_cons. exists p, (v ++ t). split; [now left|]. split; [|reflexivity]. apply in_product_cons. eauto.
        -- rewrite (symbols_app p); [reflexivity|]. apply bnd_clean, clean_app; auto. revert t It. apply product_clean.
           intros vs v' I J. apply in_map_iff in I as (f' & <- & I). now apply (CV' f').
      * intros (w & I & ->). apply in_product_cons in I as (v0 & t0 & [<-|[]] & I & ->).
        apply in_product_cons in I as (v & t & Iv & It & ->). exists (symbols (v ++ t)). split.
        -- apply symbols_app. apply bnd_clean, clean_app; auto. revert t It. apply product_clean.
           intros vs v' I J. apply in_map_iff in I as (f' & <- & I). now apply (CV' f').
        -- apply BR. eauto.
    + apply (CV (Text p)); now left.
    + intros c I M. now apply (plain_not p c).
Qed.

(** C50: Expansion agrees with the meaning of the text as a glob: without a limit Expand returns exactly
    the strings that the glob denotes, when no wildcard is left over and there is no class [-]. *)
Lemma c50_glob_l : forall (s : str) (fs : list fac) (rs : list str), expandable s fs (-1) ->
  (forall t, In (Text t) fs -> plain t) -> (forall f v, In f fs -> In v (values f) -> clean v) ->
  (forall a b, s <> a ++ B "[-]" ++ b) ->
  expand s (-1) 0 = Ok rs -> forall w, In w rs <-> denotes s (symbols w).
Proof.
  intros s fs rs E TP CV ND X w. rewrite (c45_unlimited_l s fs (-1) 0) in X; try lia; auto. injection X as <-.
  destruct E as (F & _). pose proof (denotes_product s fs F TP CV ND) as DP. unfold reads in DP. rewrite DP. split.
  - eauto.
  - intros (w' & I & S). apply symbols_inj in S. now subst.
Qed.
(** C50 fails for the class [-]: as a glob it has no members and is ignored, but it expands to '-'. *)
Lemma c50_dash_refuted_l : expand (B "a[-]") (-1) 0 = Ok [B "a-"] /\ denotes (B "a[-]") (symbols (B "a")) /\ ~ denotes (B "a[-]") (symbols (B "a-")).
Proof.
  assert (E : forall r, ~ in_class (B "-") r).
  { intros r (rs & ps & S & X & C & (a & b & I & _)). pose proof (range_encode rs (scalar_valid _ S)) as R. rewrite <- X in R.
    change (map snd (range (B "-"))) with [45%N] in R. subst rs. remember [45%N] as l eqn:EL.
    destruct C as [|t q C|x t q D1 N C|x ds D1 N|x ds d t q D1 NE F D2 C]; try discriminate.
    - injection EL as ->. inversion C; subst. destruct I.
    - injection EL as -> _. now apply D1.
    - injection EL as -> _. now apply D1.
    - injection EL as -> _. now apply D1. }
  assert (D : forall w, denotes (B "[-]") w <-> w = []).
  { intros w. change (B "[-]") with (bracketed (B "-") ++ []). rewrite denotes_class by (cbn; intuition discriminate).
    rewrite denotes_nil. split; [intros [(r & w' & _ & _ & C & _)|[_ ->]]; [now apply E in C|auto]|auto]. }
  assert (A : forall w, denotes (B "a[-]") w <-> w = symbols (B "a")).
  { intros w. change (B "a[-]") with (B "a" ++ B "[-]"). rewrite denotes_literal.
    - split; [intros (w' & -> & H); apply D in H as ->; now rewrite app_nil_r|]. intros ->. exists []. rewrite app_nil_r. split; [auto|now apply D].
    - exists [97%N]. split; [repeat constructor; vm_compute; congruence|reflexivity].
    - intros c [<-|[]]. cbn. intuition discriminate. }
  split; [vm_compute; reflexivity|]. split; [now apply A|]. rewrite A. vm_compute. congruence.
Qed.
(*EX
Definition demo2 : str := B "a{b,c}".
Example c50_example : exists fs, expandable demo2 fs (-1) /\ (forall t, In (Text t) fs -> plain t) /\
  (forall f v, In f fs -> In v (values f) -> clean v) /\ (forall a b, demo2 <> a ++ B "[-]" ++ b) /\
  expand demo2 (-1) 0 = Ok [B "ab"; B "ac"].
Proof.
  exists [Text (B "a"); Choice (B "{b,c}") [B "b"; B "c"]; Text []]. split; [|split; [|split; [|split]]].
  - split; [|split; [intros [_ X]; discriminate|split; [vm_compute; congruence|]]].
    + apply (f_pair (B "a") (B "{b,c}") _ []); [plain_tac| |].
      { apply (b_list (B "b,c")); [plain_tac|cbn; auto|]. split; [discriminate|]. split; [reflexivity|]. plain_tac. }
      apply (f_rest [] []); [constructor|]. split; [discriminate|]. intros (b & r & _ & [X|X]); discriminate.
    + split; [lia|]. intros r vs I. lia.
  - intros t I. cbn in I. repeat (destruct I as [I|I]; [try discriminate; injection I as <-; plain_tac|]). destruct I.
  - assert (K : forall v : str, In v [B "a"; B "b"; B "c"; []] -> clean v).
    { intros v I. cbn [In] in I. destruct I as [<-|[<-|[<-|[<-|[]]]]].
      - exists [97%N]. split; [repeat constructor; vm_compute; congruence|reflexivity].
      - exists [98%N]. split; [repeat constructor; vm_compute; congruence|reflexivity].
      - exists [99%N]. split; [repeat constructor; vm_compute; congruence|reflexivity].
      - exists []. split; [constructor|reflexivity]. }
    intros f v I J. apply K. cbn [In] in I. destruct I as [<-|[<-|[<-|[]]]]; cbn in J; cbn [In].
    + left. destruct J as [J|[]]. exact J.
    + destruct J as [J|[J|[]]]; auto.
    + destruct J as [J|[]]; auto.
  - intros a b X. apply (f_equal (existsb (Ascii.eqb "-"))) in X. rewrite !existsb_app in X. cbn in X. now rewrite orb_true_r in X.
  - vm_compute. reflexivity.
Qed.
XE*)
