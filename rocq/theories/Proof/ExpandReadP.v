(** How a text is read as a list of expressions. *)
From Coq Require Import Lia ZifyBool ZifyN ZifyNat.
From Verif Require Import Spec.ExpandSpec Proof.Utf8P Proof.SymbolsP Proof.RangesP Proof.MergeP Proof.ExpandP.
Local Open Scope nat_scope.

(** * getPair, byte by byte *)
Fixpoint gp (i : nat) (s : str) (start : option (nat * rune)) : option nat * option nat :=
  match s with
  | [] => (option_map fst start, None)
  | x :: t =>
      let c := code x in
      let st := Some (match start with None => i | Some (k, _) => k end) in
      if (c =? 42)%N || (c =? 63)%N then (st, None)
      else if (c =? 123)%N || (c =? 91)%N then
        match start with
        | None => gp (S i) t (Some (i, c))
        | Some (k, _) => (Some k, None)
        end
      else if (c =? 125)%N then
        match start with
        | Some (k, o) => if (o =? 91)%N then (st, None) else (Some k, Some i)
        | None => (st, None)
        end
      else if (c =? 93)%N then
        match start with
        | Some (k, o) => if (o =? 123)%N then (st, None) else (Some k, Some i)
        | None => (st, None)
        end
      else gp (S i) t start
  end.

Lemma meta_codes c : In c metas <-> In (code c) [91; 93; 123; 125; 42; 63]%N.
Proof.
  unfold metas. split.
  - intros I. repeat (destruct I as [<-|I]; [vm_compute; tauto|]). destruct I.
  - intros I. repeat (destruct I as [E|I]; [apply (f_equal byte_of) in E; rewrite byte_of_code in E; subst c; vm_compute; tauto|]). destruct I.
Qed.
Lemma gp_skip c t i st : ~ In c metas -> gp i (c :: t) st = gp (S i) t st.
Proof.
  rewrite meta_codes. cbn [In]. intros N. cbn [gp]. cbv zeta.
  replace (code c =? 42)%N with false by lia. replace (code c =? 63)%N with false by lia.
  replace (code c =? 123)%N with false by lia. replace (code c =? 91)%N with false by lia.
  replace (code c =? 125)%N with false by lia. replace (code c =? 93)%N with false by lia. reflexivity.
Qed.
Lemma gp_plain p : forall t i st, plain p -> gp i (p ++ t) st = gp (i + length p) t st.
Proof.
  induction p as [|c p IH]; intros t i st P; cbn [app length].
  - now rewrite Nat.add_0_r.
  - inversion_clear P as [|? ? N P']. rewrite gp_skip, IH by auto. f_equal. lia.
Qed.
Lemma high_not_meta c : (128 <= code c)%N -> ~ In c metas.
Proof. rewrite meta_codes. cbn [In]. lia. Qed.

Lemma cont_high c : is_cont c = true -> (128 <= code c)%N.
Proof. unfold is_cont, Utf8.in_range. lia. Qed.
Lemma decode_high s : s <> [] -> (128 <= code (hd zero s))%N ->
  (128 <= fst (decode_rune s))%N /\ plain (firstn (snd (decode_rune s)) s).
Proof.
  intros NE H. destruct s as [|c t]; [easy|]. cbn [hd] in H. split.
  - destruct (decode_rune (c :: t)) as [r n] eqn:E. cbn [fst].
    destruct (N.ltb_spec r 128) as [L|L]; [|lia]. exfalso.
    destruct (encode_decode _ _ _ E) as (V & N & S); [easy|intros [B _]; cbn in B; subst r; now vm_compute in L|].
    rewrite encode_ascii in S by auto. cbn [app] in S. injection S as S _. subst c. rewrite code_byte_of in H by lia. lia.
  - pose proof (decode_conts (c :: t)) as D. destruct (snd (decode_rune (c :: t))) as [|n]; [constructor|].
    cbn [firstn skipn] in *. constructor; [now apply high_not_meta|].
    apply Forall_forall. intros x I. apply high_not_meta, cont_high. rewrite forallb_forall in D. now apply D.
Qed.
Lemma gp_range f : forall s i st, length s <= f -> get_pair_loop (range_from f i s) st = gp i s st.
Proof.
  induction f as [|f IH]; intros s i st L.
  - destruct s; [reflexivity|cbn in L; lia].
  - destruct s as [|c t]; [reflexivity|]. cbn [range_from].
    destruct (N.ltb_spec (code c) 128) as [A|A].
    + assert (D : decode_rune (c :: t) = (code c, 1)).
      { pose proof (decode_encode (code c) t) as D. rewrite string_byte_ascii in D by auto. cbn [app length] in D. apply D.
        unfold valid_rune. lia. }
      rewrite D. assert (L' : length t <= f) by (cbn in L; lia).
      replace (i + 1) with (S i) by lia. cbn [get_pair_loop gp skipn]. cbv zeta.
      destruct st as [[k o]|]; rewrite !(IH t _ _ L'); reflexivity.
    + assert (NE : c :: t <> []) by easy. destruct (decode_high (c :: t) NE A) as [R P].
      pose proof (decode_size_le (c :: t)) as LE. pose proof (decode_size_pos (c :: t) NE) as PO.
      destruct (decode_rune (c :: t)) as [r n]. cbn [fst snd] in *.
      cbn [get_pair_loop]. cbv zeta.
      replace (r =? 42)%N with false by lia. replace (r =? 63)%N with false by lia.
      replace (r =? 123)%N with false by lia. replace (r =? 91)%N with false by lia.
      replace (r =? 125)%N with false by lia. replace (r =? 93)%N with false by lia. cbn [orb].
      assert (LS : length (skipn n (c :: t)) <= f) by (rewrite skipn_length; change (length (c :: t)) with (S (length t)) in *; lia). rewrite (IH _ _ _ LS).
      rewrite <- (firstn_skipn n (c :: t)) at 2. rewrite gp_plain by auto. rewrite firstn_length_le by auto. reflexivity.
Qed.
Lemma get_pair_gp s : get_pair s = gp 0 s None.
Proof. apply gp_range. lia. Qed.

Lemma gp_open o c body rest i k : plain body -> (o = 123 /\ c = "}"%char \/ o = 91 /\ c = "]"%char)%N ->
  gp i (body ++ c :: rest) (Some (k, o)) = (Some k, Some (i + length body)).
Proof.
  intros P H. rewrite gp_plain by auto. destruct H as [[-> ->]|[-> ->]]; reflexivity.
Qed.
Lemma gp_open_inv t : forall i k o, (o = 123 \/ o = 91)%N ->
  (exists body rest, plain body /\ t = body ++ (if (o =? 123)%N then "}" else "]")%char :: rest) \/
  gp i t (Some (k, o)) = (Some k, None).
Proof.
  induction t as [|c t IH]; intros i k o O; [now right|].
  destruct (in_dec ascii_dec c metas) as [M|M].
  - unfold metas in M. repeat (destruct M as [<-|M]; [|]); [..|destruct M]; destruct O as [-> | ->]; try (right; reflexivity).
    + left. exists [], t. split; [constructor|reflexivity].
    + left. exists [], t. split; [constructor|reflexivity].
  - rewrite gp_skip by auto. destruct (IH (S i) k o O) as [(b & r & P & E)|E]; [left|now right].
    exists (c :: b), r. split; [now constructor|]. now rewrite E.
Qed.

Lemma get_pair_pair p u f s : plain p -> bracket u f -> get_pair (p ++ u ++ s) = (Some (length p), Some (length p + length u - 1)).
Proof.
  intros P U. rewrite get_pair_gp, gp_plain by auto. rewrite Nat.add_0_l.
  assert (H : exists body, plain body /\ (u = braced body \/ u = bracketed body)).
  { inversion U; subst; eauto 6. - exists []. split; [constructor|auto]. - exists [c]. split; [now repeat constructor|auto]. }
  destruct H as (body & PB & [-> | ->]); unfold braced, bracketed; cbn [app length]; rewrite <- app_assoc; cbn [app gp]; cbv zeta.
  - change (gp (S (length p)) (body ++ "}"%char :: s) (Some (length p, 123%N)) = (Some (length p), Some (length p + S (length (body ++ ["}"%char])) - 1))).
    rewrite gp_open by auto. rewrite app_length. cbn [length]. do 2 f_equal. lia.
  - change (gp (S (length p)) (body ++ "]"%char :: s) (Some (length p, 91%N)) = (Some (length p), Some (length p + S (length (body ++ ["]"%char])) - 1))).
    rewrite gp_open by auto. rewrite app_length. cbn [length]. do 2 f_equal. lia.
Qed.
Lemma get_pair_rest p w : plain p -> stops w ->
  get_pair (p ++ w) = match w with [] => (None, None) | _ => (Some (length p), None) end.
Proof.
  intros P [H O]. rewrite get_pair_gp, gp_plain by auto. rewrite Nat.add_0_l. destruct w as [|c t]; [reflexivity|].
  pose proof (H c t eq_refl) as M. unfold metas in M.
  repeat (destruct M as [<-|M]; [|]); [..|destruct M]; try reflexivity.
  - change (gp (length p) ("["%char :: t) None) with (gp (S (length p)) t (Some (length p, 91%N))).
    destruct (gp_open_inv t (S (length p)) (length p) 91%N (or_intror eq_refl)) as [(b & r & PB & E)|E]; auto.
    exfalso. apply O. exists b, r. split; [exact PB|]. right. rewrite E. unfold bracketed. cbn [app]. now rewrite <- app_assoc.
  - change (gp (length p) ("{"%char :: t) None) with (gp (S (length p)) t (Some (length p, 123%N))).
    destruct (gp_open_inv t (S (length p)) (length p) 123%N (or_introl eq_refl)) as [(b & r & PB & E)|E]; auto.
    exfalso. apply O. exists b, r. split; [exact PB|]. left. rewrite E. unfold braced. cbn [app]. now rewrite <- app_assoc.
Qed.

(** * Character classes *)
Definition pair_range (p : rune * rune) : rrange := mkRange (fst p) (snd p).
Lemma ex_RE t rs : ex_scan t RuneError true rs = ex_scan t RuneError false rs.
Proof. destruct t as [|c t]; [reflexivity|]. cbn [ex_scan]. now destruct (c =? 45)%N. Qed.
Lemma ex_dashes ds : forall t c b rs, Forall is_dash ds ->
  ex_scan (ds ++ t) c b rs = ex_scan t c (b || negb (null ds)) rs.
Proof.
  induction ds as [|d ds IH]; intros t c b rs F; cbn [app null negb].
  - now rewrite orb_false_r.
  - inversion_clear F as [|? ? D F']. rewrite D. cbn [ex_scan]. change (dash =? 45)%N with true. cbv iota.
    rewrite IH by auto. now rewrite orb_true_r.
Qed.
Lemma ex_first c t rs : c <> dash -> ex_scan (c :: t) RuneError false rs = ex_scan t c false rs.
Proof. intros D. cbn [ex_scan]. now rewrite (neq_eqb c 45) by auto. Qed.
Lemma ex_pending c t rs : c <> dash -> scalar c ->
  (forall d t', t = d :: t' -> d <> dash) ->
  ex_scan t c false rs = ex_scan t RuneError false (rs ++ [mkRange c c]).
Proof.
  intros D [_ S] H. destruct t as [|d t]; cbn [ex_scan].
  - now rewrite (neq_eqb c RuneError) by auto.
  - rewrite (neq_eqb d 45) by (apply (H d t); auto). now rewrite (neq_eqb c RuneError) by auto.
Qed.
Lemma ex_scan_spec l ps : class_pairs l ps -> Forall scalar l -> forallb good_pairb ps = true -> forall rs,
  ex_scan l RuneError false rs = Some (rs ++ map pair_range ps).
Proof.
  induction 1 as [|t ps CP IH|c t ps D H CP IH|c ds D H|c ds d t ps D NE H D' CP IH]; intros F G rs.
  - cbn. now rewrite app_nil_r.
  - inversion_clear F as [|? ? S F']. cbn [ex_scan]. change (dash =? 45)%N with true. cbv iota.
    rewrite ex_RE. auto.
  - inversion_clear F as [|? ? S F']. cbn [forallb] in G. apply andb_prop in G as [_ G].
    rewrite ex_first, ex_pending by auto. rewrite IH by auto. cbn [map]. now rewrite <- app_assoc.
  - inversion_clear F as [|? ? S F']. rewrite ex_first by auto.
    rewrite <- (app_nil_r ds), ex_dashes by auto. cbn [ex_scan]. destruct S as [_ S].
    now rewrite (neq_eqb c RuneError) by auto.
  - inversion_clear F as [|? ? S F']. apply Forall_app in F' as [_ F']. inversion_clear F' as [|? ? S' F''].
    rewrite ex_first by auto. rewrite ex_dashes by auto. cbn [orb].
    replace (negb (null ds)) with true by (destruct ds; auto; congruence).
    cbn [ex_scan]. rewrite (neq_eqb d 45) by auto. destruct S as [Vc Sc].
    rewrite (neq_eqb c RuneError) by auto. cbn [forallb] in G. apply andb_prop in G as [G1 G].
    unfold good_pairb in G1. cbn [fst snd] in G1. apply andb_prop in G1 as [G1 G2]. rewrite G1, G2. cbn [negb].
    rewrite IH by auto. cbn [map]. now rewrite <- app_assoc.
Qed.

Lemma good_class_pairs body : good_class body -> exists rs ps, Forall scalar rs /\ body = encode_all rs /\
  class_pairs rs ps /\ forallb good_pairb ps = true /\ forall r, in_class body r <-> in_pairs r ps.
Proof.
  intros (rs & ps & S & E & C & G). exists rs, ps. split; [exact S|]. split; [exact E|]. split; [exact C|].
  pose proof (pairs_scalar _ _ C S) as PS.
  assert (GB : forallb good_pairb ps = true).
  { apply forallb_forall. intros [a b] I. rewrite Forall_forall in PS, G. specialize (PS _ I). apply good_pairb_iff; try apply PS. now apply G. }
  split; [exact GB|]. pose proof (ranges_expand_pairs rs ps S C) as R. rewrite GB in R.
  destruct (ranges_expand_ok (encode_all rs) (class_of_pairs ps)) as (Fi & _ & _ & M); [now exists rs|exact R|].
  destruct (class_of_pairs_spec ps GB PS) as (_ & _ & M2). intros r. rewrite E, <- M, fin_contains by auto. apply M2.
Qed.

Lemma upto_in n : forall c x, (forall y, c <= y < c + N.of_nat n -> y <> RuneError)%N ->
  In x (upto n c) <-> (c <= x < c + N.of_nat n)%N.
Proof.
  induction n as [|n IH]; intros c x H; cbn [upto]; [cbn; lia|].
  replace (c =? RuneError)%N with false by (specialize (H c); lia). cbn [In].
  rewrite IH by (intros y L; apply H; lia). lia.
Qed.
Lemma upto_len n : forall c, (forall y, c <= y < c + N.of_nat n -> y <> RuneError)%N -> length (upto n c) = n.
Proof.
  induction n as [|n IH]; intros c H; cbn [upto]; [reflexivity|].
  replace (c =? RuneError)%N with false by (specialize (H c); lia). cbn [length].
  rewrite IH; [reflexivity|]. intros y L; apply H; lia.
Qed.
Lemma upto_lower n : forall c x, In x (upto n c) -> (c <= x)%N.
Proof.
  induction n as [|n IH]; intros c x; cbn [upto]; [easy|]. destruct (c =? RuneError)%N; [easy|].
  intros [<-|I]; [lia|]. apply IH in I. lia.
Qed.
Lemma upto_sorted n : forall c, StronglySorted N.lt (upto n c).
Proof.
  induction n as [|n IH]; intros c; cbn [upto]; [constructor|]. destruct (c =? RuneError)%N; constructor; auto.
  apply Forall_forall. intros x I. apply upto_lower in I. lia.
Qed.
Lemma ss_app {A} (R : A -> A -> Prop) a b : StronglySorted R a -> StronglySorted R b ->
  (forall x y, In x a -> In y b -> R x y) -> StronglySorted R (a ++ b).
Proof.
  induction 1 as [|x a S IH F]; intros SB H; cbn [app]; auto. constructor.
  - apply IH; auto. intros; apply H; cbn; auto.
  - apply Forall_app. split; auto. apply Forall_forall. intros y I. apply H; cbn; auto.
Qed.
Lemma ss_unique (a : list N) : forall b, StronglySorted N.lt a -> StronglySorted N.lt b -> (forall x, In x a <-> In x b) -> a = b.
Proof.
  induction a as [|x a IH]; intros b SA SB H.
  - destruct b as [|y b]; auto. destruct (proj2 (H y)); cbn; auto.
  - destruct b as [|y b]; [destruct (proj1 (H x)); cbn; auto|].
    apply StronglySorted_inv in SA as [SA FA]. apply StronglySorted_inv in SB as [SB FB]. rewrite Forall_forall in FA, FB.
    assert (x = y).
    { destruct (proj1 (H x)) as [|I]; [now left|auto|]. destruct (proj2 (H y)) as [|J]; [now left|auto|].
      specialize (FA _ J). specialize (FB _ I). lia. }
    subst y. f_equal. apply IH; auto. intros z. specialize (H z). split; intros I.
    + destruct (proj1 H) as [<-|J]; [now right| |auto]. specialize (FA _ I). lia.
    + destruct (proj2 H) as [<-|J]; [now right| |auto]. specialize (FB _ I). lia.
Qed.

Definition start_runes (r : rrange) : runes := mkRunes (First r) (Last r) (Some (First r)).
Lemma ranges_runes (l : list rrange) : StronglySorted sep l -> Forall (fun q => First q <= Last q)%N l ->
  ~ in_ranges RuneError l ->
  let rs := map start_runes l in
  StronglySorted N.lt (flat_map runes_all rs) /\ (forall x, In x (flat_map runes_all rs) <-> in_ranges x l) /\
  fold_left (fun n r => n + runes_count r)%Z rs 0%Z = Z.of_nat (length (flat_map runes_all rs)).
Proof.
  cbv zeta. induction 1 as [|q l S IH F]; intros LE NR.
  - cbn. split; [constructor|]. split; [|reflexivity]. intros x. split; [easy|]. now intros (? & [] & _).
  - inversion_clear LE as [|? ? L1 L2]. destruct IH as (A & Bi & C); auto.
    { intros (p & I & X). apply NR. exists p. split; [now right|auto]. }
    assert (NQ : (forall y, First q <= y < First q + N.of_nat (N.to_nat (Last q + 1 - First q)) -> y <> RuneError)%N).
    { intros y Hy ->. apply NR. exists q. split; [now left|]. unfold in_range in *. cbn. lia. }
    assert (IQ : forall x, In x (runes_all (start_runes q)) <-> (First q <= x <= Last q)%N).
    { intros x. unfold runes_all, runes_left, start_runes, runes_reset. cbn [r_pos r_stop r_start]. rewrite upto_in by auto. lia. }
    cbn [map flat_map fold_left]. split; [|split].
    + apply ss_app; auto.
      * unfold runes_all, runes_left. apply upto_sorted.
      * intros x y I J. apply IQ in I. apply Bi in J as (p & J & X). rewrite Forall_forall in F. specialize (F _ J).
        unfold sep in F. unfold in_range in X. lia.
    + intros x. rewrite in_app_iff, IQ, Bi. unfold in_ranges. split.
      * intros [I|(p & I & X)]; [exists q|exists p]; (split; [cbn; auto|auto]).
      * intros (p & [<-|I] & X); [now left|right; now exists p].
    + rewrite fold_count, C, app_length, Nat2Z.inj_add. f_equal.
      unfold runes_count, runes_all, runes_left, start_runes, runes_reset. cbn [r_pos r_stop r_start].
      rewrite upto_len by auto. lia.
Qed.

(** * Bracket pairs *)
Definition fac_of (e : expr) : fac :=
  match e_typ e with
  | expString | expWildcard => Text (e_body e)
  | expList | expRunes => Choice (e_body e) (vals e)
  end.
Definition good_expr (e : expr) : Prop :=
  fresh e /\ e_count e = Z.of_nat (length (vals e)) /\ vals e <> [].
Definition verbatim (e : expr) (s : str) : Prop := e = estr s \/ e = ewild s.

Lemma good_estr s : good_expr (estr s).
Proof. repeat split. cbn. discriminate. Qed.
Lemma good_ewild s : good_expr (ewild s).
Proof. repeat split. cbn. discriminate. Qed.

Lemma split_joined vs : vs <> [] -> Forall (fun v => ~ In ","%char v) vs -> split_on "," (joined vs) = vs.
Proof.
  assert (N : forall v, ~ In ","%char v -> split_on "," v = [v]).
  { induction v as [|c v IH]; intros I; [reflexivity|]. cbn [split_on].
    destruct (Ascii.eqb_spec "," c) as [<-|]; [exfalso; apply I; now left|]. rewrite IH; auto. intros J. apply I. now right. }
  assert (NC : forall v r, ~ In ","%char v -> split_on "," (v ++ ","%char :: r) = v :: split_on "," r).
  { induction v as [|c v IH]; intros r I; [reflexivity|]. cbn [app split_on].
    destruct (Ascii.eqb_spec "," c) as [<-|]; [exfalso; apply I; now left|]. rewrite IH; auto. intros J. apply I. now right. }
  induction vs as [|v [|w vs] IH]; intros NE F; [easy| |].
  - inversion_clear F. now apply N.
  - inversion_clear F as [|? ? H F']. change (joined (v :: w :: vs)) with (v ++ ","%char :: joined (w :: vs)).
    rewrite NC by auto. f_equal. apply IH; [discriminate|auto].
Qed.
Lemma contains_in c s : contains_byte c s = true <-> In c s.
Proof.
  unfold contains_byte, index_byte. induction s as [|x s IH]; cbn [find_byte In].
  - split; [discriminate|easy].
  - destruct (Ascii.eqb_spec c x) as [->|N]; [split; auto|].
    destruct (find_byte (Ascii.eqb c) s); cbn; split; intuition congruence.
Qed.
Lemma inner (o c : ascii) (body : str) : firstn (length (o :: body ++ [c]) - 2) (skipn 1 (o :: body ++ [c])) = body.
Proof.
  cbn [skipn length]. rewrite app_length. cbn [length]. replace (S (length body + 1) - 2) with (length body) by lia.
  now rewrite firstn_app, Nat.sub_diag, firstn_all, app_nil_r.
Qed.

Lemma class_expr body : (2 <= length body) -> good_class body -> ~ in_class body 0%N -> ~ in_class body RuneError ->
  forall vs, class_values body vs ->
  exists l, get_expression (bracketed body) =
    (if null l then estr [] else mkExpr expRunes (bracketed body) [] (map start_runes l) (Some 0)) /\
    map encode_rune (flat_map runes_all (map start_runes l)) = vs /\
    fold_left (fun n r => n + runes_count r)%Z (map start_runes l) 0%Z = Z.of_nat (length vs) /\
    (null l = true <-> vs = []).
Proof.
  intros L G N0 NR vs (rs & SS & M & ->). destruct (good_class_pairs body G) as (cs & ps & SC & E & CP & GB & MP).
  pose proof (ranges_merge_spec (map pair_range ps)) as RM.
  assert (F : Forall (fun q => First q <= Last q /\ 0 < Last q)%N (map pair_range ps)).
  { apply Forall_forall. intros q I. apply in_map_iff in I as ([a b] & <- & I). cbn [pair_range First Last fst snd].
    rewrite forallb_forall in GB. specialize (GB _ I). unfold good_pairb in GB. cbn [fst snd] in GB.
    assert (a <= b)%N by lia. split; [auto|]. destruct (N.ltb_spec 0 b); auto. exfalso. apply N0, MP. exists a, b. split; [auto|lia]. }
  destruct (RM F) as (A & S & C).
  assert (IR : forall x, in_ranges x (ranges_merge (map pair_range ps)) <-> in_class body x).
  { intros x. rewrite C, MP. unfold in_ranges, in_range, in_pairs. split.
    - intros (q & I & X). apply in_map_iff in I as ([a b] & <- & I). now exists a, b.
    - intros (a & b & I & X). exists (pair_range (a, b)). split; [now apply in_map|auto]. }
  exists (ranges_merge (map pair_range ps)).
  destruct (ranges_runes (ranges_merge (map pair_range ps))) as (R1 & R2 & R3); auto.
  { now rewrite IR. }
  assert (EQ : flat_map runes_all (map start_runes (ranges_merge (map pair_range ps))) = rs).
  { apply ss_unique; auto. intros x. now rewrite R2, IR, M. }
  split; [|split; [now rewrite EQ|split]].
  - unfold get_expression, bracketed. rewrite inner. cbv zeta. cbn [nth].
    replace (null body) with false by (destruct body; [cbn in L; lia|reflexivity]).
    change (Ascii.eqb "[" "{") with false. change (Ascii.eqb "[" "[") with true. cbv iota.
    replace (Nat.eqb (length body) 1) with false by lia.
    unfold ex_runes_expand. replace (null body) with false by (destruct body; [cbn in L; lia|reflexivity]).
    rewrite E at 1. rewrite range_encode by now apply scalar_valid. rewrite (ex_scan_spec _ _ CP SC GB). cbn [app].
    fold start_runes. change (fun r : rrange => mkRunes (First r) (Last r) (Some (First r))) with start_runes.
    destruct (ranges_merge (map pair_range ps)); reflexivity.
  - rewrite R3, EQ. now rewrite map_length.
  - rewrite <- EQ. destruct (ranges_merge (map pair_range ps)) as [|q l] eqn:EM; cbn [null].
    + split; auto.
    + split; [discriminate|]. intros V. exfalso. apply map_eq_nil in V.
      assert (IQ : In (First q) (flat_map runes_all (map start_runes (q :: l)))).
      { apply R2. exists q. split; [now left|]. inversion_clear A. unfold in_range. lia. }
      rewrite V in IQ. exact IQ.
Qed.

Lemma bracket_expr u f : bracket u f ->
  good_expr (get_expression u) /\ fac_of (get_expression u) = f /\
  (forall t, f = Text t -> get_expression u = estr t) /\ (forall r vs, f = Choice r vs -> r <> [] /\ is_estr (get_expression u) = false /\ is_ewild (get_expression u) = false).
Proof.
  destruct 1 as [body vs P I (NE & J & F)|body P I| |c M|body vs P L G N0 NR V NE|body P L G V].
  - assert (E : get_expression (braced body) = mkExpr expList (braced body) vs [] (Some 0)).
    { unfold get_expression, braced. rewrite inner. cbv zeta. cbn [nth]. change (Ascii.eqb "{" "{") with true. cbv iota.
      replace (null body) with false by (destruct body; [destruct I|reflexivity]).
      replace (contains_byte "," body) with true by (symmetry; now apply contains_in).
      rewrite <- J at 2. now rewrite split_joined. }
    rewrite E. split; [|split; [reflexivity|split; [discriminate|]]].
    + split; [|split; [reflexivity|exact NE]]. split; [reflexivity|]. cbn. destruct vs; [easy|cbn; lia].
    + intros r vs' X. inversion X; subst. split; [discriminate|split; reflexivity].
  - assert (E : get_expression (braced body) = estr body).
    { unfold get_expression, braced. rewrite inner. cbv zeta. cbn [nth]. change (Ascii.eqb "{" "{") with true. cbv iota.
      destruct (null body); [reflexivity|].
      replace (contains_byte "," body) with false; [reflexivity|]. symmetry. apply Bool.not_true_is_false.
      now rewrite contains_in. }
    rewrite E. split; [apply good_estr|]. split; [reflexivity|]. split; [congruence|discriminate].
  - split; [apply good_estr|]. split; [reflexivity|]. split; [|discriminate]. intros t X. inversion X. reflexivity.
  - assert (E : get_expression (bracketed [c]) = estr [c]) by reflexivity.
    rewrite E. split; [apply good_estr|]. split; [reflexivity|]. split; [congruence|discriminate].
  - destruct (class_expr body L G N0 NR vs V) as (l & E & EV & EC & EN). rewrite E.
    destruct (null l) eqn:NL; [destruct NE; now apply EN|].
    split; [|split; [|split; [discriminate|]]].
    + unfold good_expr. unfold vals, e_count. cbn [e_typ e_runes]. rewrite EV. split; [|split; [exact EC|exact NE]].
      split; [|cbn; destruct l; [discriminate|cbn; lia]].
      unfold e_reset. cbn [e_typ e_body e_list e_runes]. rewrite map_map. reflexivity.
    + unfold fac_of, vals. cbn [e_typ e_body e_runes]. now rewrite EV.
    + intros r vs' X. inversion X; subst. split; [discriminate|split; reflexivity].
  - assert (EM : forall r, ~ in_class body r).
    { destruct V as (rs & _ & M & E). symmetry in E. apply map_eq_nil in E. subst rs. intros r H. now apply M in H. }
    destruct (class_expr body L G (EM 0%N) (EM RuneError) [] V) as (l & E & EV & EC & EN). rewrite E.
    replace (null l) with true by (symmetry; now apply EN).
    split; [apply good_estr|]. split; [reflexivity|]. split; [|discriminate]. intros t X. now inversion X.
Qed.
