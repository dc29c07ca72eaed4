(** Parsing always returns a glob or an error, for any bytes. *)
From Verif Require Import Model.Glob Spec.GlobSpec.
From Verif Require Import Proof.LangP Proof.SortP Proof.AsciiSetP Proof.ListP Proof.DenotesP Proof.MatchP Proof.ParseP Proof.NextP.
From Coq Require Import Sorting.Sorted Lia ZifyBool ZifyN ZifyNat.

Definition fine {A} (r : res A) : Prop := match r with Ok _ | Err _ => True | _ => False end.
Lemma fine_bind {A C} (r : res A) (k : A -> res C) : fine r -> (forall a, r = Ok a -> fine (k a)) -> fine (bind r k).
Proof. destruct r; cbn; auto. Qed.

Lemma group_chain_fine f0 : forall fuel v st, (forall t, length t <= length v -> fine (next_item (S f0) t)) -> length v <= fuel -> fine (group_chain fuel (next_item (S f0)) v st).
Proof.
  induction fuel as [|f IH]; intros v st Hn L; destruct v as [|c v]; try exact I; [cbn in L; lia|].
  cbn [group_chain]. specialize (Hn (c :: v) (le_n _)) as H1. destruct (next_item (S f0) (c :: v)) as [[oi rest]|e| |] eqn:E; try easy.
  apply next_token in E as (a & T). apply token_text in T as [Ea Na].
  assert (Lr : length rest < length (c :: v)). { rewrite Ea, app_length. destruct a; [easy|cbn; lia]. }
  destruct oi; apply IH; try lia; intros t Lt; apply Hn; lia.
Qed.
Lemma group_vals_fine f0 vals : (forall v t, In v vals -> length t <= length v -> fine (next_item (S f0) t)) -> fine (group_vals (next_item (S f0)) vals).
Proof.
  induction vals as [|v vals IH]; intro H; [exact I|]. cbn [group_vals].
  assert (IH' : fine (group_vals (next_item (S f0)) vals)) by (apply IH; intros v0 t I; apply H; now right).
  destruct (has_wildcard v).
  - destruct (str_eqb v (B "*")); [exact I|]. apply fine_bind.
    + destruct (str_eqb v (B "?")); [exact I|]. unfold group_val. apply fine_bind; [apply group_chain_fine; auto; intros t; apply H; now left|].
      intros [[rl mn] mx] _. destruct rl as [|? [|? ?]]; exact I.
    + intros it _. apply fine_bind; auto. intros [x|l] _; exact I.
  - apply fine_bind; auto. intros [x|l] _; exact I.
Qed.
Lemma empty_first (vs : list str) : StronglySorted str_lt vs -> In [] vs -> exists t, vs = [] :: t.
Proof.
  intros S I. destruct vs as [|v vs]; [easy|]. destruct v as [|c v]; [eauto|]. exfalso. destruct I as [I|I]; [discriminate|].
  inversion S as [|? ? S1 F]; subst. rewrite Forall_forall in F. apply F in I. now apply str_lt_nil in I.
Qed.
Lemma item_list_fine f0 vals : StronglySorted str_lt vals -> (forall v t, In v vals -> length t <= length v -> fine (next_item (S f0) t)) -> fine (new_item_list (next_item (S f0)) vals).
Proof.
  intros S H. unfold new_item_list. destruct vals as [|v [|v2 vals]]; [exact I|destruct (null v); exact I|].
  remember (v :: v2 :: vals) as vs eqn:Evs. destruct (list_scan vs max_int 0 true as_empty) as [[[[mn mx] st] fi] hs] eqn:E. destruct hs.
  - unfold new_group. apply fine_bind; [now apply group_vals_fine|]. intros [it|[|x l]] _; try exact I. destruct (group_bounds l (item_min x) (item_max x)); exact I.
  - apply list_scan_spec in E; [|apply as_ok_empty]. destruct E as (_ & _ & B1 & B2 & _).
    destruct (Z.eqb_spec mn 0) as [->|N]; [|exact I]. destruct B2 as [B2|B2]; [discriminate|].
    apply Exists_exists in B2 as (w & Iw & Ew). apply zlen_0 in Ew. subst w. destruct (empty_first vs S Iw) as (t & Et). rewrite Evs in Et. injection Et as -> _. exact I.
Qed.
Lemma next_item_fine : forall f s, length s < f -> fine (next_item f s).
Proof.
  induction f as [|f IH]; intros s L; [lia|]. cbn [next_item]. destruct s as [|c0 s]; [exact I|].
  destruct (Ascii.eqb_spec c0 "[") as [->|N1].
  { destruct (index_byte ("["%char :: s) "]"); destruct (ranges_expand _) as [rs|]; try exact I; destruct (as_count (rr_ascii rs)) as [n0 c];
      destruct (Nat.eqb n0 0 && null (rr_unicode rs)); try exact I; destruct (null (rr_unicode rs) && Nat.eqb n0 1); try exact I;
      destruct (rr_unicode rs) as [|q [|q2 l]]; try exact I; destruct (Nat.eqb n0 0 && (First q =? Last q)%N); exact I. }
  destruct (Ascii.eqb_spec c0 "{") as [->|N2].
  { match goal with |- fine (let '(_, _) := ?x in _) => assert (Lp : length (fst x) <= length ("{"%char :: s));
      [destruct (index_byte _ _); cbn [fst]; [rewrite firstn_length; lia|lia]|destruct x as [seg next]; cbn [fst] in Lp] end.
    destruct (list_expand seg) as [vals|] eqn:El; [|exact I]. apply fine_bind; [|intros; exact I].
    assert (X : exists body, seg = braced body /\ (vals = [] \/ vals = norm (split_on "," body))).
    { unfold list_expand in El. destruct ((1 <? length seg)%nat && Ascii.eqb (nth 0 seg zero) "{" && Ascii.eqb (nth (length seg - 1) seg zero) "}") eqn:Eb; [|discriminate].
      destruct (Bool.bool_dec (match list_expand seg with None => true | Some _ => false end) true) as [B1|B1].
      - unfold list_expand in B1. rewrite Eb in B1. destruct (null (firstn (length seg - 2) (skipn 1 seg))); discriminate.
      - clear B1. exists (firstn (length seg - 2) (skipn 1 seg)). split.
        + apply andb_prop in Eb as [Eb E3]. apply andb_prop in Eb as [E1 E2]. destruct seg as [|x seg]; [discriminate|]. cbn [nth] in E2. destruct (Ascii.eqb_spec x "{") as [->|]; [|discriminate].
          cbn [skipn length] in *. unfold braced. f_equal. destruct (exists_last (l := seg)) as (b & y & ->); [intros ->; cbn in E1; lia|].
          rewrite app_length in *. cbn [length] in *. replace (S (length b + 1) - 2) with (length b) by lia. rewrite firstn_app, Nat.sub_diag, firstn_all, app_nil_r. f_equal. f_equal.
          replace (S (length b + 1) - 1) with (S (length b)) in E3 by lia. cbn [nth] in E3. rewrite app_nth2, Nat.sub_diag in E3 by lia. cbn in E3.
          destruct (Ascii.eqb_spec y "}"); auto. discriminate.
        + destruct (null (firstn (length seg - 2) (skipn 1 seg))); injection El as <-; auto. }
    destruct X as (body & -> & Ev). unfold braced in Lp. cbn [length] in Lp, L. rewrite app_length in Lp. cbn [length] in Lp.
    destruct f as [|f]; [lia|]. apply item_list_fine.
    - destruct Ev as [->| ->]; [constructor|apply norm_sorted].
    - intros v t Iv Lt. apply IH. destruct Ev as [->| ->]; [easy|]. apply (proj1 (norm_in _ _)) in Iv. destruct (split_part "," body v Iv) as (p & q & -> & _).
      rewrite !app_length in Lp. lia. }
  destruct (Ascii.eqb c0 "*"); [exact I|]. destruct (Ascii.eqb c0 "?"); [exact I|]. destruct (Ascii.eqb c0 "]" || Ascii.eqb c0 "}"); [exact I|].
  destruct (index_wildcard (c0 :: s)) as [e|]; [|exact I]. destruct (split_string (c0 :: s) e); exact I.
Qed.
Lemma parse_loop_fine : forall f t st, length t <= f -> fine (parse_loop f t st).
Proof.
  induction f as [|f IH]; intros t st L; destruct t as [|c t]; try exact I; [cbn in L; lia|].
  cbn [parse_loop]. pose proof (next_item_fine (S (length (c :: t))) (c :: t) (le_n _)) as H. unfold next_wildcard_item.
  destruct (next_item (S (length (c :: t))) (c :: t)) as [[oi rest]|e| |] eqn:E; try easy.
  apply next_token in E as (a & T). apply token_text in T as [Ea Na].
  assert (Lr : length rest < length (c :: t)). { rewrite Ea, app_length. destruct a; [easy|cbn; lia]. }
  destruct oi; apply IH; lia.
Qed.
Lemma glob_parse_fine g : fine (glob_parse g).
Proof.
  unfold glob_parse. destruct (index_wildcard g) as [pos|] eqn:E; [|exact I].
  destruct (index_last_wildcard (skipn pos g)) as [e|] eqn:El.
  - destruct (_ && _ && _); [exact I|]. destruct (if (e <? length (skipn pos g) - 1)%nat then _ else _) as [suffix body].
    destruct (str_eqb body (B "*")); [exact I|]. destruct (str_eqb body (B "?")); [exact I|].
    apply fine_bind; [now apply parse_loop_fine|]. intros [[[p n] x] r] _. destruct (take_suffix suffix r); exact I.
  - exfalso. apply find_cut in E as (a & c & b & -> & <- & P & _). rewrite skipn_app, skipn_all, Nat.sub_diag in El. cbn [app skipn] in El.
    unfold index_last_wildcard in El. cbn [find_last_byte] in El. rewrite P in El. destruct (find_last_byte is_wild b); discriminate.
Qed.
