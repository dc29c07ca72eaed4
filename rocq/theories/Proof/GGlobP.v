(** Lemmas about dotted globs (package gglob). *)
From Verif Require Import Model.GGlob Spec.PathSpec Spec.Symbols Spec.Lang Spec.Safe Spec.GlobSpec Spec.GGlobSpec.
From Verif Require Import Proof.Utf8P Proof.SortP Proof.ItemP Proof.ListP Proof.ParseP Proof.NextP Proof.GlobP Proof.SafeP Proof.TotalP Proof.PanicP Proof.NodeP Proof.PathP.
From Coq Require Import Lia ZifyBool ZifyN ZifyNat.

(** ** MinLen is never more than the length of a matched string *)
Lemma rune_len_le c : (rune_len c <= zlen (encode_rune c))%Z.
Proof.
  unfold zlen. rewrite encode_len. destruct (valid_rune c || (c <? 2048)%N) eqn:E; [lia|]. unfold rune_len.
  apply orb_false_iff in E as [V E]. rewrite V. replace (c <? 128)%N with false by lia. rewrite E. cbn. lia.
Qed.
Lemma zlen_app a b : zlen (a ++ b) = (zlen a + zlen b)%Z.
Proof. unfold zlen. rewrite app_length. lia. Qed.
Lemma lit_min it t : lit_text it = Some t -> (item_min it <= zlen t)%Z.
Proof.
  destruct it; cbn; try discriminate; intro H; injection H as <-; try lia; [|apply rune_len_le].
  unfold string_of_byte, zlen. pose proof (encode_len_pos (code b)). lia.
Qed.
Lemma merge_min last it m : merge_last last it = Some m -> (item_min last + item_min it <= item_min m)%Z.
Proof.
  rewrite merge_last_lit. destruct (lit_text last) as [a|] eqn:Ea; [destruct (lit_text it) as [b|] eqn:Eb|].
  - intro H. injection H as <-. cbn. rewrite zlen_app. apply lit_min in Ea, Eb. lia.
  - destruct it, last; try discriminate.
  - destruct it, last; try discriminate; intro H; injection H as <-; cbn; lia.
Qed.
Lemma append_min rl it : (zsum item_min rl + item_min it <= zsum item_min (append_item_rev rl it))%Z.
Proof.
  unfold append_item_rev. destruct rl as [|last rl]; [cbn; lia|].
  destruct (merge_last last it) as [m|] eqn:E; cbn [zsum fold_right]; [apply merge_min in E|]; fold (zsum item_min rl); lia.
Qed.
Lemma loop_min suffix : forall f t prefix mn mx rl prefix' mn' mx' rl',
  (mn <= zlen prefix + zsum item_min rl + zlen suffix)%Z -> parse_loop f t (prefix, mn, mx, rl) = Ok (prefix', mn', mx', rl') ->
  (mn' <= zlen prefix' + zsum item_min rl' + zlen suffix)%Z.
Proof.
  induction f as [|f IH]; intros t prefix mn mx rl prefix' mn' mx' rl' I H.
  { destruct t; [|discriminate]. now injection H as <- <- <- <-. }
  destruct t as [|c t]; [now injection H as <- <- <- <-|].
  cbn [parse_loop] in H. destruct (next_wildcard_item (c :: t)) as [[[it|] rest]|e| |] eqn:E; try discriminate; [|eauto].
  destruct (parse_step (prefix, mn, mx, rl) it) as [[[p1 n1] x1] r1] eqn:S1. refine (IH _ _ _ _ _ _ _ _ _ _ H).
  assert (A := append_min rl it). unfold parse_step in S1.
  assert (X : (n1 = mn + item_min it /\ (p1 = prefix /\ r1 = append_item_rev rl it \/ exists t, lit_text it = Some t /\ p1 = prefix ++ t /\ r1 = [] /\ rl = []))%Z).
  { destruct rl; [destruct it|]; injection S1 as <- <- <- <-; split; auto; right; eexists; split; cbn [lit_text]; eauto. }
  destruct X as [-> [[-> ->]|(tt & L & -> & -> & ->)]]; [lia|]. rewrite zlen_app. apply lit_min in L. cbn [zsum fold_right] in *. lia.
Qed.
Lemma parse_min g gl : glob_parse g = Ok gl -> exists p s, g_node gl = p ++ concat (map item_write (g_items gl)) ++ s /\
  (g_min gl <= zlen p + zsum item_min (g_items gl) + zlen s)%Z.
Proof.
  intro H. unfold glob_parse in H. destruct (index_wildcard g) as [pos|]; [|injection H as <-; exists g, []; cbn; rewrite app_nil_r; split; auto; lia].
  destruct (index_last_wildcard (skipn pos g)) as [e|]; [|discriminate].
  destruct (Nat.eqb e 0 && negb (Ascii.eqb (nth 0 (skipn pos g) zero) "?") && negb (Ascii.eqb (nth 0 (skipn pos g) zero) "*")); [discriminate|].
  destruct (if (e <? length (skipn pos g) - 1)%nat then (skipn (S e) (skipn pos g), firstn (S e) (skipn pos g)) else ([], skipn pos g)) as [suffix body] eqn:F.
  assert (FM : forall t p s mn mx its, g_min (finish_glob t p s mn mx its) = mn) by (intros; destruct its; reflexivity).
  assert (K : forall p s mn mx its, Ok (finish_glob g p s mn mx its) = Ok gl -> (mn <= zlen p + zsum item_min its + zlen s)%Z ->
    exists p s, g_node gl = p ++ concat (map item_write (g_items gl)) ++ s /\ (g_min gl <= zlen p + zsum item_min (g_items gl) + zlen s)%Z).
  { intros p s mn mx its E L. apply ok_inj in E. rewrite <- E. exists p, s. rewrite finish_node, finish_items, FM. auto. }
  destruct (str_eqb body (B "*")); [apply K in H; auto; cbn; lia|].
  destruct (str_eqb body (B "?")); [apply K in H; auto; cbn; lia|].
  destruct (parse_loop (length body) body (firstn pos g, (zlen (firstn pos g) + zlen suffix)%Z, (zlen (firstn pos g) + zlen suffix)%Z, [])) as [[[[p1 n1] x1] r1]|e1| |] eqn:El; try discriminate.
  cbn [bind] in H. destruct (take_suffix suffix r1) as [s2 r2] eqn:Et. apply K in H; auto. rewrite zsum_rev.
  apply (loop_min suffix) in El; [|cbn; lia].
  assert (X : s2 = suffix /\ r2 = r1 \/ exists it t, r1 = it :: r2 /\ lit_text it = Some t /\ s2 = t ++ suffix).
  { unfold take_suffix in Et. destruct r1 as [|x [|y r]]; [left; now injection Et as <- <-|left; destruct x; now injection Et as <- <-|].
    destruct x; injection Et as <- <-; auto; right; do 2 eexists; split; eauto; cbn [lit_text]; eauto. }
  destruct X as [[-> ->]|(it & t & -> & L & ->)]; [lia|]. rewrite zlen_app. apply lit_min in L.
  change (zsum item_min (it :: r2)) with (item_min it + zsum item_min r2)%Z in El. lia.
Qed.
Lemma wok_parse g gl : glob_parse g = Ok gl -> Forall wok (g_items gl).
Proof.
  apply parse_forall.
  - exact wok_merge.
  - intros _. split; [discriminate|reflexivity].
  - intros _. split; [discriminate|]. intros _ E. discriminate.
  - intros f s it a rest done suffix T _. exact (wok_token _ _ _ _ _ T).
Qed.
Lemma glob_match_min g gl s : glob_parse g = Ok gl -> glob_match gl s = Ok true -> s <> [] -> (g_min gl <= zlen s)%Z.
Proof.
  intros P M N. unfold glob_match in M. destruct (str_eqb_spec (g_node gl) (B "*")) as [E|_].
  - destruct (parse_min _ _ P) as (p & q & En & L). assert (W := wok_parse _ _ P).
    assert (1 <= zlen s)%Z by (destruct s; [easy|]; unfold zlen; cbn [length]; lia).
    cut (g_min gl <= 1)%Z; [lia|]. rewrite E in En.
    assert (Ln : (1 = zlen p + zlen (concat (map item_write (g_items gl))) + zlen q)%Z).
    { apply (f_equal zlen) in En. rewrite !zlen_app in En. change (zlen (B "*")) with 1%Z in En. lia. }
    destruct (g_items gl) as [|it its]; [cbn in *; lia|].
    inversion W as [|? ? [W1 W2] W3]; subst. assert (Lw : (1 <= zlen (item_write it))%Z) by (destruct (item_write it); [easy|]; unfold zlen; cbn [length]; lia).
    cbn [map concat] in Ln. rewrite zlen_app in Ln.
    destruct its as [|it2 its].
    2:{ inversion W3 as [|? ? [W4 _] _]; subst. cbn [map concat] in Ln. rewrite zlen_app in Ln.
        assert (1 <= zlen (item_write it2))%Z by (destruct (item_write it2); [easy|]; unfold zlen; cbn [length]; lia). unfold zlen in *. lia. }
    cbn [map concat] in *. rewrite app_nil_r in En. assert (zlen p = 0 /\ zlen q = 0)%Z as [Zp Zq] by (unfold zlen in *; lia).
    destruct p; [|unfold zlen in Zp; cbn in Zp; lia]. destruct q; [|unfold zlen in Zq; cbn in Zq; lia].
    rewrite app_nil_r in En. cbn [app] in En. cbn [zsum fold_right] in L. change (zlen []) with 0%Z in L.
    destruct (lit_text it) as [t|] eqn:T; [|rewrite (W2 eq_refl (eq_sym En)) in L; cbn in L; lia].
    enough (item_min it <= zlen (item_write it))%Z by lia.
    destruct it; try discriminate; first [exact Lw|apply rune_len_le|cbn; lia].
  - destruct (zlen s <? g_min gl)%Z eqn:L; [discriminate|]. lia.
Qed.

(** ** Parsing *)
Definition parses (p : str) (g : glob) : Prop := glob_parse p = Ok g.
Definition sum_min (gs : list glob) : Z := fold_right (fun g a => (g_min g + a)%Z) 0%Z gs.
Definition sum_max (gs : list glob) (mx : Z) : Z := fold_left (fun a g => add_max_len a (g_max g)) gs mx.
Lemma gg_loop_ok path ps : forall gs fuel next acc mn mx, dotless ps -> full ps -> Forall2 parses ps gs ->
  (next = dotted ps \/ (ps <> [] /\ next = dotted ps ++ ["."%char])) -> length next <= fuel ->
  gg_parse_loop path fuel next acc mn mx = Ok (acc ++ gs, (mn + sum_min gs)%Z, sum_max gs mx).
Proof.
  induction ps as [|p ps IH]; intros gs fuel next acc mn mx D F P E L.
  - inversion P; subst. destruct E as [->|[E _]]; [|easy]. destruct fuel; cbn; rewrite app_nil_r, Z.add_0_r; reflexivity.
  - inversion P as [|? g ? gs' Pp P2]; subst.
    assert (Dp : ~ In dot p) by (apply D; now left). assert (Dr : dotless ps) by (intros x J; apply D; now right). assert (Fr : full ps) by (intros x J; apply F; now right).
    assert (Np : p <> []) by (apply F; now left).
    assert (C : exists fd rest, cut dot next = (p, rest, fd) /\ (rest = dotted ps \/ (ps <> [] /\ rest = dotted ps ++ ["."%char])) /\ length rest < length next).
    { destruct E as [->|[_ ->]].
      - rewrite cut_dotted by auto. do 2 eexists. split; [reflexivity|]. split; [now left|].
        destruct ps as [|q ps]; [destruct p; [easy|]; cbn; lia|]. rewrite (dotted_cons p), app_length by discriminate. cbn [length]. unfold str in *. lia.
      - destruct ps as [|q ps]; [cbn [dotted]; change "."%char with dot; rewrite cut_some by auto; do 2 eexists; split; [reflexivity|]; split; [now left|]; rewrite app_length; cbn; unfold str in *; lia|].
        rewrite dotted_cons, <- app_assoc by discriminate. change "."%char with dot at 1. cbn [app]. rewrite cut_some by auto. do 2 eexists. split; [reflexivity|].
        split; [right; split; [discriminate|reflexivity]|]. rewrite (app_length p). cbn [length]. unfold str in *. lia. }
    destruct C as (fd & rest & C & Er & Lr). destruct fuel as [|fuel]; [lia|].
    destruct next as [|c0 next]; [cbn in Lr; lia|]. cbn [gg_parse_loop]. rewrite C. destruct p as [|c p]; [easy|]. cbn [null].
    red in Pp. rewrite Pp. cbn [bind]. rewrite (IH gs') by (auto; lia). cbn [sum_min fold_right sum_max fold_left]. rewrite <- app_assoc. cbn [app]. do 3 f_equal. fold (sum_min gs'). lia.
Qed.
Lemma gg_loop_inv path : forall fuel next acc mn mx gs mn' mx', gg_parse_loop path fuel next acc mn mx = Ok (gs, mn', mx') ->
  exists ps gs', dotless ps /\ full ps /\ Forall2 parses ps gs' /\ gs = acc ++ gs' /\ (next = dotted ps \/ (ps <> [] /\ next = dotted ps ++ ["."%char])).
Proof.
  induction fuel as [|fuel IH]; intros next acc mn mx gs mn' mx' H.
  - destruct next; [|discriminate]. injection H as <- <- <-. exists [], []. rewrite app_nil_r. repeat split; auto; easy.
  - destruct next as [|c0 next]; [injection H as <- <- <-; exists [], []; rewrite app_nil_r; repeat split; auto; easy|].
    cbn [gg_parse_loop] in H. remember (c0 :: next) as p. clear Heqp c0 next.
    destruct (cut dot p) as [[part rest] fd] eqn:C.
    assert (X : ~ In dot part /\ (p = part ++ dot :: rest \/ (p = part /\ rest = []))).
    { destruct (index_byte p dot) as [i|] eqn:E.
      - apply index_byte_cut in E as (a & b & -> & <- & N). rewrite cut_some in C by auto. injection C as <- <- _. auto.
      - apply index_byte_no in E. rewrite cut_none in C by auto. injection C as <- <- _. auto. }
    destruct X as [N X]. destruct part as [|c part]; [discriminate|]. cbn [null] in H.
    destruct (glob_parse (c :: part)) as [g|e| |] eqn:G; try discriminate. cbn [bind] in H.
    apply IH in H as (ps & gs' & D & F & P & -> & E). exists ((c :: part) :: ps), (g :: gs'). rewrite <- app_assoc.
    split; [intros x [<-|I]; auto|]. split; [intros x [<-|I]; auto; discriminate|]. split; [now constructor|]. split; [reflexivity|].
    destruct ps as [|q ps].
    + destruct E as [->|[E _]]; [|easy]. cbn in X |- *. destruct X as [-> |[-> _]]; [right; split; [discriminate|reflexivity]|now left].
    + rewrite dotted_cons by discriminate. destruct X as [X|[-> ->]].
      * rewrite X. destruct E as [-> |[_ ->]]; [now left|right; split; [discriminate|]]. now rewrite <- app_assoc.
      * exfalso. assert (dotted (q :: ps) <> []). { intro Z. apply dotted_nil in Z; [discriminate|exact F]. }
        destruct E as [E|[_ E]]; [congruence|]. now destruct (dotted (q :: ps)).
Qed.
Lemma gg_loop_fine path : forall fuel next acc mn mx, length next <= fuel -> fine (gg_parse_loop path fuel next acc mn mx).
Proof.
  induction fuel as [|fuel IH]; intros next acc mn mx L; [destruct next; [exact I|cbn in L; lia]|].
  destruct next as [|c0 next]; [exact I|]. cbn [gg_parse_loop]. remember (c0 :: next) as p.
  destruct (cut dot p) as [[part rest] fd] eqn:C. destruct part as [|c part]; [exact I|]. cbn [null].
  apply fine_bind; [apply glob_parse_fine|]. intros g _. apply IH.
  destruct (index_byte p dot) as [i|] eqn:E.
  - apply index_byte_cut in E as (a & b & Ep & <- & N). rewrite Ep, cut_some in C by auto. injection C as _ E2 _. subst rest. rewrite Ep, app_length in L. cbn [length] in L. lia.
  - apply index_byte_no in E. rewrite cut_none in C by auto. injection C as _ E2 _. subst rest. cbn. lia.
Qed.
Lemma gg_parse_fine s : fine (gg_parse s).
Proof.
  unfold gg_parse. destruct (path_level s) as [q n]. apply fine_bind; [now apply gg_loop_fine|]. intros [[a b] c] _. exact I.
Qed.
Lemma full_iff ps : full ps <-> ~ In [] ps.
Proof. split; [intros F I; now apply (F [])|intros N p I ->; auto]. Qed.
Lemma dotted_snoc qs : qs <> [] -> dotted (qs ++ [[]]) = dotted qs ++ ["."%char].
Proof.
  induction qs as [|q [|q2 qs] IH]; intro N; [easy|reflexivity|].
  change ((q :: q2 :: qs) ++ [[]]) with (q :: ((q2 :: qs) ++ [[]])). rewrite (dotted_cons q) by (destruct qs; discriminate). rewrite IH by discriminate. rewrite (dotted_cons q) by discriminate. now rewrite <- app_assoc.
Qed.
Lemma dotless_snoc qs : dotless (qs ++ [[]]) <-> dotless qs.
Proof. split; intros D x I; [apply D; apply in_or_app; now left|]. apply in_app_or in I as [I|[<-|[]]]; [now apply D|easy]. Qed.
Lemma path_level_fst p : fst (path_level p) = match p with [] => [] | _ => trim p end.
Proof. destruct p; [reflexivity|]. now rewrite path_level_trim. Qed.
Lemma accepted_iff text qs : text <> [] -> (accepted_parts text qs <-> dotless qs /\ full qs /\ (trim text = dotted qs \/ (qs <> [] /\ trim text = dotted qs ++ ["."%char]))).
Proof.
  intro N. unfold accepted_parts. rewrite <- full_iff. split.
  - intros [[E _]|[F [P|P]]]; [easy| |]; destruct P as (_ & Nq & D & T); apply trim_iff in T.
    + split; [auto|]. split; [auto|]. left. now symmetry.
    + apply (proj1 (dotless_snoc _)) in D. split; [auto|]. split; [auto|]. destruct qs as [|q qs]; [now left|]. right. split; [discriminate|]. rewrite <- T. now apply dotted_snoc.
  - intros (D & F & T). right. split; [auto|]. destruct qs as [|q qs].
    + destruct T as [T|[T _]]; [|easy]. right. split; [auto|]. split; [discriminate|]. split; [intros x [<-|[]]; easy|]. apply trim_iff. now rewrite T.
    + destruct T as [T|[_ T]]; [left|right]; (split; [auto|]); (split; [discriminate|]).
      * split; [auto|]. apply trim_iff. now rewrite T.
      * split; [now apply dotless_snoc|]. apply trim_iff. rewrite T. apply dotted_snoc. discriminate.
Qed.
Lemma gg_parse_iff text g : gg_parse text = Ok g <-> exists qs gs, accepted_parts text qs /\ Forall2 parses qs gs /\
  g = mkGG (match text with [] => [] | _ => trim text end) (dotted (map g_node gs)) (sum_min gs) (sum_max gs 0%Z) gs.
Proof.
  unfold gg_parse. destruct (path_level text) as [q n] eqn:E. apply (f_equal fst) in E. rewrite path_level_fst in E. cbn [fst] in E.
  destruct text as [|c text]; [subst q; cbn|].
  - split.
    + intro H. injection H as <-. exists [], []. split; [now left|]. split; [constructor|reflexivity].
    + intros (qs & gs & [[_ ->]|[F [P|P]]] & P2 & ->); [inversion P2; reflexivity| |]; destruct P as [P _]; easy.
  - rewrite <- E. remember (c :: text) as p. assert (Np : p <> []) by (subst; discriminate). clear Heqp c text. split.
    + intro H. destruct (gg_parse_loop (trim p) (length (trim p)) (trim p) [] 0 0) as [[[gs mn] mx]|e| |] eqn:L; try discriminate.
      cbn [bind] in H. injection H as <-. destruct (gg_loop_inv _ _ _ _ _ _ _ _ _ L) as (ps & gs' & D & F & P & Eg & T). cbn [app] in Eg. subst gs'.
      rewrite (gg_loop_ok _ ps gs) in L by auto. injection L as <- <-. exists ps, gs. split; [apply accepted_iff; auto|]. split; [auto|]. now rewrite dotted_join.
    + intros (qs & gs & A & P & ->). apply accepted_iff in A as (D & F & T); auto. rewrite (gg_loop_ok _ qs gs) by auto. cbn [bind app]. now rewrite dotted_join.
Qed.
