(** The order and repetition of list values do not matter to Parse. *)
From Verif Require Import Model.Glob Spec.Class Spec.GlobSpec Spec.Same.
From Verif Require Import Proof.LangP Proof.SortP Proof.AsciiSetP Proof.RangesP Proof.ListP Proof.DenotesP Proof.MatchP Proof.ParseP Proof.NextP Proof.GlobP Proof.SafeP Proof.TotalP Proof.WellP.
From Coq Require Import Sorting.Sorted Lia ZifyBool ZifyN ZifyNat.

Definition sub {A} (r r' : res A) : Prop := r = Fuel \/ r = r'.
Lemma sub_refl {A} (r : res A) : sub r r. Proof. now right. Qed.
Lemma sub_bind {A C} (r r' : res A) (k k' : A -> res C) : sub r r' -> (forall a, sub (k a) (k' a)) -> sub (bind r k) (bind r' k').
Proof. intros [->| ->] H; [now left|]. destruct r'; cbn; auto using sub_refl. Qed.
Lemma sub_trans {A} (a b c : res A) : sub a b -> sub b c -> sub a c.
Proof. intros [->| ->]; [now left|auto]. Qed.
Lemma sub_fine {A} (r r' : res A) : sub r r' -> fine r -> r' = r.
Proof. intros [->| ->]; easy. Qed.

Section Sub.
Variables n n' : str -> res (option item * str).
Hypothesis H : forall t, sub (n t) (n' t).
Lemma group_chain_sub : forall fuel v st, sub (group_chain fuel n v st) (group_chain fuel n' v st).
Proof.
  induction fuel as [|f IH]; intros v st; destruct v as [|c v]; try apply sub_refl. cbn [group_chain].
  destruct (H (c :: v)) as [->| ->]; [now left|]. destruct (n' (c :: v)) as [[[it|] rest]| | |]; try apply sub_refl; apply IH.
Qed.
Lemma group_vals_sub vals : sub (group_vals n vals) (group_vals n' vals).
Proof.
  induction vals as [|v vals IH]; [apply sub_refl|]. cbn [group_vals]. destruct (has_wildcard v).
  - destruct (str_eqb v (B "*")); [apply sub_refl|]. apply sub_bind.
    + destruct (str_eqb v (B "?")); [apply sub_refl|]. unfold group_val. apply sub_bind; [apply group_chain_sub|]. intros a. apply sub_refl.
    + intro it. apply sub_bind; auto. intros a. apply sub_refl.
  - apply sub_bind; auto. intros a. apply sub_refl.
Qed.
Lemma item_list_sub vals : sub (new_item_list n vals) (new_item_list n' vals).
Proof.
  unfold new_item_list. destruct vals as [|v [|v2 vals]]; try apply sub_refl.
  destruct (list_scan _ _ _ _ _) as [[[[mn mx] st] fi] [|]]; [|apply sub_refl].
  unfold new_group. apply sub_bind; [apply group_vals_sub|]. intros a. apply sub_refl.
Qed.
End Sub.
Lemma next_item_sub : forall f s, sub (next_item f s) (next_item (S f) s).
Proof.
  induction f as [|f IH]; intro s; [now left|]. set (f' := S f) in *. unfold f' at 1. cbn [next_item].
  destruct s as [|c0 s]; [apply sub_refl|]. destruct (Ascii.eqb c0 "["); [apply sub_refl|]. destruct (Ascii.eqb c0 "{"); [|apply sub_refl].
  match goal with |- sub (let '(_, _) := ?x in _) _ => destruct x as [seg next] end.
  destruct (list_expand seg) as [vals|]; [|apply sub_refl]. apply sub_bind; [|intro; apply sub_refl].
  apply item_list_sub. exact IH.
Qed.
Lemma next_item_sub_le s f f' : f <= f' -> sub (next_item f s) (next_item f' s).
Proof. induction 1; [apply sub_refl|]. eapply sub_trans; [eassumption|apply next_item_sub]. Qed.

(** the item of a list, independent of the text that follows *)
Definition list_item (body : str) : res (option item) := new_item_list (next_item (S (length body))) (norm (split_on "," body)).
Lemma alt_len body v : In v (norm (split_on "," body)) -> length v <= length body.
Proof. intro I. apply (proj1 (norm_in _ _)) in I. destruct (split_part "," body v I) as (p & q & -> & _). rewrite !app_length. lia. Qed.
Lemma list_item_fine body : fine (list_item body).
Proof. apply item_list_fine; [apply norm_sorted|]. intros v t I L. apply next_item_fine. apply alt_len in I. lia. Qed.
Lemma list_item_eq body n : length body < n -> new_item_list (next_item n) (norm (split_on "," body)) = list_item body.
Proof.
  intro L. apply sub_fine; [|apply list_item_fine]. apply item_list_sub. intro t. apply next_item_sub_le. lia.
Qed.
Lemma list_item_ext body body' : (forall v, alternative body v <-> alternative body' v) -> list_item body = list_item body'.
Proof.
  intro H. set (n := S (length body + length body')). rewrite <- (list_item_eq body n), <- (list_item_eq body' n) by (unfold n; lia).
  f_equal. apply norm_ext. intro x. rewrite <- !alternative_split. apply H.
Qed.
Lemma split_nil : norm (split_on "," []) = [[]]. Proof. reflexivity. Qed.
Lemma next_list body p : ~ In "}"%char body -> next_wildcard_item (braced body ++ p) = bind (list_item body) (fun it => Ok (it, p)).
Proof.
  intro N. unfold next_wildcard_item. rewrite braced_app. cbn [next_item]. change (Ascii.eqb "{" "[") with false. change (Ascii.eqb "{" "{") with true. cbn iota.
  rewrite (index_byte_some ("{"%char :: body ++ "}"%char :: p) "}" ("{"%char :: body) p); [|intros [?|?]; [discriminate|auto]|reflexivity].
  destruct (cut_firstn ("{"%char :: body) "}" p) as [E1 E2]. change ("{"%char :: body ++ "}"%char :: p) with (("{"%char :: body) ++ "}"%char :: p). rewrite E1, E2.
  change (("{"%char :: body) ++ ["}"%char]) with (braced body). rewrite list_expand_braced. destruct (null body) eqn:Nb.
  - destruct body; [|discriminate]. reflexivity.
  - rewrite list_item_eq; [reflexivity|]. cbn [length app]. rewrite app_length. cbn [length]. lia.
Qed.
Lemma class_item_fine body : fine (class_item body).
Proof.
  unfold class_item. destruct (ranges_expand _) as [rs|]; [|exact I]. destruct (as_count _) as [n c]. destruct (_ && _); [exact I|]. destruct (_ && _); [exact I|].
  destruct (rr_unicode rs) as [|q [|q2 l]]; try exact I. destruct (_ && _)%bool; exact I.
Qed.
Lemma next_class body p : ~ In "]"%char body -> next_wildcard_item (bracketed body ++ p) = bind (class_item body) (fun it => Ok (it, p)).
Proof.
  intro N. unfold next_wildcard_item. rewrite bracketed_app. cbn [next_item]. change (Ascii.eqb "[" "[") with true. cbn iota.
  rewrite (index_byte_some ("["%char :: body ++ "]"%char :: p) "]" ("["%char :: body) p); [|intros [?|?]; [discriminate|auto]|reflexivity].
  destruct (cut_firstn ("["%char :: body) "]" p) as [E1 E2]. change ("["%char :: body ++ "]"%char :: p) with (("["%char :: body) ++ "]"%char :: p). rewrite E1, E2.
  change (("["%char :: body) ++ ["]"%char]) with (bracketed body). unfold class_item. destruct (ranges_expand (bracketed body)) as [rs|]; [|reflexivity].
  destruct (as_count (rr_ascii rs)) as [n c]. destruct (Nat.eqb n 0 && null (rr_unicode rs)); [reflexivity|]. destruct (null (rr_unicode rs) && Nat.eqb n 1); [reflexivity|].
  destruct (rr_unicode rs) as [|q [|q2 l]]; try reflexivity. destruct (Nat.eqb n 0 && (First q =? Last q)%N); reflexivity.
Qed.
Lemma next_text (a : str) c p : a <> [] -> (forall d, In d a -> ~ In d metas) -> In c metas ->
  next_wildcard_item (a ++ c :: p) = Ok (Some (single_item a), c :: p).
Proof.
  intros Na N M. destruct a as [|c0 a]; [congruence|]. unfold next_wildcard_item. cbn [app next_item].
  assert (W : is_wild c0 = false) by (apply not_true_iff_false; rewrite is_wild_iff; apply N; now left).
  assert (X := W). unfold is_wild in X. repeat (apply orb_false_elim in X as [X ?]).
  rewrite H, H0, X. rewrite H2, H3. cbn [orb]. rewrite H1.
  assert (I : index_wildcard (c0 :: a ++ c :: p) = Some (length (c0 :: a))).
  { unfold index_wildcard. change (c0 :: a ++ c :: p) with ((c0 :: a) ++ c :: p). apply find_byte_some. rewrite app_length. cbn [length]. split; [lia|]. split.
    - rewrite app_nth2, Nat.sub_diag by (cbn; lia). cbn. now apply is_wild_iff.
    - intros j Lj. rewrite app_nth1 by (cbn; lia). apply not_true_iff_false. rewrite is_wild_iff. apply N. apply nth_In. cbn. lia. }
  rewrite I. unfold split_string. change (c0 :: a ++ c :: p) with ((c0 :: a) ++ c :: p).
  rewrite firstn_app, skipn_app, firstn_all, skipn_all, Nat.sub_diag. cbn [firstn skipn app]. now rewrite app_nil_r.
Qed.
Lemma next_stars n p : (forall q, p <> "*"%char :: q) -> next_wildcard_item (repeat "*"%char (S n) ++ p) = Ok (Some (IStar 0), p).
Proof.
  intro N. unfold next_wildcard_item. cbn [repeat app next_item]. change (Ascii.eqb "*" "[") with false. change (Ascii.eqb "*" "{") with false. change (Ascii.eqb "*" "*") with true. cbn iota.
  f_equal. f_equal. change ("*"%char :: repeat "*"%char n ++ p) with (repeat "*"%char (S n) ++ p). generalize (S n). induction n0 as [|k IH]; [|exact IH].
  cbn. destruct p as [|d p]; [reflexivity|]. cbn. destruct (Ascii.eqb_spec d "*") as [->|]; [|reflexivity]. now elim (N p).
Qed.

Lemma strip_stars (a : str) : exists n a', a = repeat "*"%char n ++ a' /\ forall q, a' <> "*"%char :: q.
Proof. destruct (skip_stars_spec a) as (n & E & N). eauto. Qed.
Lemma strip_text (a : str) : exists t a', a = t ++ a' /\ (forall d, In d t -> ~ In d metas) /\ (a' = [] \/ exists c q, a' = c :: q /\ In c metas).
Proof.
  induction a as [|c a IH]; [exists [], []; repeat split; auto|]. destruct (in_dec ascii_dec c metas) as [I|I].
  - exists [], (c :: a). repeat split; auto. right. eauto.
  - destruct IH as (t & a' & -> & N & C). exists (c :: t), a'. repeat split; auto. intros d [<-|J]; auto.
Qed.
Lemma bc_strip t p : (forall d, In d t -> ~ In d metas) -> brackets_closed (t ++ p) -> brackets_closed p.
Proof.
  induction t as [|c t IH]; intros N Bc; [exact Bc|]. cbn [app] in Bc.
  assert (M : ~ In c metas) by (apply N; now left).
  remember (c :: t ++ p) as s eqn:E. destruct Bc as [|d q Md Bq|q Bq|q Bq|body q NB G Bq|body q NB Bq]; try discriminate.
  - injection E as -> ->. apply IH; auto. intros; apply N; now right.
  - injection E as <- ->. exfalso. apply M. cbn. tauto.
  - injection E as <- ->. exfalso. apply M. cbn. tauto.
  - rewrite bracketed_app in E. injection E as <- _. exfalso. apply M. cbn. tauto.
  - rewrite braced_app in E. injection E as <- _. exfalso. apply M. cbn. tauto.
Qed.
Lemma bc_mark c p : c = "?"%char \/ c = "*"%char -> brackets_closed (c :: p) -> brackets_closed p.
Proof.
  intros C Bc. remember (c :: p) as s eqn:E. destruct Bc as [|d q Md Bq|q Bq|q Bq|body q NB G Bq|body q NB Bq]; try discriminate.
  - injection E as -> ->. exfalso. apply Md. destruct C as [->| ->]; cbn; tauto.
  - now injection E as _ ->.
  - now injection E as _ ->.
  - rewrite bracketed_app in E. injection E as <- _. destruct C; discriminate.
  - rewrite braced_app in E. injection E as <- _. destruct C; discriminate.
Qed.
Lemma bc_stars_inv n p : brackets_closed (repeat "*"%char n ++ p) -> brackets_closed p.
Proof. induction n as [|n IH]; auto. cbn. intro H. apply bc_mark in H; auto. Qed.

Definition opens (x : str) : Prop := exists q, x = "{"%char :: q.
(** one token of a closed text, whatever list follows *)
Lemma next_closed a : brackets_closed a -> a <> [] -> exists r a', brackets_closed a' /\ length a' < length a /\ fine r /\
  forall x, opens x -> next_wildcard_item (a ++ x) = bind r (fun oi => Ok (oi, a' ++ x)).
Proof.
  intros Bc Na. assert (Bc0 := Bc). remember a as s eqn:E. destruct Bc as [|c p M Bp|p Bp|p Bp|body p NB G Bp|body p NB Bp]; [congruence| | | | |].
  - destruct (strip_text (c :: p)) as (t & a' & Et & Nt & Ca). assert (Nt0 : t <> []).
    { intros ->. destruct Ca as [->|(d & q & -> & Md)]; [discriminate|]. injection Et as -> ->. auto. }
    exists (Ok (Some (single_item t))), a'. rewrite Et in *. split; [now apply bc_strip in Bc0|]. split; [rewrite app_length; destruct t; [congruence|cbn; lia]|]. split; [exact I|].
    intros x (q & ->). rewrite <- app_assoc. destruct Ca as [->|(d & q' & -> & Md)]; cbn [app bind].
    + apply next_text; auto. cbn. tauto.
    + apply next_text; auto.
  - exists (Ok (Some (IAny 1))), p. split; auto. split; [cbn; lia|]. split; [exact I|]. intros x _. reflexivity.
  - destruct (strip_stars p) as (n & a' & -> & N). exists (Ok (Some (IStar 0))), a'. split; [now apply bc_stars_inv in Bp|].
    split; [cbn; rewrite app_length; lia|]. split; [exact I|]. intros x (q & ->). change ("*"%char :: repeat "*"%char n ++ a') with (repeat "*"%char (S n) ++ a').
    rewrite <- app_assoc. apply next_stars. intros q' E'. destruct a'; [discriminate|]. cbn in E'. injection E' as -> E'. now elim (N a').
  - exists (class_item body), p. split; auto. split; [unfold bracketed; rewrite !app_length; cbn; rewrite app_length; cbn; lia|]. split; [apply class_item_fine|].
    intros x _. rewrite <- app_assoc. now apply next_class.
  - exists (list_item body), p. split; auto. split; [unfold braced; rewrite !app_length; cbn; rewrite app_length; cbn; lia|]. split; [apply list_item_fine|].
    intros x _. rewrite <- app_assoc. now apply next_list.
Qed.
Definition step_opt (st : pstate) (oi : option item) : pstate := match oi with Some it => parse_step st it | None => st end.
Lemma loop_unfold f t st : parse_loop (S f) t st = match t with [] => Ok st | _ => bind (next_wildcard_item t) (fun '(oi, next) => parse_loop f next (step_opt st oi)) end.
Proof. destruct t as [|c t]; [reflexivity|]. cbn [parse_loop]. destruct (next_wildcard_item (c :: t)) as [[[it|] rest]| | |]; reflexivity. Qed.
(** the loop over a closed text *)
Lemma loop_closed : forall n a st, length a <= n -> brackets_closed a ->
  (exists e, forall x f, opens x -> length (a ++ x) <= f -> parse_loop f (a ++ x) st = Err e) \/
  (exists st', forall x f, opens x -> length (a ++ x) <= f -> exists f', length x <= f' /\ parse_loop f (a ++ x) st = parse_loop f' x st').
Proof.
  induction n as [|n IH]; intros a st L Bc; (destruct a as [|c a]; [right; exists st; intros x f _ Lf; exists f; auto|]); [cbn in L; lia|].
  destruct (next_closed _ Bc) as (r & a' & Bc' & La & Fr & Hx); [discriminate|]. destruct r as [oi|e| |]; try easy.
  - destruct (IH a' (step_opt st oi)) as [(e & He)|(st' & Hs)]; [lia|auto| |].
    + left. exists e. intros x f Ox Lf. destruct f as [|f]; [cbn in Lf; lia|]. rewrite loop_unfold. change ((c :: a) ++ x) with (c :: (a ++ x)) at 1. cbv iota. rewrite Hx by auto. cbn [bind].
      apply He; auto. rewrite app_length in *. cbn [length] in *. lia.
    + right. exists st'. intros x f Ox Lf. destruct f as [|f]; [cbn in Lf; lia|]. rewrite loop_unfold. change ((c :: a) ++ x) with (c :: (a ++ x)) at 1. cbv iota. rewrite Hx by auto. cbn [bind].
      apply Hs; auto. rewrite app_length in *. cbn [length] in *. lia.
  - left. exists e. intros x f Ox Lf. destruct f as [|f]; [cbn in Lf; lia|]. rewrite loop_unfold. change ((c :: a) ++ x) with (c :: (a ++ x)) at 1. cbv iota. now rewrite Hx.
Qed.
Lemma loop_sub : forall f t st, sub (parse_loop f t st) (parse_loop (S f) t st).
Proof.
  induction f as [|f IH]; intros t st; [destruct t; [now right|now left]|]. rewrite !loop_unfold. destruct t; [apply sub_refl|].
  apply sub_bind; [apply sub_refl|]. intros [oi rest]. apply IH.
Qed.
Lemma loop_fuel t st f f' : length t <= f -> length t <= f' -> parse_loop f t st = parse_loop f' t st.
Proof.
  assert (X : forall k, length t <= k -> parse_loop k t st = parse_loop (length t) t st).
  { intros k L. apply sub_fine; [|now apply parse_loop_fine]. induction L as [|k L IH]; [apply sub_refl|]. eapply sub_trans; [exact IH|apply loop_sub]. }
  intros L L'. rewrite (X f), (X f'); auto.
Qed.
Lemma loop_order a body body' b st f f' : brackets_closed a -> ~ In "}"%char body -> ~ In "}"%char body' ->
  (forall v, alternative body v <-> alternative body' v) ->
  length (a ++ braced body ++ b) <= f -> length (a ++ braced body' ++ b) <= f' ->
  parse_loop f (a ++ braced body ++ b) st = parse_loop f' (a ++ braced body' ++ b) st.
Proof.
  intros Bc N N' H L L'.
  assert (O : forall bd, opens (braced bd ++ b)) by (intro bd; eexists; rewrite braced_app; reflexivity).
  destruct (loop_closed _ a st (le_n _) Bc) as [(e & He)|(st' & Hs)]; [now rewrite !He|].
  destruct (Hs _ f (O body) L) as (k & Lk & ->). destruct (Hs _ f' (O body') L') as (k' & Lk' & ->).
  destruct k as [|k]; [rewrite braced_app in Lk; cbn in Lk; lia|]. destruct k' as [|k']; [rewrite braced_app in Lk'; cbn in Lk'; lia|].
  assert (Ne : forall bd, exists c q, braced bd ++ b = c :: q) by (intro bd; rewrite braced_app; eauto).
  rewrite !loop_unfold. destruct (Ne body) as (c1 & q1 & E1). destruct (Ne body') as (c2 & q2 & E2). rewrite E1, E2 at 1. cbv iota.
  rewrite !next_list by auto. rewrite (list_item_ext body body') by auto. destruct (list_item body') as [oi|e| |]; try reflexivity. cbn [bind].
  rewrite braced_app in Lk, Lk'. cbn [length] in Lk, Lk'. rewrite app_length in Lk, Lk'. cbn [length] in Lk, Lk'. apply loop_fuel; lia.
Qed.

Lemma find_last_none p s : (forall c, In c s -> p c = false) -> find_last_byte p s = None.
Proof. induction s as [|c s IH]; intro H; [reflexivity|]. cbn. rewrite IH by (intros; apply H; now right). now rewrite (H c) by now left. Qed.
Lemma find_last_app p (a s : str) c : p c = true -> (forall d, In d s -> p d = false) -> find_last_byte p (a ++ c :: s) = Some (length a).
Proof.
  intros P N. induction a as [|x a IH]; cbn [app find_last_byte length]; [now rewrite (find_last_none p s), P|]. now rewrite IH.
Qed.
Lemma meta_wild c : ~ In c metas -> is_wild c = false.
Proof. intro N. apply not_true_iff_false. now rewrite is_wild_iff. Qed.
(** Parse of a text cut at its first and last wildcard *)
Lemma parse_cut P S c d (M : str) : (forall x, In x P -> ~ In x metas) -> (forall x, In x S -> ~ In x metas) -> In c metas -> In d metas ->
  let body := c :: M ++ [d] in
  glob_parse (P ++ body ++ S) =
  bind (parse_loop (length body) body (P, zlen P + zlen S, zlen P + zlen S, [])%Z) (fun '(prefix, mn, mx, rl) =>
              let '(suffix, rl) := take_suffix S rl in
              Ok (finish_glob (P ++ body ++ S) prefix suffix mn mx (rev rl))).
Proof.
  intros NP NS Mc Md body. unfold glob_parse.
  assert (I : index_wildcard (P ++ body ++ S) = Some (length P)).
  { apply find_byte_some. unfold body. rewrite !app_length. cbn [length app]. split; [lia|]. split.
    - rewrite app_nth2, Nat.sub_diag by lia. cbn. now apply is_wild_iff.
    - intros j L. rewrite app_nth1 by lia. apply meta_wild, NP, nth_In, L. }
  rewrite I. rewrite firstn_app, skipn_app, firstn_all, skipn_all, Nat.sub_diag. cbn [firstn skipn]. rewrite app_nil_r. cbn [app].
  assert (E : body ++ S = (c :: M) ++ d :: S) by (unfold body; now rewrite <- app_comm_cons, <- app_assoc).
  assert (L : index_last_wildcard (body ++ S) = Some (length (c :: M))).
  { unfold index_last_wildcard. rewrite E. apply find_last_app; [now apply is_wild_iff|]. intros x Ix. now apply meta_wild, NS. }
  rewrite L. cbn [length]. replace (Nat.eqb (Datatypes.S (length M)) 0) with false by reflexivity. cbn [andb].
  assert (C : (if (Datatypes.S (length M) <? length (body ++ S) - 1) then (skipn (Datatypes.S (Datatypes.S (length M))) (body ++ S), firstn (Datatypes.S (Datatypes.S (length M))) (body ++ S)) else ([], body ++ S)) = (S, body)).
  { assert (Lb : length body = Datatypes.S (Datatypes.S (length M))) by (unfold body; cbn; rewrite app_length; cbn; lia).
    rewrite app_length, Lb. rewrite <- Lb at 2 3. rewrite firstn_app, skipn_app, firstn_all, skipn_all, Nat.sub_diag. cbn [firstn skipn app]. rewrite app_nil_r.
    destruct (Nat.ltb_spec (Datatypes.S (length M)) (Datatypes.S (Datatypes.S (length M)) + length S - 1)); [reflexivity|].
    assert (S = []) as -> by (destruct S; auto; cbn in *; lia). now rewrite app_nil_r. }
  change (if Datatypes.S (length M) <? length (body ++ S) - 1 then _ else _) with (if (Datatypes.S (length M) <? length (body ++ S) - 1) then (skipn (Datatypes.S (Datatypes.S (length M))) (body ++ S), firstn (Datatypes.S (Datatypes.S (length M))) (body ++ S)) else ([], body ++ S)).
  rewrite C.
  destruct (str_eqb_spec body (B "*")) as [X|_]; [unfold body in X; injection X as _ X; destruct M; discriminate|].
  destruct (str_eqb_spec body (B "?")) as [X|_]; [unfold body in X; injection X as _ X; destruct M; discriminate|]. reflexivity.
Qed.
Lemma rev_strip_text (a : str) : exists a' t, a = a' ++ t /\ (forall d, In d t -> ~ In d metas) /\ (a' = [] \/ exists c q, a' = q ++ [c] /\ In c metas).
Proof.
  destruct (strip_text (rev a)) as (t & a' & E & N & C). exists (rev a'), (rev t). split; [rewrite <- rev_app_distr, <- E; now rewrite rev_involutive|].
  split; [intros d I; apply N; now apply in_rev|]. destruct C as [->|(c & q & -> & M)]; [now left|]. right. exists c, (rev q). auto.
Qed.

Lemma parse_order a body body' b : brackets_closed a -> ~ In "}"%char body -> ~ In "}"%char body' ->
  (forall v, alternative body v <-> alternative body' v) ->
  same_parse (glob_parse (a ++ braced body ++ b)) (glob_parse (a ++ braced body' ++ b)).
Proof.
  intros Bc N N' H.
  destruct (strip_text a) as (P & a2 & -> & NP & Ca). destruct (rev_strip_text b) as (b2 & S & -> & NS & Cb).
  apply bc_strip in Bc; auto.
  assert (X : forall bd, exists c d M, In c metas /\ In d metas /\ a2 ++ braced bd ++ b2 = c :: M ++ [d]).
  { intro bd.
    assert (X1 : exists c q, a2 ++ braced bd ++ b2 = c :: q /\ In c metas).
    { destruct Ca as [->|(c & q & -> & M)]; [|cbn; eauto]. exists "{"%char. rewrite braced_app. eexists. split; [reflexivity|]. cbn. tauto. }
    assert (X2 : exists d q, a2 ++ braced bd ++ b2 = q ++ [d] /\ In d metas).
    { destruct Cb as [->|(c & q & -> & M)].
      - exists "}"%char, (a2 ++ "{"%char :: bd). split; [|cbn; tauto]. rewrite app_nil_r. unfold braced. now rewrite <- app_assoc.
      - exists c, (a2 ++ braced bd ++ q). split; auto. now rewrite <- !app_assoc. }
    destruct X1 as (c & q & E & Mc). destruct X2 as (d & q' & E' & Md). rewrite E in E'. destruct q' as [|y q'].
    - exfalso. cbn in E'. injection E' as -> ->. apply (f_equal (@length _)) in E. rewrite !app_length in E. unfold braced in E. cbn in E. rewrite app_length in E. cbn in E. lia.
    - cbn in E'. injection E' as <- ->. exists c, d, q'. rewrite E. auto. }
  assert (F : forall bd, glob_parse ((P ++ a2) ++ braced bd ++ b2 ++ S) =
    bind (parse_loop (length (a2 ++ braced bd ++ b2)) (a2 ++ braced bd ++ b2) (P, zlen P + zlen S, zlen P + zlen S, [])%Z) (fun '(prefix, mn, mx, rl) =>
              let '(suffix, rl) := take_suffix S rl in
              Ok (finish_glob ((P ++ a2) ++ braced bd ++ b2 ++ S) prefix suffix mn mx (rev rl)))).
  { intro bd. destruct (X bd) as (c & d & M & Mc & Md & E). replace ((P ++ a2) ++ braced bd ++ b2 ++ S) with (P ++ (a2 ++ braced bd ++ b2) ++ S) by (now rewrite <- !app_assoc).
    rewrite E. now apply parse_cut. }
  rewrite !F. rewrite (loop_order a2 body body' b2 _ _ (length (a2 ++ braced body' ++ b2))); auto.
  pose proof (parse_loop_fine (length (a2 ++ braced body' ++ b2)) (a2 ++ braced body' ++ b2) (P, zlen P + zlen S, zlen P + zlen S, [])%Z (le_n _)) as Fn.
  destruct (parse_loop _ (a2 ++ braced body' ++ b2) _) as [[[[p mn] mx] rl]|e| |]; try easy. cbn [bind].
  destruct (take_suffix S rl) as [sf rl']. cbn [same_parse]. unfold finish_glob. destruct (rev rl') as [|i r]; repeat split.
Qed.
