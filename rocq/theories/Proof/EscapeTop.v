(** The statements of Props/PEscape.v. *)
From Verif Require Import Model.Escape Spec.Url.
From Verif Require Import Proof.EscapeP.
From Coq Require Import Lia ZifyBool ZifyN ZifyNat.

(** C51: decoding an escaped query gives the original bytes. *)
Lemma c51_query_round_trip_l : forall s : str, unescape (query s) = s.
Proof. intro s. unfold query. rewrite unescape_eq, escape_eq. apply unescape_escape. now left. Qed.
(*EX
Example c51_example : query (B "a b+c%d/é?") = B "a+b%2Bc%25d%2F%C3%A9%3F" /\ unescape (B "a+b%2Bc%25d%2F%C3%A9%3F") = B "a b+c%d/é?".
Proof. vm_compute. auto. Qed.
XE*)

(** C52: the same for paths that contain no '+'. *)
Lemma c52_path_round_trip_l : forall s : str, ~ In "+"%char s -> unescape (path s) = s.
Proof. intros s H. unfold path. rewrite unescape_eq, escape_eq. apply unescape_escape. now right. Qed.
(*EX
Example c52_example : ~ In "+"%char (B "a b%d/é?") /\ path (B "a b%d/é?") = B "a%20b%25d/%C3%A9%3F".
Proof. split; [cbn; intuition discriminate|reflexivity]. Qed.
XE*)
(** ... and only for those: any path with a '+' is changed by the round trip. *)
Lemma c52_plus_refuted_l : forall s : str, In "+"%char s -> unescape (path s) <> s.
Proof.
  intros s H E. unfold path in E. rewrite unescape_eq, escape_eq in E.
  revert E. induction s as [|c s IH]; [easy|]. cbn [map concat].
  unfold esc1 at 1. cbn [is_query]. rewrite andb_false_r. destruct H as [->|H].
  - cbn. discriminate.
  - destruct (should_escape c encodePath) eqn:E.
    + rewrite unescape_loop_percent. intro X. injection X as X. now apply IH.
    + cbn [app unescape_loop]. destruct (Ascii.eqb_spec c "%") as [->|P]; [rewrite should_percent in E; discriminate|].
      destruct (Ascii.eqb_spec c "+") as [->|Q].
      * discriminate.
      * intro X. injection X as X. now apply IH.
Qed.

(** C53: Query replaces every byte by its escaped form, nothing else. *)
Lemma c53_query_form_l : forall s : str, exists parts, Forall2 query_byte s parts /\ query s = concat parts.
Proof.
  intro s. exists (map (esc1 encodeQueryComponent) s). split.
  - induction s; constructor; auto. apply esc1_query.
  - apply escape_eq.
Qed.
(** C53: the same for Path. *)
Lemma c53_path_form_l : forall s : str, exists parts, Forall2 path_byte s parts /\ path s = concat parts.
Proof.
  intro s. exists (map (esc1 encodePath) s). split.
  - induction s; constructor; auto. apply esc1_path.
  - apply escape_eq.
Qed.
Lemma percent_form_safe x c : In c (percent_form x) -> unreserved c \/ c = "%"%char.
Proof.
  rewrite <- percent_spec, unreserved_b.
  assert (forallb (fun c => alnum c || among c (B "-_.~") || Ascii.eqb c "%") (percent x) = true) as H.
  { destruct x as [[] [] [] [] [] [] [] []]; reflexivity. }
  rewrite forallb_forall in H. intro I. apply H in I. rewrite !orb_true_iff in I.
  destruct I as [[I|I]|I]; auto. right. now apply Ascii.eqb_eq.
Qed.
(** C53: so the result is safe inside a query: only unreserved bytes, '+' and '%'. *)
Lemma c53_query_safe_l : forall (s : str) (c : ascii), In c (query s) ->
  (unreserved c \/ c = "+"%char \/ c = "%"%char) /\
  ~ In c [" "; "&"; "="; "?"; ";"; "/"; "#"]%char.
Proof.
  intros s c I.
  assert (H : unreserved c \/ c = "+"%char \/ c = "%"%char).
  { destruct (c53_query_form_l s) as (parts & F & E). rewrite E in I. clear E. induction F as [|x p s parts Q F IH]; [easy|].
    cbn in I. apply in_app_iff in I as [I|I]; auto. destruct Q as [x U| |x U S].
    - destruct I as [<-|[]]. auto.
    - destruct I as [<-|[]]. auto.
    - apply percent_form_safe in I. tauto. }
  split; auto. destruct H as [H|[->| ->]]; try (cbn; intuition discriminate).
  intro J. apply unreserved_b in H. cbn in J.
  repeat (destruct J as [<-|J]; [vm_compute in H; destruct H; discriminate|]). easy.
Qed.
(*EX
Example c53_example : query (B "a=1&b c") = B "a%3D1%26b+c".
Proof. reflexivity. Qed.
XE*)

Lemma firstn_last {A} (s : list A) k d : nth_error s k = Some d -> firstn (S k) s = firstn k s ++ [d].
Proof. revert s; induction k; intros [|x s] H; cbn in *; try discriminate; [congruence|]. f_equal. auto. Qed.

(** C54: QueryTo/PathTo append the escaped text whenever the last byte is itself escaped or the byte before it is not ... *)
Lemma c54_streaming_l : forall s sb : str,
  ((forall p c d, s = p ++ [c; d] -> query [d] <> [d] \/ query [c] = [c]) -> query_to s sb = sb ++ query s) /\
  ((forall p c d, s = p ++ [c; d] -> path [d] <> [d] \/ path [c] = [c]) -> path_to s sb = sb ++ path s).
Proof.
  intros s sb.
  assert (G : forall mode, (forall p c d, s = p ++ [c; d] -> should_escape d mode = true \/ should_escape c mode = false) ->
    escape_to s mode sb = sb ++ escape s mode).
  { intros mode H. unfold escape_to. pose proof (escape_to_loop_spec s mode sb s 0 0 sb) as L.
    destruct (escape_to_loop s s mode 0 0 sb) as [pos sb'].
    destruct L as (E & F & P); auto. { constructor. } { cbn. now rewrite app_nil_r. }
    assert (D : escape s mode = concat (map (esc1 mode) (firstn pos s)) ++ skipn pos s).
    { rewrite escape_eq, <- (firstn_skipn pos s), map_app, concat_app, firstn_skipn, (esc_plain mode _ F). reflexivity. }
    rewrite D. subst sb'. destruct (Nat.eqb_spec pos 0) as [->|N0].
    - cbn. now rewrite app_nil_r.
    - destruct (Nat.ltb_spec (S pos) (length s)) as [L|L].
      + now rewrite app_assoc.
      + assert (K : skipn pos s = []); [|now rewrite K, app_nil_r].
        destruct P as [P|(c & P & Pc)]; [lia|].
        destruct (skipn pos s) as [|d r] eqn:K; auto. exfalso.
        assert (length (skipn pos s) = 1%nat). { rewrite K. assert (length (skipn pos s) <= 1)%nat by (rewrite skipn_length; lia). rewrite K in *. cbn in *. lia. }
        rewrite K in H0. destruct r; [|cbn in H0; lia].
        assert (S1 : s = firstn (pos - 1) s ++ [c; d]).
        { rewrite <- (firstn_skipn pos s) at 1. rewrite K. replace pos with (S (pos - 1)) at 1 by lia.
          rewrite (firstn_last _ _ _ P), <- app_assoc. reflexivity. }
        apply H in S1. inversion F; subst. destruct S1; congruence. }
  assert (I : forall mode c, escape [c] mode = [c] <-> should_escape c mode = false).
  { intros mode c. rewrite escape_eq. cbn. rewrite app_nil_r. split.
    - intro E. destruct (should_escape c mode) eqn:S; auto. unfold esc1 in E. rewrite S in E.
      destruct (is_space c && is_query mode) eqn:Q; try discriminate.
      injection E as <-. discriminate.
    - apply esc1_plain. }
  split; intro H; apply G; intros p c d E; destruct (H p c d E) as [X|X].
  - left. destruct (should_escape d encodeQueryComponent) eqn:Y; auto. apply I in Y. easy.
  - right. now apply I.
  - left. destruct (should_escape d encodePath) eqn:Y; auto. apply I in Y. easy.
  - right. now apply I.
Qed.
(*EX
Example c54_example : query_to (B "a b=cd") (B "x") = B "x" ++ query (B "a b=cd") /\ query (B "a b=cd") = B "a+b%3Dcd".
Proof. vm_compute. auto. Qed.
XE*)
Lemma last_byte_lost mode : forall (p : str) (c d : ascii) (sb : str), escape [d] mode = [d] -> escape [c] mode <> [c] ->
  escape_to (p ++ [c; d]) mode sb = sb ++ escape (p ++ [c]) mode /\ escape (p ++ [c; d]) mode = escape (p ++ [c]) mode ++ [d].
Proof.
  intros p c d sb Hd Hc.
  assert (Q : escape (p ++ [c; d]) mode = escape (p ++ [c]) mode ++ [d]).
  { rewrite !escape_eq in *. rewrite !map_app, !concat_app. cbn in *. rewrite !app_nil_r in *. rewrite Hd, app_assoc. reflexivity. }
  split; auto.
  assert (Sd : should_escape d mode = false).
  { destruct (should_escape d mode) eqn:S; auto. rewrite escape_eq in Hd. cbn in Hd.
    rewrite app_nil_r in Hd. unfold esc1 in Hd. rewrite S in Hd. destruct (is_space d && is_query mode) eqn:Q'; try discriminate.
    assert (d = "+"%char) as -> by congruence. discriminate Q'. }
  assert (Sc : should_escape c mode = true).
  { destruct (should_escape c mode) eqn:S; auto. elim Hc. rewrite escape_eq. cbn.
    rewrite app_nil_r. now apply esc1_plain. }
  unfold escape_to.
  pose proof (escape_to_loop_spec (p ++ [c; d]) mode sb (p ++ [c; d]) 0 0 sb) as L.
  destruct (escape_to_loop _ _ _ _ _ _) as [pos sb'].
  destruct L as (E & F & P); auto. { constructor. } { cbn. now rewrite app_nil_r. }
  assert (Le : (pos <= S (length p))%nat).
  { destruct P as [->|(x & N & X)]; [lia|]. assert (pos - 1 < length (p ++ [c; d]))%nat by (apply nth_error_Some; congruence).
    rewrite app_length in H. cbn in H. assert (pos - 1 <> S (length p))%nat; [|lia]. intro Y. rewrite Y in N.
    rewrite nth_error_app2 in N by lia. replace (S (length p) - length p)%nat with 1%nat in N by lia. cbn in N. congruence. }
  assert (Ge : (pos = S (length p))%nat).
  { destruct (Nat.eq_dec pos (S (length p))); auto. exfalso.
    assert (I : In c (skipn pos (p ++ [c; d]))).
    { rewrite skipn_app. apply in_app_iff. right. replace (pos - length p)%nat with 0%nat by lia. now left. }
    rewrite Forall_forall in F. apply F in I. congruence. }
  subst pos. cbn [Nat.eqb]. rewrite app_length. cbn [length].
  replace (S (S (length p)) <? length p + 2)%nat with false by lia.
  rewrite E.  rewrite escape_eq. do 2 f_equal.
  rewrite firstn_app, firstn_all2 by lia. replace (S (length p) - length p)%nat with 1%nat by lia. reflexivity.
Qed.
(** C54: ... and in the remaining case exactly the last byte is lost, whatever the text before it. *)
Lemma c54_last_byte_refuted_l : forall (p : str) (c d : ascii) (sb : str),
  (query [d] = [d] -> query [c] <> [c] ->
   query_to (p ++ [c; d]) sb = sb ++ query (p ++ [c]) /\ query (p ++ [c; d]) = query (p ++ [c]) ++ [d]) /\
  (path [d] = [d] -> path [c] <> [c] ->
   path_to (p ++ [c; d]) sb = sb ++ path (p ++ [c]) /\ path (p ++ [c; d]) = path (p ++ [c]) ++ [d]).
Proof. intros p c d sb. split; apply last_byte_lost. Qed.
(*EX
Example c54_lost : query [" "]%char <> [" "]%char /\ query ["a"]%char = ["a"]%char /\ query_to (B "x a") [] = B "x+" /\ query (B "x a") = B "x+a".
Proof. split; [discriminate|]. vm_compute. auto. Qed.
XE*)

(** C55: UnescapeTo returns what Unescape returns, whatever the buffer holds, and only appends to it. *)
Lemma c55_unescape_to_l : forall s sb : str,
  snd (unescape_to s sb) = unescape s /\
  exists added, fst (unescape_to s sb) = sb ++ added /\ (added = [] \/ added = unescape s).
Proof.
  intros s sb. rewrite unescape_to_eq. cbn. split; auto. eexists. split; [reflexivity|]. destruct (unescape_first s); auto.
Qed.
(** C55: UnescapeNameTo returns the name and the text "__name__=" followed by the name, and appends the latter. *)
Lemma c55_unescape_name_to_l : forall s sb : str,
  unescape_name_to s sb = (sb ++ B "__name__=" ++ unescape s, unescape s, B "__name__=" ++ unescape s).
Proof.
  intros s sb. unfold unescape_name_to, unescape. destruct (unescape_first s) as [i|].
  - unfold unescape_at. cbv zeta beta iota. cbn [length app snd skipn].
    rewrite <- !app_assoc. rewrite skipn_app_exact. rewrite (app_assoc sb (B "__name__=")), skipn_app_exact. reflexivity.
  - cbv zeta. rewrite skipn_app_exact. rewrite <- app_assoc, skipn_app_exact. reflexivity.
Qed.
(*EX
Example c55_example : unescape_to (B "a%20b+") (B "xy") = (B "xya b ", B "a b ") /\
  unescape_name_to (B "a%20b+") (B "xy") = (B "xy__name__=a b ", B "a b ", B "__name__=a b ").
Proof. vm_compute. auto. Qed.
XE*)

(** C56: Unescape is exactly percent-decoding: its result is the unique decoding of the text. *)
Lemma c56_unescape_decodes_l : forall s t : str, decoded s t <-> t = unescape s.
Proof.
  intros s t. rewrite unescape_eq. split.
  - apply decoded_fun.
  - intros ->. apply (unescape_loop_decoded (length s)). lia.
Qed.
(** C56: plain text is unchanged, and no text gets longer. *)
Lemma c56_unescape_plain_l : forall s : str,
  (~ In "%"%char s -> ~ In "+"%char s -> unescape s = s) /\ (length (unescape s) <= length s)%nat.
Proof.
  intro s. split.
  - intros H1 H2. unfold unescape, unescape_first. generalize (find_byte_split (fun c => among c (B "%+")) s).
    destruct (find_byte _ s) as [i|] eqn:E; auto. intro H. exfalso.
    assert (exists c, In c s /\ among c (B "%+") = true) as (c & I & A).
    { clear - E. revert i E. induction s as [|c s IH]; intros i E; [discriminate|]. cbn [find_byte] in E.
      destruct (among c (B "%+")) eqn:A; [exists c; split; auto; now left|].
      destruct (find_byte _ s); [|discriminate]. destruct (IH n eq_refl) as (x & I & X). exists x. split; auto. now right. }
    apply among_In in A. cbn in A. destruct A as [<-|[<-|[]]]; auto.
  - rewrite unescape_eq. apply (unescape_loop_length (length s)). lia.
Qed.
(*EX
Example c56_example : decoded (B "a%4") (B "a%4") /\ unescape (B "%zz%41+%") = B "%zzA %".
Proof. split; [apply c56_unescape_decodes|]; reflexivity. Qed.
XE*)
