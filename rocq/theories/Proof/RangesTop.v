(** The statements of Props/PClass.v. *)
From Verif Require Import Model.Ranges Spec.Symbols Spec.Class Spec.SetSpec Spec.ClassOps.
From Verif Require Import Proof.Utf8P Proof.SymbolsP Proof.SkipP Proof.AsciiSetP Proof.SortP Proof.MergeP Proof.MergeNulP Proof.RangesP
  Proof.ClassPrintP Proof.ClassSearchP Proof.UtilsTop.
From Coq Require Import Lia ZifyBool ZifyN ZifyNat Permutation Sorting.Sorted.
Local Open Scope N_scope.

(** C05: the printed form of a set, put in brackets and read as a class, is the same set; the set has no
    NUL and no DEL, and a '-' in it has both its neighbours ',' and '.' (so no printed run starts or ends with '-'). *)
Lemma c05_print_reread_l : forall cs : str,
  let a := set_of_adds cs in
  as_contains a (byte_of 0) = false -> as_contains a (byte_of 127) = false ->
  (as_contains a "-" = true -> as_contains a "," = true /\ as_contains a "." = true) ->
  exists rs, ranges_expand (bracketed (as_write a)) = Some rs /\ rr_ascii rs = a /\ rr_unicode rs = [].
Proof.
  intros cs a Z D M. assert (A : as_ok a) by apply set_of_adds_ok.
  assert (Ex : exists mn mx, sizes_ok (mkRR a [] false mn mx)).
  { assert (X : exists mn mx, (mn = 0%Z /\ mx = 0%Z /\ forall c, as_contains a c = false) \/ (mn = 1%Z /\ mx = 1%Z /\ exists c, as_contains a c = true)).
    { destruct (as_is_empty a) eqn:E; [exists 0%Z, 0%Z|exists 1%Z, 1%Z].
      - left. repeat split. now apply is_empty_iff.
      - right. repeat split. destruct (existsb (as_contains a) (bytes_from 0 256)) eqn:X.
        + apply existsb_exists in X as (c & _ & H). eauto.
        + exfalso. assert (as_is_empty a = true); [|congruence]. apply is_empty_iff; auto. intro c.
          destruct (as_contains a c) eqn:C; auto. rewrite <- not_true_iff_false in X. elim X. apply existsb_exists.
          exists c. split; auto. apply in_bytes_from; [reflexivity|]. pose proof (code_lt c). cbn. lia. }
    assert (Mm : forall mn mx r, mem (mkRR a [] false mn mx) r <-> r <= 127 /\ as_contains a (byte_of r) = true).
    { intros. unfold mem. cbn [rr_ascii rr_unicode]. destruct (N.leb_spec r 127).
      - tauto.
      - split; [now intros (q & [] & _)|lia]. }
    destruct X as (mn & mx & [(-> & -> & H)|(-> & -> & (c & H))]); [exists 0%Z, 0%Z|exists 1%Z, 1%Z]; split.
    - intros r _ X. apply Mm in X as [_ X]. rewrite H in X. discriminate.
    - left. repeat split. intros r X. apply Mm in X as [_ X]. rewrite H in X. discriminate.
    - intros r _ X. apply Mm in X as [X _]. unfold rune_len. replace (r <? 128) with true by lia. cbn. lia.
    - right. assert (C : code c < 128) by (rewrite contains_bit in H; lia).
      assert (Y : exists r, scalar r /\ mem (mkRR a [] false 1 1) r /\ rune_len r = 1%Z).
      { exists (code c). split; [|split].
        - unfold scalar, valid_rune, RuneError. lia.
        - apply Mm. rewrite byte_of_code. split; auto. lia.
        - unfold rune_len. now replace (code c <? 128) with true by lia. }
      auto. }
  destruct Ex as (mn & mx & Sz). exists (mkRR a [] false mn mx). split; [|auto].
  apply (rr_write_reread (mkRR a [] false mn mx)); auto; cbn [rr_ascii rr_unicode].
  - split; [exact A|]. cbn. split; constructor.
  - unfold print_ok. change zero with (byte_of 0). auto.
  - constructor.
Qed.
(*EX
Example c05_example : let a := set_of_adds (B "xyza01,-.") in
  as_contains a (byte_of 0) = false /\ as_contains a (byte_of 127) = false /\ as_contains a "-" = true /\
  as_contains a "," = true /\ as_contains a "." = true /\ as_write a = B ",-.0-1ax-z".
Proof. vm_compute. auto 10. Qed.
XE*)

(** Without the DEL condition the claim is false: the upper end of a run that reaches DEL is lost. *)
Lemma c05_del_refuted_l : exists cs : str,
  let a := set_of_adds cs in
  as_contains a (byte_of 0) = false /\
  forall rs, ranges_expand (bracketed (as_write a)) = Some rs -> rr_ascii rs <> a.
Proof.
  exists [byte_of 126; byte_of 127]. cbn zeta. split; [reflexivity|]. intros rs E.
  set (x := ranges_expand _) in E. vm_compute in x. subst x. injection E as <-. intro X. vm_compute in X. discriminate.
Qed.

(** C06: the result is sorted, disjoint and non-adjacent, and covers exactly the same runes. *)
Lemma c06_merge_l : forall l : list rrange,
  (forall q, In q l -> First q <= Last q /\ 0 < Last q) ->
  (forall q, In q (ranges_merge l) -> First q <= Last q) /\
  (forall i j, (i < j < length (ranges_merge l))%nat ->
     Last (nth i (ranges_merge l) range0) + 1 < First (nth j (ranges_merge l) range0)) /\
  forall r, (exists q, In q (ranges_merge l) /\ First q <= r <= Last q) <-> (exists q, In q l /\ First q <= r <= Last q).
Proof.
  intros l H. destruct (ranges_merge_spec l) as (A & B & C).
  { now apply Forall_forall. }
  split; [now apply Forall_forall|]. split; [|exact C].
  intros i j L. exact (ss_nth sep _ range0 B i j L).
Qed.
(** C06: The same without excluding ranges that consist of NUL only: NUL itself is kept only together
    with its successor. *)
Lemma c06_nul_l : forall l : list rrange,
  (forall q, In q l -> First q <= Last q) ->
  (forall q, In q (ranges_merge l) -> First q <= Last q) /\
  (forall i j, (i < j < length (ranges_merge l))%nat ->
     Last (nth i (ranges_merge l) range0) + 1 < First (nth j (ranges_merge l) range0)) /\
  forall r, (exists q, In q (ranges_merge l) /\ First q <= r <= Last q) <->
    (exists q, In q l /\ First q <= r <= Last q) /\ (r = 0 -> exists q, In q l /\ First q <= 1 <= Last q).
Proof.
  intros l H. destruct (ranges_merge_all l) as (A & B & C).
  { now apply Forall_forall. }
  split; [now apply Forall_forall|]. split; [|exact C].
  intros i j L. exact (ss_nth sep _ range0 B i j L).
Qed.
(*EX
Example c06_example : ranges_merge [mkRange 30 40; mkRange 5 9; mkRange 41 50; mkRange 8 12; mkRange 7 7]
  = [mkRange 5 12; mkRange 30 50].
Proof. reflexivity. Qed.
XE*)

(** C07: lookup in any sorted list of disjoint ranges. *)
Lemma c07_contains_sorted_l : forall (rs : rranges) (c : rune),
  (forall q, In q (rr_unicode rs) -> First q <= Last q /\ 127 < First q) ->
  (forall i j, (i < j < length (rr_unicode rs))%nat ->
     Last (nth i (rr_unicode rs) range0) < First (nth j (rr_unicode rs) range0)) ->
  (rr_contains rs c = true <->
   (c <= 127 /\ as_contains (rr_ascii rs) (byte_of c) = true) \/ (exists q, In q (rr_unicode rs) /\ First q <= c <= Last q)).
Proof.
  intros rs c W S. unfold rr_contains. destruct (N.leb_spec c 127) as [L|L].
  - split; auto. intros [[_ H]|(q & I & R)]; auto. specialize (W q I). lia.
  - rewrite contains_unicode_spec.
    + unfold in_ranges, in_range. split; auto. intros [[H _]|H]; auto. lia.
    + revert S. generalize (rr_unicode rs). clear. intro l. induction l as [|q l IH]; intro S; constructor.
      * apply IH. intros i j L. apply (S (Datatypes.S i) (Datatypes.S j)). cbn. lia.
      * apply Forall_forall. intros x I. destruct (In_nth l x range0 I) as (k & Lk & <-).
        apply (S 0%nat (Datatypes.S k)). cbn. lia.
    + apply Forall_forall. intros q I. now apply W.
Qed.

(** Histories of Add, Adds and Merge. *)
Definition hinv (rs : rranges) : Prop := rs_ok rs /\ (rr_need_merge rs = false -> StronglySorted sep (rr_unicode rs)).
Lemma mem_set_sizes rs n r : mem (rr_set_sizes rs n) r <-> mem rs r.
Proof. reflexivity. Qed.
Lemma hinv_add rs r : hinv rs -> hinv (rr_add rs r) /\ forall x, mem (rr_add rs r) x <-> x = r \/ mem rs x.
Proof.
  intros [[A U] N]. unfold rr_add. destruct (N.leb_spec r 127) as [L|L].
  - split; [split; [split; cbn; auto; now apply as_ok_add|exact N]|].
    intro x. unfold mem. cbn [rr_ascii rr_set_sizes rr_add_ascii rr_with_ascii rr_unicode].
    destruct (N.leb_spec x 127) as [Lx|Lx]; [|split; auto; intros [->|?]; auto; lia].
    rewrite contains_add by auto. rewrite code_byte_of by lia. replace (r <? 128) with true by lia. rewrite andb_true_r, orb_true_iff, Ascii.eqb_eq.
    split; intros [H|H]; auto; left; [|now subst]. rewrite <- (code_byte_of x), <- (code_byte_of r) by lia. now rewrite H.
  - split.
    + split; [|discriminate]. split; cbn; auto. apply Forall_app. split; auto. constructor; auto. unfold range_ok. cbn. lia.
    + intro x. unfold mem. cbn [rr_ascii rr_unicode rr_set_sizes].
      destruct (N.leb_spec x 127) as [Lx|Lx]; [split; auto; intros [->|?]; auto; lia|].
      unfold in_ranges. split.
      * intros (q & I & R). apply in_app_or in I as [I|[<-|[]]]; [right; eauto|]. unfold in_range in R. cbn in R. left. lia.
      * intros [->|(q & I & R)]; [exists (mkRange r r)|exists q]; (split; [apply in_or_app; cbn; auto|auto]). split; cbn; lia.
Qed.
Lemma hinv_adds l : forall rs, hinv rs -> hinv (fold_left rr_add l rs) /\ forall x, mem (fold_left rr_add l rs) x <-> In x l \/ mem rs x.
Proof.
  induction l as [|r l IH]; intros rs H; cbn [fold_left In]; [split; auto; intro; tauto|].
  destruct (hinv_add rs r H) as [H' M]. destruct (IH _ H') as [H2 M2]. split; auto. intro x. rewrite M2, M. intuition congruence.
Qed.
Lemma hinv_merge rs : hinv rs -> hinv (rr_merge rs) /\ rs_fin (rr_merge rs) /\ forall x, mem (rr_merge rs) x <-> mem rs x.
Proof.
  intros [O N]. unfold rr_merge. destruct (rr_need_merge rs) eqn:E.
  - destruct (merge_fin rs O) as [(F1 & F2 & F3) M]. cbn zeta in *. cbn [rr_ascii rr_unicode] in *.
    unfold hinv, rs_fin, rs_ok. cbn [rr_ascii rr_unicode rr_need_merge]. split; [auto|]. split; [auto|exact M].
  - destruct O as [O1 O2]. unfold hinv, rs_fin, rs_ok. split; [auto|]. split; [auto|]. intro; tauto.
Qed.
Lemma hinv_do ops : forall rs, hinv rs -> hinv (fold_left rr_do ops rs) /\
  forall x, mem (fold_left rr_do ops rs) x <-> In x (flat_map rr_added ops) \/ mem rs x.
Proof.
  induction ops as [|op ops IH]; intros rs H; cbn [fold_left flat_map]; [split; auto; intro; cbn; tauto|].
  assert (S : hinv (rr_do rs op) /\ forall x, mem (rr_do rs op) x <-> In x (rr_added op) \/ mem rs x).
  { destruct op; cbn [rr_do rr_added].
    - destruct (hinv_add rs r H) as [H' M]. split; auto. intro x. rewrite M. cbn. intuition congruence.
    - apply hinv_adds, H.
    - destruct (hinv_merge rs H) as (H' & _ & M). split; auto. intro x. rewrite M. cbn. tauto. }
  destruct S as [H' M]. destruct (IH _ H') as [H2 M2]. split; auto. intro x. rewrite M2, M, in_app_iff. tauto.
Qed.
Lemma need_merge_pairs ps : forall rs, rr_need_merge (fold_left add_pair ps rs) = rr_need_merge rs.
Proof.
  induction ps as [|[a b] ps IH]; intro rs; cbn [fold_left]; auto. rewrite IH. unfold add_pair. destruct (a <=? 127); auto.
  unfold rr_add_ascii_range. rewrite add_ascii_fold. reflexivity.
Qed.
Lemma expand_hinv body rs : clean body -> ranges_expand (bracketed body) = Some rs -> hinv rs /\ rr_need_merge rs = false /\ rs_fin rs.
Proof.
  intros (l & S & ->) E. destruct (class_pairs_total l) as [ps P]. rewrite (ranges_expand_pairs l ps S P) in E.
  destruct (forallb good_pairb ps) eqn:G; [|discriminate]. injection E as <-.
  destruct (class_of_pairs_spec ps G (pairs_scalar l ps P S)) as ((F1 & F2 & F3) & _ & _).
  assert (N : rr_need_merge (class_of_pairs ps) = false) by (unfold class_of_pairs; cbn; now rewrite need_merge_pairs).
  unfold hinv, rs_fin, rs_ok. auto.
Qed.
(** C07 for every history: a class read from text, then any sequence of Add, Adds and Merge calls, then
    Merge, contains exactly the runes of the text and the added runes. *)
Lemma c07_history_l : forall (body : str) (rs0 : rranges) (ops : list rr_op) (r : rune),
  clean body -> ranges_expand (bracketed body) = Some rs0 ->
  (rr_contains (rr_merge (fold_left rr_do ops rs0)) r = true <-> In r (flat_map rr_added ops) \/ in_class body r).
Proof.
  intros body rs0 ops r C E. destruct (expand_hinv _ _ C E) as (H & _ & F). destruct (hinv_do ops rs0 H) as [H' M].
  destruct (hinv_merge _ H') as (_ & F' & M'). rewrite fin_contains, M', M by auto.
  destruct (ranges_expand_ok _ _ C E) as (_ & _ & _ & D). rewrite <- D, fin_contains by auto. tauto.
Qed.
(*EX
Example c07_example : exists rs, ranges_expand (B "[a-cж-щ]") = Some rs /\
  let rs' := rr_merge (fold_left rr_do [OpAdd 233; OpMerge; OpAdds (B "zя"); OpAdd 1200] rs) in
  map (rr_contains rs') [98; 100; 233; 122; 1103; 1080; 1200; 1201] = [true; false; true; true; true; true; true; false]
  /\ length (rr_unicode rs') = 4%nat.
Proof. eexists. split; [vm_compute; reflexivity|]. vm_compute. auto. Qed.
XE*)

(** C08: the members are exactly the runes the body denotes. *)
Lemma c08_denotes_l : forall (body : str) (rs : rranges), clean body -> ranges_expand (bracketed body) = Some rs ->
  forall r, rr_contains rs r = true <-> in_class body r.
Proof. intros body rs C E. now apply ranges_expand_ok. Qed.
(*EX
Example c08_example : exists rs, ranges_expand (bracketed (B "-a-cx--é")) = None /\
  ranges_expand (bracketed (B "-a-cx-zж-")) = Some rs /\
  map (rr_contains rs) [45; 97; 98; 99; 100; 121; 1078] = [false; true; true; true; false; true; true].
Proof. eexists. split; [vm_compute; reflexivity|]. split; vm_compute; reflexivity. Qed.
Example c08_pairs : class_pairs [45; 97; 45; 99; 120] [(97, 99); (120, 120)].
Proof. apply cp_dash. apply (cp_range 97 [45] 99); try discriminate; repeat constructor; discriminate. Qed.
XE*)
(** C08: failure, exactly on a reversed interval or one whose ends have different encoded lengths ... *)
Lemma c08_fails_l : forall body : str, clean body -> (ranges_expand (bracketed body) = None <-> ~ good_class body).
Proof. exact ranges_expand_fail. Qed.
(** ... and on text that is not bracketed. *)
Lemma c08_unbracketed_l : forall s : str, (forall body, s <> bracketed body) -> ranges_expand s = None.
Proof. exact not_bracketed. Qed.
(** U+FFFD itself cannot be listed in a class: the code uses it as a marker. *)
Lemma c08_replacement_refuted_l : exists rs,
  ranges_expand (bracketed (encode_rune RuneError)) = Some rs /\ rr_contains rs RuneError = false /\
  class_pairs [RuneError] [(RuneError, RuneError)].
Proof.
  eexists. split; [vm_compute; reflexivity|]. split; [reflexivity|]. apply cp_last; [discriminate|constructor].
Qed.

(** C09: the size bounds are exact. *)
Lemma c09_sizes_l : forall (body : str) (rs : rranges), clean body -> ranges_expand (bracketed body) = Some rs ->
  (forall r, valid_rune r = true -> in_class body r ->
     (rr_min rs <= Z.of_nat (length (encode_rune r)) <= rr_max rs)%Z) /\
  ((rr_min rs = 0%Z /\ rr_max rs = 0%Z /\ forall r, ~ in_class body r) \/
   ((exists r, scalar r /\ in_class body r /\ Z.of_nat (length (encode_rune r)) = rr_min rs) /\
    (exists r, scalar r /\ in_class body r /\ Z.of_nat (length (encode_rune r)) = rr_max rs))).
Proof.
  intros body rs C E. destruct (ranges_expand_ok _ _ C E) as (F & [B X] & _ & D).
  assert (M : forall r, mem rs r <-> in_class body r) by (intro r; rewrite <- D, fin_contains by auto; tauto).
  split.
  - intros r V I. rewrite encode_len_valid by auto. apply B; auto. now apply M.
  - destruct X as [(X1 & X2 & X3)|((r1 & S1 & M1 & L1) & (r2 & S2 & M2 & L2))]; [left|right].
    + repeat split; auto. intros r I. apply (X3 r). now apply M.
    + split; [exists r1|exists r2]; (rewrite encode_len_valid; [rewrite <- M; auto|apply S1 || apply S2]).
Qed.
(*EX
Example c09_example : exists rs, ranges_expand (bracketed (B "aж")) = Some rs /\ rr_min rs = 1%Z /\ rr_max rs = 2%Z.
Proof. eexists. split; [vm_compute; reflexivity|]. split; reflexivity. Qed.
XE*)

Lemma unicode_nil_iff rs : rs_fin rs -> (rr_unicode rs = [] <-> forall r, rr_contains rs r = true -> r < 128).
Proof.
  intro F. split.
  - intros U r C. apply fin_contains in C; auto. unfold mem in C. destruct (N.leb_spec r 127); [lia|].
    rewrite U in C. now destruct C as (q & [] & _).
  - intro H. destruct (rr_unicode rs) as [|q l] eqn:U; auto. exfalso. destruct F as (A & W & S).
    assert (Wq : range_ok q) by (rewrite U in W; now inversion W). unfold range_ok in Wq.
    assert (First q < 128); [|lia]. apply H. apply fin_contains; [split; auto|]. unfold mem.
    replace (First q <=? 127) with false by lia. exists q. rewrite U. split; [cbn; auto|]. split; lia.
Qed.

Lemma member_symbol_class body rs x : clean body -> ranges_expand (bracketed body) = Some rs ->
  (member_symbol rs x <-> exists r, scalar r /\ x = encode_rune r /\ in_class body r).
Proof.
  intros C E. destruct (ranges_expand_ok _ _ C E) as (_ & _ & _ & D). unfold member_symbol.
  split; intros (r & S & X & Y); exists r; repeat split; try apply S; auto; now apply D.
Qed.
Lemma index_hyp body rs s : clean body -> ranges_expand (bracketed body) = Some rs ->
  (forall r, in_class body r -> r < 128) \/ clean s -> rr_unicode rs = [] \/ clean s.
Proof.
  intros C E [H|H]; auto. left. destruct (ranges_expand_ok _ _ C E) as (F & _ & _ & D).
  apply unicode_nil_iff; auto. intros r X. apply H. now apply D.
Qed.

Lemma wide_unicode body rs : clean body -> ranges_expand (bracketed body) = Some rs ->
  (exists r, in_class body r /\ 128 <= r) -> null (rr_unicode rs) = false.
Proof.
  intros C E (r & I & L). destruct (ranges_expand_ok _ _ C E) as (F & _ & _ & D).
  destruct (rr_unicode rs) eqn:U; auto. exfalso. assert (r < 128); [|lia]. apply (proj1 (unicode_nil_iff rs F) U). now apply D.
Qed.
Lemma narrow_unicode body rs : clean body -> ranges_expand (bracketed body) = Some rs ->
  ~ (exists r, in_class body r /\ 128 <= r) -> rr_unicode rs = [].
Proof.
  intros C E W. destruct (ranges_expand_ok _ _ C E) as (F & _ & _ & D). apply (unicode_nil_iff rs F).
  intros r X. apply D in X. destruct (N.lt_ge_cases r 128); auto. exfalso. eauto.
Qed.
(** The symbols that the search passes: valid ones that are no members. *)
Lemma passed_iff body rs s x : clean body -> ranges_expand (bracketed body) = Some rs -> In x (symbols s) ->
  (symb rs x = false /\ stop x = false <-> exists r, scalar r /\ x = encode_rune r /\ ~ in_class body r).
Proof.
  intros C E I. destruct (ranges_expand_ok _ _ C E) as (_ & _ & _ & D). split.
  - intros [A T]. destruct (symbols_sane_l s) as (_ & _ & K). destruct (K x I) as [(r & V & ->)|(b & ->)].
    + assert (S : scalar r).
      { split; auto. intros ->. destruct (encode_head RuneError V) as (b & t & Eq & [(L & _)|(L & Lb)]); [unfold RuneError in L; lia|].
        unfold stop in T. rewrite Eq in T. replace (code b <? 128) with false in T by lia. rewrite <- Eq, sym_rune_encode in T by auto. discriminate. }
      exists r. repeat split; auto; try apply S. intro X. rewrite symb_encode in A by auto. apply D in X. congruence.
    + destruct (code b <? 128) eqn:Cb.
      * exists (code b). assert (S : scalar (code b)) by (split; [unfold valid_rune; lia|unfold RuneError; lia]).
        assert (Eb : encode_rune (code b) = [b]).
        { unfold encode_rune. replace (code b <? 128) with true by lia. now rewrite byte_of_code. }
        repeat split; auto; try apply S. intro X. cbn in A. rewrite Cb in A. apply D in X. rewrite <- symb_encode, Eb in X by auto.
        cbn in X. rewrite Cb in X. congruence.
      * unfold stop in T. rewrite Cb in T. rewrite sym_rune_byte in T by lia. discriminate.
  - intros (r & S & -> & X). rewrite symb_encode, stop_encode by auto. split; auto.
    destruct (rr_contains rs r) eqn:Y; auto. exfalso. apply X. now apply D.
Qed.

(** C10: Index finds the first member symbol. *)
Lemma c10_index_l : forall (body : str) (rs : rranges) (s : str), clean body -> ranges_expand (bracketed body) = Some rs ->
  (forall r, in_class body r -> r < 128) \/ clean s ->
  (forall p r n, rr_index rs s = Some (p, r, n) <->
     exists pre post, symbols s = pre ++ encode_rune r :: post /\ p = length (concat pre) /\ n = length (encode_rune r) /\
       scalar r /\ in_class body r /\
       forall r', scalar r' -> in_class body r' -> ~ In (encode_rune r') pre) /\
  (rr_index rs s = None <-> forall r, scalar r -> in_class body r -> ~ In (encode_rune r) (symbols s)).
Proof.
  intros body rs s C E H. apply (index_hyp _ rs) in H; auto. rewrite rr_index_eq by auto.
  assert (MS : forall x, In x (symbols s) -> (symb rs x = true <-> exists r, scalar r /\ x = encode_rune r /\ in_class body r)).
  { intros x I. rewrite (symb_iff rs s) by auto. now apply member_symbol_class. }
  split.
  - intros p r n. rewrite sfind_some. split.
    + intros (pre & x & post & Es & -> & Sx & F & -> & ->). rewrite Es in MS.
      apply MS in Sx as (r & S & -> & I); [|apply in_or_app; cbn; auto].
      exists pre, post. rewrite sym_rune_encode by apply S. repeat split; auto; try apply S.
      intros r' S' I' X. rewrite Forall_forall in F. specialize (F _ X).
      assert (symb rs (encode_rune r') = true); [|congruence]. apply MS; [apply in_or_app; auto|]. eauto.
    + intros (pre & post & Es & -> & -> & S & I & F). exists pre, (encode_rune r), post. rewrite sym_rune_encode by apply S.
      rewrite Es in MS. repeat split; auto.
      * apply MS; [apply in_or_app; cbn; auto|]. eauto.
      * apply Forall_forall. intros y Iy. destruct (symb rs y) eqn:Y; auto. exfalso.
        apply MS in Y as (r' & S' & -> & I'); [|apply in_or_app; auto]. now apply (F r').
  - rewrite sfind_none, Forall_forall. split.
    + intros F r S I X. specialize (F _ X). assert (symb rs (encode_rune r) = true); [|congruence]. apply MS; eauto.
    + intros F x I. destruct (symb rs x) eqn:X; auto. exfalso. apply MS in X as (r & S & -> & J); auto. now apply (F r).
Qed.

(** C10: StartsWith looks at the first symbol (any byte string). *)
Lemma c10_starts_with_l : forall (body : str) (rs : rranges) (s : str), clean body -> ranges_expand (bracketed body) = Some rs ->
  (forall r n, rr_starts_with rs s = (r, Some n) <->
     scalar r /\ in_class body r /\ n = length (encode_rune r) /\ exists post, symbols s = encode_rune r :: post) /\
  (snd (rr_starts_with rs s) = None <->
     forall r post, scalar r -> in_class body r -> symbols s <> encode_rune r :: post).
Proof.
  intros body rs s C E. rewrite starts_with_eq.
  assert (MS : forall x, In x (symbols s) -> (symb rs x = true <-> exists r, scalar r /\ x = encode_rune r /\ in_class body r)).
  { intros x I. rewrite (symb_iff rs s) by auto. now apply member_symbol_class. }
  destruct (symbols s) as [|x l]; cbn [snd].
  - split; [intros r n|]; split; auto; try discriminate. intros (_ & _ & _ & post & X). discriminate.
  - specialize (MS x (or_introl eq_refl)). destruct (symb rs x) eqn:X.
    + destruct (proj1 MS eq_refl) as (r0 & S & -> & I). rewrite sym_rune_encode by apply S. cbn [snd]. split.
      * intros r n. split.
        -- intro Y. injection Y as <- <-. repeat split; auto; try apply S. eauto.
        -- intros (S' & I' & -> & post & Y). injection Y as Y _. apply encode_inj in Y; [|apply S|apply S']. now subst.
      * split; [discriminate|]. intro Y. exfalso. now apply (Y r0 l).
    + assert (N : forall r post, scalar r -> in_class body r -> x :: l <> encode_rune r :: post).
      { intros r post S I Y. injection Y as -> _. assert (false = true); [|discriminate]. apply MS. eauto. }
      cbn [snd]. split; [intros r n; split; [discriminate|]|].
      * intros (S' & I' & _ & post & Y). exfalso. now apply (N r post).
      * split; auto.
Qed.
(*EX
Example c10_example : exists rs, ranges_expand (bracketed (B "xж")) = Some rs /\
  rr_index rs (B "aéжx") = Some (3%nat, 1078, 2%nat) /\ rr_index rs (B "aé") = None /\
  rr_starts_with rs (B "жa") = (1078, Some 2%nat) /\ snd (rr_starts_with rs (B "aж")) = None.
Proof. eexists. split; [vm_compute; reflexivity|]. vm_compute. auto. Qed.
XE*)

(** A class with non-ASCII members is not found behind a malformed byte. *)
Lemma c10_malformed_refuted_l : exists body rs s r, clean body /\ ranges_expand (bracketed body) = Some rs /\
  in_class body r /\ scalar r /\ In (encode_rune r) (symbols s) /\ rr_index rs s = None.
Proof.
  exists (encode_all [233]). eexists. exists (byte_of 255 :: encode_rune 233), 233.
  assert (S : scalar 233) by (split; [reflexivity|discriminate]).
  split; [exists [233]; auto|]. split; [vm_compute; reflexivity|]. split.
  - exists [233], [(233, 233)]. repeat split; auto.
    + apply cp_last; [discriminate|constructor].
    + exists 233, 233. split; [cbn; auto|]. lia.
  - split; auto. split; vm_compute; auto.
Qed.

(** C10: Index of a class with a non-ASCII member, on any string: the first member is found exactly when nothing malformed (and no
    U+FFFD) stands before it. *)
Lemma c10_index_any_l : forall (body : str) (rs : rranges) (s : str), clean body -> ranges_expand (bracketed body) = Some rs ->
  (exists r, in_class body r /\ 128 <= r) ->
  forall p r n, rr_index rs s = Some (p, r, n) <->
    exists pre post, symbols s = pre ++ encode_rune r :: post /\ p = length (concat pre) /\ n = length (encode_rune r) /\
      scalar r /\ in_class body r /\ forall x, In x pre -> exists r', scalar r' /\ x = encode_rune r' /\ ~ in_class body r'.
Proof.
  intros body rs s C E W p r n. pose proof (wide_unicode _ _ C E W) as N. unfold rr_index. rewrite N, rr_index_u_eq by auto.
  assert (MS : forall x, In x (symbols s) -> (symb rs x = true <-> exists r, scalar r /\ x = encode_rune r /\ in_class body r)).
  { intros x I. rewrite (symb_iff rs s) by auto. now apply member_symbol_class. }
  rewrite sidx_some. split.
  - intros (pre & x & post & Es & -> & Sx & F & -> & ->).
    pose proof Sx as Sx'. apply MS in Sx' as (r & S & -> & I); [|rewrite Es; apply in_or_app; cbn; auto].
    exists pre, post. rewrite sym_rune_encode by apply S. repeat split; auto; try apply S.
    intros x Ix. rewrite Forall_forall in F. destruct (F _ Ix) as [A D].
    apply (passed_iff body rs s x C E); auto. rewrite Es. apply in_or_app. auto.
  - intros (pre & post & Es & -> & -> & S & I & F). exists pre, (encode_rune r), post. rewrite sym_rune_encode by apply S.
    repeat split; auto.
    + apply MS; [rewrite Es; apply in_or_app; cbn; auto|]. eauto.
    + apply Forall_forall. intros y Iy. apply (passed_iff body rs s y C E); auto. rewrite Es. apply in_or_app. auto.
Qed.
(*EX
Example c10_any_example : exists rs, ranges_expand (bracketed (B "xж")) = Some rs /\ (exists r, in_class (B "xж") r /\ 128 <= r) /\
  rr_index rs (B "aéж" ++ [byte_of 255] ++ B "x") = Some (3%nat, 1078, 2%nat) /\ rr_index rs (byte_of 255 :: B "x") = None.
Proof.
  eexists. split; [vm_compute; reflexivity|]. split; [|vm_compute; auto]. exists 1078. split; [|lia].
  exists [120; 1078], [(120, 120); (1078, 1078)]. split; [|split; [reflexivity|split]].
  - repeat constructor; discriminate.
  - apply cp_single; [discriminate|intros d t X; injection X as <- _; discriminate|]. apply cp_last; [discriminate|constructor].
  - exists 1078, 1078. split; [cbn; auto|lia].
Qed.
XE*)

(** C11: EndsWith succeeds exactly when the last symbol is a member and returns it; the number it returns is the offset of a
    non-ASCII symbol, but always 1 for an ASCII symbol. *)
Lemma c11_ends_with_l : forall (body : str) (rs : rranges) (s : str), clean body -> ranges_expand (bracketed body) = Some rs ->
  (forall r n, rr_ends_with rs s = (r, Some n) <->
     scalar r /\ in_class body r /\ exists pre, symbols s = pre ++ [encode_rune r] /\
       (128 <= r -> n = length (concat pre)) /\ (r < 128 -> n = 1%nat)) /\
  (snd (rr_ends_with rs s) = None <->
     forall r pre, scalar r -> in_class body r -> symbols s <> pre ++ [encode_rune r]).
Proof.
  intros body rs s C E.
  assert (MS : forall x, In x (symbols s) -> (symb rs x = true <-> exists r, scalar r /\ x = encode_rune r /\ in_class body r)).
  { intros x I. rewrite (symb_iff rs s) by auto. now apply member_symbol_class. }
  destruct (symbols s) as [|x l _] eqn:Es using rev_ind.
  - apply symbols_eq_nil in Es. subst s. cbn. split; [split; [discriminate|]|split; auto].
    + intros (_ & _ & pre & X & _). destruct pre; discriminate.
    + intros _ r pre _ _ X. destruct pre; discriminate.
  - rewrite (ends_with_eq rs s l x Es). specialize (MS x ltac:(apply in_or_app; cbn; auto)).
    assert (Len : (length s - length x)%nat = length (concat l)).
    { rewrite <- (concat_symbols s), Es, concat_app, app_length. cbn. rewrite app_nil_r. lia. }
    destruct (symb rs x) eqn:X; cbn [snd].
    + destruct (proj1 MS eq_refl) as (r0 & S & -> & I). rewrite sym_rune_encode by apply S. split.
      * intros r n. split.
        -- intro Y. injection Y as <- <-. repeat split; auto; try apply S. exists l. split; auto.
           split; intro L; [replace (r0 <? 128) with false by lia; auto|replace (r0 <? 128) with true by lia; auto].
        -- intros (S' & I' & pre & Y & A & D). apply app_inj_tail in Y as [-> Y]. apply encode_inj in Y; [|apply S|apply S']. subst r0.
           destruct (r <? 128) eqn:Z; do 2 f_equal; [symmetry; apply D; lia|rewrite Len; symmetry; apply A; lia].
      * split; [discriminate|]. intro Y. exfalso. now apply (Y r0 l).
    + assert (NN : forall r pre, scalar r -> in_class body r -> l ++ [x] <> pre ++ [encode_rune r]).
      { intros r pre S I Y. apply app_inj_tail in Y as [_ ->]. assert (false = true); [|discriminate]. apply MS. eauto. }
      split; [|split; auto]. split; [discriminate|]. intros (S' & I' & pre & Y & _). exfalso. now apply (NN r pre).
Qed.
(*EX
Example c11_example : exists rs, ranges_expand (bracketed (B "xж")) = Some rs /\
  rr_ends_with rs (B "aéж") = (1078, Some 3%nat) /\ rr_ends_with rs (B "aéx") = (120, Some 1%nat) /\ snd (rr_ends_with rs (B "xa")) = None.
Proof. eexists. split; [vm_compute; reflexivity|]. vm_compute. auto. Qed.
XE*)
(** C11 is false for ASCII members: the returned offset is 1 instead of the start of the last symbol. *)
Lemma c11_ascii_refuted_l : exists body rs s pre, clean body /\ ranges_expand (bracketed body) = Some rs /\
  symbols s = pre ++ [encode_rune 99] /\ in_class body 99 /\
  rr_ends_with rs s = (99, Some 1%nat) /\ length (concat pre) = 2%nat.
Proof.
  assert (S : scalar 99) by (split; [reflexivity|discriminate]).
  exists (encode_all [99]). eexists. exists (B "abc"), [B "a"; B "b"].
  split; [exists [99]; auto|]. split; [vm_compute; reflexivity|]. split; [reflexivity|]. split; [|split; reflexivity].
  exists [99], [(99, 99)]. repeat split; auto.
  - apply cp_last; [discriminate|constructor].
  - exists 99, 99. split; [cbn; auto|lia].
Qed.

(** C12: IndexByte of a class with ASCII members only is Index. *)
Lemma c12_ascii_l : forall (body : str) (rs : rranges) (s : str), clean body -> ranges_expand (bracketed body) = Some rs ->
  (forall r, in_class body r -> r < 128) -> forall fuel, rr_index_byte fuel rs s = Ok (rr_index rs s).
Proof.
  intros body rs s C E W fuel. assert (U : rr_unicode rs = []).
  { apply (narrow_unicode _ _ C E). intros (r & I & L). apply W in I. lia. }
  unfold rr_index_byte, rr_index. rewrite U. reflexivity.
Qed.
(** C12: IndexByte of another class hangs, whatever the number of steps, exactly when it meets an ASCII byte that is no member before
    it meets a member or something malformed; otherwise it returns what Index returns. *)
Lemma c12_exact_l : forall (body : str) (rs : rranges) (s : str), clean body -> ranges_expand (bracketed body) = Some rs ->
  (exists r, in_class body r /\ 128 <= r) ->
  ((exists pre b post, symbols s = pre ++ [b] :: post /\ code b < 128 /\ ~ in_class body (code b) /\
      forall x, In x pre -> exists r, scalar r /\ x = encode_rune r /\ ~ in_class body r) /\
   (forall fuel, rr_index_byte fuel rs s = Fuel)) \/
  (~ (exists pre b post, symbols s = pre ++ [b] :: post /\ code b < 128 /\ ~ in_class body (code b) /\
      forall x, In x pre -> exists r, scalar r /\ x = encode_rune r /\ ~ in_class body r) /\
   forall fuel, (length s < fuel)%nat -> rr_index_byte fuel rs s = Ok (rr_index rs s)).
Proof.
  intros body rs s C E W. pose proof (wide_unicode _ _ C E W) as N. unfold rr_index_byte, rr_index. rewrite N.
  destruct (ranges_expand_ok _ _ C E) as (_ & _ & _ & D).
  assert (ML : forall b, code b < 128 -> (symb rs [b] = true <-> in_class body (code b))).
  { intros b L. rewrite <- D. assert (S : scalar (code b)) by (split; [unfold valid_rune; lia|unfold RuneError; lia]).
    rewrite <- symb_encode by auto. unfold encode_rune. replace (code b <? 128) with true by lia. now rewrite byte_of_code. }
  destruct (sidxb_cases rs (symbols s) 0) as [A G].
  assert (Q : sidxb rs 0 (symbols s) = Fuel <-> exists pre b post, symbols s = pre ++ [b] :: post /\ code b < 128 /\ ~ in_class body (code b) /\
      forall x, In x pre -> exists r, scalar r /\ x = encode_rune r /\ ~ in_class body r).
  { rewrite A. split.
    - intros (pre & x & post & Es & Sx & Nx & F).
      assert (Ix : In x (symbols s)) by (rewrite Es; apply in_or_app; cbn; auto).
      assert (X : exists b, x = [b] /\ code b < 128).
      { destruct (symbols_sane_l s) as (_ & _ & K). destruct (K x Ix) as [(r & V & ->)|(b & ->)].
        - destruct (encode_head r V) as (b & t & Eq & [(L & Lb & ->)|(L & Lb)]).
          + exists b. rewrite Eq. split; auto. lia.
          + rewrite Eq in Nx. cbn in Nx. lia.
        - exists b. cbn in Nx. split; auto. lia. }
      destruct X as (b & -> & L). exists pre, b, post. repeat split; auto.
      + intro I. apply ML in I; auto. congruence.
      + intros x Ipre. rewrite Forall_forall in F. apply (passed_iff body rs s x C E); [rewrite Es; apply in_or_app; auto|]. now apply F.
    - intros (pre & b & post & Es & L & I & F). exists pre, [b], post. repeat split; auto.
      + destruct (symb rs [b]) eqn:X; auto. exfalso. apply I, ML; auto.
      + cbn. lia.
      + apply Forall_forall. intros x Ipre. apply (passed_iff body rs s x C E); [rewrite Es; apply in_or_app; auto|]. now apply F. }
  destruct (sidxb rs 0 (symbols s)) as [v|e| |] eqn:X;
    try (right; split; [intro Y; apply Q in Y; discriminate|]; intros fuel L; rewrite (proj2 (index_byte_u_eq rs s fuel 0%nat) L), X, rr_index_u_eq by auto; apply G; discriminate).
  left. split; [now apply Q|]. intro fuel. destruct (proj1 (index_byte_u_eq rs s fuel 0%nat)) as [Y|Y]; rewrite Y; auto.
Qed.
(*EX
Example c12_example : exists rs, ranges_expand (bracketed (B "xж")) = Some rs /\ (exists r, in_class (B "xж") r /\ 128 <= r) /\
  rr_index_byte 9 rs (B "éжa") = Ok (Some (2%nat, 1078, 2%nat)) /\ rr_index_byte 9 rs (B "éaж") = Fuel.
Proof.
  eexists. split; [vm_compute; reflexivity|]. split; [|vm_compute; auto]. exists 1078. split; [|lia].
  exists [120; 1078], [(120, 120); (1078, 1078)]. split; [|split; [reflexivity|split]].
  - repeat constructor; discriminate.
  - apply cp_single; [discriminate|intros d t X; injection X as <- _; discriminate|]. apply cp_last; [discriminate|constructor].
  - exists 1078, 1078. split; [cbn; auto|lia].
Qed.
XE*)
(** C12 is false in general: IndexByte never returns on an ASCII byte that is not a member. *)
Lemma c12_hang_refuted_l : exists body rs s, clean body /\ ranges_expand (bracketed body) = Some rs /\
  rr_index rs s = Some (1%nat, 233, 2%nat) /\ forall fuel, rr_index_byte fuel rs s = Fuel.
Proof.
  assert (S : scalar 233) by (split; [reflexivity|discriminate]).
  exists (encode_all [233]). eexists. exists ("a"%char :: encode_rune 233).
  split; [exists [233]; auto|]. split; [vm_compute; reflexivity|]. split; [vm_compute; reflexivity|].
  unfold rr_index_byte. cbn [rr_unicode null]. generalize 0%nat. intros i fuel. revert i.
  induction fuel as [|f IH]; intro i; [reflexivity|]. cbn [rr_index_byte_u].
  replace (code "a" <? RuneSelf) with true by reflexivity.
  match goal with |- context [as_contains ?a ?b] => replace (as_contains a b) with false by reflexivity end. apply IH.
Qed.

(** Printing and re-reading a parsed class. *)
Lemma absorb_ends l : forall p q, In q (absorb p l) ->
  In (First q) (map First (p :: l)) /\ In (Last q) (map Last (p :: l)).
Proof.
  induction l as [|x l IH]; intros p q I; cbn [absorb] in I.
  - destruct I as [<-|[]]. cbn. auto.
  - destruct (joins p x).
    + destruct (IH _ _ I) as [A B]. cbn [map In] in *. unfold join in *. destruct (Last p <? Last x); cbn [First Last] in *; tauto.
    + destruct I as [<-|I]; [cbn; auto|]. destruct (IH _ _ I) as [A B]. cbn [map In] in *. tauto.
Qed.
Lemma merge_ends l : Forall (fun r => 0 < Last r) l -> forall q, In q (ranges_merge l) ->
  In (First q) (map First l) /\ In (Last q) (map Last l).
Proof.
  intros P q I. rewrite ranges_merge_eq in I by auto. pose proof (isort_perm range_ltb l) as Pm.
  destruct (isort range_ltb l) as [|p m]; [destruct I|]. apply absorb_ends in I as [A B].
  split; eapply Permutation_in; try (apply Permutation_map, Pm); auto.
Qed.
Lemma pairs_unicode ps : forall rs, map First (rr_unicode (fold_left add_pair ps rs)) =
  map First (rr_unicode rs) ++ map fst (filter (fun p => negb (fst p <=? 127)) ps) /\
  map Last (rr_unicode (fold_left add_pair ps rs)) =
  map Last (rr_unicode rs) ++ map snd (filter (fun p => negb (fst p <=? 127)) ps).
Proof.
  induction ps as [|[a b] ps IH]; intro rs; cbn [fold_left filter map fst snd]; [now rewrite !app_nil_r|].
  destruct (IH (add_pair rs (a, b))) as [-> ->]. unfold add_pair. destruct (a <=? 127) eqn:E; cbn [negb].
  - unfold rr_add_ascii_range. rewrite add_ascii_fold. auto.
  - cbn [rr_unicode rr_set_sizes rr_append map fst snd]. rewrite !map_app, <- !app_assoc. auto.
Qed.
Lemma expand_ends body rs : clean body -> ranges_expand (bracketed body) = Some rs ->
  Forall (fun q => scalar (First q) /\ scalar (Last q)) (rr_unicode rs).
Proof.
  intros (l & S & ->) E. destruct (class_pairs_total l) as [ps P]. rewrite (ranges_expand_pairs l ps S P) in E.
  destruct (forallb good_pairb ps) eqn:G; [|discriminate]. injection E as <-.
  pose proof (pairs_scalar l ps P S) as Sc. destruct (add_pairs_spec ps rr_empty rs_ok_empty G Sc) as [[_ U] _].
  unfold class_of_pairs. cbn [rr_unicode]. apply Forall_forall. intros q I. apply merge_ends in I.
  2:{ eapply Forall_impl; [|exact U]. unfold range_ok. intros; lia. }
  destruct (pairs_unicode ps rr_empty) as [X1 X2]. rewrite X1, X2 in I. cbn [rr_unicode rr_empty map app] in I.
  rewrite Forall_forall in Sc. destruct I as [I1 I2].
  apply in_map_iff in I1 as ([a b] & <- & I1). apply in_map_iff in I2 as ([c d] & <- & I2).
  apply filter_In in I1 as [I1 _]. apply filter_In in I2 as [I2 _]. split; [apply (Sc _ I1)|apply (Sc _ I2)].
Qed.
(** The same for whole parsed classes: printing and re-reading gives back the identical value.  The two
    extra conditions exclude ranges that were merged across a change of encoded length. *)
Lemma c05_class_reread_l : forall (body : str) (rs : rranges), clean body -> ranges_expand (bracketed body) = Some rs ->
  ~ in_class body 0 -> ~ in_class body 127 -> (in_class body 45 -> in_class body 44 /\ in_class body 46) ->
  ~ (in_class body 2047 /\ in_class body 2048) -> ~ (in_class body 65535 /\ in_class body 65536) ->
  ranges_expand (rr_write rs) = Some rs.
Proof.
  intros body rs C E H0 H1 H2 H3 H4. destruct (ranges_expand_ok _ _ C E) as (F & Sz & _ & D).
  destruct (expand_hinv _ _ C E) as (_ & NM & _). pose proof (expand_ends _ _ C E) as Ends.
  assert (K : forall r, r <= 127 -> (as_contains (rr_ascii rs) (byte_of r) = true <-> in_class body r)).
  { intros r L. rewrite <- D. unfold rr_contains. replace (r <=? 127) with true by lia. tauto. }
  apply rr_write_reread; auto.
  - split; [|split].
    + change zero with (byte_of 0). apply not_true_iff_false. rewrite K by lia. auto.
    + apply not_true_iff_false. rewrite K by lia. auto.
    + change "-"%char with (byte_of 45). change ","%char with (byte_of 44). change "."%char with (byte_of 46).
      rewrite !K by lia. auto.
  - rewrite Forall_forall in *. intros q I. destruct (Ends q I) as [S1 S2]. split; auto. split; auto.
    destruct F as (A & W & S). rewrite Forall_forall in W. specialize (W q I) as Wq. unfold range_ok in Wq.
    assert (M : forall r, First q <= r <= Last q -> in_class body r).
    { intros r R. apply D. apply fin_contains; [split; [auto|split; [now apply Forall_forall|auto]]|]. unfold mem. replace (r <=? 127) with false by lia.
      exists q. auto. }
    destruct S1 as [V1 _], S2 as [V2 _]. unfold rune_len. rewrite V1, V2. cbn [negb].
    replace (First q <? 128) with false by lia. replace (Last q <? 128) with false by lia.
    destruct (First q <? 2048) eqn:A1, (Last q <? 2048) eqn:A2; auto; try lia.
    + exfalso. apply H3. split; apply M; lia.
    + destruct (First q <? 65536) eqn:A3, (Last q <? 65536) eqn:A4; auto; try lia.
      exfalso. apply H4. split; apply M; lia.
Qed.
(*EX
Example c05_class_example : exists rs, ranges_expand (B "[z0-9a-yé-ü]") = Some rs /\ rr_write rs = B "[0-9a-zé-ü]" /\
  ranges_expand (rr_write rs) = Some rs.
Proof. eexists. split; [vm_compute; reflexivity|]. split; vm_compute; reflexivity. Qed.
XE*)
(** Without them it is false: the printed text is rejected. *)
Lemma c05_class_reread_refuted_l : exists body rs, clean body /\ ranges_expand (bracketed body) = Some rs /\
  ~ in_class body 0 /\ ~ in_class body 127 /\ ~ in_class body 45 /\ ranges_expand (rr_write rs) = None.
Proof.
  assert (Cl : clean (encode_all [2047; 2048])).
  { exists [2047; 2048]. split; auto. repeat constructor; try reflexivity; discriminate. }
  assert (E : exists rs, ranges_expand (bracketed (encode_all [2047; 2048])) = Some rs /\ rr_contains rs 0 = false /\
    rr_contains rs 127 = false /\ rr_contains rs 45 = false /\ ranges_expand (rr_write rs) = None).
  { eexists. split; [vm_compute; reflexivity|]. vm_compute. auto. }
  destruct E as (rs & E & A & A2 & A3 & A4). exists (encode_all [2047; 2048]), rs.
  destruct (ranges_expand_ok _ _ Cl E) as (_ & _ & _ & D).
  rewrite <- !D, A, A2, A3. split; auto.
Qed.
