(** Searching strings for members of a class. *)
From Verif Require Import Model.Ranges Spec.Symbols Spec.Class Spec.SetSpec.
From Verif Require Import Proof.Utf8P Proof.SymbolsP Proof.SkipP Proof.AsciiSetP Proof.MergeP Proof.RangesP.
From Coq Require Import Lia ZifyBool ZifyN ZifyNat.
Ltac Zify.zify_post_hook ::= Z.div_mod_to_equations.
Local Open Scope N_scope.

Definition sym_rune (x : str) : rune := fst (decode_rune x).
Definition symb (rs : rranges) (x : str) : bool :=
  match x with
  | [] => false
  | b :: _ => if code b <? 128 then as_contains (rr_ascii rs) b
              else negb (sym_rune x =? RuneError) && contains_unicode rs (sym_rune x)
  end.
Definition stop (x : str) : bool := match x with [] => false | b :: _ => negb (code b <? 128) && (sym_rune x =? RuneError) end.

Lemma encode_head r : valid_rune r = true -> exists b t, encode_rune r = b :: t /\
  ((r < 128 /\ code b = r /\ t = []) \/ (128 <= r /\ 128 <= code b)).
Proof.
  intro V. destruct (N.lt_ge_cases r 128) as [L|L].
  - exists (byte_of r), []. rewrite encode_ascii by auto. split; auto. left. rewrite code_byte_of by lia. auto.
  - destruct (encode_rune r) as [|b t] eqn:E; [now apply encode_nonempty in E|]. exists b, t. split; auto. right. split; auto.
    destruct (N.le_gt_cases 128 (code b)) as [|Lb]; auto. exfalso.
    pose proof (decode_encode r [] V) as D. rewrite app_nil_r, E in D. unfold decode_rune in D.
    replace (code b <? 128) with true in D by lia. injection D as D _. lia.
Qed.
Lemma sym_rune_encode r : valid_rune r = true -> sym_rune (encode_rune r) = r.
Proof. intro V. unfold sym_rune. rewrite <- (app_nil_r (encode_rune r)), decode_encode by auto. reflexivity. Qed.
Lemma sym_rune_byte b : 128 <= code b -> sym_rune [b] = RuneError.
Proof.
  intro L. unfold sym_rune, decode_rune. replace (code b <? 128) with false by lia.
  destruct ((code b <? 194) || (244 <? code b)); auto. destruct (code b <? 224); auto. destruct (code b <? 240); auto.
Qed.
Lemma encode_inj r r' : valid_rune r = true -> valid_rune r' = true -> encode_rune r = encode_rune r' -> r = r'.
Proof. intros V V' E. rewrite <- (sym_rune_encode r), <- (sym_rune_encode r') by auto. now rewrite E. Qed.

(** A symbol that encodes a member. *)
Definition member_symbol (rs : rranges) (x : str) : Prop :=
  exists r, scalar r /\ x = encode_rune r /\ rr_contains rs r = true.

Lemma symb_encode rs r : scalar r -> symb rs (encode_rune r) = rr_contains rs r.
Proof.
  intros [V NR]. destruct (encode_head r V) as (b & t & E & [(L & C & T)|(L & C)]).
  - unfold symb. rewrite E. subst t. replace (code b <? 128) with true by lia.
    unfold rr_contains. replace (r <=? 127) with true by lia. subst r. now rewrite byte_of_code.
  - unfold symb. rewrite E, <- E. replace (code b <? 128) with false by lia. rewrite sym_rune_encode by auto.
    rewrite (neq_eqb r RuneError) by auto. unfold rr_contains. now replace (r <=? 127) with false by lia.
Qed.
Lemma symb_error rs : symb rs (encode_rune RuneError) = false.
Proof.
  destruct (encode_head RuneError eq_refl) as (b & t & E & [(L & _)|(L & C)]); [discriminate|].
  unfold symb. rewrite E, <- E. replace (code b <? 128) with false by lia. rewrite sym_rune_encode by reflexivity.
  now rewrite N.eqb_refl.
Qed.
Lemma symb_iff rs s x : In x (symbols s) -> (symb rs x = true <-> member_symbol rs x).
Proof.
  intro I. destruct (symbol_cases s x I) as [(r & V & ->)|(b & -> & L)].
  - destruct (N.eq_dec r RuneError) as [->|NR].
    + rewrite symb_error. split; [discriminate|]. intros (r' & [V' NR'] & E & _).
      apply encode_inj in E; auto.
    + rewrite symb_encode by (split; auto). split.
      * intro C. exists r. repeat split; auto.
      * intros (r' & [V' NR'] & E & C). apply encode_inj in E; auto. now subst.
  - split.
    + unfold symb. replace (code b <? 128) with false by lia. rewrite sym_rune_byte by auto. discriminate.
    + intros (r & [V NR] & E & C). exfalso. destruct (encode_head r V) as (b' & t & E' & [(L' & C' & T)|(L' & C')]).
      * rewrite E' in E. injection E as -> _. lia.
      * rewrite E' in E. injection E as -> <-. rewrite <- (sym_rune_encode r), E', sym_rune_byte in NR by auto. auto.
Qed.

Lemma head_symbol s : s <> [] -> exists x t, symbols s = x :: symbols t /\ s = x ++ t /\ x = firstn (snd (decode_rune s)) s /\
  t = skipn (snd (decode_rune s)) s /\ decode_rune x = decode_rune s /\ x <> [] /\ length x = snd (decode_rune s) /\ nth 0 x zero = nth 0 s zero.
Proof.
  intro NE. exists (firstn (snd (decode_rune s)) s), (skipn (snd (decode_rune s)) s). rewrite symbols_cons by auto.
  pose proof (decode_size_le s). pose proof (decode_size_pos s NE).
  assert (L : length (firstn (snd (decode_rune s)) s) = snd (decode_rune s)) by (rewrite firstn_length; lia).
  assert (N0 : firstn (snd (decode_rune s)) s <> []) by (intro E; rewrite E in L; cbn in L; lia).
  repeat split; auto.
  - symmetry. apply firstn_skipn.
  - rewrite <- (firstn_skipn (snd (decode_rune s)) s) at 3. apply decode_firstn; auto. now rewrite firstn_skipn.
  - destruct s; [congruence|]. destruct (snd (decode_rune (a :: s))); [lia|reflexivity].
Qed.

(** Index with the scan that stops at malformed symbols. *)
Fixpoint sidx (rs : rranges) (i : nat) (l : list str) : option (nat * rune * nat) :=
  match l with
  | [] => None
  | x :: t => if symb rs x then Some (i, sym_rune x, length x)
              else if stop x then None else sidx rs (i + length x) t
  end.
Lemma decode_ascii b t : code b < 128 -> decode_rune (b :: t) = (code b, 1%nat).
Proof. intro L. unfold decode_rune. now replace (code b <? 128) with true by lia. Qed.

Lemma rr_index_u_eq rs (s : str) : forall fuel i, (length s <= fuel)%nat -> rr_index_u fuel rs i s = sidx rs i (symbols s).
Proof.
  induction s as [|s NE IH] using symbols_ind; intros fuel i L.
  - destruct fuel; reflexivity.
  - destruct (head_symbol s NE) as (x & t & Es & Ea & Ex & Et & Ed & Nx & Lx & H0). rewrite Es. rewrite <- Et in IH.
    pose proof (decode_size_pos s NE) as P.
    destruct fuel as [|f]; [destruct s; [congruence|cbn in L; lia]|].
    assert (Lt : (length t <= f)%nat) by (rewrite Ea, app_length in L; lia).
    destruct s as [|b s0]; [congruence|]. destruct x as [|b' x0]; [congruence|]. cbn in H0. subst b'.
    cbn [rr_index_u sidx]. unfold RuneSelf. unfold symb, stop, sym_rune. rewrite Ed.
    destruct (code b <? 128) eqn:C.
    + rewrite decode_ascii in Ed, Lx, Et |- * by lia. cbn [snd] in *. assert (x0 = []) as -> by (destruct x0; auto; cbn in Lx; lia).
      cbn [skipn] in Et. subst t. destruct (as_contains (rr_ascii rs) b); auto. cbn [negb andb length].
      rewrite IH by auto. f_equal. lia.
    + destruct (decode_rune (b :: s0)) as [c n]. cbn [fst snd negb andb] in *. destruct (N.eqb_spec c RuneError) as [->|NR]; cbn [negb andb]; auto.
      rewrite Lx. destruct (contains_unicode rs c); auto. rewrite <- Et. apply IH. exact Lt.
Qed.

(** The first member symbol. *)
Fixpoint sfind (rs : rranges) (i : nat) (l : list str) : option (nat * rune * nat) :=
  match l with
  | [] => None
  | x :: t => if symb rs x then Some (i, sym_rune x, length x) else sfind rs (i + length x) t
  end.
Lemma sidx_clean rs l : forall i, Forall (fun x => stop x = false) l -> sidx rs i l = sfind rs i l.
Proof.
  induction l as [|x l IH]; intros i F; cbn [sidx sfind]; auto. inversion_clear F as [|? ? S F'].
  rewrite S. now rewrite IH.
Qed.
Lemma stop_encode r : scalar r -> stop (encode_rune r) = false.
Proof.
  intros [V NR]. unfold stop. rewrite sym_rune_encode by auto. rewrite (neq_eqb r RuneError) by auto.
  destruct (encode_rune r); auto. now rewrite andb_false_r.
Qed.
Lemma clean_no_stop s : clean s -> Forall (fun x => stop x = false) (symbols s).
Proof.
  intro C. apply clean_symbols in C. eapply Forall_impl; [|exact C]. cbn. intros x (r & S & ->). now apply stop_encode.
Qed.

Lemma conts_high x : forallb is_cont x = true -> forall a, find_byte (as_contains a) x = None.
Proof.
  intros F a. apply find_byte_none. intros c I. rewrite forallb_forall in F. specialize (F c I). unfold is_cont in F.
  rewrite contains_bit. now replace (code c <? 128) with false by lia.
Qed.
Lemma find_byte_app p a b : find_byte p (a ++ b) =
  match find_byte p a with Some i => Some i | None => option_map (Nat.add (length a)) (find_byte p b) end.
Proof.
  induction a as [|c a IH]; cbn [app find_byte length].
  - destruct (find_byte p b); reflexivity.
  - destruct (p c); auto. rewrite IH. destruct (find_byte p a); auto. destruct (find_byte p b); reflexivity.
Qed.
Lemma ascii_index_eq rs : rr_unicode rs = [] -> forall (s : str) i,
  (match as_index (rr_ascii rs) s with Some k => Some (i + k, code (nth k s zero), 1)%nat | None => None end)
  = sfind rs i (symbols s).
Proof.
  intros U s. induction s as [|s NE IH] using symbols_ind; intro i; [reflexivity|].
  destruct (head_symbol s NE) as (x & t & Es & Ea & Ex & Et & Ed & Nx & Lx & H0). rewrite Es. rewrite <- Et in IH.
  pose proof (symbol_conts s x) as SC. rewrite Es in SC. specialize (SC (or_introl eq_refl)).
  cbn [sfind]. destruct x as [|b x0]; [congruence|]. cbn [skipn] in SC. unfold symb, contains_unicode. rewrite U, andb_false_r.
  rewrite <- IH. rewrite Ea. unfold as_index. rewrite find_byte_app. cbn [find_byte].
  destruct (N.ltb_spec (code b) 128) as [C|C].
  - assert (x0 = []) as ->.
    { rewrite Ea in Lx. cbn [app] in Lx. rewrite decode_ascii in Lx by auto. cbn in Lx. destruct x0; auto. discriminate. }
    destruct (as_contains (rr_ascii rs) b).
    + cbn [nth app]. unfold sym_rune. rewrite decode_ascii by auto. rewrite Nat.add_0_r. reflexivity.
    + cbn [find_byte option_map length app]. destruct (find_byte _ t); cbn [option_map]; auto.
      cbn [nth Nat.add]. do 3 f_equal; lia.
  - assert (as_contains (rr_ascii rs) b = false) as -> by (rewrite contains_bit; now replace (code b <? 128) with false by lia).
    rewrite conts_high by auto. cbn [option_map]. destruct (find_byte _ t); cbn [option_map]; auto.
    rewrite app_nth2 by lia. replace (length (b :: x0) + n - length (b :: x0))%nat with n by lia. do 3 f_equal; lia.
Qed.
Lemma rr_index_eq rs s : rr_unicode rs = [] \/ clean s -> rr_index rs s = sfind rs 0 (symbols s).
Proof.
  intro H. unfold rr_index. destruct (null (rr_unicode rs)) eqn:N.
  - assert (U : rr_unicode rs = []) by (destruct (rr_unicode rs); auto; discriminate).
    rewrite <- (ascii_index_eq rs U). reflexivity.
  - destruct H as [H|H]; [rewrite H in N; discriminate|]. rewrite rr_index_u_eq by lia. apply sidx_clean, clean_no_stop, H.
Qed.

Lemma sfind_some rs l : forall i p r n, sfind rs i l = Some (p, r, n) <->
  exists pre x post, l = pre ++ x :: post /\ p = (i + length (concat pre))%nat /\ symb rs x = true /\
    Forall (fun y => symb rs y = false) pre /\ r = sym_rune x /\ n = length x.
Proof.
  induction l as [|x l IH]; intros i p r n; cbn [sfind].
  - split; [discriminate|]. intros ([|? ?] & ? & ? & ? & _); discriminate.
  - destruct (symb rs x) eqn:S.
    + split.
      * intro E. injection E as <- <- <-. exists [], x, l. cbn. repeat split; auto; lia.
      * intros ([|y pre] & x' & post & E & P & Sx & F & -> & ->).
        -- injection E as <- <-. cbn in P. subst p. do 3 f_equal; lia.
        -- injection E as <- _. inversion_clear F. congruence.
    + rewrite IH. split; intros (pre & x' & post & E & P & Sx & F & Er & En).
      * exists (x :: pre), x', post. subst l. cbn [concat]. rewrite app_length. repeat split; auto; lia.
      * destruct pre as [|y pre]; [injection E as -> _; congruence|]. injection E as <- ->.
        exists pre, x', post. cbn [concat] in P. rewrite app_length in P. inversion_clear F. repeat split; auto; lia.
Qed.
Lemma sfind_none rs l : forall i, sfind rs i l = None <-> Forall (fun y => symb rs y = false) l.
Proof.
  induction l as [|x l IH]; intro i; cbn [sfind].
  - split; auto.
  - destruct (symb rs x) eqn:S; [split; [discriminate|intro F; inversion_clear F; congruence]|].
    rewrite IH. split; auto. intro F. now inversion_clear F.
Qed.
Lemma starts_with_eq rs s : rr_starts_with rs s =
  match symbols s with
  | [] => (RuneError, None)
  | x :: _ => if symb rs x then (sym_rune x, Some (length x)) else (RuneError, None)
  end.
Proof.
  destruct s as [|b s0]; [reflexivity|]. assert (NE : b :: s0 <> []) by discriminate.
  destruct (head_symbol (b :: s0) NE) as (x & t & Es & Ea & Ex & Et & Ed & Nx & Lx & H0). rewrite Es.
  destruct x as [|b' x0]; [congruence|]. cbn in H0. subst b'. unfold rr_starts_with, symb, sym_rune, RuneSelf. rewrite Ed.
  destruct (code b <? 128) eqn:C.
  - rewrite Lx, decode_ascii by lia. reflexivity.
  - destruct (decode_rune (b :: s0)) as [c n]. cbn [fst snd] in *. now rewrite Lx.
Qed.

(** EndsWith. *)
Lemma ends_with_eq rs s l x : symbols s = l ++ [x] -> rr_ends_with rs s =
  if symb rs x then (sym_rune x, Some (if sym_rune x <? 128 then 1%nat else (length s - length x)%nat)) else (RuneError, None).
Proof.
  intro E. destruct (decode_last_symbol s l x E) as [D L].
  assert (I : In x (symbols s)) by (rewrite E; apply in_or_app; cbn; auto).
  unfold rr_ends_with. destruct s as [|b s0]; [destruct l; discriminate|]. rewrite D.
  unfold symb. destruct (symbol_cases _ _ I) as [(r & V & Ex)|(c & Ex & Lc)].
  - destruct (encode_head r V) as (h & t & Eh & HH). assert (R : sym_rune x = r) by (subst x; now apply sym_rune_encode).
    unfold sym_rune in R |- *. destruct (decode_rune x) as [r' n]. cbn [fst snd] in R, L |- *. subst r' n.
    rewrite Ex, Eh. unfold RuneSelf. destruct HH as [(Lr & C & T)|(Lr & C)].
    + replace (r =? RuneError) with false by (unfold RuneError; lia). replace (r <? 128) with true by lia.
      replace (code h <? 128) with true by lia. rewrite <- C, byte_of_code. now replace (code h <? 128) with true by lia.
    + replace (code h <? 128) with false by lia. rewrite <- Eh. 
      destruct (N.eqb_spec r RuneError); cbn [negb andb]; auto. replace (r <? 128) with false by lia. reflexivity.
  - pose proof (sym_rune_byte c Lc) as R. subst x. unfold sym_rune in R. destruct (decode_rune [c]) as [r' n] eqn:Dc. cbn [fst] in R. subst r'.
    replace (code c <? 128) with false by lia. unfold sym_rune. rewrite Dc. reflexivity.
Qed.

Lemma sidx_some rs l : forall i p r n, sidx rs i l = Some (p, r, n) <->
  exists pre x post, l = pre ++ x :: post /\ p = (i + length (concat pre))%nat /\ symb rs x = true /\
    Forall (fun y => symb rs y = false /\ stop y = false) pre /\ r = sym_rune x /\ n = length x.
Proof.
  induction l as [|x l IH]; intros i p r n; cbn [sidx].
  - split; [discriminate|]. intros ([|? ?] & ? & ? & ? & _); discriminate.
  - destruct (symb rs x) eqn:S.
    + split.
      * intro E. injection E as <- <- <-. exists [], x, l. cbn. repeat split; auto; lia.
      * intros ([|y pre] & x' & post & E & P & Sx & F & -> & ->).
        -- injection E as <- <-. cbn in P. subst p. do 3 f_equal; lia.
        -- injection E as <- _. inversion_clear F as [|? ? [A _] _]. congruence.
    + destruct (stop x) eqn:T.
      * split; [discriminate|]. intros ([|y pre] & x' & post & E & P & Sx & F & Er & En).
        -- injection E as -> _. congruence.
        -- injection E as <- _. inversion_clear F as [|? ? [_ A] _]. congruence.
      * rewrite IH. split; intros (pre & x' & post & E & P & Sx & F & Er & En).
        -- exists (x :: pre), x', post. subst l. cbn [concat]. rewrite app_length. repeat split; auto; lia.
        -- destruct pre as [|y pre]; [injection E as -> _; congruence|]. injection E as <- ->.
           exists pre, x', post. cbn [concat] in P. rewrite app_length in P. inversion_clear F. repeat split; auto; lia.
Qed.

(** IndexByte on symbols: like [sidx], but an ASCII byte that is no member is never passed. *)
Definition narrow (x : str) : bool := match x with [] => false | b :: _ => code b <? 128 end.
Fixpoint sidxb (rs : rranges) (i : nat) (l : list str) : res (option (nat * rune * nat)) :=
  match l with
  | [] => Ok None
  | x :: t => if symb rs x then Ok (Some (i, sym_rune x, length x))
              else if narrow x then Fuel else if stop x then Ok None else sidxb rs (i + length x) t
  end.
Lemma index_byte_u_eq rs (s : str) : forall fuel i,
  (rr_index_byte_u fuel rs i s = Fuel \/ rr_index_byte_u fuel rs i s = sidxb rs i (symbols s)) /\
  ((length s < fuel)%nat -> rr_index_byte_u fuel rs i s = sidxb rs i (symbols s)).
Proof.
  induction s as [|s NE IH] using symbols_ind; intros fuel i.
  - destruct fuel; cbn; split; auto. lia.
  - destruct (head_symbol s NE) as (x & t & Es & Ea & Ex & Et & Ed & Nx & Lx & H0). rewrite Es. rewrite <- Et in IH.
    pose proof (decode_size_pos s NE) as P.
    destruct fuel as [|f]; [cbn; split; [auto|lia]|].
    assert (Lt : (length s < S f -> length t < f)%nat) by (intro L; rewrite Ea, app_length in L; lia).
    destruct s as [|b s0]; [congruence|]. destruct x as [|b' x0]; [congruence|]. cbn in H0. subst b'.
    cbn [rr_index_byte_u sidxb narrow]. unfold RuneSelf. unfold symb, stop, sym_rune. rewrite Ed.
    destruct (code b <? 128) eqn:C.
    + rewrite decode_ascii in Ed, Lx, Et |- * by lia. cbn [snd fst] in *. assert (x0 = []) as -> by (destruct x0; auto; cbn in Lx; lia).
      destruct (as_contains (rr_ascii rs) b) eqn:A; auto.
      assert (K : forall g, rr_index_byte_u g rs i (b :: s0) = Fuel).
      { induction g as [|g IHg]; auto. cbn [rr_index_byte_u]. unfold RuneSelf. now rewrite C, A. }
      rewrite K. auto.
    + destruct (decode_rune (b :: s0)) as [c n]. cbn [fst snd negb andb] in *.
      destruct (N.eqb_spec c RuneError) as [->|NR]; cbn [negb andb]; auto.
      rewrite Lx. destruct (contains_unicode rs c); auto. rewrite <- Et.
      destruct (IH f (i + n)%nat) as [A D]. split; auto.
Qed.
Lemma sidxb_cases rs l : forall i,
  (sidxb rs i l = Fuel <-> exists pre x post, l = pre ++ x :: post /\ symb rs x = false /\ narrow x = true /\
     Forall (fun y => symb rs y = false /\ stop y = false) pre) /\
  (sidxb rs i l <> Fuel -> sidxb rs i l = Ok (sidx rs i l)).
Proof.
  induction l as [|x l IH]; intro i; cbn [sidx sidxb].
  - split; auto. split; [discriminate|]. intros ([|? ?] & ? & ? & ? & _); discriminate.
  - destruct (symb rs x) eqn:S.
    + split; auto. split; [discriminate|]. intros ([|y pre] & x' & post & E & Sx & Nx & F).
      * injection E as <- <-. congruence.
      * injection E as <- _. inversion_clear F as [|? ? [A _] _]. congruence.
    + destruct (narrow x) eqn:N.
      * split; [|congruence]. split; auto. intros _. exists [], x, l. auto.
      * destruct (stop x) eqn:T.
        -- split; auto. split; [discriminate|]. intros ([|y pre] & x' & post & E & Sx & Nx & F).
           ++ injection E as <- <-. congruence.
           ++ injection E as <- _. inversion_clear F as [|? ? [_ A] _]. congruence.
        -- destruct (IH (i + length x)%nat) as [A D]. split; auto. rewrite A.
           split; intros (pre & x' & post & E & Sx & Nx & F).
           ++ exists (x :: pre), x', post. subst l. repeat split; auto.
           ++ destruct pre as [|y pre]; [injection E as -> _; congruence|]. injection E as <- ->.
              exists pre, x', post. inversion_clear F. auto.
Qed.
