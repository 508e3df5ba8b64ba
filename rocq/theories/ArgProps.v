(** * C61: what unparse-arg writes is read back by parse-arg; C62: parse-slotid gives symbols. *)
From Coq Require Import Strings.String Init.Datatypes List.
From Verif Require Import ArgModel UriProofs PrintProofs PrintProofs2 PrintProps.
From Verif Require OidText.
From Coq Require Import Lia ZArith ZifyBool ZifyN ZifyNat.
Import Datatypes ListNotations.
Local Open Scope N_scope.

(** ASCII versions of the library's functions, for the examples. *)
Definition unarg_a := unparse_arg upper_a lower_a no64 0.
Definition arg_a := parse_arg lower_a isspace isdigit false.
Definition slotid_a := parse_slotid lower_a isspace iscntrl false.
Definition readable_a := readable upper_a lower_a isspace 0 false.

(** ** Lemmas *)

Lemma until0_free s : ~ In 0 s -> until0 s = s.
Proof.
  induction s as [|c s IH]; [reflexivity|]. intro H. cbn [until0].
  destruct (c =? 0) eqn:E; [exfalso; apply H; left; lia|]. rewrite IH; [reflexivity|]. intro I. apply H. now right.
Qed.
Lemma all_loop_id : forall n s, (length s <= n)%nat -> all_loop s = s.
Proof.
  induction n as [|n IH]; intros [|c r] H; try reflexivity; [cbn in H; lia|].
  destruct r as [|d r]; [reflexivity|]. cbn [length] in H.
  change (all_loop (c :: d :: r)) with (c :: if d =? 92 then d :: all_loop r else all_loop (d :: r)).
  destruct (d =? 92).
  - now rewrite (IH r) by lia.
  - now rewrite (IH (d :: r)) by (cbn [length]; lia).
Qed.
Lemma strchr_in l c : c <> 0 -> strchr (codes l) c = true <-> In c (codes l).
Proof.
  intro H0. unfold strchr. rewrite (proj2 (N.eqb_neq c 0) H0), Bool.orb_false_r, existsb_exists. split.
  - intros (x & I & E). apply N.eqb_eq in E. now subst.
  - intro I. exists c. split; [exact I|apply N.eqb_refl].
Qed.

Section Arg.
  Variable isupper8 : N -> bool.
  Variable tolower8 : N -> N.
  Variable isspace8 isdigit8 : N -> bool.
  Variable b64 : list N -> list N.
  Variable outfmt : Z.
  Variable stale : bool.
  Notation unparse := (unparse isupper8 tolower8 b64 outfmt).
  Notation kparse := (parse tolower8 isspace8 stale).
  Notation readable := (readable isupper8 tolower8 isspace8 outfmt stale).
  Notation read_arg := (read_arg tolower8 isspace8 isdigit8 stale).
  Notation parse_arg := (parse_arg tolower8 isspace8 isdigit8 stale).
  Hypothesis A : ascii_ok tolower8 isspace8.
  Hypothesis D : forall c, c < 128 -> isdigit8 c = isdigit c.

  Lemma free_unparse v : readable v -> ~ In 0 (unparse v).
  Proof using. clear. intro R. exact (nul_free_unparse _ _ _ _ _ _ (pd v) v (Nat.le_refl _) R). Qed.

  Lemma read_int_arg z rest : ends rest ->
    (exists a, readable a /\ (a = PFix z \/ a = PBig z)) ->
    exists a, (a = PFix z \/ a = PBig z) /\ readable a /\ read_arg (dec_z z ++ rest) = RGot a rest.
  Proof using A D.
    clear b64. intros He (a & R & Ha).
    assert (C := fun c => dec_z_chars z c). assert (Nz := dec_z_numeric z).
    assert (P := parse_number_dec stale z).
    assert (Rd : read_int stale z = NNum a).
    { unfold read_int. change max_fixnum with 2305843009213693951%Z in *.
      destruct Ha as [-> | ->]; cbn [PrintProofs2.readable] in R; change max_fixnum with 2305843009213693951%Z in R.
      - destruct (z =? 0)%Z eqn:E; [apply Z.eqb_eq in E; now subst|].
        now replace ((z <? 2305843009213693951)%Z && (- (2305843009213693951) <? z)%Z) with true by lia.
      - destruct R as (R1 & R2). replace (z =? 0)%Z with false by lia.
        replace ((z <? 2305843009213693951)%Z && (- (2305843009213693951) <? z)%Z) with false by lia.
        destruct stale; [|reflexivity]. specialize (R2 eq_refl).
        now replace (true && (- 9223372036854775808 <=? z)%Z && (z <=? 9223372036854775807)%Z) with false by lia. }
    exists a. split; [exact Ha|]. split; [exact R|].
    assert (Cp : copy_atom (fun c => c) (dec_z z ++ rest) = AGot (dec_z z) rest).
    { apply (copy_plain isupper8 (fun c => c) (fun _ => [])); [|exact He|].
      - intro E. rewrite E in Nz. discriminate.
      - intros c Ic. apply C in Ic. repeat split; try lia. unfold atombreakp, strchr.
        cbv [codes existsb Ascii.N_of_ascii Ascii.N_of_digits N.add N.mul Pos.add Pos.mul Pos.succ].
        unfold isspace. lia. }
    destruct (dec_z z) as [|c r] eqn:E; [discriminate|].
    assert (Cc : c = 45 \/ 48 <= c <= 57) by (apply C; now left).
    unfold ArgModel.read_arg. change ((c :: r) ++ rest) with (c :: (r ++ rest)) in *. cbv beta iota.
    replace (c =? 92) with false by lia. replace ((c =? 58) || (c =? 39)) with false by lia.
    assert (Dc : isdigit8 c = isdigit c) by (apply D; lia). rewrite Dc.
    replace ((c =? 46) || (c =? 43) || (c =? 45) || isdigit c) with true by (unfold isdigit; lia).
    rewrite Cp. unfold parse_atom_text. rewrite Nz, P, Rd. replace (c =? 35) with false by lia.
    destruct Ha; subst; reflexivity.
  Qed.

  (** A colon (or a quote) and a value, then nothing, or a blank. *)
  Lemma read_colon c v rest : c = 58 \/ c = 39 -> readable v ->
    match rest with [] => True | d :: _ => isspace d = true end ->
    read_arg (c :: unparse v ++ rest) = RGot v rest.
  Proof using A.
    clear D. intros Hc R Hr. unfold ArgModel.read_arg. cbv beta iota.
    replace (c =? 92) with false by lia. replace ((c =? 58) || (c =? 39)) with true by lia.
    assert (E : kparse (unparse v ++ rest) = Got v rest).
    { apply parse_ok; [exact A|exact R| |].
      - destruct rest as [|d r]; [exact I|]. unfold ends. unfold atombreakp. rewrite Hr. unfold isspace in Hr. lia.
      - intros _. destruct rest as [|d r]; [exact I|]. unfold closes. cbn. rewrite Hr. reflexivity. }
    destruct (unparse v ++ rest) as [|d r] eqn:Eu.
    - assert (L := unparse_len isupper8 tolower8 isspace8 b64 outfmt stale v R).
      apply app_eq_nil in Eu as (Eu & _). rewrite Eu in L. cbn in L. lia.
    - now rewrite E.
  Qed.
End Arg.

(** ** C61 *)

(** C61: every value other than a string that the reader reads back as printed (see C38) is
    read back by parse-arg from what unparse-arg writes. *)
Theorem C61_values_partial : forall isupper8 tolower8 isspace8 isdigit8 b64 outfmt stale v,
  ascii_ok tolower8 isspace8 -> (forall c, c < 128 -> isdigit8 c = isdigit c) ->
  readable isupper8 tolower8 isspace8 outfmt stale v -> (forall s, v <> PStr s) ->
  parse_arg_prim tolower8 isspace8 isdigit8 stale (unparse_arg isupper8 tolower8 b64 outfmt v) = AVal v.
Proof.
  intros i t sp dg b o st v A D R NS.
  assert (F := free_unparse i t sp b o st v R).
  assert (L := read_colon i t sp dg b o st A 58 v [] (or_introl eq_refl) R I). rewrite app_nil_r in L.
  assert (G : forall s, ~ In 0 s -> read_arg t sp dg st s = RGot v [] -> parse_arg_prim t sp dg st s = AVal v).
  { intros s H0 E. unfold parse_arg_prim, parse_arg. rewrite (until0_free s H0), E. reflexivity. }
  assert (K : unparse_arg i t b o v = 58 :: unparse i t b o v ->
              parse_arg_prim t sp dg st (unparse_arg i t b o v) = AVal v).
  { intros ->. apply G; [intros [H|H]; [discriminate H|exact (F H)]|exact L]. }
  destruct v as [z|z|s|p|c|nm|a| | | |a d|l];
    [clear K|clear K|clear K|now apply K|now apply K|now apply K|clear K|now apply K|now apply K|now apply K|now apply K|now apply K].
  - destruct (read_int_arg i t sp dg o st A D z [] I) as (a & Ha & Ra & E); [eauto|].
    rewrite app_nil_r in E. apply G; [exact F|]. change (unparse_arg i t b o (PFix z)) with (dec_z z). rewrite E.
    destruct Ha as [-> | ->]; [reflexivity|]. exfalso. cbn [readable] in R, Ra. lia.
  - destruct (read_int_arg i t sp dg o st A D z [] I) as (a & Ha & Ra & E); [eauto|].
    rewrite app_nil_r in E. apply G; [exact F|]. change (unparse_arg i t b o (PBig z)) with (dec_z z). rewrite E.
    destruct Ha as [-> | ->]; [|reflexivity]. exfalso. cbn [readable] in R, Ra. lia.
  - now elim (NS s).
  - apply G; [exact F|]. change (unparse_arg i t b o (POid a)) with (print_oid a).
    assert (E := parse_ok i t sp b o st A (POid a) [] R I (fun _ => I)). rewrite app_nil_r in E.
    change (unparse i t b o (POid a)) with (print_oid a) in E.
    assert (H : exists r, print_oid a = 64 :: r) by (unfold print_oid; eexists; reflexivity).
    destruct H as (r & H). rewrite H in E |- *. unfold read_arg. cbv beta iota.
    change (64 =? 92) with false. change ((64 =? 58) || (64 =? 39)) with false.
    rewrite D by lia. change ((64 =? 46) || (64 =? 43) || (64 =? 45) || isdigit 64) with false.
    change ((64 <? 128) && strchr (codes "@{#(""|") 64) with true. cbv iota. rewrite E. reflexivity.
Qed.
Example C61_values_case :
  let v := PPair (PSym (codes "a")) (PPair (POid 4294967298) (PPair (PStr (codes "b c")) PNil)) in
  readable_a v /\ unarg_a v = codes ":(a @1/2 ""b c"")" /\ arg_a (unarg_a v) = AVal v
  /\ arg_a (unarg_a (PFix (-12))) = AVal (PFix (-12)) /\ arg_a (unarg_a (POid 4294967298)) = AVal (POid 4294967298).
Proof.
  cbv zeta. split; [|repeat split; reflexivity]. unfold readable_a. cbn [readable].
  repeat split; try (intros [X _]; discriminate X); try lia.
  - cbn. intros [H|[]]; discriminate.
  - right; right. split.
    + intros c I. cbn in I. repeat (destruct I as [<-|I]; [repeat split; discriminate|]). destruct I.
    + split; [cbn; lia|]. cbn. repeat split; discriminate.
Qed.
Print Assumptions C61_values_partial.

(** C61: every string without NULs is read back, if it begins with no backslash, colon,
    quote, bar, point or sign and with no digit of another script than ASCII's. *)
Theorem C61_strings_partial : forall isupper8 tolower8 isspace8 isdigit8 b64 outfmt stale s,
  ~ In 0 s ->
  match s with
  | [] => True
  | c :: _ => ~ In c (codes "\:'|.+-") /\ (isdigit8 c = true -> isdigit c = true)
  end ->
  parse_arg_prim tolower8 isspace8 isdigit8 stale (unparse_arg isupper8 tolower8 b64 outfmt (PStr s)) = AVal (PStr s).
Proof.
  intros i t sp dg b o st s F H. unfold unparse_arg. rewrite (until0_free s F).
  destruct s as [|c r]; [reflexivity|]. destruct H as (H & Hd).
  assert (C0 : c <> 0) by (intro; subst; apply F; now left).
  destruct (strchr (codes "@{#(""") c || isdigit c) eqn:E.
  - unfold parse_arg_prim, parse_arg. rewrite until0_free; [reflexivity|].
    intros [X|X]; [discriminate X|exact (F X)].
  - unfold parse_arg_prim, parse_arg. rewrite (until0_free _ F). unfold read_arg. cbv beta iota.
    apply Bool.orb_false_iff in E as (E1 & E2). cbn [codes In] in H.
    replace (c =? 92) with false by (cbn in H; lia). replace ((c =? 58) || (c =? 39)) with false by (cbn in H; lia).
    replace ((c =? 46) || (c =? 43) || (c =? 45) || dg c) with false.
    2: { symmetry. rewrite !Bool.orb_false_iff. cbn in H. repeat split; lia. }
    replace ((c <? 128) && strchr (codes "@{#(""|") c) with false.
    2: { symmetry. apply Bool.andb_false_iff. right. unfold strchr in *.
         cbv [codes existsb Ascii.N_of_ascii Ascii.N_of_digits N.add N.mul Pos.add Pos.mul Pos.succ] in *.
         cbn in H. lia. }
    now rewrite (all_loop_id (length r) r (Nat.le_refl _)).
Qed.
Example C61_strings_case :
  unarg_a (PStr []) = codes "\" /\ arg_a (codes "\") = AVal (PStr [])
  /\ unarg_a (PStr (codes "(a) \n")) = codes "\(a) \n" /\ arg_a (codes "\(a) \n") = AVal (PStr (codes "(a) \n"))
  /\ unarg_a (PStr (codes "12")) = codes "\12" /\ arg_a (codes "\12") = AVal (PStr (codes "12"))
  /\ arg_a (codes "12") = AVal (PFix 12) /\ arg_a (codes "a\\ b") = AVal (PStr (codes "a\\ b")).
Proof. repeat split; reflexivity. Qed.
Print Assumptions C61_strings_partial.

(** C61: blanks after a value do not matter; but when more than one character follows them,
    the argument is taken as a string. *)
Theorem C61_leftover : forall isupper8 tolower8 isspace8 isdigit8 b64 outfmt stale v blanks,
  ascii_ok tolower8 isspace8 -> readable isupper8 tolower8 isspace8 outfmt stale v ->
  (forall c, In c blanks -> c <> 0 /\ isspace8 c = true) ->
  let text := 58 :: unparse isupper8 tolower8 b64 outfmt v ++ 32 :: blanks in
  parse_arg_prim tolower8 isspace8 isdigit8 stale text = AVal v
  /\ forall c d more, ~ In 0 (c :: d :: more) -> isspace8 c = false ->
     parse_arg_prim tolower8 isspace8 isdigit8 stale (text ++ c :: d :: more) = AVal (PStr (text ++ c :: d :: more)).
Proof.
  intros i t sp dg b o st v bl A R Hb text.
  assert (S32 : sp 32 = true) by apply A.
  assert (F := free_unparse i t sp b o st v R).
  assert (Fb : ~ In 0 bl) by (intro X; apply Hb in X; destruct X; congruence).
  assert (Ft : forall more, ~ In 0 more -> ~ In 0 (text ++ more)).
  { intros more Hm X. apply in_app_or in X as [X|X]; [|auto]. unfold text in X. cbn [In] in X.
    destruct X as [X|X]; [discriminate|]. apply in_app_or in X as [X|[X|X]]; auto. discriminate. }
  assert (E : forall more, ~ In 0 more -> parse_arg_prim t sp dg st (text ++ more)
            = if at_end sp (32 :: bl ++ more) then AVal v else AVal (PStr (text ++ more))).
  { intros more Hm. unfold parse_arg_prim, parse_arg. rewrite (until0_free _ (Ft more Hm)).
    assert (X : text ++ more = 58 :: unparse i t b o v ++ (32 :: bl ++ more)).
    { unfold text. rewrite <- app_comm_cons, <- app_assoc. reflexivity. }
    rewrite X at 1. now rewrite (read_colon i t sp dg b o st A 58 v (32 :: bl ++ more) (or_introl eq_refl) R eq_refl). }
  assert (Bl : forall more, at_end sp (32 :: bl ++ more) = at_end sp more).
  { intro more. cbn [at_end]. rewrite S32. clear - Hb. induction bl as [|c bl IH]; [reflexivity|].
    cbn [app at_end]. rewrite (proj2 (Hb c (or_introl eq_refl))). apply IH. intros d Hd. apply Hb. now right. }
  split.
  - rewrite <- (app_nil_r text). rewrite (E [] (fun H => H)), Bl. reflexivity.
  - intros c d more Hm Hc. rewrite (E _ Hm), Bl. cbn [at_end]. now rewrite Hc.
Qed.
Example C61_leftover_case :
  arg_a (codes ":foo  ") = AVal (PSym (codes "foo")) /\ arg_a (codes ":foo bar") = AVal (PStr (codes ":foo bar")).
Proof. split; reflexivity. Qed.
Print Assumptions C61_leftover.

(** C61: an argument in which the reader finds an error, and a lone colon or quote, are taken
    as strings. *)
Theorem C61_unreadable : forall tolower8 isspace8 isdigit8 stale c s,
  (forall c, c < 128 -> isdigit8 c = isdigit c) -> ~ In 0 s ->
  (c = 58 \/ c = 39 ->
   parse_arg_prim tolower8 isspace8 isdigit8 stale [c] = AVal (PStr [c]) /\
   (s <> [] -> parse tolower8 isspace8 stale s = Bad \/ parse tolower8 isspace8 stale s = Eox ->
    parse_arg_prim tolower8 isspace8 isdigit8 stale (c :: s) = AVal (PStr (c :: s)))) /\
  (In c (codes "@{#(""|") ->
   parse tolower8 isspace8 stale (c :: s) = Bad \/ parse tolower8 isspace8 stale (c :: s) = Eox ->
   parse_arg_prim tolower8 isspace8 isdigit8 stale (c :: s) = AVal (PStr (c :: s))).
Proof.
  intros t sp dg st c s D F. split.
  - intro Hc. split; [destruct Hc as [-> | ->]; reflexivity|]. intros NE E.
    unfold parse_arg_prim, parse_arg. rewrite until0_free by (intros [X|X]; [lia|auto]).
    unfold read_arg. cbv beta iota. replace (c =? 92) with false by lia.
    replace ((c =? 58) || (c =? 39)) with true by lia. destruct s as [|d r]; [congruence|].
    destruct E as [-> | ->]; reflexivity.
  - intros Hc E. assert (Hl : c < 128 /\ c <> 0) by (cbn in Hc; lia).
    assert (S : strchr (codes "@{#(""|") c = true) by (rewrite strchr_in by tauto; exact Hc).
    unfold parse_arg_prim, parse_arg. rewrite until0_free by (intros [X|X]; [lia|auto]).
    unfold read_arg. cbv beta iota. replace (c =? 92) with false by (cbn in Hc; lia).
    replace ((c =? 58) || (c =? 39)) with false by (cbn in Hc; lia).
    rewrite D by tauto.
    replace ((c =? 46) || (c =? 43) || (c =? 45) || isdigit c) with false by (cbn in Hc; unfold isdigit; lia).
    rewrite S. replace (c <? 128) with true by lia. cbn [andb]. destruct E as [-> | ->]; reflexivity.
Qed.
Example C61_unreadable_case :
  parse lower_a isspace false (codes "(a") = Eox /\ arg_a (codes "(a") = AVal (PStr (codes "(a"))
  /\ arg_a (codes ":(a") = AVal (PStr (codes ":(a")) /\ arg_a (codes ":") = AVal (PStr (codes ":")).
Proof. repeat split; reflexivity. Qed.
Print Assumptions C61_unreadable.

(** C61: with what unparse-arg writes for them, no two values other than strings that are
    read back are confused. *)
Theorem C61_injective_partial : forall isupper8 tolower8 isspace8 b64 outfmt stale v w,
  ascii_ok tolower8 isspace8 ->
  readable isupper8 tolower8 isspace8 outfmt stale v -> readable isupper8 tolower8 isspace8 outfmt stale w ->
  (forall s, v <> PStr s) -> (forall s, w <> PStr s) ->
  unparse_arg isupper8 tolower8 b64 outfmt v = unparse_arg isupper8 tolower8 b64 outfmt w -> v = w.
Proof.
  intros i t sp b o st v w A Rv Rw Nv Nw E.
  assert (Pv := C61_values_partial i t sp isdigit b o st v A (fun _ _ => eq_refl) Rv Nv).
  assert (Pw := C61_values_partial i t sp isdigit b o st w A (fun _ _ => eq_refl) Rw Nw).
  rewrite E, Pw in Pv. now injection Pv.
Qed.
Example C61_injective_case :
  readable_a (PFix 1) /\ readable_a (PVec [PFix 1])
  /\ unarg_a (PFix 1) = codes "1" /\ unarg_a (PVec [PFix 1]) = codes ":#(1)".
Proof. split; [cbn; unfold max_fixnum; lia|]. split; [cbn; unfold max_fixnum; lia|]. split; reflexivity. Qed.
Print Assumptions C61_injective_partial.

(** C61 is false of strings: a backslash in front is lost. *)
Theorem C61_backslash_refuted : forall isupper8 tolower8 isspace8 isdigit8 b64 outfmt stale s, ~ In 0 s ->
  parse_arg_prim tolower8 isspace8 isdigit8 stale (unparse_arg isupper8 tolower8 b64 outfmt (PStr (92 :: s)))
  = AVal (PStr s).
Proof.
  intros i t sp dg b o st s F. assert (F' : ~ In 0 (92 :: s)) by (intros [X|X]; [discriminate|auto]).
  unfold unparse_arg. rewrite (until0_free _ F'). change (strchr (codes "@{#(""") 92 || isdigit 92) with false.
  cbv iota. unfold parse_arg_prim, parse_arg. rewrite (until0_free _ F'). reflexivity.
Qed.
Example C61_backslash_case : arg_a (unarg_a (PStr (codes "\a"))) = AVal (PStr (codes "a")).
Proof. reflexivity. Qed.
Print Assumptions C61_backslash_refuted.

(** C61 is false of strings that look like negative numbers: they are written without a
    backslash and read as numbers. *)
Theorem C61_number_refuted : forall isupper8 tolower8 isspace8 isdigit8 b64 outfmt stale z,
  ascii_ok tolower8 isspace8 -> (forall c, c < 128 -> isdigit8 c = isdigit c) ->
  (- max_fixnum < z < 0)%Z ->
  parse_arg_prim tolower8 isspace8 isdigit8 stale
    (unparse_arg isupper8 tolower8 b64 outfmt (PStr (unparse isupper8 tolower8 b64 outfmt (PFix z)))) = AVal (PFix z).
Proof.
  intros i t sp dg b o st z A D H.
  assert (R : readable i t sp o st (PFix z)) by (cbn [readable]; unfold max_fixnum in *; lia).
  assert (F := free_unparse i t sp b o st _ R). assert (V := C61_values_partial i t sp dg b o st (PFix z) A D R ltac:(discriminate)).
  change (unparse_arg i t b o (PFix z)) with (dec_z z) in V. change (unparse i t b o (PFix z)) with (dec_z z) in F |- *.
  unfold unparse_arg. rewrite (until0_free _ F).
  assert (Hd : exists r, dec_z z = 45 :: r).
  { unfold dec_z. destruct z; try lia. eexists. reflexivity. }
  destruct Hd as (r & Hd). rewrite Hd in V |- *. exact V.
Qed.
Example C61_number_case : arg_a (unarg_a (PStr (codes "-5"))) = AVal (PFix (-5)).
Proof. reflexivity. Qed.
Print Assumptions C61_number_refuted.

(** C61 is false of strings made of a colon or a quote and the printed form of a value; with
    the colon, a symbol, say, and a string are written in the same way. *)
Theorem C61_colon_refuted : forall isupper8 tolower8 isspace8 isdigit8 b64 outfmt stale c v,
  ascii_ok tolower8 isspace8 -> readable isupper8 tolower8 isspace8 outfmt stale v ->
  c = 58 \/ c = 39 ->
  parse_arg_prim tolower8 isspace8 isdigit8 stale
    (unparse_arg isupper8 tolower8 b64 outfmt (PStr (c :: unparse isupper8 tolower8 b64 outfmt v))) = AVal v.
Proof.
  intros i t sp dg b o st c v A R Hc. assert (F := free_unparse i t sp b o st v R).
  assert (F' : ~ In 0 (c :: unparse i t b o v)) by (intros [X|X]; [lia|auto]).
  assert (L := read_colon i t sp dg b o st A c v [] Hc R I). rewrite app_nil_r in L.
  unfold unparse_arg. rewrite (until0_free _ F').
  assert (S : strchr (codes "@{#(""") c || isdigit c = false) by (destruct Hc; subst; reflexivity).
  rewrite S. unfold parse_arg_prim, parse_arg. rewrite (until0_free _ F'), L. reflexivity.
Qed.
Example C61_colon_case :
  arg_a (unarg_a (PStr (codes ":a"))) = AVal (PSym (codes "a")) /\ arg_a (unarg_a (PStr (codes "'12"))) = AVal (PFix 12)
  /\ unarg_a (PStr (codes ":a")) = unarg_a (PSym (codes "a")).
Proof. repeat split; reflexivity. Qed.
Print Assumptions C61_colon_refuted.

(** C61 is false of strings between bars; and after a sign or a point bars are lost and
    text after a blank is, if it is one character. *)
Theorem C61_bar_refuted : exists s, arg_a (unarg_a (PStr s)) = AVal (PSym (codes "A b")).
Proof. exists (codes "|A b|"). reflexivity. Qed.
Print Assumptions C61_bar_refuted.
Theorem C61_sign_refuted : exists s t, arg_a (unarg_a (PStr s)) = AVal (PStr (codes "-x"))
  /\ arg_a (unarg_a (PStr t)) = AVal (PStr (codes "-x")) /\ s <> t /\ s <> codes "-x" /\ t <> codes "-x".
Proof. exists (codes "-|x"), (codes "-x y"). repeat split; try reflexivity; discriminate. Qed.
Print Assumptions C61_sign_refuted.

(** A single character after a value is dropped, whatever it is. *)
Theorem C61_leftover_refuted : forall isupper8 tolower8 isspace8 isdigit8 b64 outfmt stale v c,
  ascii_ok tolower8 isspace8 -> readable isupper8 tolower8 isspace8 outfmt stale v -> c <> 0 ->
  parse_arg_prim tolower8 isspace8 isdigit8 stale
    (58 :: unparse isupper8 tolower8 b64 outfmt v ++ [32; c]) = AVal v.
Proof.
  intros i t sp dg b o st v c A R H. assert (F := free_unparse i t sp b o st v R).
  unfold parse_arg_prim, parse_arg. rewrite until0_free.
  - rewrite (read_colon i t sp dg b o st A 58 v [32; c] (or_introl eq_refl) R eq_refl). cbn [at_end].
    replace (sp 32) with true by (symmetry; apply A). now destruct (sp c).
  - intros [X|X]; [discriminate|]. apply in_app_or in X as [X|[X|[X|[]]]]; auto; discriminate.
Qed.
Example C61_leftover_refuted_case :
  arg_a (codes ":foo b") = AVal (PSym (codes "foo")) /\ arg_a (codes "(a))") = AVal (PPair (PSym (codes "a")) PNil)
  /\ arg_a (codes "12)") = AVal (PFix 12).
Proof. repeat split; reflexivity. Qed.
Print Assumptions C61_leftover_refuted.

(** The empty argument is not the empty string but the end-of-file object. *)
Theorem C61_empty_refuted : forall tolower8 isspace8 isdigit8 stale,
  parse_arg_prim tolower8 isspace8 isdigit8 stale [] = AEof.
Proof. reflexivity. Qed.
Print Assumptions C61_empty_refuted.

(** ** C62 *)

(** C62: kno_parse_slotid makes a symbol of every text without blanks and control
    characters that begins with no special character, even if it looks like a number. *)
Theorem C62_symbol_partial : forall tolower8 isspace8 isctrl8 stale s,
  ~ In 0 s -> (forall c, In c s -> isspace8 c = false /\ isctrl8 c = false) ->
  match s with [] => False | c :: _ => ~ In c (codes "@{#(""|\:'[") end ->
  parse_slotid tolower8 isspace8 isctrl8 stale s = AVal (PSym (map tolower8 s)).
Proof.
  intros t sp ct st s F Hb H. unfold parse_slotid. rewrite (until0_free s F).
  destruct s as [|c r]; [destruct H|].
  assert (C0 : c <> 0) by (intro; subst; apply F; now left).
  assert (E1 : strchr (codes "@\:'#{[") c = false).
  { apply Bool.not_true_is_false. rewrite strchr_in by exact C0. cbn in *. lia. }
  assert (E2 : strchr (codes "@{#(""|") c = false).
  { apply Bool.not_true_is_false. rewrite strchr_in by exact C0. cbn in *. lia. }
  rewrite E1, E2, Bool.andb_false_r.
  replace (match r with [] => false | _ => false end) with false by (destruct r; reflexivity).
  replace (c =? 64) with false by (cbn in H; lia). replace (c =? 92) with false by (cbn in H; lia).
  replace ((c =? 58) || (c =? 39)) with false by (cbn in H; lia).
  replace (existsb (fun c => sp c || ct c) (c :: r)) with false; [reflexivity|].
  symmetry. apply Bool.not_true_is_false. rewrite existsb_exists. intros (x & Ix & X).
  destruct (Hb x Ix) as (X1 & X2). rewrite X1, X2 in X. discriminate.
Qed.
Example C62_symbol_case :
  slotid_a (codes "Name") = AVal (PSym (codes "name")) /\ slotid_a (codes "42") = AVal (PSym (codes "42"))
  /\ slotid_a (codes "a|b;c") = AVal (PSym (codes "a|b;c")).
Proof. repeat split; reflexivity. Qed.
Print Assumptions C62_symbol_partial.

(** C62: text with a blank or a control character that begins with no special character is a
    string. *)
Theorem C62_string_partial : forall tolower8 isspace8 isctrl8 stale s,
  ~ In 0 s -> (exists c, In c s /\ (isspace8 c = true \/ isctrl8 c = true)) ->
  match s with [] => False | c :: _ => ~ In c (codes "@{#(""|\:'[") end ->
  parse_slotid tolower8 isspace8 isctrl8 stale s = AVal (PStr s).
Proof.
  intros t sp ct st s F (x & Ix & Hx) H. unfold parse_slotid. rewrite (until0_free s F).
  destruct s as [|c r]; [destruct H|].
  assert (C0 : c <> 0) by (intro; subst; apply F; now left).
  assert (E1 : strchr (codes "@\:'#{[") c = false).
  { apply Bool.not_true_is_false. rewrite strchr_in by exact C0. cbn in *. lia. }
  assert (E2 : strchr (codes "@{#(""|") c = false).
  { apply Bool.not_true_is_false. rewrite strchr_in by exact C0. cbn in *. lia. }
  rewrite E1, E2, Bool.andb_false_r.
  replace (match r with [] => false | _ => false end) with false by (destruct r; reflexivity).
  replace (c =? 64) with false by (cbn in H; lia). replace (c =? 92) with false by (cbn in H; lia).
  replace ((c =? 58) || (c =? 39)) with false by (cbn in H; lia).
  replace (existsb (fun c => sp c || ct c) (c :: r)) with true; [reflexivity|].
  symmetry. rewrite existsb_exists. exists x. split; [exact Ix|]. destruct Hx as [-> | ->]; [reflexivity|apply Bool.orb_true_r].
Qed.
Example C62_string_case : slotid_a (codes "two words") = AVal (PStr (codes "two words")).
Proof. reflexivity. Qed.
Print Assumptions C62_string_partial.

(** C62: symbols whose names need bars and OIDs are read back as printed, as is, after a
    colon or a quote, every value that the reader reads back. *)
Theorem C62_printed_partial : forall isupper8 tolower8 isspace8 isctrl8 b64 outfmt stale v,
  ascii_ok tolower8 isspace8 -> readable isupper8 tolower8 isspace8 outfmt stale v ->
  let text := unparse isupper8 tolower8 b64 outfmt v in
  parse_slotid tolower8 isspace8 isctrl8 stale (58 :: text) = AVal v /\
  parse_slotid tolower8 isspace8 isctrl8 stale (39 :: text) = AVal v /\
  (match v with POid _ => True | PSym n => barred isupper8 tolower8 n | _ => False end ->
   parse_slotid tolower8 isspace8 isctrl8 stale text = AVal v).
Proof.
  intros i t sp ct b o st v A R text.
  assert (F := free_unparse i t sp b o st v R). fold text in F.
  assert (P : parse t sp st text = Got v []).
  { rewrite <- (app_nil_r text). now apply parse_ok. }
  assert (L := unparse_len i t sp b o st v R). fold text in L.
  assert (Q : forall c, c = 58 \/ c = 39 -> parse_slotid t sp ct st (c :: text) = AVal v).
  { intros c Hc. unfold parse_slotid. rewrite until0_free by (intros [X|X]; [lia|auto]).
    destruct text as [|d r] eqn:Et; [cbn in L; lia|].
    destruct Hc as [-> | ->]; cbv beta iota zeta; rewrite P; reflexivity. }
  split; [now apply Q; left|]. split; [now apply Q; right|]. intro H.
  unfold parse_slotid. rewrite (until0_free _ F).
  destruct v as [| | | | |n|a| | | | |]; try contradiction.
  - apply barred_iff in H. unfold text in P |- *. cbn [PrintModel.unparse] in P |- *.
    unfold emit_symbol_name in *. destruct n as [|c r]; [discriminate|]. rewrite H in P |- *.
    cbv beta iota zeta. destruct (flat_map bar_char (c :: r) ++ [124]) eqn:E; [destruct (flat_map bar_char (c :: r)); discriminate|].
    change ((124 <? 128) && strchr (codes "@{#(""|") 124) with true. cbv iota.
    change (124 =? 64) with false. change (124 =? 92) with false. cbv iota. now rewrite P.
  - unfold text. cbn [PrintModel.unparse].
    assert (X : exists d r, print_oid a = 64 :: d :: r).
    { unfold print_oid. assert (Y := OidText.print_hex_ok (oid_hi a) (OidText.hi_lt a)).
      destruct (print_hex (oid_hi a)); cbn [app]; eauto. }
    destruct X as (d & r & X). assert (Y := OidText.parse_print a [] R I). rewrite app_nil_r in Y.
    rewrite X in Y |- *. change (64 =? 64) with true. cbv iota. now rewrite Y.
Qed.
Example C62_printed_case :
  slotid_a (codes "|A b|") = AVal (PSym (codes "A b")) /\ slotid_a (codes "@1/2") = AVal (POid 4294967298)
  /\ slotid_a (codes "'(1)") = AVal (PPair (PFix 1) PNil).
Proof. repeat split; reflexivity. Qed.
Print Assumptions C62_printed_partial.

(** C62: text after a backslash is a string, and so is a special character alone. *)
Theorem C62_protected : forall tolower8 isspace8 isctrl8 stale s c, ~ In 0 s ->
  (s <> [] -> parse_slotid tolower8 isspace8 isctrl8 stale (92 :: s) = AVal (PStr s)) /\
  (In c (codes "@\:'#{[") -> parse_slotid tolower8 isspace8 isctrl8 stale [c] = AVal (PStr [c])).
Proof.
  intros t sp ct st s c F. split.
  - intro NE. unfold parse_slotid. rewrite until0_free by (intros [X|X]; [lia|auto]).
    destruct s as [|d r]; [congruence|]. reflexivity.
  - intro Hc. cbn in Hc.
    repeat (destruct Hc as [<-|Hc]; [reflexivity|]). destruct Hc.
Qed.
Example C62_protected_case : slotid_a (codes "\:a b") = AVal (PStr (codes ":a b")) /\ slotid_a (codes ":") = AVal (PStr (codes ":")).
Proof. split; reflexivity. Qed.
Print Assumptions C62_protected.

(** C62 is false of the primitive parse-slotid, which calls kno_parse_arg: every text that
    begins with a letter is a string to it. *)
Theorem C62_primitive_refuted : forall tolower8 isspace8 isdigit8 stale c r,
  (forall c, c < 128 -> isdigit8 c = isdigit c) -> isupper c = true \/ islower c = true -> ~ In 0 r ->
  parse_slotid_prim tolower8 isspace8 isdigit8 stale (c :: r) = AVal (PStr (c :: r)).
Proof.
  intros t sp dg st c r D H F.
  assert (Hc : 65 <= c <= 90 \/ 97 <= c <= 122) by (unfold isupper, islower in H; lia).
  assert (X := C61_strings_partial (fun _ => false) t sp dg (fun _ => []) 0 st (c :: r)).
  assert (U : unparse_arg (fun _ => false) t (fun _ => []) 0 (PStr (c :: r)) = c :: r).
  { unfold unparse_arg. rewrite until0_free by (intros [X0|X0]; [lia|auto]).
    replace (strchr (codes "@{#(""") c || isdigit c) with false; [reflexivity|]. unfold strchr, isdigit.
    cbv [codes existsb Ascii.N_of_ascii Ascii.N_of_digits N.add N.mul Pos.add Pos.mul Pos.succ]. lia. }
  rewrite U in X. apply X.
  - intros [X0|X0]; [lia|auto].
  - split; [cbn; lia|]. rewrite D by lia. auto.
Qed.
Example C62_primitive_case : parse_slotid_prim lower_a isspace isdigit false (codes "foo") = AVal (PStr (codes "foo")).
Proof. reflexivity. Qed.
Print Assumptions C62_primitive_refuted.

(** What follows a value is dropped without a word. *)
Theorem C62_rest_refuted : forall isupper8 tolower8 isspace8 isctrl8 b64 outfmt stale v rest,
  ascii_ok tolower8 isspace8 -> readable isupper8 tolower8 isspace8 outfmt stale v -> ~ In 0 rest ->
  parse_slotid tolower8 isspace8 isctrl8 stale (58 :: unparse isupper8 tolower8 b64 outfmt v ++ 32 :: rest) = AVal v.
Proof.
  intros i t sp ct b o st v rest A R H.
  assert (F := free_unparse i t sp b o st v R).
  assert (P : parse t sp st (unparse i t b o v ++ 32 :: rest) = Got v (32 :: rest)).
  { now apply parse_ok. }
  assert (L := unparse_len i t sp b o st v R).
  unfold parse_slotid. rewrite until0_free.
  2: { intros [X|X]; [discriminate|]. apply in_app_or in X as [X|[X|X]]; auto; discriminate. }
  destruct (unparse i t b o v ++ 32 :: rest) as [|d r] eqn:E.
  { destruct (unparse i t b o v); discriminate. }
  cbv beta iota zeta. rewrite P. reflexivity.
Qed.
Example C62_rest_case : slotid_a (codes ":foo and more") = AVal (PSym (codes "foo")).
Proof. reflexivity. Qed.
Print Assumptions C62_rest_refuted.
