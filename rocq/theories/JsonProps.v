(** * C59: what ->json writes is read back by jsonparse; C60: jsonparse ends. *)
From Coq Require Import Strings.String Init.Datatypes List.
From Verif Require Import JsonModel UriProofs PrintProofs PrintProofs2 PrintProps JsonProofs JsonProofs2.
From Coq Require Import Lia ZArith ZifyBool ZifyN ZifyNat Permutation.
Import Datatypes ListNotations.
Local Open Scope N_scope.

(** ASCII versions of the library's functions, for the examples. *)
Definition jtext_a := jtext upper_a lower_a no64 0 (fun l => l).
Definition json_a := json_parse lower_a isspace isalnum isdigit iscntrl false.
Lemma lib_a : lib_ok lower_a isspace isalnum isdigit.
Proof. split; [exact ascii_a|]. repeat split. Qed.
Lemma order_a : order_ok (fun l => l).
Proof. intro l. apply Permutation_refl. Qed.

(** C59: with the same flags, jsonparse gives back every value that ->json has written, up
    to the order of the entries of tables, and reads no further than its text, provided:
    strings have characters of the basic plane without NUL, and with colonized output begin
    with a printable ASCII character other than a colon; symbols are plain names and
    appear, like packets, characters and the empty list, in colonized output only; keys of
    tables are integers, plain lower case names, and strings that contain a space (when
    names are converted to symbols) or any of the values (when they are not).  The
    library's functions on characters are assumed for ASCII characters only. *)
Theorem C59_roundtrip_partial : forall isupper8 tolower8 isspace8 isalnum8 isdigit8 isctrl8 b64 outfmt stale order,
  lib_ok tolower8 isspace8 isalnum8 isdigit8 -> order_ok order ->
  forall arg v text rest n,
  to_json isupper8 tolower8 b64 outfmt order arg v = Some text ->
  jgood isupper8 tolower8 isspace8 isalnum8 isctrl8 outfmt stale (get_json_flags arg) v ->
  jends isalnum8 rest -> (length text < n)%nat ->
  exists v', same v v' /\
    jsonparse tolower8 isspace8 isalnum8 isdigit8 isctrl8 stale n arg (text ++ rest) = JGot v' rest.
Proof.
  intros iu tl isp ia idg ic b o st ord L O arg v text rest n E G He Hn.
  unfold to_json in E. destruct (256 <=? get_json_flags arg); [discriminate|]. injection E as <-.
  unfold jsonparse.
  exact (reads_good iu tl isp ia idg ic b o st ord L O (get_json_flags arg) (jd v) v (Nat.le_refl _) G n Hn rest He).
Qed.
Definition js_value : jv :=
  JTab [(PSym (codes "name"), JA (PStr [97; 34; 92; 10; 955]));
        (PStr (codes "two words"), JVec [JA (PFix (-7)); JA PTrue; JVec []]);
        (PFix 3, JTab [(PSym (codes "x"), JA (PBig 9999999999999999999))])].
Definition js_text : list N :=
  codes "{""name"": ""a\""\\\n\" ++ codes "u03bb"",""two words"": [-7,true,[]],3: {""x"": 9999999999999999999}}".
Example C59_roundtrip_case :
  to_json upper_a lower_a no64 0 (fun l => l) FDefault js_value
    = Some js_text
  /\ jgood upper_a lower_a isspace isalnum iscntrl 0 false 8 js_value
  /\ jsonparse lower_a isspace isalnum isdigit iscntrl false 80 FDefault
       js_text
     = JGot js_value [].
Proof.
  split; [vm_compute; reflexivity|]. split; [|vm_compute; reflexivity].
  cbn [js_value jgood agood kgood]. change (slotids 8) with true. change (idkey 8) with false. change (colonize 8) with false.
  cbv iota.
  assert (Nin : forall c l, forallb (fun x => negb (x =? c)) l = true -> ~ In c l).
  { intros c l H I. rewrite forallb_forall in H. specialize (H c I). lia. }
  assert (P : forall (P : N -> Prop) l, Forall P l -> forall c, In c l -> P c) by (intros Q l H; apply Forall_forall; exact H).
  assert (B : forall s, forallb (fun c => (0 <? c) && (c <? 65536)) s = true -> bmp s).
  { intros s H c Hc. rewrite forallb_forall in H. specialize (H c Hc). lia. }
  split; [repeat constructor; cbn; intuition discriminate|].
  split; [split; [apply P; repeat constructor|apply Nin; reflexivity]|].
  split; [split; [apply B; reflexivity|discriminate]|].
  split.
  { split; [apply P; repeat constructor; discriminate|]. split; [cbn; tauto|apply Nin; reflexivity]. }
  split; [repeat split; try exact I; lia|].
  split; [cbn; unfold max_fixnum; lia|].
  split; [|exact I].
  split; [repeat constructor; intros []|].
  split; [split; [apply P; repeat constructor|apply Nin; reflexivity]|].
  split; [|exact I]. cbn. unfold max_fixnum. split; [lia|discriminate].
Qed.
Print Assumptions C59_roundtrip_partial.

(** C59: values with the same text are the same value, up to the order of the entries of
    tables (for the values of the previous theorem). *)
Theorem C59_injective_partial : forall isupper8 tolower8 isspace8 isalnum8 isdigit8 isctrl8 b64 outfmt stale order,
  lib_ok tolower8 isspace8 isalnum8 isdigit8 -> order_ok order ->
  forall arg v1 v2 text,
  to_json isupper8 tolower8 b64 outfmt order arg v1 = Some text ->
  to_json isupper8 tolower8 b64 outfmt order arg v2 = Some text ->
  jgood isupper8 tolower8 isspace8 isalnum8 isctrl8 outfmt stale (get_json_flags arg) v1 ->
  jgood isupper8 tolower8 isspace8 isalnum8 isctrl8 outfmt stale (get_json_flags arg) v2 ->
  exists v, same v1 v /\ same v2 v.
Proof.
  intros iu tl isp ia idg ic b o st ord L O arg v1 v2 text E1 E2 G1 G2.
  destruct (C59_roundtrip_partial iu tl isp ia idg ic b o st ord L O arg v1 text [] _ E1 G1 I (Nat.lt_succ_diag_r _))
    as (v & S1 & P1).
  destruct (C59_roundtrip_partial iu tl isp ia idg ic b o st ord L O arg v2 text [] _ E2 G2 I (Nat.lt_succ_diag_r _))
    as (v' & S2 & P2).
  rewrite P1 in P2. injection P2 as <-. eauto.
Qed.
Example C59_injective_case :
  jtext_a 8 (JTab [(PFix 1, JA PTrue); (PFix 2, JA PFalse)]) = codes "{1: true,2: false}"
  /\ jtext upper_a lower_a no64 0 (@rev _) 8 (JTab [(PFix 2, JA PFalse); (PFix 1, JA PTrue)])
     = codes "{1: true,2: false}".
Proof. split; reflexivity. Qed.
Print Assumptions C59_injective_partial.

(** What is meant by the same value: vectors agree element by element, and tables have
    the same value for each key. *)
Theorem C59_same : forall v v', same v v' ->
  match v, v' with
  | JA a, JA b => a = b
  | JVec l, JVec l' => length l = length l' /\
      forall i x x', nth_error l i = Some x -> nth_error l' i = Some x' -> same x x'
  | JTab t, JTab t' => length t = length t' /\
      (forall k x, In (k, x) t -> exists x', In (k, x') t' /\ same x x') /\
      (forall k x', In (k, x') t' -> exists x, In (k, x) t /\ same x x')
  | _, _ => False
  end.
Proof.
  intros v v' [a|l l' F|t t' p P F].
  - reflexivity.
  - split; [induction F; cbn; congruence|]. intros i. revert l l' F.
    induction i as [|i IH]; intros l l' F x x'; inversion F as [|a b la lb R F']; subst; cbn [nth_error]; try discriminate.
    + intros X Y. injection X as <-. injection Y as <-. exact R.
    + apply IH. exact F'.
  - assert (Lp : length t = length t').
    { rewrite (Permutation_length P). clear P. induction F; cbn; congruence. }
    split; [exact Lp|]. split; intros k x I.
    + apply (Permutation_in _ P) in I. clear P Lp. revert I. induction F as [|[k1 x1] [k2 x2] la lb [R1 R2] F' IH]; intros [].
      * injection H as -> ->. cbn in *. subst. exists x2. split; [now left|exact R2].
      * destruct (IH H) as (y & Hy & S). exists y. split; [now right|exact S].
    + assert (G : exists x0, In (k, x0) p /\ same x0 x).
      { clear P Lp. revert I. induction F as [|[k1 x1] [k2 x2] la lb [R1 R2] F' IH]; intros [].
        - injection H as -> ->. cbn in *. subst. exists x1. split; [now left|exact R2].
        - destruct (IH H) as (y & Hy & S). exists y. split; [now right|exact S]. }
      destruct G as (x0 & I0 & S0). exists x0. split; [|exact S0].
      exact (Permutation_in _ (Permutation_sym P) I0).
Qed.
Example C59_same_case :
  same (JTab [(PFix 1, JA PTrue); (PFix 2, JVec [JA PFalse])])
       (JTab [(PFix 2, JVec [JA PFalse]); (PFix 1, JA PTrue)]).
Proof.
  apply same_tab with (l := [(PFix 2, JVec [JA PFalse]); (PFix 1, JA PTrue)]); [constructor|].
  repeat constructor.
Qed.
Print Assumptions C59_same.

(** As stated false: a character outside the basic plane is written with five digits, of
    which four are read. *)
Theorem C59_astral_refuted : exists s text s',
  jtext_a 8 (JA (PStr s)) = text /\ json_a 80 8 text = JGot (JA (PStr s')) [] /\ s' <> s.
Proof. exists [128512]. do 2 eexists. split; [reflexivity|]. split; [reflexivity|discriminate]. Qed.
Example C59_astral_case : json_a 80 8 (jtext_a 8 (JA (PStr [128512]))) = JGot (JA (PStr [8032; 48])) [].
Proof. reflexivity. Qed.
Print Assumptions C59_astral_refuted.

(** With the flags of #t a string that begins with a colon comes back with a backslash. *)
Theorem C59_colon_refuted : forall s, bmp s ->
  exists text, to_json upper_a lower_a no64 0 (fun l => l) FTrue (JA (PStr (58 :: s))) = Some text /\
  forall n, jsonparse lower_a isspace isalnum isdigit iscntrl false (S n) FTrue text
            = JGot (JA (PStr (92 :: 58 :: s))) [].
Proof.
  intros s B. eexists. split; [reflexivity|]. intro n. unfold jsonparse.
  change (get_json_flags FTrue) with 24. cbn [jtext atext]. change (colonize 24 && (58 =? 58)) with true. cbv iota.
  unfold json_escape. rewrite until0_id.
  2: { intros [H|H]; [discriminate|]. apply B in H. lia. }
  cbn [app json_parse jskip]. change (isspace 34) with false. cbn [N.eqb Pos.eqb].
  unfold json_string. change (colonize 24) with true. cbn [N.eqb Pos.eqb andb].
  change (flat_map jesc (58 :: s)) with (58 :: flat_map jesc s). cbn [app].
  match goal with |- context [jstr_loop ?k ?q ?x ?a] =>
    replace (jstr_loop k q x a) with (Some (92 :: 58 :: s, @nil N)) end.
  - reflexivity.
  - symmetry. apply (jstr_ok (58 :: s)) with (acc := [92]) (rest := []).
    + intros c [<-|H]; [lia|auto].
    + change (flat_map jesc (58 :: s)) with (58 :: flat_map jesc s). cbn [length]. rewrite app_length. lia.
Qed.
Example C59_colon_case : jtext_a 24 (JA (PStr (codes ":x"))) = codes """\\:x"""
  /\ json_a 9 24 (codes """\\:x""") = JGot (JA (PStr (codes "\:x"))) [].
Proof. split; reflexivity. Qed.
Print Assumptions C59_colon_refuted.

(** With the flags of #t, text between quotes that begins with a backslash and a colon is a
    string that begins with a colon, while text that begins with a colon stands for the
    value that the reader finds after it. *)
Theorem C59_protected_colon : forall s n, (forall c, In c s -> 32 <= c < 127 /\ c <> 34 /\ c <> 92) ->
  jsonparse lower_a isspace isalnum isdigit iscntrl false (S n) FTrue (34 :: 92 :: 58 :: s ++ [34])
  = JGot (JA (PStr (58 :: s))) [] /\
  forall v rest, parse lower_a isspace false s = Got v rest ->
  jsonparse lower_a isspace isalnum isdigit iscntrl false (S n) FTrue (34 :: 58 :: s ++ [34]) = JGot (inj v) [].
Proof.
  intros s n H.
  assert (F : flat_map jesc s = s).
  { clear - H. induction s as [|c s IH]; [reflexivity|]. cbn [flat_map]. rewrite IH by (intros; apply H; now right).
    specialize (H c (or_introl eq_refl)). unfold jesc, iscntrl.
    replace (c =? 10) with false by lia. replace (c =? 8) with false by lia.
    replace (c =? 12) with false by lia. replace (c =? 13) with false by lia.
    replace (c =? 9) with false by lia. replace (c =? 34) with false by lia.
    replace (c =? 92) with false by lia. replace (128 <=? c) with false by lia.
    now replace ((c <? 32) || (c =? 127)) with false by lia. }
  assert (B : bmp s) by (intros c Hc; specialize (H c Hc); lia).
  unfold jsonparse. change (get_json_flags FTrue) with 24. split.
  - cbn [json_parse jskip]. change (isspace 34) with false. cbn [N.eqb Pos.eqb].
    unfold json_string. change (colonize 24) with true. cbn [N.eqb Pos.eqb andb].
    match goal with |- context [jstr_loop ?k ?q ?x ?a] =>
      replace (jstr_loop k q x a) with (Some (58 :: s, @nil N)) end; [reflexivity|].
    symmetry. rewrite <- F at 1 2. apply (jstr_ok s) with (acc := [58]) (rest := []); [exact B|].
    rewrite F, app_length. cbn. lia.
  - intros v rest E. cbn [json_parse jskip]. change (isspace 34) with false. cbn [N.eqb Pos.eqb].
    rewrite <- F. rewrite (json_colon_ok lower_a isspace false 24 s [] eq_refl B), E. reflexivity.
Qed.
Example C59_protected_colon_case :
  json_a 9 24 (codes """\:x""") = JGot (JA (PStr (codes ":x"))) []
  /\ json_a 9 24 (codes """:x""") = JGot (JA (PSym (codes "x"))) [].
Proof. split; reflexivity. Qed.
Print Assumptions C59_protected_colon.

(** With the flags of #t a string that begins with a character above ASCII, or a control
    character, comes back with the letter of its escape in its place. *)
Theorem C59_first_refuted : forall c s, 128 <= c < 65536 -> bmp s ->
  exists text, to_json upper_a lower_a no64 0 (fun l => l) FTrue (JA (PStr (c :: s))) = Some text /\
  forall n, jsonparse lower_a isspace isalnum isdigit iscntrl false (S n) FTrue text
            = JGot (JA (PStr (117 :: hex4 c ++ s))) [].
Proof.
  intros c s Hc B. eexists. split; [reflexivity|]. intro n. unfold jsonparse.
  change (get_json_flags FTrue) with 24. cbn [jtext atext]. change (colonize 24) with true.
  replace (c =? 58) with false by lia. cbn [andb app].
  unfold json_escape. rewrite until0_id.
  2: { intros [H|H]; [lia|]. apply B in H. lia. }
  cbn [json_parse jskip]. change (isspace 34) with false. cbn [N.eqb Pos.eqb].
  cbn [flat_map].
  assert (E : jesc c = 92 :: 117 :: hex4 c).
  { unfold jesc. replace (c =? 10) with false by lia. replace (c =? 8) with false by lia.
    replace (c =? 12) with false by lia. replace (c =? 13) with false by lia.
    replace (c =? 9) with false by lia. replace (c =? 34) with false by lia.
    replace (c =? 92) with false by lia. replace (128 <=? c) with true by lia. reflexivity. }
  rewrite E. cbn [app]. unfold json_string. change (colonize 24) with true. cbn [N.eqb Pos.eqb andb].
  destruct (hex4_val c ltac:(lia)) as (a1 & a2 & a3 & a4 & -> & H1 & H2 & H3 & H4).
  assert (G : forall a x k t acc, hexval a x -> jstr_loop (S k) 34 (a :: t) acc = jstr_loop k 34 t (a :: acc)).
  { intros a x k t acc Ha. cbn [jstr_loop]. unfold hexval in Ha.
    replace (a =? 34) with false by lia. now replace (a =? 92) with false by lia. }
  cbn [app length]. rewrite (G _ _ _ _ _ H1), (G _ _ _ _ _ H2), (G _ _ _ _ _ H3), (G _ _ _ _ _ H4).
  rewrite (jstr_ok s B) by (rewrite app_length; lia). cbn [rev app].
  reflexivity.
Qed.
Example C59_first_case : json_a 20 24 (jtext_a 24 (JA (PStr [233; 116])))
    = JGot (JA (PStr (codes "u00e9t"))) []
  /\ json_a 20 24 (jtext_a 24 (JA (PStr [10; 116]))) = JGot (JA (PStr (codes "nt"))) []
  /\ json_a 20 8 (jtext_a 8 (JA (PStr [233; 116]))) = JGot (JA (PStr [233; 116])) [].
Proof. repeat split; reflexivity. Qed.
Print Assumptions C59_first_refuted.

(** Choices come back as vectors, and so does the empty choice. *)
Theorem C59_choice_refuted :
  (forall n, json_a (2 + n) 8 (jtext_a 8 JEmpty) = JGot (JVec []) []) /\
  exists text, jtext_a 8 (JCh [JA (PFix 1); JA (PFix 2)]) = text /\
    json_a 80 8 text = JGot (JVec [JA (PFix 1); JA (PFix 2)]) [].
Proof. split; [reflexivity|]. eexists. split; reflexivity. Qed.
Print Assumptions C59_choice_refuted.

(** A pair is written as a table with one entry: lists come back as nested tables. *)
Theorem C59_list_refuted : exists v text,
  v = PPair (PFix 1) (PPair (PFix 2) PNil) /\ jtext_a 24 (JA v) = text /\
  json_a 80 24 text = JGot (JTab [(PFix 1, JTab [(PFix 2, JA PNil)])]) [].
Proof. do 2 eexists. split; [reflexivity|]. split; [reflexivity|]. vm_compute. reflexivity. Qed.
Example C59_list_case :
  jtext_a 24 (JA (PPair (PFix 1) (PPair (PFix 2) PNil))) = codes "{1: {2: "":()""}}".
Proof. reflexivity. Qed.
Print Assumptions C59_list_refuted.

(** With the default flags a symbol comes back as a string. *)
Theorem C59_symbol_refuted : exists text,
  jtext_a 8 (JA (PSym (codes "foo"))) = text /\
  json_a 80 8 text = JGot (JA (PStr (codes ":foo"))) [].
Proof. eexists. split; reflexivity. Qed.
Print Assumptions C59_symbol_refuted.

(** Keys: strings come back as symbols; names with capitals in lower case; two keys may
    come back as one key twice. *)
Theorem C59_keys_refuted :
  json_a 80 8 (jtext_a 8 (JTab [(PStr (codes "a"), JA PTrue)])) = JGot (JTab [(PSym (codes "a"), JA PTrue)]) []
  /\ json_a 80 8 (jtext_a 8 (JTab [(PSym (codes "aB"), JA PTrue); (PSym (codes "ab"), JA PFalse)]))
     = JGot (JTab [(PSym (codes "ab"), JA PTrue); (PSym (codes "ab"), JA PFalse)]) []
  /\ json_a 80 8 (jtext_a 8 (JTab [(PStr [97; 10; 98], JA PTrue)])) = JGot (JTab [(PSym (codes "anb"), JA PTrue)]) [].
Proof. repeat split; reflexivity. Qed.
Print Assumptions C59_keys_refuted.

(** When names are converted to symbols, a table whose first key begins with one of
    @ : ' # braces or brackets is never read as a table. *)
Theorem C59_special_key_refuted : forall tolower8 isspace8 isalnum8 isdigit8 isctrl8 stale,
  lib_ok tolower8 isspace8 isalnum8 isdigit8 ->
  forall n fl c t kvs rest, slotids fl = true -> In c [64; 58; 39; 35; 123; 91] ->
  json_parse tolower8 isspace8 isalnum8 isdigit8 isctrl8 stale n fl (123 :: 34 :: c :: t) <> JGot (JTab kvs) rest.
Proof.
  intros tl isp ia idg ic st L n fl c t kvs rest Hs Hc. destruct n as [|n]; [discriminate|].
  cbn [json_parse]. rewrite (jskip_ascii _ _ _ _ L) by lia. cbn [N.eqb Pos.eqb].
  cbn [jtab_loop]. rewrite (jskip_ascii _ _ _ _ L) by lia. cbn [N.eqb Pos.eqb].
  unfold json_key. rewrite (jskip_ascii _ _ _ _ L) by lia. cbn [N.eqb Pos.eqb andb orb]. rewrite Hs.
  unfold json_slotid.
  assert (E : (c =? 92) = false /\ slot_special c = true).
  { cbn [In] in Hc. intuition (subst; reflexivity). }
  destruct E as [-> ->].
  destruct (parser tl isp st (S (2 * length t)) t) as [v r| | |]; try discriminate.
  destruct (jskip isp r) as [|r'|d r'] eqn:Ej; try discriminate.
  destruct (d =? 34) eqn:Ed; [|discriminate]. apply N.eqb_eq in Ed. subst d.
  rewrite (jskip_ascii _ _ _ _ L) by lia. cbn [N.eqb Pos.eqb]. discriminate.
Qed.
Example C59_special_key_case :
  json_a 80 8 (jtext_a 8 (JTab [(PSym (codes ":a"), JA PTrue)])) = JGot JEod (codes """: true}").
Proof. vm_compute. reflexivity. Qed.
Print Assumptions C59_special_key_refuted.

(** Options that ask for strictness are refused by ->json, whatever the value; given as a
    number, the flag is replaced by the default flags. *)
Theorem C59_strict_refuted : forall isupper8 tolower8 b64 outfmt order a b c d e f v,
  to_json isupper8 tolower8 b64 outfmt order (FOpts a b c d e f true) v = None /\
  get_json_flags (FFix 256) = 8.
Proof.
  intros. split; [|reflexivity]. unfold to_json.
  replace (256 <=? get_json_flags (FOpts a b c d e f true)) with true; [reflexivity|].
  symmetry. destruct a, b, c, d, e, f; reflexivity.
Qed.
Print Assumptions C59_strict_refuted.

(** ** C60 *)

(** C60: the value or error that jsonparse comes to does not depend on the bound that the
    model puts on its recursion. *)
Theorem C60_bound : forall tolower8 isspace8 isalnum8 isdigit8 isctrl8 stale n m fl s,
  json_parse tolower8 isspace8 isalnum8 isdigit8 isctrl8 stale n fl s <> JFuel -> (n <= m)%nat ->
  json_parse tolower8 isspace8 isalnum8 isdigit8 isctrl8 stale m fl s
  = json_parse tolower8 isspace8 isalnum8 isdigit8 isctrl8 stale n fl s.
Proof.
  intros tl isp ia idg ic st.
  assert (V : forall p q, (forall s, p s <> JFuel -> q s = p s) ->
    forall k k' s acc, (k <= k')%nat -> jvec_loop isp p k s acc <> JFuel ->
    jvec_loop isp q k' s acc = jvec_loop isp p k s acc).
  { intros p q H. induction k as [|k IH]; intros k' s acc Hk F; [now elim F|].
    destruct k' as [|k']; [lia|]. cbn [jvec_loop] in *.
    assert (El : forall r, match p r with JGot v r0 => jvec_loop isp p k r0 (v :: acc) | e => e end <> JFuel ->
      match q r with JGot v r0 => jvec_loop isp q k' r0 (v :: acc) | e => e end
      = match p r with JGot v r0 => jvec_loop isp p k r0 (v :: acc) | e => e end).
    { intros r F'. assert (Hr : p r <> JFuel) by (intro X; rewrite X in F'; now elim F').
      rewrite (H r Hr). destruct (p r); try reflexivity. apply IH; [lia|exact F']. }
    destruct (jskip isp s) as [|r|c r]; [reflexivity|now apply El|].
    destruct (c =? 93); [reflexivity|]. destruct (c =? 44); [apply IH; [lia|exact F]|now apply El]. }
  assert (T : forall p q fl, (forall s, p s <> JFuel -> q s = p s) ->
    forall k k' s acc, (k <= k')%nat -> jtab_loop tl isp ia idg ic st p fl k s acc <> JFuel ->
    jtab_loop tl isp ia idg ic st q fl k' s acc = jtab_loop tl isp ia idg ic st p fl k s acc).
  { intros p q fl H. induction k as [|k IH]; intros k' s acc Hk F; [now elim F|].
    destruct k' as [|k']; [lia|]. cbn [jtab_loop] in *.
    assert (El : forall r key,
      match p r with JGot v r'' => jtab_loop tl isp ia idg ic st p fl k r'' ((key, v) :: acc) | e => e end <> JFuel ->
      match q r with JGot v r'' => jtab_loop tl isp ia idg ic st q fl k' r'' ((key, v) :: acc) | e => e end
      = match p r with JGot v r'' => jtab_loop tl isp ia idg ic st p fl k r'' ((key, v) :: acc) | e => e end).
    { intros r key F'. assert (Hr : p r <> JFuel) by (intro X; rewrite X in F'; now elim F').
      rewrite (H r Hr). destruct (p r); try reflexivity. apply IH; [lia|exact F']. }
    destruct (jskip isp s) as [|r|c r]; [reflexivity| |].
    - destruct (json_key tl isp ia idg ic st fl r) as [key r0| |]; try reflexivity.
      destruct (jskip isp r0) as [|r1|d r1]; try reflexivity. destruct (d =? 58); [now apply El|reflexivity].
    - destruct (c =? 125); [reflexivity|]. destruct (c =? 44); [apply IH; [lia|exact F]|].
      destruct (json_key tl isp ia idg ic st fl (c :: r)) as [key r0| |]; try reflexivity.
      destruct (jskip isp r0) as [|r1|d r1]; try reflexivity. destruct (d =? 58); [now apply El|reflexivity]. }
  induction n as [|n IH]; intros m fl s F Hm; [now elim F|].
  destruct m as [|m]; [lia|]. cbn [json_parse] in *.
  destruct (jskip isp s) as [|r|c r]; [reflexivity|reflexivity|].
  destruct (c =? 91); [|destruct (c =? 123); [|reflexivity]].
  - apply V; [|lia|exact F]. intros s' F'. apply IH; [exact F'|lia].
  - apply T; [|lia|exact F]. intros s' F'. apply IH; [exact F'|lia].
Qed.
Example C60_bound_case : json_a 3 8 (codes "[1,[2]]") = JFuel
  /\ json_a 5 8 (codes "[1,[2]]") = JGot (JVec [JA (PFix 1); JVec [JA (PFix 2)]]) [].
Proof. split; reflexivity. Qed.
Print Assumptions C60_bound.

(** As stated false: jsonparse of a vector does not end when it comes to a character that
    begins no value, such as a percent sign, a colon or a brace. *)
Theorem C60_ends_refuted : forall tolower8 isspace8 isalnum8 isdigit8 isctrl8 stale,
  lib_ok tolower8 isspace8 isalnum8 isdigit8 ->
  forall c t n fl, In c (codes "}:%)(;&*/<=>?\^`|~!#$@") ->
  json_parse tolower8 isspace8 isalnum8 isdigit8 isctrl8 stale n fl (91 :: c :: t) = JFuel.
Proof.
  intros tl isp ia idg ic st L c t n fl Hc. destruct n as [|n]; [reflexivity|].
  assert (C : 32 < c < 128 /\ c <> 91 /\ c <> 93 /\ c <> 44 /\ c <> 123 /\ c <> 34 /\ c <> 39 /\ atomchar ia c = false).
  { split; [|split; [|split; [|split; [|split; [|split; [|split]]]]]].
    8: { rewrite (atomchar_ascii _ _ _ _ L).
         - revert c Hc. apply Forall_forall. repeat constructor.
         - revert c Hc. apply Forall_forall. repeat constructor. }
    all: revert c Hc; apply Forall_forall; repeat constructor; discriminate. }
  destruct C as (Hr & N1 & N2 & N3 & N4 & N5 & N6 & A).
  assert (P : forall m, json_parse tl isp ia idg ic st m fl (c :: t) = JFuel \/
    exists v, json_parse tl isp ia idg ic st m fl (c :: t) = JGot v (c :: t)).
  { intros [|m]; [now left|]. right. cbn [json_parse]. rewrite (jskip_ascii _ _ _ _ L) by lia.
    apply N.eqb_neq in N1, N4, N5, N6. rewrite N1, N4, N5, N6.
    unfold json_atom. cbn [take_jatom]. rewrite A.
    destruct (list_eq_dec N.eq_dec [] (codes "true")) as [X|_]; [discriminate|].
    destruct (list_eq_dec N.eq_dec [] (codes "false")) as [X|_]; [discriminate|].
    destruct (list_eq_dec N.eq_dec [] (codes "null")) as [X|_]; [discriminate|].
    eexists. reflexivity. }
  cbn [json_parse]. rewrite (jskip_ascii _ _ _ _ L) by lia. cbn [N.eqb Pos.eqb].
  generalize (@nil jv). generalize (S n) as k. apply N.eqb_neq in N2, N3.
  induction k as [|k IH]; intro acc; [reflexivity|]. cbn [jvec_loop].
  rewrite (jskip_ascii _ _ _ _ L) by lia. rewrite N2, N3.
  destruct (P n) as [-> |(v & ->)]; [reflexivity|]. apply IH.
Qed.
Example C60_ends_case : forall n, json_a n 8 (codes "[}") = JFuel.
Proof. intro n. apply (C60_ends_refuted _ _ _ _ iscntrl false lib_a). cbn. tauto. Qed.
Print Assumptions C60_ends_refuted.

(** Text that is no JSON is read without an error: a string without its closing quote, no
    text at all, a value followed by others, missing and extra commas; a key without a
    colon gives the end-of-data object, also as an element of a vector. *)
Theorem C60_lenient_refuted :
  json_a 9 8 (codes """abc") = JGot (JA (PStr (codes "abc"))) []
  /\ json_a 9 8 [] = JGot (JA (PStr [])) []
  /\ json_a 9 8 (codes "1 2") = JGot (JA (PFix 1)) (codes " 2")
  /\ json_a 9 8 (codes "[,1 2,,3,]") = JGot (JVec [JA (PFix 1); JA (PFix 2); JA (PFix 3)]) []
  /\ json_a 9 8 (codes "{""a"" 1}") = JGot JEod (codes "1}")
  /\ json_a 9 8 (codes "[{""a"", 1]") = JGot (JVec [JEod; JA (PFix 1)]) [].
Proof. repeat split; vm_compute; reflexivity. Qed.
Print Assumptions C60_lenient_refuted.

(** C60: jsonparse ends on every text without NULs, braces, and characters that begin no
    value.  Missing: texts with braces (the claim is false of texts in which a character
    that begins no value comes where an element of a vector is expected). *)
Theorem C60_ends_partial : forall tolower8 isspace8 isalnum8 isdigit8 isctrl8 stale,
  lib_ok tolower8 isspace8 isalnum8 isdigit8 -> forall s,
  (forall c, In c s -> 0 < c /\ c <> 123 /\
     (isspace8 c = true \/ atomchar isalnum8 c = true \/ In c [91; 93; 44; 34; 39])) ->
  forall fl n, (length s < n)%nat ->
  json_parse tolower8 isspace8 isalnum8 isdigit8 isctrl8 stale n fl s <> JFuel.
Proof.
  intros tl isp ia idg ic st L.
  assert (A1 : atomchar ia 92 = false) by (rewrite (atomchar_ascii _ _ _ _ L) by lia; reflexivity).
  assert (A2 : isp 92 = false) by (destruct L as (_ & _ & H & _); rewrite H by lia; reflexivity).
  set (ok := fun s : list N => forall c, In c s -> 0 < c /\ c <> 123 /\
     (isp c = true \/ atomchar ia c = true \/ In c [91; 93; 44; 34; 39])).
  set (shorter := fun r s : list N => incl r s /\ (length r < length s)%nat).
  assert (SK : forall s, ok s -> match jskip isp s with
      | SEnd => True | SNul _ => False
      | SAt c r => shorter r s /\ ok (c :: r) /\ (length (c :: r) <= length s)%nat /\ incl (c :: r) s /\ isp c = false end).
  { induction s as [|c s IH]; intro O; cbn [jskip]; [exact I|].
    assert (C := O c (or_introl eq_refl)). replace (c =? 0) with false by lia.
    destruct (isp c) eqn:E.
    - specialize (IH (fun d H => O d (or_intror H))). destruct (jskip isp s) as [|?|d r]; auto.
      destruct IH as ((I1 & L1) & O1 & L2 & I2 & S1). cbn [length] in *.
      refine (conj (conj _ _) (conj O1 (conj _ (conj _ S1)))); cbn [length]; try lia; now apply incl_tl.
    - refine (conj (conj _ _) (conj O (conj _ (conj _ E)))); cbn [length]; try lia; auto using incl_refl, incl_tl. }
  assert (TA : forall s t r, take_jatom ia s = (t, r) -> incl r s /\ (length r <= length s)%nat).
  { induction s as [|c s IH]; cbn [take_jatom]; intros t r E; [injection E as <- <-; split; auto using incl_refl|].
    destruct (atomchar ia c); [|injection E as <- <-; split; auto using incl_refl].
    destruct (take_jatom ia s) as [t' r'] eqn:E'. injection E as <- <-. destruct (IH _ _ eq_refl) as [A B].
    split; [now apply incl_tl|cbn; lia]. }
  assert (JA1 : forall s, json_atom tl isp ia st s <> JFuel /\
    forall v r, json_atom tl isp ia st s = JGot v r -> r = snd (take_jatom ia s)).
  { intro s. unfold json_atom. destruct (take_jatom ia s) as [t r]. cbn [snd].
    destruct (list_eq_dec N.eq_dec t (codes "true")); [split; congruence|].
    destruct (list_eq_dec N.eq_dec t (codes "false")); [split; congruence|].
    destruct (list_eq_dec N.eq_dec t (codes "null")); [split; congruence|].
    destruct (parse tl isp st t); split; congruence. }
  assert (SL : forall q k s acc t r, ok s -> jstr_loop k q s acc = Some (t, r) -> incl r s /\ (length r <= length s)%nat).
  { intros q. induction k as [|k IH]; intros s acc t r O E; [discriminate|]. cbn [jstr_loop] in E.
    destruct s as [|c s]; [injection E as <- <-; split; auto using incl_refl|].
    assert (C := O c (or_introl eq_refl)). assert (O' : ok s) by (intros d H; apply O; now right).
    destruct (c =? q); [injection E as <- <-; split; [apply incl_tl, incl_refl|cbn; lia]|].
    destruct (c =? 92) eqn:E9.
    - apply N.eqb_eq in E9. subst c. destruct C as (_ & _ & [C|[C|C]]); [congruence|congruence|].
      cbn [In] in C. exfalso. intuition discriminate.
    - destruct (IH _ _ _ _ O' E) as [X Y]. split; [now apply incl_tl|cbn; lia]. }
  assert (JS : forall fl q s, ok s -> json_string tl isp st fl q s <> JFuel /\
    forall v r, json_string tl isp st fl q s = JGot v r -> incl r s /\ (length r <= length s)%nat).
  { intros fl q s O. unfold json_string.
    assert (Nb : forall c r, s = c :: r -> (c =? 92) = false).
    { intros c r ->. destruct (O c (or_introl eq_refl)) as (_ & _ & C). destruct (N.eqb_spec c 92) as [->|]; [|reflexivity].
      destruct C as [C|[C|C]]; [congruence|congruence|]. cbn [In] in C. exfalso. intuition discriminate. }
    assert (G : forall o : option (list N * list N), (forall t r, o = Some (t, r) -> incl r s /\ (length r <= length s)%nat) ->
      let res := match o with
        | Some (t, rest) =>
          if negb false && colonize fl && match t with c :: _ => c =? 58 | [] => false end then
            match parse tl isp st (until0 (List.tl t)) with
            | Got v _ => JGot (inj v) rest
            | Eox | Bad => JGot (JA (PStr t)) rest
            | Unk => JUnk
            end
          else JGot (JA (PStr t)) rest
        | None => JUnk end in
      res <> JFuel /\ forall v r, res = JGot v r -> incl r s /\ (length r <= length s)%nat).
    { intros [[t r0]|] H res; subst res; [|split; congruence].
      destruct (negb false && _ && _); [|split; [congruence|]; intros v r E; injection E as <- <-; eauto].
      destruct (parse tl isp st (until0 (List.tl t))); (split; [congruence|]); intros v' r' E;
        try discriminate; injection E as <- <-; eauto. }
    destruct s as [|c s'].
    - apply G. intros t r E. exact (SL _ _ _ _ _ _ O E).
    - rewrite (Nb _ _ eq_refl). cbn [andb]. apply G. intros t r E. exact (SL _ _ _ _ _ _ O E). }
  assert (M : forall n fl s, ok s -> (length s < n)%nat ->
    json_parse tl isp ia idg ic st n fl s <> JFuel /\
    forall v r, json_parse tl isp ia idg ic st n fl s = JGot v r ->
      match jskip isp s with SAt c _ => c = 93 \/ c = 44 \/ shorter r s | _ => True end).
  { induction n as [|n IH]; intros fl s O Hn; [lia|]. cbn [json_parse].
    assert (K := SK s O). destruct (jskip isp s) as [|?|c r].
    - split; [apply JA1|auto].
    - destruct K.
    - destruct K as ((I1 & L1) & O1 & L2 & I2 & Sp). cbn [length] in L2.
      assert (Or : ok r) by (intros d H; apply O1; now right).
      assert (W : forall r', incl r' r -> (length r' <= length r)%nat -> c = 93 \/ c = 44 \/ shorter r' s).
      { intros r' X Y. right. right. split; [eapply incl_tran; eassumption|lia]. }
      destruct (c =? 91) eqn:E1.
      + assert (V : forall k s' acc, ok s' -> (length s' < k)%nat -> (length s' < n)%nat ->
          jvec_loop isp (json_parse tl isp ia idg ic st n fl) k s' acc <> JFuel /\
          forall v r', jvec_loop isp (json_parse tl isp ia idg ic st n fl) k s' acc = JGot v r' ->
            incl r' s' /\ (length r' <= length s')%nat).
        { induction k as [|k IHk]; intros s' acc O' Hk Hs; [lia|]. cbn [jvec_loop].
          assert (K' := SK s' O'). destruct (jskip isp s') as [|?|d r'] eqn:Ej; [split; congruence|destruct K'|].
          destruct K' as ((J1 & M1) & O2 & M2 & J2 & Sd). cbn [length] in M2.
          assert (Or' : ok r') by (intros e H; apply O2; now right).
          destruct (d =? 93) eqn:D1; [split; [congruence|]; intros v r'' E; injection E as <- <-; split; [auto|lia]|].
          destruct (d =? 44) eqn:D2.
          { destruct (IHk r' acc Or' ltac:(lia) ltac:(lia)) as [F1 F2]. split; [exact F1|].
            intros v r'' E. destruct (F2 _ _ E) as [X Y]. split; [eapply incl_tran; eassumption|lia]. }
          destruct (IH fl (d :: r') O2 ltac:(cbn [length]; lia)) as [F1 F2].
          destruct (json_parse tl isp ia idg ic st n fl (d :: r')) as [v0 r0| | |]; [|split; congruence|split; congruence|now elim F1].
          specialize (F2 _ _ eq_refl). cbn [jskip] in F2.
          assert (D0 := O2 d (or_introl eq_refl)). replace (d =? 0) with false in F2 by lia. rewrite Sd in F2.
          assert (Z : shorter r0 (d :: r')).
          { apply N.eqb_neq in D1, D2. destruct F2 as [F2|[F2|F2]]; [now elim D1|now elim D2|exact F2]. }
          destruct Z as [Z1 Z2]. cbn [length] in Z2.
          destruct (IHk r0 (v0 :: acc)) as [G1 G2]; [intros e H; apply O2; auto|lia|lia|].
          split; [exact G1|]. intros v r'' E. destruct (G2 _ _ E) as [X Y].
          split; [eapply incl_tran; [exact X|]; eapply incl_tran; eassumption|lia]. }
        destruct (V (S n) r [] Or ltac:(lia) ltac:(lia)) as [F1 F2]. split; [exact F1|].
        intros v r' E. apply W; apply (F2 _ _ E).
      + destruct (c =? 123) eqn:E2; [destruct (O1 c (or_introl eq_refl)); lia|].
        destruct (c =? 34) eqn:E3.
        { destruct (JS fl c r Or) as [F1 F2]. split; [exact F1|]. intros v r' E. apply W; apply (F2 _ _ E). }
        destruct (c =? 39) eqn:E4.
        { destruct (strict fl); [split; congruence|].
          destruct (JS fl c r Or) as [F1 F2]. split; [exact F1|]. intros v r' E. apply W; apply (F2 _ _ E). }
        destruct (JA1 (c :: r)) as [F1 F2]. split; [exact F1|]. intros v r' E. apply F2 in E. subst r'.
        destruct (O1 c (or_introl eq_refl)) as (_ & _ & [C|[C|C]]); [congruence| |].
        * cbn [take_jatom]. rewrite C. destruct (take_jatom ia r) as [t r'] eqn:Et. cbn [snd].
          apply W; apply (TA _ _ _ Et).
        * cbn [In] in C. destruct C as [<-|[<-|[<-|[<-|[<-|[]]]]]]; try discriminate; auto. }
  intros s O fl n Hn. exact (proj1 (M n fl s O Hn)).
Qed.
Example C60_ends_good_case : json_a 40 8 (codes "[1 ,, 'x y' [true null] ""z""]") =
  JGot (JVec [JA (PFix 1); JA (PStr (codes "x y")); JVec [JA PTrue; JEmpty]; JA (PStr (codes "z"))]) []
  /\ forallb (fun c => (0 <? c) && negb (c =? 123) &&
       (isspace c || atomchar isalnum c || existsb (N.eqb c) [91; 93; 44; 34; 39]))
      (codes "[1 ,, 'x y' [true null] ""z""]") = true.
Proof. split; vm_compute; reflexivity. Qed.
Print Assumptions C60_ends_partial.
