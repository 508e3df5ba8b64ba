(** * C38: what is printed is read back; C39: hexadecimal packets. *)
From Coq Require Import Strings.String Init.Datatypes List.
From Verif Require Import PrintModel UriProofs PrintProofs PrintProofs2.
From Coq Require Import Lia ZArith ZifyBool ZifyN ZifyNat.
Import Datatypes ListNotations.
Local Open Scope N_scope.

(** Text after which an atom has ended: nothing, or a character at which atoms end. *)
Definition stop_at (rest : list N) : Prop :=
  match rest with [] => True | c :: _ => stops c end.
Lemma stop_ends rest : stop_at rest -> ends rest.
Proof. destruct rest as [|c r]; [exact (fun _ => I)|]. exact (proj2 (stops_iff c)). Qed.

(** ASCII versions of the library's functions, for the examples. *)
Definition upper_a (c : N) : bool := isupper c.
Definition lower_a (c : N) : N := if isupper c then c + 32 else c.
Definition no64 (_ : list N) : list N := [].
Lemma ascii_a : ascii_ok lower_a isspace.
Proof.
  repeat split. intros c H. unfold lower_a, isupper. now replace ((65 <=? c) && (c <=? 90)) with false by lia.
Qed.

(** C38: every string is read back from what is printed for it, whatever follows. *)
Theorem C38_strings : forall isupper8 tolower8 isspace8 b64 outfmt stale s rest,
  parse tolower8 isspace8 stale (unparse isupper8 tolower8 b64 outfmt (PStr s) ++ rest)
  = Got (PStr s) rest.
Proof.
  intros. cbn [unparse]. unfold unparse_string. rewrite <- app_comm_cons, <- app_assoc.
  change (parse_string isspace8 (flat_map esc_char s ++ 34 :: rest) = Got (PStr s) rest).
  apply parse_string_ok.
Qed.
Example C38_strings_case :
  unparse upper_a lower_a no64 0 (PStr [97; 34; 92; 10; 7; 955]) =
    [34; 97; 92; 34; 92; 92; 92; 110; 92; 48; 48; 55; 955; 34].
Proof. reflexivity. Qed.
Print Assumptions C38_strings.

(** C38: a printed string is one line of printable characters and ends at its only quote
    that is not escaped. *)
Theorem C38_string_line : forall isupper8 tolower8 b64 outfmt s c,
  In c (unparse isupper8 tolower8 b64 outfmt (PStr s)) -> 32 <= c /\ c <> 127.
Proof.
  intros i t b o s c. cbn [unparse]. unfold unparse_string. cbn [In]. rewrite in_app_iff, in_flat_map.
  intros [<-|[(x & _ & I)|[<-|[]]]]; [lia| |lia]. unfold esc_char in I.
  repeat (match type of I with context [if ?b then _ else _] => destruct b eqn:? end;
          [cbn [In] in I; lia|]).
  destruct (iscntrl x) eqn:E.
  - unfold iscntrl in E. unfold octal3 in I. cbn [In] in I.
    assert (x / 64 mod 8 < 8) by (apply N.mod_lt; lia).
    assert (x / 8 mod 8 < 8) by (apply N.mod_lt; lia). assert (x mod 8 < 8) by (apply N.mod_lt; lia). lia.
  - unfold iscntrl in E. destruct I as [<-|[]]. lia.
Qed.
Example C38_string_line_case :
  In 110 (unparse upper_a lower_a no64 0 (PStr [10])) /\ ~ In 10 (unparse upper_a lower_a no64 0 (PStr [10])).
Proof. cbn. split; [tauto|]. intros [H|[H|[H|[H|[]]]]]; discriminate. Qed.
Print Assumptions C38_string_line.

(** C38: the symbols with an empty name, with a name printed between bars, or with a plain
    name, are read back.  Missing: see the names below; NUL characters. *)
Theorem C38_symbols_partial : forall isupper8 tolower8 isspace8 b64 outfmt stale n rest,
  ascii_ok tolower8 isspace8 -> stop_at rest ->
  ~ In 0 n -> (n = [] \/ barred isupper8 tolower8 n \/ plain_name tolower8 isspace8 n) ->
  parse tolower8 isspace8 stale (unparse isupper8 tolower8 b64 outfmt (PSym n) ++ rest)
  = Got (PSym n) rest.
Proof.
  intros i t sp b o st n rest A E H0 G. apply parse_ok; [exact A|now split|now apply stop_ends|discriminate].
Qed.
Example C38_symbols_case :
  plain_name lower_a isspace (codes "set+x!") /\ barred upper_a lower_a (codes "A b")
  /\ unparse upper_a lower_a no64 0 (PSym (codes "A b")) = codes "|A b|"
  /\ parse lower_a isspace false (codes "|A b|)") = Got (PSym (codes "A b")) [41]
  /\ parse lower_a isspace false (codes "Abc)") = Got (PSym (codes "abc")) [41].
Proof.
  split; [|split; [exists 32; split; [right; now left|left; right; right; now left]|repeat split]].
  split.
  - intros c I. cbn in I. repeat (destruct I as [<-|I]; [repeat split; discriminate|]). destruct I.
  - split; [cbn; lia|]. cbn. repeat split; discriminate.
Qed.
Print Assumptions C38_symbols_partial.

(** C38: every value made of small integers, large integers (outside the range of 64-bit
    integers if errno is stale), strings, packets (not in base 64), characters of the
    basic plane, such symbols, OIDs, the booleans, pairs and vectors is read back, whatever
    follows the atom's end; if there are OIDs in it, a blank, a closing bracket or
    nothing may follow.  Excepted are lists (unquote @x/y) of an OID. *)
Theorem C38_values_partial : forall isupper8 tolower8 isspace8 b64 outfmt stale v rest,
  ascii_ok tolower8 isspace8 -> stop_at rest ->
  readable isupper8 tolower8 isspace8 outfmt stale v ->
  (has_oid v = true -> match rest with [] => True | c :: _ => isspace c = true \/ In c (codes ")]}") end) ->
  parse tolower8 isspace8 stale (unparse isupper8 tolower8 b64 outfmt v ++ rest) = Got v rest.
Proof.
  intros i t sp b o st v rest A S R H. apply parse_ok; auto; [now apply stop_ends|].
  intro O. specialize (H O). destruct rest as [|c r]; [exact I|]. cbn.
  destruct H as [->|H]; [reflexivity|]. cbn in H.
  destruct H as [<-|[<-|[<-|[]]]]; reflexivity.
Qed.
Example C38_values_case :
  let v := PPair (PSym (codes "quote")) (PPair (PPair (PFix (-12)) (PPair (PVec [PStr [65]; POid 4294967298; PNil])
             (PPair (PChar 955) (PPkt [255; 0; 1])))) PNil) in
  readable upper_a lower_a isspace 0 true v
  /\ unparse upper_a lower_a no64 0 v = codes "'(-12 #(""A"" @1/2 ()) #\u03bb . #X""ff0001"")"
  /\ unparse upper_a lower_a no64 8 v = codes "'(-12 #(""A"" @1/2 ()) #\u03bb . #""\377\000\001"")".
Proof.
  cbv zeta. split; [|split; reflexivity]. cbn [readable].
  assert (P : plain_name lower_a isspace (codes "quote")).
  { split.
    - intros c I. cbn in I. repeat (destruct I as [<-|I]; [repeat split; discriminate|]). destruct I.
    - split; [cbn; lia|]. cbn. repeat split; discriminate. }
  assert (Z : ~ In 0 (codes "quote")) by (cbn; intros [H|[H|[H|[H|[H|[]]]]]]; discriminate).
  repeat split; try (intros [X _]; discriminate X); try tauto; try (unfold max_fixnum; lia); auto.
  repeat constructor.
Qed.
Print Assumptions C38_values_partial.

(** C38: two such values that are printed alike are the same. *)
Theorem C38_printed_alike_partial : forall isupper8 tolower8 isspace8 b64 outfmt stale v w,
  ascii_ok tolower8 isspace8 ->
  readable isupper8 tolower8 isspace8 outfmt stale v ->
  readable isupper8 tolower8 isspace8 outfmt stale w ->
  unparse isupper8 tolower8 b64 outfmt v = unparse isupper8 tolower8 b64 outfmt w -> v = w.
Proof.
  intros i t sp b o st v w A Rv Rw E.
  assert (Pv := parse_ok i t sp b o st A v [] Rv I (fun _ => I)). assert (Pw := parse_ok i t sp b o st A w [] Rw I (fun _ => I)).
  rewrite E, Pw in Pv. now injection Pv.
Qed.
Example C38_printed_alike_case :
  readable upper_a lower_a isspace 0 false (PVec [PFix 1; PFix 2])
  /\ unparse upper_a lower_a no64 0 (PVec [PFix 1; PFix 2]) = codes "#(1 2)"
  /\ unparse upper_a lower_a no64 0 (PVec [PFix 12]) = codes "#(12)".
Proof. split; [cbn; unfold max_fixnum; lia|split; reflexivity]. Qed.
Print Assumptions C38_printed_alike_partial.

(** C39: in the hexadecimal format every packet is printed as two digits for each byte, and
    read back. *)
Theorem C39_hex_packets : forall isupper8 tolower8 isspace8 b64 stale p rest, bytes p ->
  parse tolower8 isspace8 stale (unparse isupper8 tolower8 b64 16 (PPkt p) ++ rest) = Got (PPkt p) rest
  /\ length (unparse isupper8 tolower8 b64 16 (PPkt p)) = (2 * length p + 4)%nat.
Proof.
  intros i t sp b st p rest B. split.
  - change (unparse i t b 16 (PPkt p)) with (35 :: 88 :: 34 :: flat_map (hex2 false) p ++ [34]).
    cbn [app]. rewrite <- app_assoc.
    change (hex_pkt_loop (flat_map (hex2 false) p ++ 34 :: rest) [] = Got (PPkt p) rest).
    now rewrite hex_pkt_ok.
  - change (unparse i t b 16 (PPkt p)) with (35 :: 88 :: 34 :: flat_map (hex2 false) p ++ [34]).
    cbn [length]. rewrite app_length. cbn [length].
    assert (E : length (flat_map (hex2 false) p) = (2 * length p)%nat).
    { clear. induction p as [|x p IH]; [reflexivity|]. cbn [flat_map]. rewrite app_length, IH.
      change (length (hex2 false x)) with 2%nat. cbn [length]. lia. }
    lia.
Qed.
Example C39_hex_packets_case : bytes [0; 171; 255]
  /\ unparse upper_a lower_a no64 16 (PPkt [0; 171; 255]) = codes "#X""00abff""".
Proof. split; [repeat constructor|reflexivity]. Qed.
Print Assumptions C39_hex_packets.

(** C39: in the octal format every packet is read back. *)
Theorem C39_octal_packets : forall isupper8 tolower8 isspace8 b64 stale p rest, bytes p ->
  parse tolower8 isspace8 stale (unparse isupper8 tolower8 b64 8 (PPkt p) ++ rest) = Got (PPkt p) rest.
Proof.
  intros i t sp b st p rest B.
  change (unparse i t b 8 (PPkt p)) with (35 :: 34 :: flat_map pkt_char p ++ [34]).
  cbn [app]. rewrite <- app_assoc.
  change (parse_text_packet sp (flat_map pkt_char p ++ 34 :: rest) = Got (PPkt p) rest).
  now apply parse_text_packet_ok.
Qed.
Example C39_octal_packets_case : bytes [65; 34; 171]
  /\ unparse upper_a lower_a no64 8 (PPkt [65; 34; 171]) = codes "#""A\""\253""".
Proof. split; [repeat constructor|reflexivity]. Qed.
Print Assumptions C39_octal_packets.

(** C39: a byte of a packet literal may be written as itself (printable ASCII other than the
    quote and the backslash), with two hexadecimal digits after \x, or with three octal
    digits; every literal made of these is read as the bytes. *)
Definition octval (o v : N) : Prop := 48 <= o <= 55 /\ v = o - 48.
Definition byte_text (c : N) (s : list N) : Prop :=
  (32 <= c < 127 /\ c <> 34 /\ c <> 92 /\ s = [c])
  \/ (exists a b x y, s = [92; 120; a; b] /\ hexval a x /\ hexval b y /\ c = x * 16 + y)
  \/ (exists a b d x y z, s = [92; a; b; d] /\ octval a x /\ octval b y /\ octval d z
        /\ x < 4 /\ c = x * 64 + y * 8 + z).
Lemma pkt_step sp k c s acc r : byte_text c s ->
  pkt_loop sp (S k) (s ++ r) acc = pkt_loop sp k r (c :: acc).
Proof.
  intros [(H1 & H2 & H3 & ->)|[(a & b & x & y & -> & Ha & Hb & ->)
         |(a & b & d & x & y & z & -> & (Ha & ->) & (Hb & ->) & (Hd & ->) & Hx & ->)]]; cbn [app pkt_loop].
  - replace (c =? 34) with false by lia. replace (128 <=? c) with false by lia.
    now replace (c =? 92) with false by lia.
  - change (92 =? 34) with false. change (128 <=? 92) with false. change (92 =? 92) with true.
    change (120 =? 10) with false. change (pkt_escape 120) with (@None N). change (120 =? 120) with true.
    cbv iota. now rewrite (proj2 (xdigit_iff _ _) Ha), (proj2 (xdigit_iff _ _) Hb).
  - change (92 =? 34) with false. change (128 <=? 92) with false. change (92 =? 92) with true. cbv iota.
    replace (a =? 10) with false by lia.
    replace (pkt_escape a) with (@None N)
      by (unfold pkt_escape; repeat match goal with |- context [a =? ?v] => replace (a =? v) with false by lia end; reflexivity).
    replace (a =? 120) with false by lia. replace ((48 <=? a) && (a <=? 51)) with true by lia.
    replace (odigitp b) with true by (unfold odigitp; lia). replace (odigitp d) with true by (unfold odigitp; lia).
    f_equal. f_equal. unfold scan_octal. replace (odigit b) with true by (unfold odigit; lia).
    replace (odigit d) with true by (unfold odigit; lia). lia.
Qed.
Theorem C39_packet_escapes : forall tolower8 isspace8 stale (l : list (N * list N)) rest,
  Forall (fun p => byte_text (fst p) (snd p)) l ->
  parse tolower8 isspace8 stale (codes "#""" ++ concat (map snd l) ++ [34] ++ rest)
  = Got (PPkt (map fst l)) rest.
Proof.
  intros t sp st l rest H.
  change (parse_text_packet sp (concat (map snd l) ++ [34] ++ rest) = Got (PPkt (map fst l)) rest).
  unfold parse_text_packet.
  assert (G : forall l acc k, Forall (fun p => byte_text (fst p) (snd p)) l -> (length l < k)%nat ->
    pkt_loop sp k (concat (map snd l) ++ [34] ++ rest) acc = Got (PPkt (rev acc ++ map fst l)) rest).
  { clear. induction l as [|[c s] l IH]; intros acc k F Hk; (destruct k as [|k]; [cbn in Hk; lia|]).
    - cbn. now rewrite app_nil_r.
    - cbn [map snd fst concat]. rewrite <- app_assoc. inversion F as [|? ? F1 F2]; subst.
      rewrite (pkt_step sp k c s); [|exact F1]. rewrite IH; [|exact F2|cbn in Hk; lia].
      cbn [rev]. now rewrite <- app_assoc. }
  rewrite G; [reflexivity|exact H|].
  assert (L : (length l <= length (concat (map snd l)))%nat).
  { clear - H. induction H as [|[c s] l F _ IH]; [cbn; lia|]. cbn [map snd concat length]. rewrite app_length.
    cbn [fst snd] in F.
    destruct F as [(_ & _ & _ & ->)|[(a & b & x & y & -> & _)|(a & b & d & x & y & z & -> & _)]];
      cbn [length]; lia. }
  rewrite app_length. lia.
Qed.
Example C39_packet_escapes_case :
  byte_text 65 [65] /\ byte_text 171 (codes "\xaB") /\ byte_text 255 (codes "\377")
  /\ parse lower_a isspace false (codes "#""A\xaB\377"" 1") = Got (PPkt [65; 171; 255]) (codes " 1").
Proof.
  split; [left; repeat split; lia|]. split; [|split; [|reflexivity]].
  - right; left. exists 97, 66, 10, 11. split; [reflexivity|]. unfold hexval. lia.
  - right; right. exists 51, 55, 55, 3, 7, 7. split; [reflexivity|]. unfold octval. lia.
Qed.
Print Assumptions C39_packet_escapes.

(** ** What is not read back *)

(** C38 is false of symbols named like a number: for every small integer, the symbol whose
    name is the number's printed form is printed without bars and read back as the number. *)
Theorem C38_symbol_number_refuted : forall isupper8 tolower8 isspace8 b64 outfmt stale z,
  ascii_ok tolower8 isspace8 -> (- max_fixnum < z < max_fixnum)%Z ->
  let n := unparse isupper8 tolower8 b64 outfmt (PFix z) in
  unparse isupper8 tolower8 b64 outfmt (PSym n) = n /\
  parse tolower8 isspace8 stale (unparse isupper8 tolower8 b64 outfmt (PSym n)) = Got (PFix z) [].
Proof.
  intros i t sp b o st z A H n.
  assert (E : unparse i t b o (PSym n) = n).
  { unfold n. cbn [unparse]. unfold emit_symbol_name. destruct (dec_z_shape z) as (pre & ds & Ez & D & NE & Hp).
    assert (P : needs_protection i t (dec_z z) = false).
    { apply Bool.not_true_is_false. intro X. apply barred_iff in X as (c & Ic & X).
      apply dec_z_chars in Ic. destruct X as [X|[_ X]].
      - unfold stops in X. cbn [In] in X. lia.
      - destruct A as (_ & _ & _ & A & _). auto. }
    destruct (dec_z z) as [|c r] eqn:Ed; [|now rewrite P].
    destruct pre; [|discriminate]. cbn in Ez. congruence. }
  split; [exact E|]. rewrite E. unfold n. rewrite <- (app_nil_r (unparse i t b o (PFix z))).
  apply parse_ok; [exact A|exact H|exact I|discriminate].
Qed.
Example C38_symbol_number_case :
  parse lower_a isspace false (unparse upper_a lower_a no64 0 (PSym (codes "42"))) = Got (PFix 42) [].
Proof. reflexivity. Qed.
Print Assumptions C38_symbol_number_refuted.

(** C38 is false of symbols with a bar or a backslash and no character that asks for bars,
    and of names beginning with a semicolon: what is printed reads as another symbol, or
    as nothing. *)
Theorem C38_symbol_bar_refuted : exists n m, n <> m /\
  unparse upper_a lower_a no64 0 (PSym n) = n /\
  parse lower_a isspace false (unparse upper_a lower_a no64 0 (PSym n)) = Got (PSym m) [].
Proof. exists (codes "a|b"), (codes "ab"). split; [discriminate|]. split; reflexivity. Qed.
Print Assumptions C38_symbol_bar_refuted.
Theorem C38_symbol_backslash_refuted : exists n m, n <> m /\
  unparse upper_a lower_a no64 0 (PSym n) = n /\
  parse lower_a isspace false (unparse upper_a lower_a no64 0 (PSym n)) = Got (PSym m) [].
Proof. exists (codes "a\tb"), [97; 9; 98]. split; [discriminate|]. split; reflexivity. Qed.
Print Assumptions C38_symbol_backslash_refuted.
Theorem C38_symbol_semicolon_refuted : exists n, n <> [] /\
  unparse upper_a lower_a no64 0 (PSym n) = n /\
  parse lower_a isspace false (unparse upper_a lower_a no64 0 (PSym n)) = Eox.
Proof. exists (codes ";x"). split; [discriminate|]. split; reflexivity. Qed.
Print Assumptions C38_symbol_semicolon_refuted.
(** The symbol named by a point changes a list's structure. *)
Theorem C38_symbol_point_refuted : exists v w, v <> w /\
  parse lower_a isspace false (unparse upper_a lower_a no64 0 v) = Got w [].
Proof.
  exists (PPair (PFix 1) (PPair (PSym (codes ".")) (PPair (PFix 2) PNil))), (PPair (PFix 1) (PFix 2)).
  split; [discriminate|reflexivity].
Qed.
Print Assumptions C38_symbol_point_refuted.

(** The largest and the smallest fixnum are read back as bigints. *)
Theorem C38_max_fixnum_refuted : exists z, z = max_fixnum /\
  parse lower_a isspace false (unparse upper_a lower_a no64 0 (PFix z)) = Got (PBig z) [] /\
  parse lower_a isspace false (unparse upper_a lower_a no64 0 (PFix (- z))) = Got (PBig (- z)) [].
Proof. exists max_fixnum. repeat split; reflexivity. Qed.
Print Assumptions C38_max_fixnum_refuted.
(** If errno is neither 0 nor ERANGE, numbers that fit in 64 bits but not in a fixnum are
    read back as symbols. *)
Theorem C38_stale_errno_refuted : forall isupper8 tolower8 isspace8 b64 outfmt z,
  ascii_ok tolower8 isspace8 ->
  (max_fixnum <= z <= 9223372036854775807 \/ - 9223372036854775808 <= z <= - max_fixnum)%Z ->
  exists n, parse tolower8 isspace8 true (unparse isupper8 tolower8 b64 outfmt (PBig z)) = Got (PSym n) [].
Proof.
  intros i t sp b o z A H. exists (dec_z z). cbn [unparse]. unfold parse.
  rewrite <- (app_nil_r (dec_z z)) at 2. rewrite (parser_int i t sp b true A _ z [] I). unfold read_int.
  change max_fixnum with 2305843009213693951%Z in *.
  replace (z =? 0)%Z with false by lia.
  replace ((z <? 2305843009213693951)%Z && (- (2305843009213693951) <? z)%Z) with false by lia.
  now replace (true && (- 9223372036854775808 <=? z)%Z && (z <=? 9223372036854775807)%Z) with true by lia.
Qed.
Example C38_stale_errno_case :
  parse lower_a isspace true (unparse upper_a lower_a no64 0 (PBig 4611686018427387904))
  = Got (PSym (codes "4611686018427387904")) []
  /\ parse lower_a isspace false (unparse upper_a lower_a no64 0 (PBig 4611686018427387904))
  = Got (PBig 4611686018427387904) [].
Proof. split; reflexivity. Qed.
Print Assumptions C38_stale_errno_refuted.

(** Characters outside the basic plane are printed with more than four digits, which is a
    parse error. *)
Theorem C38_char_plane_refuted : exists c, c < 1114112 /\
  unparse upper_a lower_a no64 0 (PChar c) = codes "#\u1f600" /\
  parse lower_a isspace false (unparse upper_a lower_a no64 0 (PChar c)) = Bad.
Proof. exists 128512. repeat split; reflexivity. Qed.
Print Assumptions C38_char_plane_refuted.

(** No text beginning with a comma and an at sign is read as (unquote x): printed forms of
    (unquote @1/2), with an OID, are read as (unquote* ...). *)
Theorem C38_unquote_oid_refuted : forall isupper8 tolower8 isspace8 b64 outfmt stale a,
  let v := PPair (PSym (codes "unquote")) (PPair (POid a) PNil) in
  (exists s, unparse isupper8 tolower8 b64 outfmt v = 44 :: 64 :: s) /\
  forall w rest, parse tolower8 isspace8 stale (unparse isupper8 tolower8 b64 outfmt v) = Got w rest ->
  w <> v /\ exists x, w = PPair (PSym (codes "unquote*")) (PPair x PNil).
Proof.
  intros i t sp b o st a v.
  assert (E : exists s, unparse i t b o v = 44 :: 64 :: s).
  { unfold v. change (exists s, codes "," ++ print_oid a = 44 :: 64 :: s). unfold print_oid. eexists. reflexivity. }
  split; [exact E|]. intros w rest. destruct E as (s & ->). unfold parse.
  change (quoted "unquote*" (parser t sp st (2 * length (44 :: 64 :: s)) s) = Got w rest
          -> w <> v /\ exists x, w = PPair (PSym (codes "unquote*")) (PPair x PNil)).
  destruct (parser t sp st (2 * length (44 :: 64 :: s)) s); try discriminate.
  cbn [quoted]. intro X. injection X as <- _. split; [discriminate|eauto].
Qed.
Example C38_unquote_oid_case :
  unparse upper_a lower_a no64 0 (PPair (PSym (codes "unquote")) (PPair (POid 4294967298) PNil)) = codes ",@1/2".
Proof. vm_compute. reflexivity. Qed.
Print Assumptions C38_unquote_oid_refuted.

(** In the base 64 format no packet is read back: the text, which begins with #@ and a
    quote, is read as a list of a symbol and a string, if it is read at all. *)
Theorem C38_packet64_refuted : forall isupper8 tolower8 isspace8 b64 stale p v rest,
  parse tolower8 isspace8 stale (unparse isupper8 tolower8 b64 64 (PPkt p)) = Got v rest ->
  exists x, v = PPair (PSym (codes "#@")) (PPair x PNil).
Proof.
  intros i t sp b st p v rest.
  change (unparse i t b 64 (PPkt p)) with (35 :: 64 :: 34 :: b p ++ [34]). unfold parse.
  set (k := (2 * _)%nat).
  change (parser t sp st (S k) (35 :: 64 :: 34 :: b p ++ [34]))
    with (quoted "#@" (parser t sp st k (34 :: b p ++ [34]))).
  destruct (parser t sp st k (34 :: b p ++ [34])); try discriminate.
  cbn [quoted]. intro X. injection X as <- _. eauto.
Qed.
Example C38_packet64_case : unparse upper_a lower_a no64 64 (PPkt []) = codes "#@"""""
  /\ parse lower_a isspace false (codes "#@""AAE=""")
     = Got (PPair (PSym (codes "#@")) (PPair (PStr (codes "AAE=")) PNil)) [].
Proof. split; reflexivity. Qed.
Print Assumptions C38_packet64_refuted.

(** Printing and reading of readable values: what is printed, with anything behind it that ends a
    token, is read as the value that was printed, and no other readable value is printed
    the same. *)
Theorem C87_printing : forall isupper8 tolower8 isspace8 b64 outfmt stale v,
  ascii_ok tolower8 isspace8 -> readable isupper8 tolower8 isspace8 outfmt stale v ->
  (forall rest, stop_at rest ->
    (has_oid v = true -> match rest with [] => True | c :: _ => isspace c = true \/ In c (codes ")]}") end) ->
    parse tolower8 isspace8 stale (unparse isupper8 tolower8 b64 outfmt v ++ rest) = Got v rest) /\
  (forall w, readable isupper8 tolower8 isspace8 outfmt stale w ->
    unparse isupper8 tolower8 b64 outfmt v = unparse isupper8 tolower8 b64 outfmt w -> v = w).
Proof.
  intros isupper8 tolower8 isspace8 b64 outfmt stale v A R. split.
  - intros rest S O. apply C38_values_partial; assumption.
  - intros w W E. apply (C38_printed_alike_partial isupper8 tolower8 isspace8 b64 outfmt stale); assumption.
Qed.
Print Assumptions C87_printing.
Example C87_printing_case :
  let v := PPair (PSym (codes "quote")) (PPair (PPair (PFix (-12)) (PPair (PVec [PStr [65]; POid 4294967298; PNil])
             (PPair (PChar 955) (PPkt [255; 0; 1])))) PNil) in
  readable upper_a lower_a isspace 0 true v
  /\ parse lower_a isspace true (unparse upper_a lower_a no64 0 v ++ codes " x") = Got v (codes " x").
Proof. cbv zeta. split; [apply C38_values_case|vm_compute; reflexivity]. Qed.
