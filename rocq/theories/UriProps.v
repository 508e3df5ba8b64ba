(** * C39: encodings decode to the original bytes; C58: forms and query strings. *)
From Verif Require Import UriModel UriProofs.
From Coq Require Import Lia ZifyBool ZifyN.
Local Open Scope N_scope.

(** ** C39 *)

(** C39: for every string or packet without NUL bytes, every set of extra characters to
    escape and either case of digits, [uriencode] gives a percent-encoding of the bytes and
    [uridecode] gives back the bytes. *)
Theorem C39_uri_round_trip_partial : forall s escape upper, text s ->
  pct (uriencode s escape upper) s /\ uridecode (uriencode s escape upper) = Some s.
Proof.
  intros s e up H. unfold uriencode. rewrite (until0_text s H).
  assert (P := uri_output_pct up e s (text_bytes s H)). split; [exact P|]. now apply uridecode_iff.
Qed.
Example C39_uri_round_trip_case : text [97; 32; 195; 169; 47]
  /\ uriencode [97; 32; 195; 169; 47] (Some [47]) true = [97; 37;50;48; 37;67;51; 37;65;57; 37;50;70]
  /\ uriencode [97; 32; 195; 169; 47] (Some []) false = [97; 37;50;48; 37;99;51; 37;97;57; 47].
Proof. split; [repeat constructor|split; reflexivity]. Qed.
Print Assumptions C39_uri_round_trip_partial.

(** C39: [uridecode] accepts exactly the texts in which each percent sign is followed by
    two hexadecimal digits, and replaces these by the byte they stand for. *)
Theorem C39_uridecode : forall s r, uridecode s = Some r <-> pct s r.
Proof. exact uridecode_iff. Qed.
Example C39_uridecode_case : uridecode [43; 37;52;49] = Some [43; 65] /\ uridecode [37; 52] = None
  /\ uridecode [37; 71; 48] = None.
Proof. repeat split. Qed.
Print Assumptions C39_uridecode.

(** C39: without extra characters the encoding consists of percent signs and unreserved
    characters only; with any extra characters [e] it contains no blank, no byte above
    0x7F, none of + = & # ; and no character of [e] other than percent signs and
    hexadecimal digits. *)
Theorem C39_uri_chars : forall s upper x, text s ->
  (In x (uriencode s None upper) -> x = 37 \/ unreserved x) /\
  (forall e, In x (uriencode s (Some e) upper) ->
     x < 128 /\ ~ (9 <= x <= 13) /\ ~ In x [32; 43; 61; 38; 35; 59]
     /\ (In x e -> x = 37 \/ exists v, hexval x v)).
Proof.
  intros s up x H. unfold uriencode. rewrite (until0_text s H).
  assert (B := text_bytes s H). assert (Hb := proj1 (Forall_forall _ _) B).
  assert (Ht := proj1 (Forall_forall _ _) H). split.
  - intro I. destruct (uri_output_in _ _ _ _ I) as [->|[(c & I1 & I2)|[I1 I2]]]; [now left| |].
    + right. apply (hex2_chars up c); [now apply Hb|exact I2].
    + right. apply unescaped_none; [|exact I2]. now apply Ht.
  - intros e I. destruct (uri_output_in _ _ _ _ I) as [->|[(c & I1 & I2)|[I1 I2]]].
    + cbn [In]. repeat split; [lia..|]. now left.
    + destruct (hex2_val up c (Hb c I1)) as (a & b & E & Ha & Hb').
      rewrite E in I2. assert (G : exists v, hexval x v) by (destruct I2 as [<-|[<-|[]]]; eauto).
      destruct G as (v & G). cbn [In]. repeat split; [unfold hexval in G; lia..|]. right. now exists v.
    + unfold uri_escaped in I2. rewrite !Bool.orb_false_iff in I2. unfold isspace in I2.
      cbn [In]. repeat split; try lia. intro J. exfalso.
      destruct I2 as (_ & I2). unfold strchr in I2. rewrite Bool.orb_false_iff in I2.
      destruct I2 as (I2 & _). rewrite <- Bool.not_true_iff_false in I2. apply I2.
      apply existsb_exists. exists x. split; [exact J|]. apply N.eqb_refl.
Qed.
Example C39_uri_chars_case : text [33; 59; 45] /\ uriencode [33; 59; 45] None true = [37;50;49; 37;51;66; 45]
  /\ uriencode [33; 59; 45] (Some [45]) true = [33; 37;51;66; 37;50;68].
Proof. split; [repeat constructor|split; reflexivity]. Qed.
Print Assumptions C39_uri_chars.

(** C39, as stated false: [uriencode] of a packet (or string) stops at its first NUL byte
    (uriprims.c:611-623 copies the packet and passes length -1), so what follows is lost. *)
Theorem C39_uri_nul_refuted : exists s, bytes s /\
  uridecode (uriencode s None true) <> Some s /\ uriencode s None true = uriencode [65] None true.
Proof. exists [65; 0; 66]. split; [repeat constructor|]. split; [discriminate|reflexivity]. Qed.
Print Assumptions C39_uri_nul_refuted.

(** ** C58: a form's query string gives back its parameters *)

(** C58: for every list of names and string values without NUL bytes whose last value is
    not empty, [urldata/parse] of [form->uristring] adds exactly these values under these
    names in this order (and under the slotid of each name that may have one). *)
Theorem C58_form_round_trip_partial : forall protected l,
  Forall (fun p => text (fst p) /\ text (snd p)) l ->
  (forall p, last l ([], [1]) = p -> snd p <> []) ->
  parse_query protected (form_encode (map (fun p => (fst p, [snd p])) l))
  = map (fun p => QParam (Some (fst p)) (visible protected (fst p)) (snd p)
                    (forallb (fun c => c <? 128) (snd p))) l.
Proof.
  intros protected l H HL. change (fun p : list N * list N => (fst p, [snd p])) with single.
  rewrite (form_join l H). unfold parse_query. now apply pq_join.
Qed.
Example C58_form_round_trip_case :
  let l := [([97; 38], [61; 49; 32]); ([95; 120], []); ([98], [195; 169])] in
  Forall (fun p => text (fst p) /\ text (snd p)) l
  /\ form_encode (map (fun p => (fst p, [snd p])) l)
     = [97; 37;50;54; 61; 37;51;100; 49; 37;50;48; 38; 95; 120; 61; 38; 98; 61; 37;99;51; 37;97;57]
  /\ parse_query (fun _ => false) (form_encode (map (fun p => (fst p, [snd p])) l))
     = [QParam (Some [97; 38]) true [61; 49; 32] true; QParam (Some [95; 120]) false [] true;
        QParam (Some [98]) true [195; 169] false].
Proof. split; [repeat constructor|split; reflexivity]. Qed.
Print Assumptions C58_form_round_trip_partial.

(** C58, as stated false: the values of a choice are run together without a separator,
    since [lastc] is -1 from the second value on (uriprims.c:553, 581). *)
Theorem C58_choice_values_refuted : exists name v w,
  form_encode [(name, [v; w])] = name ++ [61] ++ v ++ name ++ [61] ++ w /\
  parse_query (fun _ => false) (form_encode [(name, [v; w])])
  = [QParam (Some name) true (v ++ name ++ [61] ++ w) true].
Proof. exists [120], [97], [98]. split; reflexivity. Qed.
Print Assumptions C58_choice_values_refuted.

(** C58, as stated false: a last parameter whose value is empty is not recorded among the
    parameters (cgiexec.c:383-394 only adds it to the request), and not at all when its
    name may have no slotid. *)
Theorem C58_last_empty_refuted :
  (exists name, parse_query (fun _ => false) (form_encode [(name, [[]])]) = [QSlot name]) /\
  (exists name, parse_query (fun _ => false) (form_encode [(name, [[]])]) = []).
Proof. split; [exists [120]|exists [95; 120]]; reflexivity. Qed.
Print Assumptions C58_last_empty_refuted.

(** C58, as stated false: a part of a query string without an equal sign is recorded as
    another value of the preceding name (slotstring is not cleared at cgiexec.c:361). *)
Theorem C58_bare_part_refuted : exists q name v w, q = name ++ [61] ++ v ++ [38] ++ w /\
  parse_query (fun _ => false) q
  = [QParam (Some name) true v true; QParam (Some name) false w true].
Proof. exists [97; 61; 49; 38; 98], [97], [49], [98]. split; reflexivity. Qed.
Print Assumptions C58_bare_part_refuted.

(** Encoding of strings in URIs: decoding what was encoded gives the string back, whichever
    characters are to be escaped and in either case of hexadecimal digits; what
    is encoded consists of percent signs, hexadecimal digits and characters that may stay. *)
Theorem C88_uris : forall s upper, text s ->
  (forall escape, uridecode (uriencode s escape upper) = Some s) /\
  (forall x, In x (uriencode s None upper) -> x = 37 \/ unreserved x) /\
  (forall e x, In x (uriencode s (Some e) upper) ->
     x < 128 /\ ~ (9 <= x <= 13) /\ ~ In x [32; 43; 61; 38; 35; 59] /\ (In x e -> x = 37 \/ exists v, hexval x v)).
Proof.
  intros s upper T. split; [intros escape; apply C39_uri_round_trip_partial; exact T|].
  split; [intros x; apply (C39_uri_chars s upper x T)|]. intros e x. apply (C39_uri_chars s upper x T).
Qed.
Example C88_uris_case : text [97; 32; 195; 169; 47] /\
  uridecode (uriencode [97; 32; 195; 169; 47] (Some [47]) true) = Some [97; 32; 195; 169; 47].
Proof. split; [repeat constructor|reflexivity]. Qed.
Print Assumptions C88_uris.
