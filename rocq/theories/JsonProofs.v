(** * Lemmas about JSON: strings, atoms and keys. *)
From Coq Require Import Strings.String Init.Datatypes List.
From Verif Require Import JsonModel UriProofs PrintProofs PrintProofs2.
From Coq Require Import Lia ZArith ZifyBool ZifyN ZifyNat Permutation.
Import Datatypes ListNotations.
Local Open Scope N_scope.

(** Strings of the basic plane without NUL. *)
Definition bmp (s : list N) : Prop := forall c, In c s -> 0 < c < 65536.

Lemma bmp_cons c s : bmp (c :: s) -> 0 < c < 65536 /\ bmp s.
Proof. intro H. split; [apply H; now left|]. intros d Hd. apply H. now right. Qed.
Lemma until0_id s : ~ In 0 s -> until0 s = s.
Proof.
  induction s as [|c s IH]; [reflexivity|]. intro H. cbn [until0].
  destruct (c =? 0) eqn:E; [apply N.eqb_eq in E; subst; exfalso; apply H; now left|].
  rewrite IH; [reflexivity|]. intro I. apply H. now right.
Qed.
Lemma bmp_no0 s : bmp s -> ~ In 0 s.
Proof. intros H I. apply H in I. lia. Qed.

(** Escaped characters are read back one by one. *)
Lemma jesc_shape c : 0 < c < 65536 ->
  (jesc c = [c] /\ c <> 34 /\ c <> 92 /\ 32 <= c < 127)
  \/ exists e, jesc c = 92 :: e /\ e <> [] /\ forall r, read_escape (e ++ r) = EGot c r.
Proof.
  intro H. unfold jesc.
  destruct (c =? 10) eqn:E1; [right; exists [110]; split; [reflexivity|]; split; [discriminate|]; intro r; apply N.eqb_eq in E1; subst; reflexivity|].
  destruct (c =? 8) eqn:E2; [right; exists [98]; split; [reflexivity|]; split; [discriminate|]; intro r; apply N.eqb_eq in E2; subst; reflexivity|].
  destruct (c =? 12) eqn:E3; [right; exists [102]; split; [reflexivity|]; split; [discriminate|]; intro r; apply N.eqb_eq in E3; subst; reflexivity|].
  destruct (c =? 13) eqn:E4; [right; exists [114]; split; [reflexivity|]; split; [discriminate|]; intro r; apply N.eqb_eq in E4; subst; reflexivity|].
  destruct (c =? 9) eqn:E5; [right; exists [116]; split; [reflexivity|]; split; [discriminate|]; intro r; apply N.eqb_eq in E5; subst; reflexivity|].
  destruct (c =? 34) eqn:E6; [right; exists [34]; split; [reflexivity|]; split; [discriminate|]; intro r; apply N.eqb_eq in E6; subst; reflexivity|].
  destruct (c =? 92) eqn:E7; [right; exists [92]; split; [reflexivity|]; split; [discriminate|]; intro r; apply N.eqb_eq in E7; subst; reflexivity|].
  destruct ((128 <=? c) || iscntrl c) eqn:E8.
  - right. exists (117 :: hex4 c). split; [reflexivity|]. split; [discriminate|]. intro r.
    destruct (hex4_val c ltac:(lia)) as (a1 & a2 & a3 & a4 & -> & H1 & H2 & H3 & H4).
    cbn [app]. unfold read_escape. cbn [N.eqb Pos.eqb orb].
    assert (B : forall a x, hexval a x -> (128 <=? a) = false /\ (a =? 123) = false)
      by (intros a x Hx; unfold hexval in Hx; lia).
    destruct (B _ _ H1) as [-> ->], (B _ _ H2) as [-> _], (B _ _ H3) as [-> _], (B _ _ H4) as [-> _].
    cbn [orb].
    rewrite (proj2 (xdigit_iff _ _) H1), (proj2 (xdigit_iff _ _) H2), (proj2 (xdigit_iff _ _) H3),
      (proj2 (xdigit_iff _ _) H4), hex4_sum. reflexivity.
  - left. unfold iscntrl in E8. repeat split; lia.
Qed.
Lemma jstr_ok s : bmp s -> forall acc rest k, (length (flat_map jesc s) < k)%nat ->
  jstr_loop k 34 (flat_map jesc s ++ 34 :: rest) acc = Some (rev acc ++ s, rest).
Proof.
  induction s as [|c s IH]; intros B acc rest k Hk.
  - destruct k as [|k]; [cbn in Hk; lia|]. cbn. now rewrite app_nil_r.
  - apply bmp_cons in B as [Bc B]. destruct k as [|k]; [lia|].
    cbn [flat_map] in *. rewrite app_length in Hk. rewrite <- app_assoc.
    destruct (jesc_shape c Bc) as [(E & N1 & N2 & _)|(e & E & Ne & R)]; rewrite E in *.
    + cbn [app jstr_loop length] in *. rewrite (proj2 (N.eqb_neq c 34) N1), (proj2 (N.eqb_neq c 92) N2).
      rewrite IH by (auto; lia). cbn [rev]. now rewrite <- app_assoc.
    + cbn [app length] in *. cbn [jstr_loop]. cbn [N.eqb Pos.eqb]. rewrite R.
      rewrite IH by (auto; lia). cbn [rev]. now rewrite <- app_assoc.
Qed.

(** Characters written as they are, or after a backslash, are read back in keys. *)
Definition back (c : N) : list N := if (c =? 34) || (c =? 92) then [92; c] else [c].
Lemma slot_ok s : forall acc rest k, (length (flat_map back s) < k)%nat ->
  slot_loop k 34 (flat_map back s ++ 34 :: rest) acc = Some (rev acc ++ s, rest).
Proof.
  induction s as [|c s IH]; intros acc rest k Hk.
  - destruct k as [|k]; [cbn in Hk; lia|]. cbn. now rewrite app_nil_r.
  - destruct k as [|k]; [lia|]. cbn [flat_map] in *. rewrite app_length in Hk. rewrite <- app_assoc.
    unfold back at 1 in Hk. unfold back at 1.
    destruct ((c =? 34) || (c =? 92)) eqn:E; cbn [app slot_loop length] in *.
    + cbn [N.eqb Pos.eqb]. rewrite IH by lia. cbn [rev]. now rewrite <- app_assoc.
    + apply Bool.orb_false_iff in E as [-> ->].
      rewrite IH by lia. cbn [rev]. now rewrite <- app_assoc.
Qed.
Lemma jesc_back c : 32 <= c < 127 -> jesc c = back c.
Proof.
  intro H. unfold jesc, back.
  replace (c =? 10) with false by lia. replace (c =? 8) with false by lia.
  replace (c =? 12) with false by lia. replace (c =? 13) with false by lia.
  replace (c =? 9) with false by lia.
  destruct (c =? 34) eqn:E1; [now apply N.eqb_eq in E1; subst|].
  destruct (c =? 92) eqn:E2; [now apply N.eqb_eq in E2; subst|].
  unfold iscntrl. now replace ((128 <=? c) || ((c <? 32) || (c =? 127))) with false by lia.
Qed.
Lemma flat_map_ext' (f g : N -> list N) s : (forall c, In c s -> f c = g c) -> flat_map f s = flat_map g s.
Proof.
  induction s as [|c s IH]; [reflexivity|]. intro H. cbn [flat_map].
  rewrite (H c (or_introl eq_refl)), IH; [reflexivity|]. intros d Hd. apply H. now right.
Qed.

Section Json.
  Variable isupper8 : N -> bool.
  Variable tolower8 : N -> N.
  Variable isspace8 : N -> bool.
  Variable isalnum8 : N -> bool.
  Variable isdigit8 : N -> bool.
  Variable isctrl8 : N -> bool.
  Variable b64 : list N -> list N.
  Variable outfmt : Z.
  Variable stale : bool.
  Variable order : list (pv * list N) -> list (pv * list N).
  Notation unparse := (unparse isupper8 tolower8 b64 outfmt).
  Notation kparse := (parse tolower8 isspace8 stale).
  Notation readable := (readable isupper8 tolower8 isspace8 outfmt stale).
  Notation atext := (atext isupper8 tolower8 b64 outfmt).
  Notation jtext := (jtext isupper8 tolower8 b64 outfmt order).
  Notation json_atom := (json_atom tolower8 isspace8 isalnum8 stale).
  Notation json_string := (json_string tolower8 isspace8 stale).
  Notation json_slotid := (json_slotid tolower8 isspace8 isctrl8 stale).
  Notation json_key := (json_key tolower8 isspace8 isalnum8 isdigit8 isctrl8 stale).
  Notation json_parse := (json_parse tolower8 isspace8 isalnum8 isdigit8 isctrl8 stale).
  Notation atomchar := (atomchar isalnum8).

  (** The library's functions on ASCII characters, and a table's keys each listed once. *)
  Definition lib_ok : Prop :=
    ascii_ok tolower8 isspace8 /\
    (forall c, c < 128 -> isalnum8 c = isalnum c) /\
    (forall c, c < 128 -> isspace8 c = isspace c) /\
    (forall c, c < 128 -> isdigit8 c = isdigit c).
  Definition order_ok : Prop := forall l, Permutation (order l) l.

  (** ** The values that are read back *)

  (** With colons in use the first character must be written as it is, or be a quote or a
      backslash, and be no colon. *)
  Definition first_ok (s : list N) : Prop :=
    match s with [] => True | c :: _ => 32 <= c < 127 /\ c <> 58 end.
  Definition agood (fl : N) (a : pv) : Prop :=
    match a with
    | PFix _ | PBig _ => readable a
    | PStr s => bmp s /\ (colonize fl = true -> first_ok s)
    | PTrue | PFalse => True
    | PSym n => colonize fl = true /\ bmp n /\ plain_name tolower8 isspace8 n /\ ~ barred isupper8 tolower8 n
    | PPkt _ | PChar _ | PNil => colonize fl = true /\ readable a
    | POid _ | PVec _ | PPair _ _ => False
    end.
  (** Names of slots: between quotes, as identifiers, and strings that are kept. *)
  Definition slot_start (s : list N) : Prop :=
    match s with [] => True | c :: _ => ~ In c [64; 92; 58; 39; 35; 123; 91; 34] end.
  Definition slotname (n : list N) : Prop :=
    (forall c, In c n -> 0 < c /\ tolower8 c = c /\ isspace8 c = false /\ isctrl8 c = false)
    /\ slot_start n.
  Definition idname (n : list N) : Prop :=
    (forall c, In c n -> atomchar c = true /\ isspace8 c = false /\ 0 < c) /\
    plain_name tolower8 isspace8 n /\ ~ barred isupper8 tolower8 n /\
    n <> codes "true" /\ n <> codes "false" /\ n <> codes "null".
  Definition spaced (s : list N) : Prop :=
    (forall c, In c s -> 32 <= c < 127) /\ In 32 s /\ slot_start s.
  Definition kgood (fl : N) (k : pv) : Prop :=
    match k with
    | PFix _ | PBig _ => readable k
    | PStr s => if slotids fl then spaced s else agood fl k
    | PSym n => if slotids fl then if idkey fl then idname n else slotname n else agood fl k
    | PPkt _ | PChar _ | PNil => slotids fl = false /\ agood fl k
    | _ => False
    end.
  Fixpoint jgood (fl : N) (v : jv) : Prop :=
    match v with
    | JA a => agood fl a
    | JVec l => (fix all (l : list jv) : Prop :=
                   match l with [] => True | x :: r => jgood fl x /\ all r end) l
    | JTab kvs => NoDup (map fst kvs) /\
                  (fix all (l : list (pv * jv)) : Prop :=
                     match l with
                     | [] => True
                     | (k, x) :: r => kgood fl k /\ jgood fl x /\ all r
                     end) kvs
    | JEmpty | JEod | JCh _ => False
    end.
  (** The same value: tables may list their entries in another order. *)
  Inductive same : jv -> jv -> Prop :=
  | same_atom a : same (JA a) (JA a)
  | same_vec l l' : Forall2 same l l' -> same (JVec l) (JVec l')
  | same_tab kvs kvs' l : Permutation kvs l ->
      Forall2 (fun p q => fst p = fst q /\ same (snd p) (snd q)) l kvs' ->
      same (JTab kvs) (JTab kvs').

  (** What may follow an atom: nothing, or a character that is no part of one. *)
  Definition jends (rest : list N) : Prop :=
    match rest with [] => True | c :: _ => atomchar c = false end.

  Hypothesis L : lib_ok.

  Lemma atomchar_ascii c : c < 128 -> atomchar c = isalnum c || (c =? 45) || (c =? 95) || (c =? 43) || (c =? 46).
  Proof using L.
    clear isupper8 isctrl8 b64 outfmt stale order. destruct L as (_ & H & _). intro Hc. unfold JsonModel.atomchar. now rewrite (H c Hc). Qed.
  Lemma jskip_at c r : 0 < c -> isspace8 c = false -> jskip isspace8 (c :: r) = SAt c r.
  Proof using.
    clear L isupper8 tolower8 isalnum8 isdigit8 isctrl8 b64 outfmt stale order. intros H1 H2. cbn [jskip]. rewrite H2. now replace (c =? 0) with false by lia. Qed.
  Lemma jskip_ascii c r : 32 < c < 128 -> jskip isspace8 (c :: r) = SAt c r.
  Proof using L.
    clear isupper8 isctrl8 b64 outfmt stale order.
    destruct L as (_ & _ & H & _). intro Hc. apply jskip_at; [lia|]. rewrite (H c) by lia.
    unfold isspace. lia.
  Qed.
  Lemma jskip_space r : jskip isspace8 (32 :: r) = jskip isspace8 r.
  Proof using L.
    clear isupper8 isctrl8 b64 outfmt stale order. destruct L as (_ & _ & H & _). cbn [jskip]. now rewrite (H 32) by lia. Qed.

  (** ** Strings *)

  Lemma json_string_ok fl s rest : agood fl (PStr s) ->
    json_string fl 34 (tl (atext fl (PStr s)) ++ rest) = JGot (JA (PStr s)) rest.
  Proof using.
    clear L isalnum8 isdigit8 isctrl8 order.
    intros [B F]. cbn [JsonModel.atext tl]. unfold json_escape. rewrite (until0_id s (bmp_no0 s B)).
    destruct s as [|c s].
    { rewrite Bool.andb_false_r. cbn [flat_map app]. unfold JsonModel.json_string.
      cbn [N.eqb Pos.eqb andb]. cbn. now rewrite Bool.andb_false_r. }
    assert (C : colonize fl && (c =? 58) = false).
    { destruct (colonize fl); [|reflexivity]. destruct (F eq_refl) as [_ F']. lia. }
    rewrite C. cbn [app]. rewrite <- app_assoc. cbn [app].
    assert (G : jstr_loop (S (length (flat_map jesc (c :: s) ++ 34 :: rest))) 34
                  (flat_map jesc (c :: s) ++ 34 :: rest) [] = Some (c :: s, rest)).
    { rewrite (jstr_ok (c :: s) B [] rest); [reflexivity|]. rewrite app_length. lia. }
    destruct (colonize fl) eqn:Co.
    - destruct (F eq_refl) as [F1 F2].
      destruct (bmp_cons _ _ B) as [Bc Bs].
      cbn [flat_map] in *. rewrite (jesc_back c F1) in *. unfold back in *.
      destruct ((c =? 34) || (c =? 92)) eqn:E; cbn [app] in *; rewrite <- ?app_assoc in *; cbn [app] in *.
      + unfold JsonModel.json_string. rewrite Co. cbn [N.eqb Pos.eqb andb].
        rewrite (jstr_ok s Bs [c] rest) by (rewrite app_length; lia).
        cbn [rev app]. rewrite Bool.andb_true_r.
        replace (c =? 58) with false by lia. cbn [negb andb]. reflexivity.
      + unfold JsonModel.json_string. apply Bool.orb_false_iff in E as [_ E]. rewrite E. cbn [andb].
        cbn [length] in G. cbn [length]. rewrite G. cbn [negb].
        rewrite Co. replace (c =? 58) with false by lia. reflexivity.
    - unfold JsonModel.json_string.
      destruct (flat_map jesc (c :: s) ++ 34 :: rest) as [|d t] eqn:E.
      { destruct (flat_map jesc (c :: s)); discriminate. }
      rewrite Co, Bool.andb_false_r. rewrite G. now rewrite Bool.andb_false_r.
  Qed.
  (** Text after a colon is given to the reader. *)
  Lemma json_colon_ok fl t rest : colonize fl = true -> bmp t ->
    json_string fl 34 (58 :: flat_map jesc t ++ 34 :: rest)
    = match kparse t with
      | Got v _ => JGot (inj v) rest
      | Eox | Bad => JGot (JA (PStr (58 :: t))) rest
      | Unk => JUnk
      end.
  Proof using.
    clear L isupper8 isalnum8 isdigit8 isctrl8 b64 outfmt order.
    intros Co B. unfold JsonModel.json_string. cbn [N.eqb Pos.eqb andb].
    change (58 :: flat_map jesc t ++ 34 :: rest) with (flat_map jesc (58 :: t) ++ 34 :: rest).
    rewrite (jstr_ok (58 :: t)); [| |rewrite app_length; lia].
    - cbn [rev app negb]. rewrite Co. cbn [N.eqb Pos.eqb andb tl].
      now rewrite (until0_id t (bmp_no0 t B)).
    - intros c [<-|Hc]; [lia|auto].
  Qed.

  (** ** Atoms *)

  Lemma take_jatom_ok t rest : (forall c, In c t -> atomchar c = true) -> jends rest ->
    take_jatom isalnum8 (t ++ rest) = (t, rest).
  Proof using.
    clear L isupper8 tolower8 isspace8 isdigit8 isctrl8 b64 outfmt stale order.
    intros H He. induction t as [|c t IH].
    - destruct rest as [|c r]; [reflexivity|]. cbn [app take_jatom]. cbn in He. now rewrite He.
    - cbn [app take_jatom]. rewrite (H c (or_introl eq_refl)).
      rewrite IH; [reflexivity|]. intros d Hd. apply H. now right.
  Qed.
  Lemma codes_true : codes "true" = [116; 114; 117; 101]. Proof using. reflexivity. Qed.
  Lemma codes_false : codes "false" = [102; 97; 108; 115; 101]. Proof using. reflexivity. Qed.
  Lemma codes_null : codes "null" = [110; 117; 108; 108]. Proof using. reflexivity. Qed.
  Lemma atom_parsed t rest v : (forall c, In c t -> atomchar c = true) -> jends rest ->
    t <> codes "true" -> t <> codes "false" -> t <> codes "null" ->
    kparse t = Got v [] -> json_atom (t ++ rest) = JGot (inj v) rest.
  Proof using.
    clear L isupper8 isdigit8 isctrl8 b64 outfmt order.
    intros H He N1 N2 N3 E. unfold JsonModel.json_atom. rewrite (take_jatom_ok t rest H He).
    destruct (list_eq_dec N.eq_dec t (codes "true")); [contradiction|].
    destruct (list_eq_dec N.eq_dec t (codes "false")); [contradiction|].
    destruct (list_eq_dec N.eq_dec t (codes "null")); [contradiction|].
    now rewrite E.
  Qed.
  Lemma json_int_ok (a : pv) z rest : a = PFix z \/ a = PBig z -> readable a -> jends rest ->
    json_atom (dec_z z ++ rest) = JGot (JA a) rest.
  Proof using L.
    clear isctrl8 order b64. set (un := PrintModel.unparse isupper8 tolower8 (fun _ => []) outfmt).
    intros Ha R He.
    assert (E : kparse (un a ++ []) = Got a []) by (apply parse_ok; [exact (proj1 L)|exact R|exact I|intros _; exact I]).
    rewrite app_nil_r in E.
    assert (Eu : un a = dec_z z) by (destruct Ha; subst; reflexivity).
    assert (Ei : inj a = JA a) by (destruct Ha; subst; reflexivity).
    rewrite Eu in E. rewrite <- Ei.
    assert (N : forall t, (exists c r, t = c :: r /\ 58 <= c) -> dec_z z <> t).
    { intros t (c & r & -> & Hc) Ed. assert (I : In c (dec_z z)) by (rewrite Ed; now left).
      apply dec_z_chars in I. lia. }
    apply atom_parsed; auto.
    - intros c Hc. apply dec_z_chars in Hc. rewrite atomchar_ascii by lia.
      unfold isalnum, isdigit. lia.
    - apply N. rewrite codes_true. do 2 eexists. split; [reflexivity|]. lia.
    - apply N. rewrite codes_false. do 2 eexists. split; [reflexivity|]. lia.
    - apply N. rewrite codes_null. do 2 eexists. split; [reflexivity|]. lia.
  Qed.

  Lemma ascii_atomchar c : isalnum c = true -> atomchar c = true.
  Proof using L.
    clear isupper8 isctrl8 b64 outfmt stale order.
    intro H. rewrite atomchar_ascii; [now rewrite H|].
    unfold isalnum, isdigit, isupper, islower in H. lia.
  Qed.
  Lemma json_true_ok rest : jends rest -> json_atom (codes "true" ++ rest) = JGot (JA PTrue) rest.
  Proof using L.
    clear isupper8 isctrl8 b64 outfmt order.
    intro He. unfold JsonModel.json_atom. rewrite take_jatom_ok; [|intros c Hc|exact He].
    - destruct (list_eq_dec N.eq_dec (codes "true") (codes "true")); [reflexivity|contradiction].
    - rewrite codes_true in Hc. apply ascii_atomchar.
      cbn [In] in Hc. intuition subst; reflexivity.
  Qed.
  Lemma json_false_ok rest : jends rest -> json_atom (codes "false" ++ rest) = JGot (JA PFalse) rest.
  Proof using L.
    clear isupper8 isctrl8 b64 outfmt order.
    intro He. unfold JsonModel.json_atom. rewrite take_jatom_ok; [|intros c Hc|exact He].
    - destruct (list_eq_dec N.eq_dec (codes "false") (codes "true")) as [E|_]; [discriminate|].
      destruct (list_eq_dec N.eq_dec (codes "false") (codes "false")); [reflexivity|contradiction].
    - rewrite codes_false in Hc. apply ascii_atomchar.
      cbn [In] in Hc. intuition subst; reflexivity.
  Qed.
End Json.
