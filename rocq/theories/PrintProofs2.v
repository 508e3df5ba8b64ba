(** * Lemmas about the printer and the reader: lists and vectors. *)
From Coq Require Import Strings.String Init.Datatypes List.
From Verif Require Import PrintModel UriProofs PrintProofs.
From Verif Require OidText.
From Coq Require Import Lia ZArith ZifyBool ZifyN ZifyNat.
Import Datatypes ListNotations.
Local Open Scope N_scope.

Section Text.
  Variable isupper8 : N -> bool.
  Variable tolower8 : N -> N.
  Variable isspace8 : N -> bool.
  Variable b64 : list N -> list N.
  Variable outfmt : Z.
  Variable stale : bool.
  Notation unparse := (unparse isupper8 tolower8 b64 outfmt).
  Notation parser := (parser tolower8 isspace8 stale).
  Notation needs_protection := (needs_protection isupper8 tolower8).
  Notation emit_symbol_name := (emit_symbol_name isupper8 tolower8).

  (** ** What is read back *)

  (** The characters at which an atom ends: NUL, blanks and the characters of the syntax. *)
  Definition stops (c : N) : Prop :=
    c = 0 \/ 9 <= c <= 13 \/ In c [32; 34; 35; 39; 40; 41; 44; 91; 93; 96; 123; 125].
  (** Names printed between bars: some character would end the atom or be converted. *)
  Definition barred (n : list N) : Prop :=
    exists c, In c n /\ (stops c \/ isupper8 c = true /\ tolower8 c <> c).
  (** Text the reader takes for a number. *)
  Definition numeral (n : list N) : Prop :=
    match n with
    | [] => False
    | c :: r => 48 <= c <= 57
                \/ In c [43; 45; 46] /\ match r with d :: _ => 48 <= d <= 57 | [] => False end
    end.
  (** A name that is printed without bars and read back as it is: it has no bar or
      backslash, case conversion leaves its characters alone, it looks like no number,
      comment or OID, and is no point on its own. *)
  Definition plain_name (n : list N) : Prop :=
    (forall c, In c n -> c <> 124 /\ c <> 92 /\ tolower8 c = c) /\
    ~ numeral n /\
    match n with
    | [] => False
    | c :: r => c <> 59 /\ c <> 64 /\
                (c = 46 -> match r with d :: _ => isspace8 d = false | [] => False end)
    end.
  Definition good_name (n : list N) : Prop :=
    ~ In 0 n /\ (n = [] \/ barred n \/ plain_name n).

  (** The values that are read back. *)
  Fixpoint readable (v : pv) : Prop :=
    match v with
    | PFix z => (- max_fixnum < z < max_fixnum)%Z
    | PBig z => (z <= - max_fixnum \/ max_fixnum <= z)%Z /\
                (stale = true -> (z < - 9223372036854775808 \/ 9223372036854775807 < z)%Z)
    | PStr _ => True
    | PPkt b => bytes b /\ outfmt <> 64%Z
    | PChar c => c < 65536
    | PSym n => good_name n
    | POid a => a < 2^64
    | PTrue | PFalse | PNil => True
    | PPair a d => readable a /\ readable d /\
                   ~ (a = PSym (codes "unquote") /\ exists o, d = PPair (POid o) PNil)
    | PVec l => (fix all (l : list pv) : Prop :=
                   match l with [] => True | x :: r => readable x /\ all r end) l
    end.
  (** Whether an OID occurs in the value. *)
  Fixpoint has_oid (v : pv) : bool :=
    match v with
    | POid _ => true
    | PPair a d => has_oid a || has_oid d
    | PVec l => existsb has_oid l
    | _ => false
    end.
  (** Text before which an OID has ended: nothing, a blank or a closing bracket. *)
  Definition closes (rest : list N) : Prop := OidText.stops rest.
  Definition all_readable (l : list pv) : Prop :=
    (fix all (l : list pv) : Prop :=
       match l with [] => True | x :: r => readable x /\ all r end) l.

  (** Case conversion and blanks of ASCII characters. *)
  Definition ascii_ok : Prop :=
    tolower8 35 = 35 /\ tolower8 116 = 116 /\ tolower8 102 = 102 /\
    (forall c, c = 45 \/ 48 <= c <= 57 -> tolower8 c = c) /\ isspace8 32 = true.

  (** Depth of nesting. *)
  Fixpoint pd (v : pv) : nat :=
    match v with
    | PPair a d => S (Nat.max (pd a) (pd d))
    | PVec l => S ((fix m (l : list pv) : nat :=
                      match l with [] => 0%nat | x :: r => Nat.max (pd x) (m r) end) l)
    | _ => 1%nat
    end.
  Definition pds (l : list pv) : nat :=
    (fix m (l : list pv) : nat :=
       match l with [] => 0%nat | x :: r => Nat.max (pd x) (m r) end) l.

  Lemma stops_iff c : atombreakp c = true <-> stops c.
  Proof using.
    clear isupper8 tolower8 isspace8 b64 outfmt stale.
    unfold stops, atombreakp, strchr.
    cbv [codes existsb Ascii.N_of_ascii Ascii.N_of_digits N.add N.mul Pos.add Pos.mul Pos.succ].
    unfold isspace. cbn [In]. lia.
  Qed.
  Lemma barred_iff n : needs_protection n = true <-> barred n.
  Proof.
    clear isspace8 b64 outfmt stale.
    unfold PrintModel.needs_protection, barred. rewrite existsb_exists.
    split; intros (c & I & H); exists c; (split; [exact I|]).
    - apply Bool.orb_true_iff in H as [H|H]; [left; now apply stops_iff|right].
      apply Bool.andb_true_iff in H as [H1 H2]. split; [exact H1|]. lia.
    - destruct H as [H|[H1 H2]]; apply Bool.orb_true_iff; [left; now apply stops_iff|right].
      rewrite H1. cbn. lia.
  Qed.
  Lemma numeral_iff n : numeric_start n = true <-> numeral n.
  Proof using.
    clear isupper8 tolower8 isspace8 b64 outfmt stale.
    destruct n as [|c r]; cbn [numeric_start numeral]; [easy|]. unfold isdigit.
    destruct r as [|d r]; cbn [In]; lia.
  Qed.

  (** The inner loops of [unparse]. *)
  Definition tail_text : pv -> list N :=
    fix tail (d : pv) : list N :=
      match d with
      | PPair x r => 32 :: unparse x ++ tail r
      | PNil => [41]
      | _ => codes " . " ++ unparse d ++ [41]
      end.
  Definition elts_text : bool -> list pv -> list N :=
    fix elts (first : bool) (l : list pv) : list N :=
      match l with
      | [] => [41]
      | x :: r => (if first then [] else [32]) ++ unparse x ++ elts false r
      end.
  Lemma unparse_pair a d : unparse (PPair a d)
    = match car_prefix a, d with
      | Some p, PPair x PNil => p ++ unparse x
      | _, _ => 40 :: unparse a ++ tail_text d
      end.
  Proof. reflexivity. Qed.
  Lemma unparse_vec l : unparse (PVec l) = codes "#(" ++ elts_text true l.
  Proof. reflexivity. Qed.

  (** ** The first character of what is printed *)

  Definition head_ok (s : list N) : Prop :=
    match s with
    | [] => False
    | c :: r => isspace c = false /\ c <> 59 /\ c <> 41 /\ c <> 93 /\ c <> 125 /\
                (c = 35 -> match r with d :: _ => d <> 124 | [] => False end) /\
                (c = 46 -> match r with d :: _ => isspace8 d = false | [] => False end)
    end.
  Lemma head_app s t : head_ok s -> head_ok (s ++ t).
  Proof.
    destruct s as [|c [|d r]]; [intros []| |].
    - cbn [app]. intros (H1 & H2 & H3 & H4 & H5 & H7 & H8). repeat split; auto;
        intro E; exfalso; auto.
    - intro H. exact H.
  Qed.
  Lemma head_char c r : isspace c = false -> ~ In c [59; 41; 93; 125; 35; 46] -> head_ok (c :: r).
  Proof.
    intros H1 H2. cbn [In] in H2. cbn [head_ok].
    repeat split; auto; intros ->; exfalso; apply H2; tauto.
  Qed.
  Lemma head_hash d r : d <> 124 -> head_ok (35 :: d :: r).
  Proof. intro H. cbn. repeat split; try discriminate. intros _. exact H. Qed.

  Lemma not_protected n c : needs_protection n = false -> In c n -> atombreakp c = false.
  Proof.
    intros H I. unfold PrintModel.needs_protection in H. apply Bool.not_true_is_false. intro E.
    assert (T : existsb (fun c => atombreakp c || (isupper8 c && negb (tolower8 c =? c))) n = true).
    { apply existsb_exists. exists c. split; [exact I|]. now rewrite E. }
    congruence.
  Qed.
  Lemma atombreak_false c : atombreakp c = false ->
    isspace c = false /\ ~ In c [41; 93; 125; 35].
  Proof.
    unfold atombreakp, strchr.
    cbv [codes existsb Ascii.N_of_ascii Ascii.N_of_digits N.add N.mul Pos.add Pos.mul Pos.succ].
    unfold isspace. cbn [In]. lia.
  Qed.
  Lemma head_symbol n : good_name n -> head_ok (emit_symbol_name n).
  Proof.
    intro G. unfold PrintModel.emit_symbol_name. destruct n as [|c r].
    - apply head_char; [reflexivity|]. cbn. lia.
    - destruct (needs_protection (c :: r)) eqn:E.
      + apply head_char; [reflexivity|]. cbn. lia.
      + destruct G as (_ & [G|[G|G]]); [discriminate|apply barred_iff in G; congruence|].
        destruct G as (_ & _ & H1 & H2 & H3).
        destruct (atombreak_false c) as (A & B); [apply (not_protected (c :: r)); [exact E|now left]|].
        cbn [In] in B. cbn [head_ok]. repeat split; auto; intros ->; exfalso; apply B; tauto.
  Qed.
  Lemma head_unparse v : readable v -> head_ok (unparse v).
  Proof.
    induction v as [z|z|s|b|c|n|a| | | |a IHa d IHd|l]; intro R.
    1,2: cbn [PrintModel.unparse]; destruct (dec_z_shape z) as (pre & ds & -> & D & NE & Hp);
      destruct ds as [|x ds]; [congruence|];
      assert (Hx : 48 <= x <= 57) by (inversion D; assumption);
      destruct Hp as [-> | ->]; cbn [app]; apply head_char;
      [unfold isspace; lia|cbn; lia|reflexivity|cbn; lia].
    - apply head_char; [reflexivity|cbn; lia].
    - cbn [PrintModel.unparse]. unfold unparse_packet.
      destruct (get_packet_base outfmt b =? 16)%Z; [apply head_hash; discriminate|].
      destruct (get_packet_base outfmt b =? 64)%Z; apply head_hash; discriminate.
    - cbn [PrintModel.unparse]. unfold unparse_char.
      destruct ((c <? 128) && isalnum c); apply head_hash; discriminate.
    - now apply head_symbol.
    - apply head_char; [reflexivity|cbn; lia].
    - apply head_hash. discriminate.
    - apply head_hash. discriminate.
    - apply head_char; [reflexivity|cbn; lia].
    - rewrite unparse_pair. destruct R as (Ra & Rd & _).
      assert (H40 : head_ok (40 :: unparse a ++ tail_text d)) by (apply head_char; [reflexivity|cbn; lia]).
      destruct (car_prefix a) as [p|] eqn:E; [|exact H40].
      assert (P : p = codes "'" \/ p = codes "`" \/ p = codes "," \/ p = codes ",@" \/ p = codes "#;").
      { unfold car_prefix in E. destruct a; try discriminate. unfold quote_prefix in E.
        repeat (destruct list_eq_dec; [injection E as <-; tauto|]). discriminate. }
      destruct d; try exact H40. destruct d2; try exact H40.
      destruct P as [->|[->|[->|[->| ->]]]]; cbn [codes app];
        try (apply head_char; [reflexivity|cbn; lia]). apply head_hash. discriminate.
    - apply head_hash. discriminate.
  Qed.

  Lemma unparse_len v : readable v -> (1 <= length (unparse v))%nat.
  Proof.
    intro R. assert (H := head_unparse v R). destruct (unparse v); [destruct H|]. cbn. lia.
  Qed.

  (** ** Blanks *)

  Lemma skip_head s : head_ok s -> skip_ws false s = WAt s.
  Proof.
    destruct s as [|c r]; [intros []|]. intros (H1 & H2 & H3 & H4 & H5 & H7 & H8).
    cbn [skip_ws]. rewrite H1, (proj2 (N.eqb_neq c 59) H2). destruct (c =? 35) eqn:E; [|reflexivity].
    apply N.eqb_eq in E. specialize (H7 E). destruct r as [|d r]; [destruct H7|].
    now rewrite (proj2 (N.eqb_neq d 124) H7).
  Qed.
  Lemma skip_space s : skip_ws false (32 :: s) = skip_ws false s.
  Proof. reflexivity. Qed.
  Lemma parser_space n s : parser n (32 :: s) = parser n s.
  Proof. destruct n; reflexivity. Qed.

  Lemma ends_tail d rest : ends (tail_text d ++ rest).
  Proof. destruct d; reflexivity. Qed.
  Lemma closes_tail d rest : closes (tail_text d ++ rest).
  Proof. destruct d; reflexivity. Qed.
  Lemma closes_elts l rest : closes (elts_text false l ++ rest).
  Proof. destruct l; reflexivity. Qed.
  Lemma ends_elts l rest : ends (elts_text false l ++ rest).
  Proof. destruct l; reflexivity. Qed.

  (** ** Atoms *)

  Hypothesis A : ascii_ok.

  Lemma copy_plain t rest : t <> [] -> ends rest ->
    (forall c, In c t -> atombreakp c = false /\ c <> 124 /\ c <> 92 /\ tolower8 c = c) ->
    copy_atom tolower8 (t ++ rest) = AGot t rest.
  Proof.
    intros NE He H. destruct t as [|c t]; [congruence|]. unfold copy_atom. cbn [app].
    destruct (H c (or_introl eq_refl)) as (_ & H2 & _). rewrite (proj2 (N.eqb_neq c 124) H2).
    change (c :: t ++ rest) with ((c :: t) ++ rest).
    rewrite (ca_plain isupper8 tolower8 (c :: t) H); [reflexivity|exact He|]. rewrite app_length. lia.
  Qed.
  (** The characters after which [parser] goes to [parse_atom]. *)
  Definition atom_start (c : N) : Prop := atombreakp c = false /\ c <> 59 /\ c <> 64 /\ c <> 124.
  Lemma parser_atom n s c r : s = c :: r -> atom_start c -> parser (S n) s = parse_atom tolower8 stale s.
  Proof.
    intros -> (H1 & H2 & H3 & H4). cbn [PrintModel.parser].
    assert (B : isspace c = false /\ ~ In c [34; 39; 40; 41; 44; 91; 93; 96; 123; 125; 35]).
    { unfold atombreakp, strchr in H1.
      cbv [codes existsb Ascii.N_of_ascii Ascii.N_of_digits N.add N.mul Pos.add Pos.mul Pos.succ] in H1.
      unfold isspace in *. cbn [In]. lia. }
    destruct B as (B1 & B2). cbn [In] in B2.
    cbn [skip_ws]. rewrite B1, (proj2 (N.eqb_neq c 59) H2).
    replace (c =? 35) with false by lia.
    replace ((c =? 41) || (c =? 93) || (c =? 125)) with false by lia.
    replace (c =? 34) with false by lia. replace (c =? 40) with false by lia.
    replace (c =? 64) with false by lia. replace ((c =? 123) || (c =? 91)) with false by lia.
    replace (c =? 39) with false by lia. replace (c =? 96) with false by lia.
    replace (c =? 44) with false by lia. replace (c =? 124) with false by lia.
    replace (c =? 35) with false by lia. reflexivity.
  Qed.

  Lemma parser_int n z rest : ends rest ->
    parser (S n) (dec_z z ++ rest)
    = match read_int stale z with NNum v => Got v rest | NFalse => Got (PSym (dec_z z)) rest | NUnk => Unk end.
  Proof.
    intro He. assert (C := fun c => dec_z_chars z c). assert (N1 := dec_z_numeric z).
    assert (P := parse_number_dec stale z).
    destruct (dec_z z) as [|c r] eqn:E; [discriminate|].
    assert (Cc : c = 45 \/ 48 <= c <= 57) by (apply C; now left).
    assert (Hb : forall c, c = 45 \/ 48 <= c <= 57 -> atombreakp c = false).
    { intros d Hd. unfold atombreakp, strchr.
      cbv [codes existsb Ascii.N_of_ascii Ascii.N_of_digits N.add N.mul Pos.add Pos.mul Pos.succ].
      unfold isspace. lia. }
    rewrite (parser_atom n ((c :: r) ++ rest) c (r ++ rest) eq_refl).
    2: { repeat split; [now apply Hb|lia..]. }
    unfold parse_atom. rewrite (copy_plain (c :: r) rest ltac:(discriminate) He).
    - unfold parse_atom_text. replace (c =? 35) with false by lia. rewrite N1, P. reflexivity.
    - intros d I. apply C in I. destruct A as (_ & _ & _ & A4 & _).
      repeat split; [now apply Hb|lia|lia|now apply A4].
  Qed.
  Lemma parser_bars n name rest : ends rest ->
    parser (S n) (124 :: flat_map bar_char name ++ 124 :: rest) = Got (PSym name) rest.
  Proof.
    intro He.
    change (parser (S n) (124 :: flat_map bar_char name ++ 124 :: rest))
      with (match copy_atom tolower8 (124 :: flat_map bar_char name ++ 124 :: rest) with
            | AGot t rest => Got (PSym t) rest | AUnk => Unk end).
    unfold copy_atom. cbn [N.eqb Pos.eqb]. cbv iota.
    rewrite (ca_bars isupper8 tolower8 name rest); [reflexivity|exact He|].
    rewrite app_length. cbn [length]. lia.
  Qed.
  Lemma parser_symbol n name rest : good_name name -> ends rest ->
    parser (S n) (emit_symbol_name name ++ rest) = Got (PSym name) rest.
  Proof.
    intros G He. unfold PrintModel.emit_symbol_name. destruct name as [|c r].
    - exact (parser_bars n [] rest He).
    - destruct (needs_protection (c :: r)) eqn:E.
      + cbn [app]. rewrite <- app_assoc. exact (parser_bars n (c :: r) rest He).
      + destruct G as (_ & [G|[G|G]]); [discriminate|apply barred_iff in G; congruence|].
        destruct G as (G1 & G2 & G3 & G4 & G5).
        assert (B : forall d, In d (c :: r) -> atombreakp d = false)
          by (intros d I; now apply (not_protected (c :: r))).
        rewrite (parser_atom n ((c :: r) ++ rest) c (r ++ rest) eq_refl).
        2: { repeat split; [apply B; now left|auto..]. now apply (G1 c (or_introl eq_refl)). }
        unfold parse_atom. rewrite (copy_plain (c :: r) rest ltac:(discriminate) He).
        * unfold parse_atom_text.
          rewrite (proj1 (Bool.not_true_iff_false _) (fun X => G2 (proj1 (numeral_iff (c :: r)) X))).
          destruct (atombreak_false c (B c (or_introl eq_refl))) as (_ & N1). cbn [In] in N1.
          now replace (c =? 35) with false by lia.
        * intros d I. destruct (G1 d I) as (H1 & H2 & H3). auto.
  Qed.
  Lemma parser_const n ch rest : (ch = 116 \/ ch = 102) -> ends rest ->
    parser (S n) (35 :: ch :: rest) = Got (if ch =? 116 then PTrue else PFalse) rest.
  Proof.
    intros H He. destruct A as (A1 & A2 & A3 & _).
    assert (C : copy_atom tolower8 rest = AGot [] rest).
    { unfold copy_atom. destruct rest as [|d r]; [reflexivity|]. cbn in He.
      assert (d <> 124) by (intros ->; discriminate). rewrite (proj2 (N.eqb_neq d 124) H0).
      cbn [ca_loop length]. now rewrite He. }
    destruct H as [-> | ->].
    - change (parse_hash_atom tolower8 116 rest = Got PTrue rest). unfold parse_hash_atom.
      rewrite C, A1, A2. reflexivity.
    - change (parse_hash_atom tolower8 102 rest = Got PFalse rest). unfold parse_hash_atom.
      rewrite C, A1, A3. reflexivity.
  Qed.

  (** ** Lists and vectors *)

  Definition reads (n : nat) (v : pv) : Prop :=
    forall rest, ends rest -> (has_oid v = true -> closes rest) -> parser n (unparse v ++ rest) = Got v rest.

  Lemma head_dot s c r : head_ok s -> s = c :: r ->
    (c =? 46) && match r with d :: _ => isspace8 d | [] => false end = false.
  Proof.
    intros H ->. destruct H as (_ & _ & _ & _ & _ & _ & H).
    destruct (c =? 46) eqn:E; [|reflexivity]. apply N.eqb_eq in E. specialize (H E).
    destruct r as [|d r]; [reflexivity|]. now rewrite H.
  Qed.

  Lemma list_dot n : (forall v, (pd v <= n)%nat -> readable v -> reads n v) ->
    forall w, (pd w <= n)%nat -> readable w -> forall rest k,
    list_loop isspace8 (parser n) (S k) ((codes " . " ++ unparse w ++ [41]) ++ rest) = Got w rest.
  Proof.
    intros IH w Hn R rest k. destruct A as (_ & _ & _ & _ & A5).
    change (codes " . ") with [32; 46; 32]. rewrite <- !app_assoc. cbn [app]. cbn [list_loop].
    change (skip_ws false (32 :: 46 :: 32 :: unparse w ++ 41 :: rest))
      with (WAt (46 :: 32 :: unparse w ++ 41 :: rest)).
    cbv iota. rewrite A5. cbn [N.eqb Pos.eqb andb]. cbv iota.
    rewrite parser_space. rewrite (IH w Hn R); reflexivity.
  Qed.
  Lemma list_loop_ok n : (forall v, (pd v <= n)%nat -> readable v -> reads n v) ->
    forall d, (pd d <= n)%nat -> readable d -> forall rest k, (length (tail_text d) < k)%nat ->
    list_loop isspace8 (parser n) k (tail_text d ++ rest) = Got d rest.
  Proof.
    intros IH d. induction d as [z|z|s|b|c|nm|a| | | |x _ d IHd|l];
      intros Hn R rest k Hk.
    1-9, 12: (destruct k as [|k]; [lia|]; exact (list_dot n IH _ Hn R rest k)).
    - destruct k as [|k]; [lia|]. reflexivity.
    - destruct k as [|k]; [lia|].
      change (tail_text (PPair x d)) with (32 :: unparse x ++ tail_text d) in *.
      cbn [length] in Hk. rewrite app_length in Hk.
      cbn [app]. rewrite <- app_assoc. destruct R as (Rx & Rd & _). cbn [pd] in Hn.
      assert (Hx := head_app (unparse x) (tail_text d ++ rest) (head_unparse x Rx)).
      cbn [list_loop]. rewrite skip_space, (skip_head _ Hx).
      destruct (unparse x ++ tail_text d ++ rest) as [|c r] eqn:E; [destruct Hx|].
      assert (D := head_dot _ c r Hx eq_refl).
      destruct Hx as (_ & _ & H41 & _). rewrite (proj2 (N.eqb_neq c 41) H41), D.
      rewrite <- E. rewrite (IH x); [|lia|exact Rx|apply ends_tail|intros _; apply closes_tail].
      rewrite IHd; [reflexivity|lia|exact Rd|]. lia.
  Qed.
  Lemma vec_loop_ok n : (forall v, (pd v <= n)%nat -> readable v -> reads n v) ->
    forall l b, (pds l <= n)%nat -> all_readable l -> forall rest k, (length (elts_text b l) < k)%nat ->
    vec_loop (parser n) k (elts_text b l ++ rest) = Got (PVec l) rest.
  Proof.
    intros IH l. induction l as [|x l IHl]; intros b Hn R rest k Hk.
    - destruct k as [|k]; [lia|]. reflexivity.
    - destruct k as [|k]; [lia|].
      change (elts_text b (x :: l)) with ((if b then [] else [32]) ++ unparse x ++ elts_text false l) in *.
      rewrite !app_length in Hk. destruct R as [Rx Rl]. fold (all_readable l) in Rl.
      change (pds (x :: l)) with (Nat.max (pd x) (pds l)) in Hn.
      rewrite <- !app_assoc.
      assert (Hx := head_app (unparse x) (elts_text false l ++ rest) (head_unparse x Rx)).
      cbn [vec_loop].
      replace (skip_ws false ((if b then [] else [32]) ++ unparse x ++ elts_text false l ++ rest))
        with (skip_ws false (unparse x ++ elts_text false l ++ rest)) by (now destruct b).
      rewrite (skip_head _ Hx).
      destruct (unparse x ++ elts_text false l ++ rest) as [|c r] eqn:E; [destruct Hx|].
      destruct Hx as (_ & _ & H41 & H93 & H125 & _).
      rewrite (proj2 (N.eqb_neq c 41) H41), (proj2 (N.eqb_neq c 93) H93), (proj2 (N.eqb_neq c 125) H125).
      cbn [orb]. rewrite <- E. rewrite (IH x); [|lia|exact Rx|apply ends_elts|intros _; apply closes_elts].
      rewrite IHl; [reflexivity|lia|exact Rl|].
      assert (Lx := unparse_len x Rx). lia.
  Qed.

  Lemma quote_prefix_inv n p : quote_prefix n = Some p ->
    (n = codes "quote" /\ p = codes "'") \/ (n = codes "quasiquote" /\ p = codes "`") \/
    (n = codes "unquote" /\ p = codes ",") \/ (n = codes "unquote*" /\ p = codes ",@") \/
    (n = codes "comment" /\ p = codes "#;").
  Proof.
    unfold quote_prefix. intro E.
    repeat (destruct list_eq_dec; [injection E as <-; tauto|]). discriminate.
  Qed.

  Lemma at_oid x : readable x -> (exists rest r, unparse x ++ rest = 64 :: r) -> exists o, x = POid o.
  Proof.
    intros R (rest & r & E). destruct x as [z|z|s|b|c|n|a| | | |a d|l]; try discriminate E.
    1,2: exfalso; cbn [PrintModel.unparse] in E; assert (C := dec_z_chars z 64);
      destruct (dec_z_shape z) as (pre & ds & Ez & D & NE & Hp); rewrite Ez in *;
      assert (NE' : pre ++ ds <> []) by (destruct pre; [exact NE|discriminate]);
      destruct (pre ++ ds) as [|x l]; [now elim NE'|]; injection E as -> _;
      destruct (C (or_introl eq_refl)) as [C'|C']; lia.
    - cbn [PrintModel.unparse] in E. unfold unparse_packet in E.
      destruct (get_packet_base outfmt b =? 16)%Z; [discriminate|].
      destruct (get_packet_base outfmt b =? 64)%Z; discriminate.
    - cbn [PrintModel.unparse] in E. unfold unparse_char in E.
      destruct ((c <? 128) && isalnum c); discriminate.
    - cbn [PrintModel.unparse] in E. unfold PrintModel.emit_symbol_name in E. destruct n as [|c n]; [discriminate|].
      destruct (needs_protection (c :: n)) eqn:P; [discriminate|].
      destruct R as (_ & [R|[R|R]]); [discriminate|apply barred_iff in R; congruence|].
      destruct R as (_ & _ & _ & H & _). injection E as -> _. now elim H.
    - now exists a.
    - rewrite unparse_pair in E. destruct (car_prefix a) as [p|] eqn:Ep; [|discriminate].
      unfold car_prefix in Ep. destruct a; try discriminate.
      destruct d as [| | | | | | | | | |x t|]; try discriminate. destruct t; try discriminate.
      destruct (quote_prefix_inv _ _ Ep) as [[_ ->]|[[_ ->]|[[_ ->]|[[_ ->]|[_ ->]]]]]; discriminate.
  Qed.

  Lemma parser_prefix n x rest name p : quote_prefix name = Some p -> reads n x -> readable x ->
    ~ (name = codes "unquote" /\ exists o, x = POid o) -> ends rest -> (has_oid x = true -> closes rest) ->
    parser (S n) ((p ++ unparse x) ++ rest) = Got (PPair (PSym name) (PPair x PNil)) rest.
  Proof.
    intros Q R Rx Ru He Hc. assert (Hx := head_app _ rest (head_unparse x Rx)).
    rewrite <- app_assoc.
    destruct (quote_prefix_inv name p Q) as [[-> ->]|[[-> ->]|[[-> ->]|[[-> ->]|[-> ->]]]]].
    - change (quoted "quote" (parser n (unparse x ++ rest)) = Got (PPair (PSym (codes "quote")) (PPair x PNil)) rest).
      rewrite (R rest He Hc). reflexivity.
    - change (quoted "quasiquote" (parser n (unparse x ++ rest))
              = Got (PPair (PSym (codes "quasiquote")) (PPair x PNil)) rest).
      rewrite (R rest He Hc). reflexivity.
    - change (match unparse x ++ rest with
              | d :: r' => if d =? 64 then quoted "unquote*" (parser n r')
                           else quoted "unquote" (parser n (unparse x ++ rest))
              | [] => Eox
              end = Got (PPair (PSym (codes "unquote")) (PPair x PNil)) rest).
      assert (E := R rest He Hc). destruct (unparse x ++ rest) as [|c r] eqn:Ex; [destruct Hx|].
      destruct (c =? 64) eqn:E64; [|rewrite E; reflexivity].
      apply N.eqb_eq in E64. subst c. exfalso. apply Ru. split; [reflexivity|].
      apply (at_oid x Rx). now exists rest, r.
    - change (quoted "unquote*" (parser n (unparse x ++ rest))
              = Got (PPair (PSym (codes "unquote*")) (PPair x PNil)) rest).
      rewrite (R rest He Hc). reflexivity.
    - change (quoted "comment" (parser n (unparse x ++ rest))
              = Got (PPair (PSym (codes "comment")) (PPair x PNil)) rest).
      rewrite (R rest He Hc). reflexivity.
  Qed.

  Lemma reads_all n : forall v, (pd v <= n)%nat -> readable v -> reads n v.
  Proof.
    induction n as [|n IH]; intros v Hn R rest He Hc; [destruct v; cbn in Hn; lia|].
    destruct v as [z|z|s|b|c|nm|a| | | |a d|l].
    - cbn [PrintModel.unparse]. rewrite (parser_int n z rest He). unfold read_int.
      cbn [readable] in R. destruct (z =? 0)%Z eqn:E; [apply Z.eqb_eq in E; now subst|].
      replace ((z <? max_fixnum)%Z && (- max_fixnum <? z)%Z) with true by lia. reflexivity.
    - cbn [PrintModel.unparse]. rewrite (parser_int n z rest He). unfold read_int.
      cbn [readable] in R. destruct R as (R1 & R2). change max_fixnum with 2305843009213693951%Z in *.
      replace (z =? 0)%Z with false by lia.
      replace ((z <? 2305843009213693951)%Z && (- (2305843009213693951) <? z)%Z) with false by lia.
      destruct stale; [|reflexivity]. specialize (R2 eq_refl).
      now replace (true && (- 9223372036854775808 <=? z)%Z && (z <=? 9223372036854775807)%Z) with false by lia.
    - cbn [PrintModel.unparse]. unfold unparse_string. cbn [app]. rewrite <- app_assoc. cbn [app].
      change (parse_string isspace8 (flat_map esc_char s ++ 34 :: rest) = Got (PStr s) rest).
      apply parse_string_ok.
    - destruct R as (Rb & Ro). cbn [PrintModel.unparse]. unfold unparse_packet.
      destruct (get_packet_base outfmt b =? 16)%Z eqn:E16.
      + rewrite <- !app_assoc.
        change (hex_pkt_loop (flat_map (hex2 false) b ++ 34 :: rest) [] = Got (PPkt b) rest).
        now rewrite (hex_pkt_ok b Rb).
      + assert (E64 : (get_packet_base outfmt b =? 64)%Z = false).
        { unfold get_packet_base. destruct ((outfmt =? 16)%Z || (outfmt =? 64)%Z || (outfmt =? 8)%Z); [lia|].
          destruct (_ <? _)%nat; reflexivity. }
        rewrite E64. rewrite <- !app_assoc.
        change (parse_text_packet isspace8 (flat_map pkt_char b ++ 34 :: rest) = Got (PPkt b) rest).
        apply parse_text_packet_ok. exact Rb.
    - cbn [readable] in R. cbn [PrintModel.unparse].
      assert (E : unparse_char c ++ rest = 35 :: 92 :: (skipn 2 (unparse_char c) ++ rest)).
      { unfold unparse_char. destruct ((c <? 128) && isalnum c); reflexivity. }
      rewrite E.
      change (parse_character (skipn 2 (unparse_char c) ++ rest) = Got (PChar c) rest).
      now apply parse_character_ok.
    - now apply parser_symbol.
    - cbn [readable] in R. cbn [PrintModel.unparse].
      change (parser (S n) (print_oid a ++ rest))
        with (match parse_oid (print_oid a ++ rest) with POk a rest => Got (POid a) rest | _ => Unk end).
      rewrite (OidText.parse_print a rest R (Hc eq_refl)). reflexivity.
    - exact (parser_const n 116 rest (or_introl eq_refl) He).
    - exact (parser_const n 102 rest (or_intror eq_refl) He).
    - reflexivity.
    - rewrite unparse_pair. destruct R as (Ra & Rd & Ru). cbn [pd] in Hn.
      assert (L : parser (S n) ((40 :: unparse a ++ tail_text d) ++ rest) = Got (PPair a d) rest).
      { cbn [app]. rewrite <- app_assoc.
        change (parser (S n) (40 :: unparse a ++ tail_text d ++ rest))
          with (parse_list isspace8 (parser n) (unparse a ++ tail_text d ++ rest)).
        unfold parse_list.
        assert (Ha := head_app (unparse a) (tail_text d ++ rest) (head_unparse a Ra)).
        rewrite (skip_head _ Ha).
        destruct (unparse a ++ tail_text d ++ rest) as [|c r] eqn:E; [destruct Ha|].
        destruct Ha as (_ & _ & H41 & H93 & _).
        rewrite (proj2 (N.eqb_neq c 41) H41), (proj2 (N.eqb_neq c 93) H93).
        rewrite <- E. rewrite (IH a); [|lia|exact Ra|apply ends_tail|intros _; apply closes_tail].
        rewrite list_loop_ok; [reflexivity|exact IH|lia|exact Rd|]. rewrite app_length. lia. }
      destruct (car_prefix a) as [p|] eqn:Ep; [|exact L].
      destruct d as [| | | | | | | | | |x t|]; try exact L. destruct t; try exact L.
      unfold car_prefix in Ep. destruct a; try discriminate.
      destruct Rd as (Rx & _ & _). cbn [pd] in Hn. apply parser_prefix; auto.
      + apply IH; [lia|exact Rx].
      + intros [-> (o & ->)]. apply Ru. split; [reflexivity|]. now exists o.
      + intro Hx. apply Hc. cbn [has_oid]. rewrite Hx. now rewrite Bool.orb_true_r.
    - rewrite unparse_vec.
      change (codes "#(") with [35; 40]. cbn [app].
      change (parser (S n) (35 :: 40 :: elts_text true l ++ rest))
        with (vec_loop (parser n) (S (length (elts_text true l ++ rest))) (elts_text true l ++ rest)).
      change (pd (PVec l)) with (S (pds l)) in Hn.
      apply vec_loop_ok; [exact IH|lia|exact R|]. rewrite app_length. lia.
  Qed.

  (** ** Enough fuel *)

  Lemma tail_len d : (1 <= length (tail_text d))%nat.
  Proof. destruct d; cbn; lia. Qed.
  Lemma pd_len n : forall v, (pd v <= n)%nat -> readable v ->
    (pd v <= 2 * length (unparse v))%nat.
  Proof.
    induction n as [|n IH]; intros v Hn R; [destruct v; cbn in Hn; lia|].
    assert (L1 := unparse_len v R).
    destruct v as [z|z|s|b|c|nm|a| | | |a d|l]; try (cbn [pd]; lia).
    - destruct R as (Ra & Rd & _). cbn [pd] in Hn.
      assert (T : forall d, (pd d <= n)%nat -> readable d -> (pd d <= 2 * length (tail_text d))%nat).
      { clear - IH. intro d. induction d as [z|z|s|b|c|nm|a| | | |x _ d IHd|l]; intros Hn R;
          try (cbn [pd]; assert (L := tail_len); match goal with |- (_ <= 2 * length (tail_text ?v))%nat => specialize (L v) end; lia).
        - destruct R as (Rx & Rd & _). cbn [pd] in Hn.
          change (tail_text (PPair x d)) with (32 :: unparse x ++ tail_text d).
          cbn [length]. rewrite app_length. specialize (IH x ltac:(lia) Rx).
          specialize (IHd ltac:(lia) Rd). cbn [pd]. lia.
        - change (tail_text (PVec l)) with (codes " . " ++ unparse (PVec l) ++ [41]).
          rewrite !app_length. specialize (IH (PVec l) Hn R). lia. }
      assert (Ta := IH a ltac:(lia) Ra). assert (Td := T d ltac:(lia) Rd).
      rewrite unparse_pair.
      assert (P : (S (Nat.max (pd a) (pd d)) <= 2 * length (40%N :: unparse a ++ tail_text d))%nat).
      { cbn [length]. rewrite app_length. lia. }
      destruct (car_prefix a) as [p|] eqn:Ep; [|exact P].
      destruct d as [| | | | | | | | | |x t|]; try exact P. destruct t; try exact P.
      unfold car_prefix in Ep. destruct a; try discriminate.
      destruct Rd as (Rx & _ & _). cbn [pd] in Hn. assert (Tx := IH x ltac:(lia) Rx).
      assert (Lx := unparse_len x Rx).
      assert (Lp : (1 <= length p)%nat).
      { destruct (quote_prefix_inv _ _ Ep) as [[_ ->]|[[_ ->]|[[_ ->]|[[_ ->]|[_ ->]]]]]; cbn; lia. }
      rewrite app_length. cbn [pd]. lia.
    - rewrite unparse_vec. change (pd (PVec l)) with (S (pds l)) in *.
      assert (T : forall b l, (pds l <= n)%nat -> all_readable l -> (pds l <= 2 * length (elts_text b l))%nat).
      { clear - IH. intros b l. revert b. induction l as [|x l IHl]; intros b Hn R; [cbn; lia|].
        destruct R as [Rx Rl]. fold (all_readable l) in Rl.
        change (pds (x :: l)) with (Nat.max (pd x) (pds l)) in *.
        change (elts_text b (x :: l)) with ((if b then [] else [32]) ++ unparse x ++ elts_text false l).
        rewrite !app_length. specialize (IH x ltac:(lia) Rx). specialize (IHl false ltac:(lia) Rl). lia. }
      specialize (T true l ltac:(lia) R). rewrite app_length. change (codes "#(") with [35; 40]. cbn [length]. lia.
  Qed.

  Lemma parse_ok v rest : readable v -> ends rest -> (has_oid v = true -> closes rest) ->
    parse tolower8 isspace8 stale (unparse v ++ rest) = Got v rest.
  Proof.
    intros R He Hc. unfold parse. apply reads_all; [|exact R|exact He|exact Hc].
    assert (H := pd_len (pd v) v (Nat.le_refl _) R). rewrite app_length. lia.
  Qed.

  (** ** No NUL is printed *)

  Definition nul_free (s : list N) : Prop := ~ In 0 s.
  Lemma nul_app s t : nul_free s -> nul_free t -> nul_free (s ++ t).
  Proof. intros H1 H2 H. apply in_app_or in H as [H|H]; auto. Qed.
  Lemma nul_cons c s : c <> 0 -> nul_free s -> nul_free (c :: s).
  Proof. intros H1 H2 [H|H]; auto. Qed.
  Lemma nul_nil : nul_free [].
  Proof. intros []. Qed.
  Lemma nul_flat (f : N -> list N) s : (forall c, In c s -> nul_free (f c)) -> nul_free (flat_map f s).
  Proof. intros H I. apply in_flat_map in I as (c & Ic & I0). exact (H c Ic I0). Qed.
  Lemma nul_octal c : nul_free (octal3 c).
  Proof. unfold octal3, nul_free. cbn [In]. lia. Qed.
  Lemma nul_hex4 c : c < 65536 -> nul_free (hex4 c).
  Proof.
    intro H. destruct (hex4_val c H) as (a1 & a2 & a3 & a4 & -> & H1 & H2 & H3 & H4).
    unfold nul_free, hexval in *. cbn [In]. lia.
  Qed.
  Lemma nul_hex n : n < 2^32 -> nul_free (print_hex n).
  Proof.
    intros H I. destruct (OidText.print_hex_ok n H) as (F & _).
    unfold OidText.all_hex in F. rewrite Forall_forall in F. destruct (F 0 I) as (d & E). discriminate.
  Qed.
  Lemma nul_free_unparse n : forall v, (pd v <= n)%nat -> readable v -> nul_free (unparse v).
  Proof.
    assert (SP : 32 <> 0) by discriminate.
    induction n as [|n IH]; intros v Hn R; [destruct v; cbn in Hn; lia|].
    destruct v as [z|z|s|b|c|nm|a| | | |a d|l].
    1,2: (intro I; apply dec_z_chars in I; lia).
    - cbn [PrintModel.unparse]. unfold unparse_string. apply nul_cons; [discriminate|].
      apply nul_app; [|apply nul_cons; [discriminate|apply nul_nil]].
      apply nul_flat. intros c _. unfold esc_char.
      repeat (match goal with |- context [if ?b then _ else _] => destruct b eqn:? end);
        try (unfold nul_free; cbn [In]; lia).
      + apply nul_cons; [discriminate|apply nul_octal].
      + unfold iscntrl in *. unfold nul_free. cbn [In]. lia.
    - destruct R as (Rb & Ro). cbn [PrintModel.unparse]. unfold unparse_packet.
      destruct (get_packet_base outfmt b =? 16)%Z eqn:E16; [|destruct (get_packet_base outfmt b =? 64)%Z eqn:E64].
      + apply nul_app; [unfold nul_free; cbn; lia|]. apply nul_app; [|unfold nul_free; cbn; lia].
        apply nul_flat. intros c Ic. assert (Hc : c < 256) by (unfold bytes in Rb; rewrite Forall_forall in Rb; now apply Rb).
        unfold nul_free, hex2, hexchar. cbn [In].
        assert (c / 16 < 16) by (apply N.div_lt_upper_bound; lia). assert (c mod 16 < 16) by (apply N.mod_lt; lia).
        repeat (match goal with |- context [if ?b then _ else _] => destruct b eqn:? end); lia.
      + exfalso. unfold get_packet_base in E64.
        destruct ((outfmt =? 16)%Z || (outfmt =? 64)%Z || (outfmt =? 8)%Z); [lia|].
        destruct (_ <? _)%nat; discriminate.
      + apply nul_app; [unfold nul_free; cbn; lia|]. apply nul_app; [|unfold nul_free; cbn; lia].
        apply nul_flat. intros c _. unfold pkt_char.
        repeat (match goal with |- context [if ?b then _ else _] => destruct b eqn:? end);
          try (unfold nul_free; cbn [In]; lia).
        apply nul_cons; [discriminate|apply nul_octal].
    - cbn [readable] in R. cbn [PrintModel.unparse]. unfold unparse_char. destruct ((c <? 128) && isalnum c) eqn:E.
      + unfold nul_free. cbn [In]. intros [H|[H|[H|[]]]]; try discriminate. subst c. discriminate.
      + apply nul_app; [unfold nul_free; cbn; lia|now apply nul_hex4].
    - destruct R as (R0 & _). cbn [PrintModel.unparse]. unfold PrintModel.emit_symbol_name.
      destruct nm as [|c r]; [unfold nul_free; cbn; lia|]. destruct (needs_protection (c :: r)); [|exact R0].
      apply nul_cons; [discriminate|]. apply nul_app; [|unfold nul_free; cbn; lia].
      apply nul_flat. intros d Id. unfold bar_char.
      repeat (match goal with |- context [if ?b then _ else _] => destruct b eqn:? end).
      + unfold nul_free. cbn [In]. lia.
      + apply nul_cons; [discriminate|apply nul_octal].
      + intros [->|[]]. exact (R0 Id).
    - cbn [PrintModel.unparse]. unfold print_oid. apply nul_cons; [discriminate|].
      apply nul_app; [apply nul_hex, OidText.hi_lt|]. apply nul_cons; [discriminate|].
      apply nul_hex, OidText.lo_lt.
    - unfold nul_free; cbn; lia.
    - unfold nul_free; cbn; lia.
    - unfold nul_free; cbn; lia.
    - destruct R as (Ra & Rd & _). cbn [pd] in Hn.
      assert (D : forall w, (pd w <= n)%nat -> readable w -> nul_free (codes " . " ++ unparse w ++ [41])).
      { intros w Hw Rw. apply nul_app; [unfold nul_free; cbn; lia|].
        apply nul_app; [now apply IH|unfold nul_free; cbn; lia]. }
      assert (T : forall d, (pd d <= n)%nat -> readable d -> nul_free (tail_text d)).
      { clear - IH D SP. intro d. induction d as [z|z|s|b|c|nm|a| | | |x _ d IHd|l]; intros Hn R;
          try exact (D _ Hn R).
        - unfold nul_free; cbn; lia.
        - destruct R as (Rx & Rd & _). cbn [pd] in Hn.
          change (tail_text (PPair x d)) with (32 :: unparse x ++ tail_text d).
          apply nul_cons; [exact SP|]. apply nul_app; [apply IH; [lia|exact Rx]|apply IHd; [lia|exact Rd]]. }
      rewrite unparse_pair.
      assert (P : nul_free (40 :: unparse a ++ tail_text d)).
      { apply nul_cons; [discriminate|]. apply nul_app; [apply IH; [lia|exact Ra]|apply T; [lia|exact Rd]]. }
      destruct (car_prefix a) as [p|] eqn:Ep; [|exact P].
      destruct d as [| | | | | | | | | |x t|]; try exact P. destruct t; try exact P.
      unfold car_prefix in Ep. destruct a; try discriminate.
      destruct Rd as (Rx & _ & _). cbn [pd] in Hn. apply nul_app; [|apply IH; [lia|exact Rx]].
      destruct (quote_prefix_inv _ _ Ep) as [[_ ->]|[[_ ->]|[[_ ->]|[[_ ->]|[_ ->]]]]]; unfold nul_free; cbn; lia.
    - rewrite unparse_vec. change (pd (PVec l)) with (S (pds l)) in *.
      apply nul_app; [unfold nul_free; cbn; lia|].
      assert (T : forall b l, (pds l <= n)%nat -> all_readable l -> nul_free (elts_text b l)).
      { clear - IH SP. intros b l. revert b. induction l as [|x l IHl]; intros b Hn R; [unfold nul_free; cbn; lia|].
        destruct R as [Rx Rl]. fold (all_readable l) in Rl.
        change (pds (x :: l)) with (Nat.max (pd x) (pds l)) in *.
        change (elts_text b (x :: l)) with ((if b then [] else [32]) ++ unparse x ++ elts_text false l).
        apply nul_app; [destruct b; [apply nul_nil|unfold nul_free; cbn; lia]|].
        apply nul_app; [apply IH; [lia|exact Rx]|apply IHl; [lia|exact Rl]]. }
      apply T; [lia|exact R].
  Qed.
End Text.
