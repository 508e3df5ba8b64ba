(** * Lemmas about JSON: keys, vectors and tables. *)
From Coq Require Import Strings.String Init.Datatypes List.
From Verif Require Import JsonModel UriProofs PrintProofs PrintProofs2 JsonProofs.
From Coq Require Import Lia ZArith ZifyBool ZifyN ZifyNat Permutation.
Import Datatypes ListNotations.
Local Open Scope N_scope.

(** ** The printer's texts are ASCII *)

Definition asc (s : list N) : Prop := forall c, In c s -> 0 < c < 128.
Lemma asc_bmp s : asc s -> bmp s.
Proof. intros H c Hc. apply H in Hc. lia. Qed.
Lemma asc_app s t : asc s -> asc t -> asc (s ++ t).
Proof. intros H1 H2 c Hc. apply in_app_or in Hc as [Hc|Hc]; auto. Qed.
Lemma asc_flat (f : N -> list N) s : (forall c, In c s -> asc (f c)) -> asc (flat_map f s).
Proof. intros H c Hc. apply in_flat_map in Hc as (d & Hd & Hc). exact (H d Hd c Hc). Qed.
Lemma asc_list l : forallb (fun c => (0 <? c) && (c <? 128)) l = true -> asc l.
Proof. intros H c Hc. rewrite forallb_forall in H. specialize (H c Hc). lia. Qed.
Lemma asc_hexchar d : d < 16 -> asc [hexchar d].
Proof. intros H c [<-|[]]. unfold hexchar. destruct (d <? 10); lia. Qed.
Lemma asc_hex2 c : c < 256 -> asc (hex2 false c).
Proof.
  intro H. change (hex2 false c) with ([hexchar (c / 16)] ++ [hexchar (c mod 16)]).
  apply asc_app; apply asc_hexchar; [apply N.div_lt_upper_bound; lia|apply N.mod_lt; lia].
Qed.
Lemma asc_hex4 c : c < 65536 -> asc (hex4 c).
Proof.
  intro H. destruct (hex4_val c H) as (a1 & a2 & a3 & a4 & -> & H1 & H2 & H3 & H4).
  intros d [<-|[<-|[<-|[<-|[]]]]]; [revert H1|revert H2|revert H3|revert H4]; unfold hexval; lia.
Qed.
Lemma asc_pkt_char c : c < 256 -> asc (pkt_char c).
Proof.
  intro H. unfold pkt_char.
  destruct (c =? 34); [now apply asc_list|]. destruct (c =? 92); [now apply asc_list|].
  destruct (c =? 10); [now apply asc_list|]. destruct (c =? 13); [now apply asc_list|].
  destruct (c =? 9); [now apply asc_list|].
  destruct ((127 <=? c) || (c <? 32)) eqn:E.
  - intros d [<-|Hd]; [lia|]. unfold octal3 in Hd.
    assert (c / 64 < 4) by (apply N.div_lt_upper_bound; lia).
    assert (c / 8 mod 8 < 8) by (apply N.mod_lt; lia).
    assert (c mod 8 < 8) by (apply N.mod_lt; lia).
    destruct Hd as [<-|[<-|[<-|[]]]]; lia.
  - intros d [<-|[]]. lia.
Qed.

Section Json.
  Variable isupper8 : N -> bool.
  Variable tolower8 : N -> N.
  Variable isspace8 : N -> bool.
  Variable isalnum8 : N -> bool.
  Variable isdigit8 : N -> bool.
  Variable isctrl8 : N -> bool.
  Variable b64 : list N -> list N.
  Variable outfmt : Z.
  Variable stale : bool.
  Variable order : list (pv * list N) -> list (pv * list N).
  Notation unparse := (unparse isupper8 tolower8 b64 outfmt).
  Notation kparse := (parse tolower8 isspace8 stale).
  Notation readable := (readable isupper8 tolower8 isspace8 outfmt stale).
  Notation atext := (atext isupper8 tolower8 b64 outfmt).
  Notation jtext := (jtext isupper8 tolower8 b64 outfmt order).
  Notation json_atom := (json_atom tolower8 isspace8 isalnum8 stale).
  Notation json_string := (json_string tolower8 isspace8 stale).
  Notation json_slotid := (json_slotid tolower8 isspace8 isctrl8 stale).
  Notation json_key := (json_key tolower8 isspace8 isalnum8 isdigit8 isctrl8 stale).
  Notation atom_key := (atom_key tolower8 isspace8 isalnum8 stale).
  Notation json_parse := (json_parse tolower8 isspace8 isalnum8 isdigit8 isctrl8 stale).
  Notation jtab_loop := (jtab_loop tolower8 isspace8 isalnum8 isdigit8 isctrl8 stale).
  Notation atomchar := (atomchar isalnum8).
  Notation slot := (slot tolower8).
  Notation agood := (agood isupper8 tolower8 isspace8 outfmt stale).
  Notation kgood := (kgood isupper8 tolower8 isspace8 isalnum8 isctrl8 outfmt stale).
  Notation jgood := (jgood isupper8 tolower8 isspace8 isalnum8 isctrl8 outfmt stale).
  Notation jends := (jends isalnum8).
  Notation plain_name := (plain_name tolower8 isspace8).
  Notation barred := (barred isupper8 tolower8).

  Hypothesis L : lib_ok tolower8 isspace8 isalnum8 isdigit8.
  Hypothesis O : order_ok order.

  Lemma bmp_misc a : (exists b, a = PPkt b) \/ (exists c, a = PChar c) \/ a = PNil -> readable a -> bmp (unparse a).
  Proof using All.
    intros Ha R. apply asc_bmp. destruct Ha as [(b & ->)|[(c & ->)| ->]].
    - destruct R as [R Ho]. cbn [PrintModel.unparse]. unfold unparse_packet.
      assert (Hb : forall c, In c b -> c < 256) by (intros c Hc; exact (proj1 (Forall_forall _ _) R c Hc)).
      assert (G64 : get_packet_base outfmt b <> 64%Z).
      { unfold get_packet_base. destruct ((outfmt =? 16)%Z || (outfmt =? 64)%Z || (outfmt =? 8)%Z); [exact Ho|].
        destruct (_ <? _)%nat; discriminate. }
      destruct (get_packet_base outfmt b =? 16)%Z; [|destruct (get_packet_base outfmt b =? 64)%Z eqn:E].
      + apply asc_app; [now apply asc_list|]. apply asc_app; [|now apply asc_list].
        apply asc_flat. intros c Hc. now apply asc_hex2, Hb.
      + apply Z.eqb_eq in E. contradiction.
      + apply asc_app; [now apply asc_list|]. apply asc_app; [|now apply asc_list].
        apply asc_flat. intros c Hc. now apply asc_pkt_char, Hb.
    - cbn in R. cbn [PrintModel.unparse]. unfold unparse_char. destruct ((c <? 128) && isalnum c) eqn:E.
      + intros d [<-|[<-|[<-|[]]]]; try lia.
        unfold isalnum, isdigit, isupper, islower in E. lia.
      + apply asc_app; [now apply asc_list|]. now apply asc_hex4.
    - now apply asc_list.
  Qed.

  (** Names read as symbols. *)
  Lemma name_parsed n : plain_name n -> ~ barred n -> ~ In 0 n -> kparse n = Got (PSym n) [].
  Proof using All.
    intros P B Z.
    assert (U : unparse (PSym n) = n).
    { cbn [PrintModel.unparse]. unfold emit_symbol_name. destruct n as [|c r]; [destruct P as (_ & _ & [])|].
      destruct (needs_protection isupper8 tolower8 (c :: r)) eqn:E; [|reflexivity].
      apply barred_iff in E. contradiction. }
    rewrite <- U at 1. rewrite <- (app_nil_r (unparse (PSym n))).
    apply parse_ok; [exact (proj1 L)| |exact I|intros _; exact I].
    cbn [PrintProofs2.readable]. split; [exact Z|]. right. now right.
  Qed.

  (** ** Values written between quotes and atoms *)

  Lemma atext_misc fl a : (exists b, a = PPkt b) \/ (exists c, a = PChar c) \/ a = PNil ->
    colonize fl = true -> readable a ->
    atext fl a = 34 :: 58 :: flat_map jesc (unparse a) ++ [34].
  Proof using All.
    intros Ha C R.
    assert (F : (fl =? 0) = false).
    { apply N.eqb_neq. intros ->. discriminate. }
    assert (Bm := bmp_misc a Ha R).
    assert (Eq : json_escape (unparse a) = flat_map jesc (unparse a)).
    { unfold json_escape. now rewrite (until0_id _ (bmp_no0 _ Bm)). }
    rewrite <- Eq.
    destruct Ha as [(b & ->)|[(c & ->)| ->]]; unfold JsonModel.atext; rewrite F; reflexivity.
  Qed.
  Lemma quoted_ok fl a rest : agood fl a ->
    match a with PStr _ | PSym _ | PPkt _ | PChar _ | PNil => True | _ => False end ->
    exists t, atext fl a = 34 :: t /\ json_string fl 34 (t ++ rest) = JGot (JA a) rest.
  Proof using All.
    intros G Q.
    assert (M : (exists b, a = PPkt b) \/ (exists c, a = PChar c) \/ a = PNil ->
      exists t, atext fl a = 34 :: t /\ json_string fl 34 (t ++ rest) = JGot (JA a) rest).
    { intro Ha. assert (G' : colonize fl = true /\ readable a).
      { destruct Ha as [(b & ->)|[(c & ->)| ->]]; exact G. }
      destruct G' as [C R]. exists (58 :: flat_map jesc (unparse a) ++ [34]). split; [now apply atext_misc|].
      rewrite <- app_comm_cons, <- app_assoc. cbn [app]. rewrite json_colon_ok; [|exact C|now apply bmp_misc].
      assert (E : kparse (unparse a ++ []) = Got a []) by (apply parse_ok; [exact (proj1 L)|exact R|exact I|intros _; exact I]).
      rewrite app_nil_r in E. rewrite E.
      destruct Ha as [(b & ->)|[(c & ->)| ->]]; reflexivity. }
    destruct a; try contradiction; try (apply M; eauto; fail).
    - exists (tl (atext fl (PStr s))). split; [reflexivity|]. now apply json_string_ok.
    - destruct G as (C & B & P & NB). exists (58 :: flat_map jesc n ++ [34]). split.
      { cbn [JsonModel.atext]. unfold json_escape. now rewrite (until0_id _ (bmp_no0 _ B)). }
      rewrite <- app_comm_cons, <- app_assoc. cbn [app]. rewrite json_colon_ok by assumption.
      now rewrite name_parsed by (auto using bmp_no0).
  Qed.

  (** ** Keys *)

  Definition keypart (fl : N) (k : pv) : list N :=
    match k with
    | PSym n => if slotids fl
                then if idkey fl then json_lower tolower8 n else 34 :: json_lower tolower8 n ++ [34]
                else atext fl k
    | _ => atext fl k
    end.
  Lemma slot_split fl k t : slot fl k (atext fl k) t = keypart fl k ++ [58; 32] ++ t.
  Proof using. reflexivity. Qed.

  Lemma dec_head z : exists c r, dec_z z = c :: r /\ (c = 45 \/ 48 <= c <= 57).
  Proof using.
    clear. destruct (dec_z z) as [|c r] eqn:E.
    - destruct (dec_z_shape z) as (pre & ds & E' & _ & N & _). rewrite E in E'.
      destruct pre; [|discriminate]. destruct ds; [contradiction|discriminate].
    - exists c, r. split; [reflexivity|]. apply (dec_z_chars z). rewrite E. now left.
  Qed.
  Lemma isdigit8_ascii c : c < 128 -> isdigit8 c = isdigit c.
  Proof using L. clear - L. destruct L as (_ & _ & _ & H). exact (H c). Qed.
  Lemma colon_ends r : jends (58 :: r).
  Proof using All. cbn. rewrite (atomchar_ascii _ _ _ _ L) by lia. reflexivity. Qed.

  Lemma slotid_ok n rest : slot_start n -> ~ In 0 n ->
    json_slotid 34 (flat_map back n ++ 34 :: rest) = KGot (slot_name tolower8 isspace8 isctrl8 n) rest.
  Proof using.
    clear L O isupper8 isalnum8 isdigit8 b64 outfmt order.
    intros St Z. assert (G := fun k => slot_ok n [] rest k).
    destruct n as [|c n]; [reflexivity|].
    cbn [slot_start In] in St.
    assert (Eb : back c = [c]).
    { unfold back. destruct ((c =? 34) || (c =? 92)) eqn:E; [|reflexivity].
      exfalso. apply St. apply Bool.orb_prop in E as [E|E]; apply N.eqb_eq in E; subst; tauto. }
    cbn [flat_map] in *. rewrite Eb in *. cbn [app] in *. unfold JsonModel.json_slotid.
    assert (E1 : (c =? 92) = false) by (apply N.eqb_neq; intros ->; tauto). rewrite E1.
    assert (E3 : slot_special c = false).
    { destruct (slot_special c) eqn:E; [|reflexivity]. exfalso.
      unfold slot_special, strchr in E.
      cbv [codes existsb Ascii.N_of_ascii Ascii.N_of_digits N.add N.mul Pos.add Pos.mul Pos.succ] in E.
      apply andb_prop in E as [_ E]. 
      assert (C : c = 0 \/ c = 64 \/ c = 92 \/ c = 58 \/ c = 39 \/ c = 35 \/ c = 123 \/ c = 91) by lia.
      destruct C as [->|C]; [apply Z; now left|]. apply St. intuition (subst; tauto). }
    rewrite E3, G; [reflexivity|]. cbn [length]. rewrite app_length. lia.
  Qed.
  Lemma key_quote fl r : json_key fl (34 :: r) =
    if slotids fl then json_slotid 34 r
    else match json_string fl 34 r with JGot (JA k) rest => KGot k rest | _ => KUnk end.
  Proof using All. unfold JsonModel.json_key. rewrite (jskip_ascii _ _ _ _ L) by lia. reflexivity. Qed.

  Lemma stops_no n c : ~ barred n -> In c n -> ~ stops c.
  Proof using. intros B I X. apply B. exists c. split; [exact I|now left]. Qed.
  Lemma jlow_plain c : tolower8 c = c -> c <> 10 -> c <> 13 -> c <> 9 -> jlow tolower8 c = back c.
  Proof using.
    clear. intros E N1 N2 N3. unfold jlow, back. rewrite E.
    apply N.eqb_neq in N1, N2, N3. rewrite N1, N2, N3.
    destruct (c =? 92) eqn:E1; [now apply N.eqb_eq in E1; subst|].
    destruct (c =? 34) eqn:E2; [now apply N.eqb_eq in E2; subst|]. reflexivity.
  Qed.
  Lemma flat_back_id n : ~ In 34 n -> ~ In 92 n -> flat_map back n = n.
  Proof using.
    clear. induction n as [|c n IH]; [reflexivity|]. cbn [In flat_map]. intros H1 H2.
    rewrite IH by tauto. unfold back. destruct ((c =? 34) || (c =? 92)) eqn:E; [|reflexivity].
    exfalso. apply Bool.orb_prop in E as [E|E]; apply N.eqb_eq in E; subst; tauto.
  Qed.

  Lemma json_key_ok fl k rest : kgood fl k ->
    json_key fl (keypart fl k ++ 58 :: rest) = KGot k (58 :: rest).
  Proof using All.
    intro G.
    assert (I : forall z, k = PFix z \/ k = PBig z -> readable k -> keypart fl k = dec_z z ->
      json_key fl (keypart fl k ++ 58 :: rest) = KGot k (58 :: rest)).
    { intros z Hk R Ek. rewrite Ek. destruct (dec_head z) as (c & r & Ed & Hc).
      assert (J := json_int_ok _ _ _ _ _ _ _ L k z (58 :: rest) Hk R (colon_ends rest)).
      rewrite Ed in *. cbn [app] in *. unfold JsonModel.json_key.
      rewrite (jskip_ascii _ _ _ _ L) by lia.
      replace (c =? 39) with false by lia. replace (c =? 34) with false by lia.
      replace (c =? 123) with false by lia. replace (c =? 91) with false by lia. cbn [andb orb].
      assert (D : isdigit8 c || (c =? 43) || (c =? 45) = true).
      { rewrite isdigit8_ascii by lia. unfold isdigit. lia. }
      rewrite D. rewrite Bool.andb_false_r. unfold JsonModel.atom_key. rewrite J.
      destruct Hk; subst; reflexivity. }
    assert (Q : slotids fl = false -> agood fl k ->
      match k with PStr _ | PSym _ | PPkt _ | PChar _ | PNil => True | _ => False end ->
      keypart fl k = atext fl k ->
      json_key fl (keypart fl k ++ 58 :: rest) = KGot k (58 :: rest)).
    { intros Hs Ga Hq Ek. destruct (quoted_ok fl k (58 :: rest) Ga Hq) as (t & Et & Es).
      rewrite Ek, Et. cbn [app]. now rewrite key_quote, Hs, Es. }
    destruct k; cbn [JsonProofs.kgood] in G; try contradiction.
    - apply (I z); auto.
    - apply (I z); auto.
    - destruct (slotids fl) eqn:Hs; [|now apply Q].
      destruct G as (Gc & Gs & St).
      assert (Z : ~ In 0 s) by (intro X; apply Gc in X; lia).
      assert (E : keypart fl (PStr s) = 34 :: flat_map back s ++ [34]).
      { cbn [keypart JsonModel.atext]. unfold json_escape. rewrite (until0_id s Z).
        rewrite (flat_map_ext' jesc back s) by (intros; now apply jesc_back, Gc).
        replace (colonize fl && match s with c :: _ => c =? 58 | [] => false end) with false; [reflexivity|].
        symmetry. destruct s as [|c s]; [apply Bool.andb_false_r|].
        destruct (colonize fl); [|reflexivity]. apply N.eqb_neq. intros ->. apply St. cbn. tauto. }
      rewrite E. cbn [app]. rewrite <- app_assoc. cbn [app]. rewrite key_quote, Hs, slotid_ok by assumption.
      unfold slot_name.
      replace (existsb _ s) with true; [now rewrite (until0_id s Z)|].
      symmetry. apply existsb_exists. exists 32. split; [exact Gs|].
      destruct L as (_ & _ & Sp & _). now rewrite (Sp 32) by lia.
    - destruct G as (Hs & Ga). now apply Q.
    - destruct G as (Hs & Ga). now apply Q.
    - destruct (slotids fl) eqn:Hs; [|now apply Q; auto; cbn [keypart]; rewrite Hs].
      cbn [keypart]. rewrite Hs. destruct (idkey fl) eqn:Hi.
      + destruct G as (Gc & P & NB & T1 & T2 & T3).
        assert (Z : ~ In 0 n) by (intro X; apply Gc in X; lia).
        assert (E : json_lower tolower8 n = n).
        { unfold json_lower. rewrite (until0_id n Z).
          rewrite (flat_map_ext' (jlow tolower8) back n).
          - apply flat_back_id; intro X.
            + apply (stops_no n _ NB) in X. apply X. unfold stops. cbn. tauto.
            + destruct P as (P & _). apply P in X. tauto.
          - intros c Hc. assert (X := stops_no n c NB Hc). destruct P as (P & _).
            apply jlow_plain; [now apply P|..]; intros ->; apply X; unfold stops; lia. }
        rewrite E.
        assert (J : json_atom (n ++ 58 :: rest) = JGot (inj (PSym n)) (58 :: rest)).
        { apply atom_parsed; auto; [intros c Hc; now apply Gc|apply colon_ends|now apply name_parsed]. }
        destruct n as [|c n]; [destruct P as (_ & _ & [])|].
        assert (X := stops_no _ c NB (or_introl eq_refl)).
        cbn [app] in *. unfold JsonModel.json_key. destruct (Gc c (or_introl eq_refl)) as (_ & G2 & G3).
        rewrite jskip_at by assumption.
        assert (N39 : c <> 39) by (intros ->; apply X; unfold stops; cbn; tauto).
        assert (N34 : c <> 34) by (intros ->; apply X; unfold stops; cbn; tauto).
        assert (N123 : c <> 123) by (intros ->; apply X; unfold stops; cbn; tauto).
        assert (N91 : c <> 91) by (intros ->; apply X; unfold stops; cbn; tauto).
        apply N.eqb_neq in N39, N34, N123, N91. rewrite N39, N34, N123, N91, Hi. cbn [andb orb negb].
        unfold JsonModel.atom_key. rewrite J. cbn [inj]. now rewrite Hi.
      + destruct G as (Gc & St).
        assert (Z : ~ In 0 n) by (intro X; apply Gc in X; lia).
        assert (E : json_lower tolower8 n = flat_map back n).
        { unfold json_lower. rewrite (until0_id n Z).
          apply flat_map_ext'. intros c Hc. destruct (Gc c Hc) as (_ & T & Sp & _).
          destruct L as (_ & _ & Ls & _).
          apply jlow_plain; [exact T|..]; intros ->; rewrite Ls in Sp by lia; discriminate. }
        rewrite E. cbn [app]. rewrite <- app_assoc. cbn [app]. rewrite key_quote, Hs, slotid_ok by assumption.
        unfold slot_name.
        replace (existsb _ n) with false.
        * rewrite (until0_id n Z). do 2 f_equal. rewrite <- (map_id n) at 2. apply map_ext_in.
          intros c Hc. now apply Gc.
        * symmetry. apply Bool.not_true_is_false. intro X. apply existsb_exists in X as (c & Hc & X).
          destruct (Gc c Hc) as (_ & _ & S1 & S2). rewrite S1, S2 in X. discriminate.
    - destruct G as (Hs & Ga). now apply Q.
  Qed.

  (** ** Values *)

  Definition entries (fl : N) (kvs : list (pv * jv)) : list (pv * list N) :=
    map (fun p => (fst p, jtext fl (snd p))) kvs.
  Lemma entries_fix fl kvs :
    (fix entries (l : list (pv * jv)) : list (pv * list N) :=
       match l with
       | [] => []
       | (k, x) :: r => (k, jtext fl x) :: entries r
       end) kvs = entries fl kvs.
  Proof using. induction kvs as [|[k x] r IH]; [reflexivity|]. cbn [entries map fst snd]. now rewrite IH. Qed.
  Lemma jtext_tab fl kvs : jtext fl (JTab kvs)
    = 123 :: commas (map (fun p => slot fl (fst p) (atext fl (fst p)) (snd p)) (order (entries fl kvs))) ++ [125].
  Proof using. cbn [JsonModel.jtext]. now rewrite entries_fix. Qed.

  Fixpoint jd (v : jv) : nat :=
    match v with
    | JVec l | JCh l => S ((fix m (l : list jv) : nat :=
                      match l with [] => 0%nat | x :: r => Nat.max (jd x) (m r) end) l)
    | JTab kvs => S ((fix m (l : list (pv * jv)) : nat :=
                        match l with [] => 0%nat | (_, x) :: r => Nat.max (jd x) (m r) end) kvs)
    | _ => 1%nat
    end.
  Lemma jgood_vec fl l : jgood fl (JVec l) -> forall x, In x l -> jgood fl x.
  Proof using.
    cbn [JsonProofs.jgood]. induction l as [|y l IH]; intros H x []; subst; [tauto|]. now apply IH.
  Qed.
  Lemma jd_vec l x : In x l -> (jd x < jd (JVec l))%nat.
  Proof using.
    clear. cbn [jd]. induction l as [|y l IH]; intros []; subst; [lia|]. apply IH in H. lia.
  Qed.
  Lemma jgood_tab fl kvs : jgood fl (JTab kvs) -> forall p, In p kvs -> kgood fl (fst p) /\ jgood fl (snd p).
  Proof using.
    cbn [JsonProofs.jgood]. intros [_ H]. induction kvs as [|[k x] l IH]; intros p []; subst; [tauto|]. now apply IH.
  Qed.
  Lemma jd_tab kvs p : In p kvs -> (jd (snd p) < jd (JTab kvs))%nat.
  Proof using.
    clear. cbn [jd]. induction kvs as [|[k y] l IH]; intros []; subst; [cbn [snd]; lia|]. apply IH in H. lia.
  Qed.

  Definition reads (fl : N) (n : nat) (v : jv) : Prop :=
    forall rest, jends rest ->
    exists v', same v v' /\ json_parse n fl (jtext fl v ++ rest) = JGot v' rest.

  Lemma atom_parse fl n c r : 32 < c < 128 -> c <> 91 -> c <> 123 -> c <> 34 -> c <> 39 ->
    json_parse (S n) fl (c :: r) = json_atom (c :: r).
  Proof using All.
    intros H N1 N2 N3 N4. cbn [JsonModel.json_parse]. rewrite (jskip_ascii _ _ _ _ L) by lia.
    apply N.eqb_neq in N1, N2, N3, N4. now rewrite N1, N2, N3, N4.
  Qed.
  Lemma reads_atom fl n a : agood fl a -> reads fl (S n) (JA a).
  Proof using All.
    intros G rest He. exists (JA a). split; [constructor|]. cbn [JsonModel.jtext].
    assert (Q : match a with PStr _ | PSym _ | PPkt _ | PChar _ | PNil => True | _ => False end ->
      json_parse (S n) fl (atext fl a ++ rest) = JGot (JA a) rest).
    { intro Hq. destruct (quoted_ok fl a rest G Hq) as (t & Et & Es). rewrite Et. cbn [app JsonModel.json_parse].
      rewrite (jskip_ascii _ _ _ _ L) by lia. exact Es. }
    assert (I : forall z, a = PFix z \/ a = PBig z -> readable a -> atext fl a = dec_z z ->
      json_parse (S n) fl (atext fl a ++ rest) = JGot (JA a) rest).
    { intros z Hk R Ek. rewrite Ek. assert (J := json_int_ok _ _ _ _ _ _ _ L a z rest Hk R He).
      destruct (dec_head z) as (c & r & Ed & Hc). rewrite Ed in *. cbn [app] in *.
      rewrite atom_parse by lia. exact J. }
    destruct a; try (apply Q; exact Logic.I); try contradiction.
    - apply (I z); auto.
    - apply (I z); auto.
    - cbn [JsonModel.atext]. rewrite codes_true. cbn [app]. rewrite atom_parse by lia.
      change (116 :: 114 :: 117 :: 101 :: rest) with (codes "true" ++ rest).
      exact (json_true_ok _ _ _ _ _ L rest He).
    - cbn [JsonModel.atext]. rewrite codes_false. cbn [app]. rewrite atom_parse by lia.
      change (102 :: 97 :: 108 :: 115 :: 101 :: rest) with (codes "false" ++ rest).
      exact (json_false_ok _ _ _ _ _ L rest He).
  Qed.

  (** The first character of a value's text. *)
  Lemma jtext_head fl v : jgood fl v -> exists c r, jtext fl v = c :: r /\ 32 < c < 128 /\ c <> 93 /\ c <> 44 /\ c <> 125.
  Proof using All.
    intro G. destruct v; try contradiction.
    - cbn [JsonModel.jtext].
      assert (Q : forall t, atext fl a = 34 :: t -> exists c r, atext fl a = c :: r /\ 32 < c < 128 /\ c <> 93 /\ c <> 44 /\ c <> 125)
        by (intros t ->; exists 34, t; split; [reflexivity|]; lia).
      cbn [JsonProofs.jgood] in G.
      destruct a; try contradiction; try (eapply Q; reflexivity).
      + cbn [JsonModel.atext]. destruct (dec_head z) as (c & r & -> & H). exists c, r. split; [reflexivity|]. lia.
      + cbn [JsonModel.atext]. destruct (dec_head z) as (c & r & -> & H). exists c, r. split; [reflexivity|]. lia.
      + exists 116, [114; 117; 101]. split; [reflexivity|]. lia.
      + exists 102, [97; 108; 115; 101]. split; [reflexivity|]. lia.
    - do 2 eexists. split; [reflexivity|]. lia.
    - rewrite jtext_tab. do 2 eexists. split; [reflexivity|]. lia.
  Qed.
  Lemma close_ends c r : In c [44; 93; 125] -> jends (c :: r).
  Proof using All.
    intro H. cbn [JsonProofs.jends]. rewrite (atomchar_ascii _ _ _ _ L) by (cbn [In] in H; lia).
    cbn [In] in H. intuition subst; reflexivity.
  Qed.

  Lemma vec_ok fl n l : (forall x, In x l -> jgood fl x /\ reads fl n x) ->
    forall k acc rest, (length (commas (map (jtext fl) l)) < k)%nat ->
    exists l', Forall2 same l l' /\
      jvec_loop isspace8 (json_parse n fl) k (commas (map (jtext fl) l) ++ 93 :: rest) acc
      = JGot (JVec (rev acc ++ l')) rest.
  Proof using All.
    induction l as [|x l IH]; intros H k acc rest Hk.
    - exists []. split; [constructor|]. destruct k as [|k]; [cbn in Hk; lia|].
      cbn [map commas app jvec_loop]. rewrite (jskip_ascii _ _ _ _ L) by lia.
      cbn [N.eqb Pos.eqb]. now rewrite app_nil_r.
    - destruct (H x (or_introl eq_refl)) as [Gx Rx].
      destruct (jtext_head fl x Gx) as (c & r & Ec & Hc & N1 & N2 & _).
      assert (E1 : forall t acc k, jvec_loop isspace8 (json_parse n fl) (S k) (jtext fl x ++ t) acc
        = match json_parse n fl (jtext fl x ++ t) with
          | JGot v r => jvec_loop isspace8 (json_parse n fl) k r (v :: acc) | e => e end).
      { intros t acc0 k0. rewrite Ec. cbn [app jvec_loop]. rewrite (jskip_ascii _ _ _ _ L) by exact Hc.
        apply N.eqb_neq in N1, N2. now rewrite N1, N2. }
      assert (Lx : (1 <= length (jtext fl x))%nat) by (rewrite Ec; cbn [length]; lia).
      destruct l as [|y l].
      + cbn [map commas] in *. destruct k as [|k]; [lia|]. rewrite E1.
        destruct (Rx (93 :: rest) (close_ends 93 rest ltac:(cbn; tauto))) as (x' & Sx & ->).
        exists [x']. split; [repeat constructor; exact Sx|].
        destruct k as [|k]; [lia|]. cbn [jvec_loop]. rewrite (jskip_ascii _ _ _ _ L) by lia.
        cbn [N.eqb Pos.eqb rev]. reflexivity.
      + change (commas (map (jtext fl) (x :: y :: l))) with (jtext fl x ++ 44 :: commas (map (jtext fl) (y :: l))) in *.
        rewrite app_length in Hk. cbn [length] in Hk. rewrite <- app_assoc. cbn [app].
        destruct k as [|k]; [lia|]. rewrite E1.
        destruct (Rx (44 :: commas (map (jtext fl) (y :: l)) ++ 93 :: rest) (close_ends 44 _ ltac:(cbn; tauto))) as (x' & Sx & ->).
        destruct k as [|k]; [lia|]. cbn [jvec_loop]. rewrite (jskip_ascii _ _ _ _ L) by lia.
        cbn [N.eqb Pos.eqb].
        destruct (IH (fun z Hz => H z (or_intror Hz)) k (x' :: acc) rest ltac:(lia)) as (l' & Sl & ->).
        exists (x' :: l'). split; [now constructor|]. cbn [rev]. now rewrite <- app_assoc.
  Qed.

  Lemma keypart_head fl k : kgood fl k -> exists c r, keypart fl k = c :: r /\ 0 < c /\ isspace8 c = false /\ c <> 44 /\ c <> 125.
  Proof using All.
    intro G. assert (A : forall c, 32 < c < 128 -> 0 < c /\ isspace8 c = false).
    { intros c Hc. destruct L as (_ & _ & Ls & _). rewrite Ls by lia. unfold isspace. lia. }
    assert (Q : forall t, keypart fl k = 34 :: t -> exists c r, keypart fl k = c :: r /\ 0 < c /\ isspace8 c = false /\ c <> 44 /\ c <> 125).
    { intros t ->. exists 34, t. split; [reflexivity|]. destruct (A 34 ltac:(lia)). repeat split; auto; lia. }
    assert (D : forall z, keypart fl k = dec_z z -> exists c r, keypart fl k = c :: r /\ 0 < c /\ isspace8 c = false /\ c <> 44 /\ c <> 125).
    { intros z ->. destruct (dec_head z) as (c & r & -> & Hc). exists c, r. split; [reflexivity|].
      destruct (A c ltac:(lia)). repeat split; auto; lia. }
    destruct k; cbn [JsonProofs.kgood] in G; try contradiction; try (eapply Q; reflexivity); try (eapply D; reflexivity).
    cbn [keypart] in *. destruct (slotids fl); [|eapply Q; reflexivity]. destruct (idkey fl); [|eapply Q; reflexivity].
    destruct G as (Gc & P & NB & _). destruct n as [|c n]; [destruct P as (_ & _ & [])|].
    destruct (Gc c (or_introl eq_refl)) as (Ac & Sp & C0).
    assert (X := stops_no _ c NB (or_introl eq_refl)).
    assert (E : jlow tolower8 c = [c]).
    { rewrite jlow_plain; [|now apply (proj1 P); left|intros ->; apply X; unfold stops; lia..].
      unfold back. destruct ((c =? 34) || (c =? 92)) eqn:E; [|reflexivity]. exfalso.
      apply Bool.orb_prop in E as [E|E]; apply N.eqb_eq in E; subst.
      - apply X. unfold stops. cbn. tauto.
      - destruct (proj1 P 92 (or_introl eq_refl)) as (_ & C & _). now apply C. }
    exists c, (flat_map (jlow tolower8) (until0 n)). split.
    { unfold json_lower. cbn [until0]. replace (c =? 0) with false by lia. cbn [flat_map]. now rewrite E. }
    repeat split; auto; intros ->; apply X; unfold stops; cbn; tauto.
  Qed.

  Definition stext (fl : N) (p : pv * jv) : list N := slot fl (fst p) (atext fl (fst p)) (jtext fl (snd p)).
  Lemma tab_ok fl n l : (forall p, In p l -> kgood fl (fst p) /\ reads fl n (snd p)) ->
    (forall x r, In x l -> json_parse n fl (32 :: jtext fl (snd x) ++ r) = json_parse n fl (jtext fl (snd x) ++ r)) ->
    forall k acc rest, (length (commas (map (stext fl) l)) < k)%nat ->
    exists l', Forall2 (fun p q => fst p = fst q /\ same (snd p) (snd q)) l l' /\
      jtab_loop (json_parse n fl) fl k (commas (map (stext fl) l) ++ 125 :: rest) acc
      = JGot (JTab (rev acc ++ l')) rest.
  Proof using All.
    induction l as [|x l IH]; intros H Hsp k acc rest Hk.
    - exists []. split; [constructor|]. destruct k as [|k]; [cbn in Hk; lia|].
      cbn [map commas app JsonModel.jtab_loop]. rewrite (jskip_ascii _ _ _ _ L) by lia.
      cbn [N.eqb Pos.eqb]. now rewrite app_nil_r.
    - destruct (H x (or_introl eq_refl)) as [Gx Rx].
      destruct (keypart_head fl (fst x) Gx) as (c & r & Ec & H0 & Hs & N2 & N3).
      assert (E1 : forall t acc k, jtab_loop (json_parse n fl) fl (S k) (stext fl x ++ t) acc
        = match json_parse n fl (jtext fl (snd x) ++ t) with
          | JGot v r => jtab_loop (json_parse n fl) fl k r ((fst x, v) :: acc) | e => e end).
      { intros t acc0 k0. unfold stext. rewrite slot_split, <- app_assoc. cbn [app].
        assert (K := json_key_ok fl (fst x) (32 :: jtext fl (snd x) ++ t) Gx).
        rewrite Ec in *. cbn [app JsonModel.jtab_loop] in *. rewrite jskip_at by assumption.
        apply N.eqb_neq in N2, N3. rewrite N2, N3, K.
        rewrite (jskip_ascii _ _ _ _ L) by lia. cbn [N.eqb Pos.eqb].
        now rewrite (Hsp x t (or_introl eq_refl)). }
      assert (Lx : (2 <= length (stext fl x))%nat).
      { unfold stext. rewrite slot_split, Ec. cbn [app length]. rewrite app_length. cbn [length]. lia. }
      destruct l as [|y l].
      + cbn [map commas] in *. destruct k as [|k]; [lia|]. rewrite E1.
        destruct (Rx (125 :: rest) (close_ends 125 rest ltac:(cbn; tauto))) as (x' & Sx & ->).
        exists [(fst x, x')]. split; [repeat constructor; exact Sx|].
        destruct k as [|k]; [lia|]. cbn [JsonModel.jtab_loop]. rewrite (jskip_ascii _ _ _ _ L) by lia.
        cbn [N.eqb Pos.eqb rev]. reflexivity.
      + change (commas (map (stext fl) (x :: y :: l))) with (stext fl x ++ 44 :: commas (map (stext fl) (y :: l))) in *.
        rewrite app_length in Hk. cbn [length] in Hk. rewrite <- app_assoc. cbn [app].
        destruct k as [|k]; [lia|]. rewrite E1.
        destruct (Rx (44 :: commas (map (stext fl) (y :: l)) ++ 125 :: rest) (close_ends 44 _ ltac:(cbn; tauto))) as (x' & Sx & ->).
        destruct k as [|k]; [lia|]. cbn [JsonModel.jtab_loop]. rewrite (jskip_ascii _ _ _ _ L) by lia.
        cbn [N.eqb Pos.eqb].
        destruct (IH (fun z Hz => H z (or_intror Hz)) (fun z r Hz => Hsp z r (or_intror Hz)) k ((fst x, x') :: acc) rest ltac:(lia)) as (l' & Sl & ->).
        exists ((fst x, x') :: l'). split; [now constructor|]. cbn [rev]. now rewrite <- app_assoc.
  Qed.

  Lemma commas_len x (l : list (list N)) : In x l -> (length x <= length (commas l))%nat.
  Proof using.
    clear. induction l as [|y l IH]; intros []; subst.
    - destruct l; cbn [commas]; rewrite ?app_length; lia.
    - destruct l as [|z l]; [destruct H|]. apply IH in H.
      change (commas (y :: z :: l)) with (y ++ 44 :: commas (z :: l)). rewrite app_length. cbn [length]. lia.
  Qed.

  Lemma reads_good fl d : forall v, (jd v <= d)%nat -> jgood fl v ->
    forall n, (length (jtext fl v) < n)%nat -> reads fl n v.
  Proof using All.
    induction d as [|d IH]; intros v Hd G n Hn.
    { destruct v; cbn in Hd; lia. }
    destruct n as [|n]; [lia|].
    destruct v; try contradiction.
    - now apply reads_atom.
    - intros rest He.
      assert (H : forall x, In x l -> jgood fl x /\ reads fl n x).
      { intros x Hx. assert (Gx := jgood_vec fl l G x Hx). split; [exact Gx|].
        apply IH; [apply jd_vec in Hx; lia|exact Gx|].
        assert (B := commas_len _ _ (in_map (jtext fl) _ _ Hx)).
        cbn [JsonModel.jtext length] in Hn. rewrite app_length in Hn. cbn [length] in Hn. lia. }
      destruct (vec_ok fl n l H (S n) [] rest) as (l' & Sl & E).
      { cbn [JsonModel.jtext length] in Hn. rewrite app_length in Hn. lia. }
      exists (JVec l'). split; [now constructor|].
      cbn [JsonModel.jtext app]. rewrite <- app_assoc. cbn [app].
      cbn [JsonModel.json_parse]. rewrite (jskip_ascii _ _ _ _ L) by lia. cbn [N.eqb Pos.eqb].
      exact E.
    - intros rest He.
      destruct (Permutation_map_inv _ _ (O (entries fl kvs))) as (ps & Ep & Pp).
      assert (Et : jtext fl (JTab kvs) = 123 :: commas (map (stext fl) ps) ++ [125]).
      { rewrite jtext_tab, Ep, map_map. reflexivity. }
      rewrite Et in *.
      assert (H : forall p, In p ps -> (kgood fl (fst p) /\ jgood fl (snd p)) /\ reads fl n (snd p)).
      { intros p Hp. assert (Hk : In p kvs) by (eapply Permutation_in; [apply Permutation_sym, Pp|exact Hp]).
        assert (Gp := jgood_tab fl kvs G p Hk). split; [exact Gp|].
        apply IH; [apply jd_tab in Hk; lia|tauto|].
        assert (B := commas_len _ _ (in_map (stext fl) _ _ Hp)). unfold stext at 1 in B.
        rewrite slot_split in B. rewrite !app_length in B.
        cbn [length] in Hn. rewrite app_length in Hn. cbn [length] in Hn. lia. }
      destruct (tab_ok fl n ps) with (k := S n) (acc := @nil (pv * jv)) (rest := rest) as (l' & Sl & E).
      { intros p Hp. destruct (H p Hp) as [[? _] ?]. now split. }
      { intros x r Hx. destruct n as [|n']; [reflexivity|]. cbn [JsonModel.json_parse].
        now rewrite (jskip_space _ _ _ _ L). }
      { cbn [length] in Hn. rewrite app_length in Hn. lia. }
      exists (JTab l'). split; [now apply same_tab with (l := ps)|].
      cbn [app]. rewrite <- app_assoc. cbn [app].
      cbn [JsonModel.json_parse]. rewrite (jskip_ascii _ _ _ _ L) by lia. cbn [N.eqb Pos.eqb].
      exact E.
  Qed.
End Json.
