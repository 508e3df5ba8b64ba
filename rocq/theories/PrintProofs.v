(** * Lemmas about the printer and the reader: atoms. *)
From Verif Require Import PrintModel UriProofs.
From Coq Require Import Lia ZArith ZifyBool ZifyN ZifyNat.
Local Open Scope N_scope.

(** ** Numerals *)

Lemma fold_digits ds : forall a, fold_left (fun a c => a * 10 + (c - 48)) ds a
  = a * 10 ^ N.of_nat (length ds) + digits_value ds.
Proof.
  unfold digits_value. induction ds as [|d ds IH]; intro a.
  - cbn. lia.
  - cbn [fold_left length]. rewrite (IH (a * 10 + (d - 48))), (IH (0 * 10 + (d - 48))).
    rewrite Nat2N.inj_succ, N.pow_succ_r'. lia.
Qed.
Lemma digits_value_cons d ds :
  digits_value (d :: ds) = (d - 48) * 10 ^ N.of_nat (length ds) + digits_value ds.
Proof. unfold digits_value at 1. cbn [fold_left]. now rewrite fold_digits. Qed.

Definition digits (l : list N) : Prop := Forall (fun c => 48 <= c <= 57) l.
Lemma dec_loop_spec fuel : forall n acc, n < 10 ^ N.of_nat fuel -> (0 < fuel)%nat ->
  exists l, dec_loop fuel n acc = l ++ acc /\ digits l /\ digits_value l = n /\ l <> [].
Proof.
  induction fuel as [|fuel IH]; intros n acc Hn Hf; [lia|]. cbn [dec_loop].
  assert (Hm : n mod 10 < 10) by (apply N.mod_lt; lia).
  assert (Hd := N.div_mod n 10 ltac:(lia)).
  destruct (n / 10 =? 0) eqn:E.
  - apply N.eqb_eq in E. rewrite E in Hd. exists [48 + n mod 10]. repeat split.
    + constructor; [lia|constructor].
    + rewrite digits_value_cons. cbn [length]. change (digits_value []) with 0.
      change (10 ^ N.of_nat 0) with 1. lia.
    + discriminate.
  - apply N.eqb_neq in E. rewrite Nat2N.inj_succ, N.pow_succ_r' in Hn.
    assert (H1 : n / 10 < 10 ^ N.of_nat fuel) by (apply N.div_lt_upper_bound; lia).
    assert (H2 : (0 < fuel)%nat).
    { destruct fuel; [|lia]. change (10 ^ N.of_nat 0) with 1 in H1. lia. }
    destruct (IH (n / 10) (48 + n mod 10 :: acc) H1 H2) as (l & El & Dl & Vl & Nl).
    exists (l ++ [48 + n mod 10]). split; [|split; [|split]].
    + rewrite El, <- app_assoc. reflexivity.
    + apply Forall_app. split; [exact Dl|]. constructor; [lia|constructor].
    + unfold digits_value. rewrite fold_left_app. cbn [fold_left].
      fold (digits_value l). rewrite Vl. lia.
    + destruct l; discriminate.
Qed.
Lemma size_nat_bound n : n < 10 ^ N.of_nat (S (N.size_nat n)).
Proof.
  assert (H : n < 2 ^ N.of_nat (S (N.size_nat n))).
  { rewrite Nat2N.inj_succ, N.pow_succ_r'. destruct n as [|p]; [reflexivity|].
    assert (Hs := N.size_gt (N.pos p)). cbn [N.size_nat].
    change (N.size (N.pos p)) with (N.pos (Pos.size p)) in Hs.
    replace (N.of_nat (Pos.size_nat p)) with (N.pos (Pos.size p)); [lia|].
    clear Hs. induction p; cbn [Pos.size_nat Pos.size]; try reflexivity;
      rewrite Nat2N.inj_succ, <- IHp; reflexivity. }
  eapply N.lt_le_trans; [exact H|]. apply N.pow_le_mono_l. lia.
Qed.
Lemma dec_spec n : digits (dec n) /\ digits_value (dec n) = n /\ dec n <> [].
Proof.
  destruct (dec_loop_spec (S (N.size_nat n)) n [] (size_nat_bound n) ltac:(lia))
    as (l & E & H). unfold dec. rewrite E, app_nil_r. exact H.
Qed.
Lemma scan_digits_ok ds : digits ds -> forall b, scan_digits ds b = (1%Z, ds).
Proof.
  induction 1 as [|d ds H _ IH]; intro b; [reflexivity|]. cbn [scan_digits].
  replace (d =? 95) with false by lia. unfold isdigit.
  replace ((48 <=? d) && (d <=? 57)) with true by lia. now rewrite IH.
Qed.

(** What the reader makes of a number. *)
Definition read_int (stale : bool) (v : Z) : nr :=
  if (v =? 0)%Z then NNum (PFix 0)
  else if (v <? max_fixnum)%Z && (- max_fixnum <? v)%Z then NNum (PFix v)
  else if stale && (- 9223372036854775808 <=? v)%Z && (v <=? 9223372036854775807)%Z then NFalse
  else NNum (PBig v).
Lemma numeric_atom_dec stale z : numeric_atom stale (dec_z z) = read_int stale z.
Proof.
  unfold dec_z. destruct (z <? 0)%Z eqn:E.
  - destruct (dec_spec (Z.to_N (- z))) as (D & V & NE). unfold numeric_atom.
    rewrite (scan_digits_ok _ D). change (1 =? 0)%Z with false. cbv iota.
    destruct (dec (Z.to_N (- z))) as [|d ds] eqn:Ed; [congruence|]. cbv iota. rewrite V.
    rewrite Z2N.id by lia. rewrite Z.opp_involutive. reflexivity.
  - destruct (dec_spec (Z.to_N z)) as (D & V & NE). unfold numeric_atom.
    destruct (dec (Z.to_N z)) as [|d ds] eqn:Ed; [congruence|].
    assert (Hd : 48 <= d <= 57) by (inversion D; assumption).
    assert (Eh : (match d :: ds with 45 :: r => (true, r) | 43 :: r => (false, r) | _ => (false, d :: ds) end)
                 = (false, d :: ds)).
    { assert (C : d = 48 \/ d = 49 \/ d = 50 \/ d = 51 \/ d = 52 \/ d = 53 \/ d = 54 \/ d = 55 \/ d = 56 \/ d = 57) by lia.
      repeat (destruct C as [->|C]; [reflexivity|]). subst d. reflexivity. }
    rewrite Eh. rewrite (scan_digits_ok _ D). change (1 =? 0)%Z with false. cbv iota.
    rewrite V. rewrite Z2N.id by lia. reflexivity.
Qed.
Lemma digits_in ds c : digits ds -> In c ds -> 48 <= c <= 57.
Proof. intros H I. now apply (proj1 (Forall_forall _ _) H). Qed.
(** The text of an integer: a sign or not, then digits. *)
Lemma dec_z_shape z : exists pre ds, dec_z z = pre ++ ds /\ digits ds /\ ds <> [] /\ (pre = [] \/ pre = [45]).
Proof.
  unfold dec_z. destruct (z <? 0)%Z.
  - destruct (dec_spec (Z.to_N (- z))) as (D & _ & NE). now exists [45], (dec (Z.to_N (- z))); auto.
  - destruct (dec_spec (Z.to_N z)) as (D & _ & NE). now exists [], (dec (Z.to_N z)); auto.
Qed.
Lemma dec_z_chars z c : In c (dec_z z) -> c = 45 \/ 48 <= c <= 57.
Proof.
  destruct (dec_z_shape z) as (pre & ds & -> & D & _ & Hp). rewrite in_app_iff. intros [I|I].
  - destruct Hp as [-> | ->]; [destruct I|destruct I as [<-|[]]; now left].
  - right. now apply (digits_in ds).
Qed.
Lemma dec_z_numeric z : numeric_start (dec_z z) = true.
Proof.
  destruct (dec_z_shape z) as (pre & ds & -> & D & NE & Hp). destruct ds as [|d ds]; [congruence|].
  assert (Hd : 48 <= d <= 57) by (inversion D; assumption).
  destruct Hp as [-> | ->]; cbn [app numeric_start]; unfold isdigit; lia.
Qed.
Lemma parse_number_dec stale z : parse_number stale (dec_z z) = read_int stale z.
Proof.
  unfold parse_number.
  assert (E1 : existsb (fun c => 128 <=? c) (dec_z z) = false).
  { apply Bool.not_true_is_false. intro H. apply existsb_exists in H as (c & I & H).
    apply dec_z_chars in I. lia. }
  assert (E2 : existsb (N.eqb 47) (dec_z z) = false).
  { apply Bool.not_true_is_false. intro H. apply existsb_exists in H as (c & I & H).
    apply dec_z_chars in I. lia. }
  assert (E3 : ends_in_i (dec_z z) = false).
  { unfold ends_in_i. destruct (rev (dec_z z)) as [|c r] eqn:R; [reflexivity|].
    assert (I : In c (dec_z z)) by (apply in_rev; rewrite R; now left).
    apply dec_z_chars in I. lia. }
  assert (E4 : hex_prefix (dec_z z) = false).
  { unfold hex_prefix. destruct (dec_z z) as [|a [|b r]] eqn:R; try reflexivity.
    assert (I : In b (dec_z z)) by (rewrite R; right; now left). apply dec_z_chars in I. lia. }
  rewrite E1, E2, E3, E4. cbn [orb]. apply numeric_atom_dec.
Qed.

(** ** Escapes *)

Lemma octal_digits c : c < 256 ->
  c / 64 < 4 /\ c / 8 mod 8 < 8 /\ c mod 8 < 8 /\ (c / 64 * 8 + c / 8 mod 8) * 8 + c mod 8 = c.
Proof.
  intro H. assert (H1 : c / 64 < 4) by (apply N.div_lt_upper_bound; lia).
  assert (H2 : c / 8 mod 8 < 8) by (apply N.mod_lt; lia).
  assert (H3 : c mod 8 < 8) by (apply N.mod_lt; lia).
  repeat split; auto.
  assert (D1 := N.div_mod c 8 ltac:(lia)). assert (D2 := N.div_mod (c / 8) 8 ltac:(lia)).
  rewrite N.div_div in D2 by lia. change (8 * 8) with 64 in D2. lia.
Qed.
Lemma scan_octal_ok c : c < 256 -> scan_octal (48 + c / 64) (48 + c / 8 mod 8) (48 + c mod 8) = c.
Proof.
  intro H. destruct (octal_digits c H) as (H1 & H2 & H3 & E). unfold scan_octal, odigit.
  replace ((48 <=? 48 + c / 8 mod 8) && (48 + c / 8 mod 8 <=? 55)) with true by lia.
  replace ((48 <=? 48 + c mod 8) && (48 + c mod 8 <=? 55)) with true by lia. lia.
Qed.
Lemma read_escape_octal c r : c < 256 -> read_escape (octal3 c ++ r) = EGot c r.
Proof.
  intro H. destruct (octal_digits c H) as (H1 & H2 & H3 & E).
  unfold octal3. cbn [app]. unfold read_escape.
  set (a := 48 + c / 64). assert (Ha : 48 <= a <= 51) by lia.
  replace (a =? 116) with false by lia. replace (a =? 110) with false by lia.
  replace (a =? 114) with false by lia. replace (a =? 102) with false by lia.
  replace (a =? 98) with false by lia. replace (a =? 118) with false by lia.
  replace (a =? 97) with false by lia.
  replace ((a =? 120) || (a =? 85) || (a =? 38)) with false by lia.
  replace (a =? 117) with false by lia.
  replace ((48 <=? a) && (a <=? 51)) with true by lia.
  replace ((128 <=? 48 + c / 8 mod 8) || (128 <=? 48 + c mod 8) || (48 + c / 8 mod 8 =? 0)
           || (48 + c mod 8 =? 0)) with false by lia.
  unfold a. now rewrite (scan_octal_ok c H).
Qed.
Lemma octal3_head c r : c < 256 -> exists a r', octal3 c ++ r = a :: r' /\ a <> 10.
Proof.
  intro H. destruct (octal_digits c H) as (H1 & _). unfold octal3. cbn [app].
  do 2 eexists. split; [reflexivity|]. lia.
Qed.
Lemma iscntrl_lt c : iscntrl c = true -> c < 256.
Proof. unfold iscntrl. lia. Qed.

(** ** Strings *)

Lemma str_loop_ok s : forall acc rest k, (length (flat_map esc_char s) < k)%nat -> forall isspace8,
  str_loop isspace8 k (flat_map esc_char s ++ 34 :: rest) acc = Got (PStr (rev acc ++ s)) rest.
Proof.
  induction s as [|c s IH]; intros acc rest k Hk sp.
  - destruct k as [|k]; [cbn in Hk; lia|]. cbn [flat_map app str_loop]. cbn [N.eqb Pos.eqb].
    now rewrite app_nil_r.
  - cbn [flat_map] in *. rewrite app_length in Hk. rewrite <- app_assoc.
    destruct k as [|k]; [lia|].
    assert (G : forall k, (length (flat_map esc_char s) < k)%nat ->
       str_loop sp k (flat_map esc_char s ++ 34 :: rest) (c :: acc) = Got (PStr (rev acc ++ c :: s)) rest).
    { intros k0 H0. rewrite IH by exact H0. cbn [rev]. now rewrite <- app_assoc. }
    assert (E : forall x, (c =? x) = true -> c = x) by (intros; now apply N.eqb_eq).
    unfold esc_char at 1. unfold esc_char at 1 in Hk.
    destruct (c =? 34) eqn:E1.
    { rewrite (E 34 E1) in *. cbn [app length] in *. cbn [str_loop]. apply G. lia. }
    destruct (c =? 92) eqn:E2.
    { rewrite (E 92 E2) in *. cbn [app length] in *. cbn [str_loop]. apply G. lia. }
    destruct (c =? 10) eqn:E3.
    { rewrite (E 10 E3) in *. cbn [app length] in *. cbn [str_loop]. apply G. lia. }
    destruct (c =? 9) eqn:E4.
    { rewrite (E 9 E4) in *. cbn [app length] in *. cbn [str_loop]. apply G. lia. }
    destruct (c =? 13) eqn:E5.
    { rewrite (E 13 E5) in *. cbn [app length] in *. cbn [str_loop]. apply G. lia. }
    destruct (iscntrl c) eqn:E6.
    { assert (Hc := iscntrl_lt c E6).
      change ((92 :: octal3 c) ++ flat_map esc_char s ++ 34 :: rest)
        with (92 :: octal3 c ++ flat_map esc_char s ++ 34 :: rest).
      cbn [str_loop]. cbn [N.eqb Pos.eqb].
      destruct (octal3_head c (flat_map esc_char s ++ 34 :: rest) Hc) as (a & r' & Ea & Na).
      assert (R := read_escape_octal c (flat_map esc_char s ++ 34 :: rest) Hc).
      rewrite Ea in R |- *. rewrite (proj2 (N.eqb_neq a 10) Na). rewrite R.
      apply G. cbn [length] in Hk. lia. }
    cbn [app length] in *. cbn [str_loop]. rewrite E1, E2. apply G. lia.
Qed.
Lemma parse_string_ok isspace8 s rest :
  parse_string isspace8 (flat_map esc_char s ++ 34 :: rest) = Got (PStr s) rest.
Proof.
  unfold parse_string. rewrite str_loop_ok; [reflexivity|]. rewrite app_length. cbn [length]. lia.
Qed.

(** ** Packets *)

Lemma pkt_loop_ok b : bytes b -> forall acc rest k, (length (flat_map pkt_char b) < k)%nat ->
  forall isspace8,
  pkt_loop isspace8 k (flat_map pkt_char b ++ 34 :: rest) acc = Got (PPkt (rev acc ++ b)) rest.
Proof.
  induction 1 as [|c s Hc _ IH]; intros acc rest k Hk sp.
  - destruct k as [|k]; [cbn in Hk; lia|]. cbn [flat_map app pkt_loop]. cbn [N.eqb Pos.eqb].
    now rewrite app_nil_r.
  - cbn [flat_map] in *. rewrite app_length in Hk. rewrite <- app_assoc.
    destruct k as [|k]; [lia|].
    assert (G : forall k, (length (flat_map pkt_char s) < k)%nat ->
       pkt_loop sp k (flat_map pkt_char s ++ 34 :: rest) (c :: acc) = Got (PPkt (rev acc ++ c :: s)) rest).
    { intros k0 H0. rewrite IH by exact H0. cbn [rev]. now rewrite <- app_assoc. }
    assert (E : forall x, (c =? x) = true -> c = x) by (intros; now apply N.eqb_eq).
    unfold pkt_char at 1. unfold pkt_char at 1 in Hk.
    destruct (c =? 34) eqn:E1.
    { rewrite (E 34 E1) in *. cbn [app length] in *. cbn [pkt_loop]. cbn. apply G. lia. }
    destruct (c =? 92) eqn:E2.
    { rewrite (E 92 E2) in *. cbn [app length] in *. cbn [pkt_loop]. cbn. apply G. lia. }
    destruct (c =? 10) eqn:E3.
    { rewrite (E 10 E3) in *. cbn [app length] in *. cbn [pkt_loop]. cbn. apply G. lia. }
    destruct (c =? 13) eqn:E5.
    { rewrite (E 13 E5) in *. cbn [app length] in *. cbn [pkt_loop]. cbn. apply G. lia. }
    destruct (c =? 9) eqn:E4.
    { rewrite (E 9 E4) in *. cbn [app length] in *. cbn [pkt_loop]. cbn. apply G. lia. }
    destruct ((127 <=? c) || (c <? 32)) eqn:E6.
    { destruct (octal_digits c Hc) as (H1 & H2 & H3 & EV).
      unfold octal3 in *. cbn [app length] in *. cbn [pkt_loop].
      cbn [N.eqb Pos.eqb]. replace (128 <=? 92) with false by reflexivity.
      set (a := 48 + c / 64). assert (Ha : 48 <= a <= 51) by lia.
      replace (a =? 10) with false by lia. unfold pkt_escape.
      replace (a =? 92) with false by lia. replace (a =? 97) with false by lia.
      replace ((a =? 102) || (a =? 108)) with false by lia.
      replace ((a =? 104) || (a =? 98)) with false by lia.
      replace (a =? 110) with false by lia. replace (a =? 116) with false by lia.
      replace (a =? 114) with false by lia. replace (a =? 122) with false by lia.
      replace (a =? 35) with false by lia. replace (a =? 120) with false by lia.
      replace ((48 <=? a) && (a <=? 51)) with true by lia. unfold odigitp.
      replace ((48 <=? 48 + c / 8 mod 8) && (48 + c / 8 mod 8 <=? 56)) with true by lia.
      replace ((48 <=? 48 + c mod 8) && (48 + c mod 8 <=? 56)) with true by lia.
      unfold a. rewrite (scan_octal_ok c Hc). apply G. lia. }
    cbn [app length] in *. cbn [pkt_loop]. rewrite E1, E2. replace (128 <=? c) with false by lia.
    apply G. lia.
Qed.
Lemma parse_text_packet_ok isspace8 b rest : bytes b ->
  parse_text_packet isspace8 (flat_map pkt_char b ++ 34 :: rest) = Got (PPkt b) rest.
Proof.
  intro H. unfold parse_text_packet. rewrite (pkt_loop_ok b H); [reflexivity|].
  rewrite app_length. cbn [length]. lia.
Qed.
Lemma hex_pkt_ok b : bytes b -> forall acc rest,
  hex_pkt_loop (flat_map (hex2 false) b ++ 34 :: rest) acc = Got (PPkt (rev acc ++ b)) rest.
Proof.
  induction 1 as [|c s Hc _ IH]; intros acc rest.
  - cbn [flat_map app hex_pkt_loop]. cbn. now rewrite app_nil_r.
  - cbn [flat_map]. rewrite <- app_assoc. destruct (hex2_val false c Hc) as (x & y & -> & Hx & Hy).
    cbn [app hex_pkt_loop]. rewrite (proj2 (xdigit_iff _ _) Hx), (proj2 (xdigit_iff _ _) Hy).
    rewrite IH. cbn [rev]. rewrite <- app_assoc. cbn [app]. do 3 f_equal.
    rewrite N.mul_comm. now rewrite (div16 c).
Qed.

(** ** Characters *)

Lemma hex4_val c : c < 65536 -> exists a1 a2 a3 a4, hex4 c = [a1; a2; a3; a4]
  /\ hexval a1 (c / 4096) /\ hexval a2 (c / 256 mod 16) /\ hexval a3 (c / 16 mod 16) /\ hexval a4 (c mod 16).
Proof.
  intro H.
  assert (M : forall x, x mod 16 < 16) by (intro; apply N.mod_lt; lia).
  assert (D1 : c / 256 = c / 16 / 16) by (rewrite N.div_div by lia; reflexivity).
  assert (D2 : c / 4096 = c / 16 / 16 / 16) by (rewrite !N.div_div by lia; reflexivity).
  assert (V0 : hexval 48 0) by (unfold hexval; lia).
  unfold hex4, print_hex. cbn [hex_loop].
  destruct (c / 16 =? 0) eqn:E1.
  { apply N.eqb_eq in E1. cbn [length repeat app Nat.sub].
    do 4 eexists. split; [reflexivity|]. rewrite D2, D1, E1. cbn. auto using hexchar_val. }
  destruct (c / 16 / 16 =? 0) eqn:E2.
  { apply N.eqb_eq in E2. cbn [length repeat app Nat.sub].
    do 4 eexists. split; [reflexivity|]. rewrite D2, D1, E2. cbn. auto using hexchar_val. }
  destruct (c / 16 / 16 / 16 =? 0) eqn:E3.
  { apply N.eqb_eq in E3. cbn [length repeat app Nat.sub].
    do 4 eexists. split; [reflexivity|]. rewrite D2, D1, E3. auto using hexchar_val. }
  assert (H16 : c / 16 / 16 / 16 < 16).
  { rewrite <- D2. apply N.div_lt_upper_bound; lia. }
  replace (c / 16 / 16 / 16 / 16) with 0 by (symmetry; apply N.div_small; exact H16).
  cbn [N.eqb length repeat app Nat.sub].
  do 4 eexists. split; [reflexivity|]. rewrite D2, D1.
  rewrite (N.mod_small (c / 16 / 16 / 16) 16 H16). auto using hexchar_val.
Qed.
Lemma hex4_sum c : ((c / 4096 * 16 + c / 256 mod 16) * 16 + c / 16 mod 16) * 16 + c mod 16 = c.
Proof.
  assert (D0 := N.div_mod c 16 ltac:(lia)). assert (D1 := N.div_mod (c / 16) 16 ltac:(lia)).
  assert (D2 := N.div_mod (c / 256) 16 ltac:(lia)).
  rewrite N.div_div in D1 by lia. rewrite N.div_div in D2 by lia.
  change (16 * 16) with 256 in *. change (256 * 16) with 4096 in *. lia.
Qed.

(** What may follow an atom. *)
Definition ends (rest : list N) : Prop :=
  match rest with [] => True | c :: _ => atombreakp c = true end.
Lemma take_atom_ok t rest : (forall c, In c t -> atombreakp c = false) -> ends rest ->
  take_atom (t ++ rest) = (t, rest).
Proof.
  intros H He. induction t as [|c t IH].
  - destruct rest as [|c r]; [reflexivity|]. cbn [app take_atom]. cbn in He. now rewrite He.
  - cbn [app take_atom]. rewrite (H c (or_introl eq_refl)).
    rewrite IH; [reflexivity|]. intros d Hd. apply H. now right.
Qed.
Lemma atombreak_alnum c : isalnum c = true -> atombreakp c = false.
Proof.
  intro H. unfold isalnum, isdigit, isupper, islower in H. unfold atombreakp, isspace, strchr.
  cbv [codes existsb Ascii.N_of_ascii Ascii.N_of_digits N.add N.mul Pos.add Pos.mul Pos.succ]. lia.
Qed.
Lemma hexval_alnum c x : hexval c x -> isalnum c = true.
Proof. unfold hexval, isalnum, isdigit, isupper, islower. lia. Qed.
Lemma parse_character_ok c rest : c < 65536 -> ends rest ->
  parse_character (skipn 2 (unparse_char c) ++ rest) = Got (PChar c) rest.
Proof.
  intros H He. unfold unparse_char. destruct ((c <? 128) && isalnum c) eqn:E.
  - apply andb_prop in E as [E1 E2]. cbn [skipn app]. unfold parse_character.
    assert (Hc : c <> 38) by (intros ->; discriminate). rewrite (proj2 (N.eqb_neq c 38) Hc).
    assert (P : ispunct c = false) by (unfold ispunct; rewrite E2; lia). rewrite P.
    change (c :: rest) with ([c] ++ rest). rewrite take_atom_ok; [reflexivity| |exact He].
    intros d [<-|[]]. now apply atombreak_alnum.
  - change (skipn 2 ([35; 92; 117] ++ hex4 c)) with (117 :: hex4 c).
    destruct (hex4_val c H) as (a1 & a2 & a3 & a4 & -> & H1 & H2 & H3 & H4).
    cbn [app]. unfold parse_character. cbn [N.eqb Pos.eqb].
    change (ispunct 117) with false. cbv iota.
    change (117 :: a1 :: a2 :: a3 :: a4 :: rest) with ([117; a1; a2; a3; a4] ++ rest).
    rewrite take_atom_ok; [| |exact He].
    + cbn [N.eqb Pos.eqb].
      rewrite (proj2 (xdigit_iff _ _) H1), (proj2 (xdigit_iff _ _) H2), (proj2 (xdigit_iff _ _) H3),
        (proj2 (xdigit_iff _ _) H4), hex4_sum. reflexivity.
    + intros d [<-|[<-|[<-|[<-|[<-|[]]]]]]; [reflexivity|..]; apply atombreak_alnum;
        eauto using hexval_alnum.
Qed.

(** ** Symbols *)

Section Symbols.
  Variable isupper8 : N -> bool.
  Variable tolower8 : N -> N.

  Lemma ca_plain n : (forall c, In c n -> atombreakp c = false /\ c <> 124 /\ c <> 92 /\ tolower8 c = c) ->
    forall rest acc k, ends rest -> (length n < k)%nat ->
    ca_loop tolower8 k (n ++ rest) false acc = AGot (rev acc ++ n) rest.
  Proof.
    induction n as [|c n IH]; intros H rest acc k He Hk.
    - destruct k as [|k]; [cbn in Hk; lia|]. cbn [app]. rewrite app_nil_r.
      destruct rest as [|d r]; [reflexivity|]. cbn [ca_loop]. cbn in He. now rewrite He.
    - destruct k as [|k]; [cbn in Hk; lia|]. cbn [app ca_loop length] in *.
      destruct (H c (or_introl eq_refl)) as (H1 & H2 & H3 & H4). rewrite H1. cbn [orb negb].
      rewrite (proj2 (N.eqb_neq c 124) H2), (proj2 (N.eqb_neq c 92) H3), H4.
      rewrite IH; [|intros d Hd; apply H; now right|exact He|lia].
      cbn [rev]. now rewrite <- app_assoc.
  Qed.
  Lemma ca_bars n : forall rest acc k, ends rest -> (S (length (flat_map bar_char n)) < k)%nat ->
    ca_loop tolower8 k (flat_map bar_char n ++ 124 :: rest) true acc = AGot (rev acc ++ n) rest.
  Proof.
    induction n as [|c n IH]; intros rest acc k He Hk.
    - cbn [flat_map length] in Hk. destruct k as [|[|k]]; [lia..|]. cbn [flat_map app]. rewrite app_nil_r.
      cbn [ca_loop orb N.eqb Pos.eqb negb].
      destruct rest as [|d r]; [reflexivity|]. cbn in He. now rewrite He.
    - cbn [flat_map] in *. rewrite app_length in Hk. rewrite <- app_assoc.
      destruct k as [|k]; [lia|].
      assert (G : forall k, (S (length (flat_map bar_char n)) < k)%nat ->
         ca_loop tolower8 k (flat_map bar_char n ++ 124 :: rest) true (c :: acc) = AGot (rev acc ++ c :: n) rest).
      { intros k0 H0. rewrite IH by assumption. cbn [rev]. now rewrite <- app_assoc. }
      unfold bar_char at 1. unfold bar_char at 1 in Hk. destruct ((c =? 92) || (c =? 124)) eqn:E1.
      + apply Bool.orb_true_iff in E1. cbn [app length] in *.
        cbn [ca_loop orb]. change (92 =? 124) with false. change (92 =? 92) with true. cbv iota.
        destruct E1 as [E1|E1]; apply N.eqb_eq in E1 as ->; cbn; apply G; lia.
      + apply Bool.orb_false_iff in E1 as [E1 E2]. destruct (iscntrl c) eqn:E3.
        * change ((92 :: octal3 c) ++ flat_map bar_char n ++ 124 :: rest)
            with (92 :: octal3 c ++ flat_map bar_char n ++ 124 :: rest).
          cbn [ca_loop orb]. change (92 =? 124) with false. change (92 =? 92) with true. cbv iota.
          rewrite (read_escape_octal c _ (iscntrl_lt c E3)). apply G. cbn [length] in Hk. lia.
        * cbn [app length] in *. cbn [ca_loop orb]. rewrite E1, E2. apply G. lia.
  Qed.
End Symbols.
