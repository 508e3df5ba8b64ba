(** * Percent-encoding, stated on its own, and lemmas about UriModel. *)
From Verif Require Import UriModel.
From Coq Require Import Lia ZArith ZifyBool ZifyN.
Local Open Scope N_scope.

(** ** Specification *)

(** [a] is a hexadecimal digit (either case) of value [x]. *)
Definition hexval (a x : N) : Prop :=
  (a = 48 + x /\ x < 10) \/ (a = 55 + x /\ 10 <= x < 16) \/ (a = 87 + x /\ 10 <= x < 16).
(** [pct s r]: [s] is a percent-encoding of the bytes [r] (RFC 3986, section 2.1). *)
Inductive pct : list N -> list N -> Prop :=
| pct_nil : pct [] []
| pct_raw c s r : c <> 37 -> pct s r -> pct (c :: s) (c :: r)
| pct_hex a b x y s r : hexval a x -> hexval b y -> pct s r ->
    pct (37 :: a :: b :: s) (16 * x + y :: r).
(** Bytes, and bytes other than NUL. *)
Definition bytes (s : list N) : Prop := Forall (fun c => c < 256) s.
Definition text (s : list N) : Prop := Forall (fun c => 0 < c < 256) s.
(** The unreserved characters of RFC 3986, section 2.3. *)
Definition unreserved (c : N) : Prop :=
  48 <= c <= 57 \/ 65 <= c <= 90 \/ 97 <= c <= 122 \/ In c [45; 46; 95; 126].

(** ** Characters *)

Lemma xdigit_iff a x : xdigit a = Some x <-> hexval a x.
Proof.
  unfold xdigit, hexval. split.
  - destruct ((48 <=? a) && (a <=? 57)) eqn:E1; [intro H; injection H as <-; lia|].
    destruct ((97 <=? a) && (a <=? 102)) eqn:E2; [intro H; injection H as <-; lia|].
    destruct ((65 <=? a) && (a <=? 70)) eqn:E3; [intro H; injection H as <-; lia|discriminate].
  - intros [[-> H]|[[-> H]|[-> H]]].
    + replace ((48 <=? 48 + x) && (48 + x <=? 57)) with true by lia. f_equal. lia.
    + replace ((48 <=? 55 + x) && (55 + x <=? 57)) with false by lia.
      replace ((97 <=? 55 + x) && (55 + x <=? 102)) with false by lia.
      replace ((65 <=? 55 + x) && (55 + x <=? 70)) with true by lia. f_equal. lia.
    + replace ((48 <=? 87 + x) && (87 + x <=? 57)) with false by lia.
      replace ((97 <=? 87 + x) && (87 + x <=? 102)) with true by lia. f_equal. lia.
Qed.
Lemma hexchar_val d : d < 16 -> hexval (hexchar d) d.
Proof. unfold hexchar, hexval. intro H. destruct (d <? 10) eqn:E; lia. Qed.
Lemma hexcharU_val d : d < 16 -> hexval (hexcharU d) d.
Proof. unfold hexcharU, hexval. intro H. destruct (d <? 10) eqn:E; lia. Qed.
Lemma hexval_lt a x : hexval a x -> x < 16.
Proof. unfold hexval. lia. Qed.
Lemma hex2_val up c : c < 256 ->
  exists a b, hex2 up c = [a; b] /\ hexval a (c / 16) /\ hexval b (c mod 16).
Proof.
  intro H. assert (H1 : c / 16 < 16) by (apply N.div_lt_upper_bound; lia).
  assert (H2 : c mod 16 < 16) by (apply N.mod_lt; lia).
  unfold hex2. destruct up; do 2 eexists; (split; [reflexivity|]);
    auto using hexchar_val, hexcharU_val.
Qed.
Lemma div16 c : 16 * (c / 16) + c mod 16 = c.
Proof. symmetry. apply N.div_mod. lia. Qed.

Lemma until0_text s : text s -> until0 s = s.
Proof.
  induction 1 as [|c r H _ IH]; [reflexivity|]. cbn [until0].
  replace (c =? 0) with false by lia. now rewrite IH.
Qed.
Lemma text_bytes s : text s -> bytes s.
Proof. apply Forall_impl. lia. Qed.

(** ** Encoding *)

Lemma uri_output_app up e s t : uri_output up e (s ++ t) = uri_output up e s ++ uri_output up e t.
Proof. induction s as [|c s IH]; [reflexivity|]. cbn [app uri_output]. now rewrite IH, app_assoc. Qed.

Lemma uri_output_pct up e s : bytes s -> pct (uri_output up e s) s.
Proof.
  induction 1 as [|c r H _ IH]; [constructor|]. cbn [uri_output].
  destruct (uri_escaped e c) eqn:E.
  - destruct (hex2_val up c H) as (a & b & -> & Ha & Hb). cbn [app].
    rewrite <- (div16 c) at 1. now constructor.
  - cbn [app]. constructor; [|exact IH]. intros ->. unfold uri_escaped in E. cbn in E. discriminate.
Qed.
Lemma uridecode_iff s : forall r, uridecode s = Some r <-> pct s r.
Proof.
  intro r. split.
  - revert r. remember (length s) as n eqn:L. assert (Hn : (length s <= n)%nat) by lia. clear L.
    revert s Hn. induction n as [|n IH]; intros [|c s] Hn r; cbn [length] in Hn;
      try (cbn; intro H; injection H as <-; constructor); [lia|].
    cbn [uridecode]. destruct (c =? 37) eqn:E.
    + apply N.eqb_eq in E as ->. destruct s as [|a [|b s]]; try discriminate.
      destruct (xdigit a) as [x|] eqn:Ea; [|discriminate].
      destruct (xdigit b) as [y|] eqn:Eb; [|discriminate].
      destruct (uridecode s) as [t|] eqn:Et; [|discriminate].
      intro H; injection H as <-. apply xdigit_iff in Ea, Eb.
      rewrite N.mod_small by (apply hexval_lt in Ea, Eb; lia).
      replace (x * 16 + y) with (16 * x + y) by lia.
      constructor; auto. apply IH; [cbn [length] in Hn; lia|exact Et].
    + destruct (uridecode s) as [t|] eqn:Et; [|discriminate].
      intro H; injection H as <-. constructor; [lia|]. apply IH; [lia|exact Et].
  - induction 1 as [|c s r H _ IH|a b x y s r Ha Hb _ IH]; [reflexivity| |].
    + cbn [uridecode]. rewrite (proj2 (N.eqb_neq c 37) H). now rewrite IH.
    + cbn [uridecode]. cbn [N.eqb Pos.eqb]. rewrite (proj2 (xdigit_iff a x) Ha), (proj2 (xdigit_iff b y) Hb), IH.
      apply hexval_lt in Ha, Hb. rewrite N.mod_small by lia. do 2 f_equal. lia.
Qed.

Lemma hex2_chars up c x : c < 256 -> In x (hex2 up c) -> unreserved x.
Proof.
  intros H Hx. destruct (hex2_val up c H) as (a & b & E & Ha & Hb). rewrite E in Hx.
  unfold hexval, unreserved in *. destruct Hx as [<-|[<-|[]]]; lia.
Qed.
Lemma isalnum_unreserved c : isalnum c = true -> unreserved c.
Proof. unfold isalnum, isdigit, isupper, islower, unreserved. lia. Qed.
Lemma uri_output_chars up e s x : bytes s -> (forall c, In c s -> uri_escaped e c = false -> x <> c) ->
  In x (uri_output up e s) -> x = 37 \/ unreserved x.
Proof.
  induction 1 as [|c r H _ IH]; [intros _ []|]. intros Hx. cbn [uri_output]. rewrite in_app_iff.
  intros [I|I].
  - destruct (uri_escaped e c) eqn:E.
    + destruct I as [<-|I]; [now left|right; now apply (hex2_chars up c)].
    + destruct I as [<-|[]]. exfalso. now apply (Hx c (or_introl eq_refl) E).
  - apply IH; auto. intros c' Hc. apply Hx. now right.
Qed.
Lemma unescaped_none c : 0 < c -> uri_escaped None c = false -> unreserved c.
Proof.
  unfold uri_escaped. rewrite !Bool.orb_false_iff, Bool.negb_false_iff, Bool.orb_true_iff.
  intros P (_ & [H|H]); [now apply isalnum_unreserved|].
  unfold strchr in H. cbn [existsb] in H. unfold unreserved. cbn [In]. lia.
Qed.
Lemma uri_output_in up e s x : In x (uri_output up e s) ->
  x = 37 \/ (exists c, In c s /\ In x (hex2 up c)) \/ (In x s /\ uri_escaped e x = false).
Proof.
  induction s as [|c s IH]; [intros []|]. cbn [uri_output]. rewrite in_app_iff. intros [I|I].
  - destruct (uri_escaped e c) eqn:E.
    + destruct I as [<-|I]; [now left|]. right; left. exists c. split; [now left|exact I].
    + destruct I as [<-|[]]. right; right. split; [now left|exact E].
  - destruct (IH I) as [H|[(c' & H1 & H2)|[H1 H2]]]; [now left| |].
    + right; left. exists c'. split; [now right|exact H2].
    + right; right. split; [now right|exact H2].
Qed.

(** ** Query strings *)

Section Query.
  Variable protected : list N -> bool.
  Notation pq := (pq_loop protected).

  (** The flag isascii after the bytes [s]. *)
  Definition asciis (s : list N) : bool := forallb (fun c => c <? 128) s.

  Lemma strtol2_hex a b x y : hexval a x -> hexval b y ->
    strtol2 a b = (16 * x + y, 128 <=? 16 * x + y).
  Proof.
    intros Ha Hb. unfold strtol2.
    now rewrite (proj2 (xdigit_iff a x) Ha), (proj2 (xdigit_iff b y) Hb).
  Qed.
  (** Reading encoded text adds the text itself to the buffer. *)
  Lemma pq_encoded s : bytes s -> forall rest ss sid buf asc,
    pq (uri_output false None s ++ rest) ss sid buf asc
    = pq rest ss sid (rev s ++ buf) (asc && asciis s).
  Proof.
    induction 1 as [|c s H _ IH]; intros rest ss sid buf asc.
    - cbn [uri_output app rev asciis forallb]. now rewrite Bool.andb_true_r.
    - cbn [uri_output]. rewrite <- app_assoc.
      assert (G : forall b2, (if c <? 128 then asc else false) = b2 ->
                pq (uri_output false None s ++ rest) ss sid (c :: buf) b2
                = pq rest ss sid (rev (c :: s) ++ buf) (asc && asciis (c :: s))).
      { intros b2 <-. rewrite IH. cbn [rev]. rewrite <- app_assoc. cbn [app]. f_equal.
        cbn [asciis forallb]. destruct (c <? 128), asc; reflexivity. }
      destruct (uri_escaped None c) eqn:E.
      + destruct (hex2_val false c H) as (a & b & -> & Ha & Hb). cbn [app].
        cbn [pq_loop]. cbn [N.eqb Pos.eqb andb].
        rewrite (strtol2_hex a b _ _ Ha Hb), (div16 c). apply G.
        destruct (128 <=? c) eqn:E1, (c <? 128) eqn:E2; try reflexivity; lia.
      + cbn [app]. cbn [pq_loop]. unfold uri_escaped in E.
        rewrite !Bool.orb_false_iff in E.
        destruct E as ((((((((E1 & E2) & E3) & E4) & E5) & E6) & E7) & E8) & E9).
        rewrite E3, E4, E5, E6. cbn [andb]. now apply G.
  Qed.

  (** One name and value, followed by the end or by an ampersand. *)
  Lemma pq_pair n v rest ss : text n -> text v ->
    pq (uri_output false None n ++ [61] ++ uri_output false None v ++ rest) ss None [] true
    = pq rest (Some n) (if visible protected n then Some n else None) (rev v) (asciis v).
  Proof.
    intros Hn Hv. rewrite (pq_encoded n (text_bytes n Hn)). cbn [app].
    cbn [pq_loop]. cbn [N.eqb Pos.eqb andb].
    rewrite app_nil_r, rev_involutive, (until0_text n Hn).
    rewrite (pq_encoded v (text_bytes v Hv)). now rewrite app_nil_r.
  Qed.
End Query.

(** ** Forms *)

(** A name and value as they appear in a form. *)
Definition pair_text (p : list N * list N) : list N :=
  uri_output false None (fst p) ++ [61] ++ uri_output false None (snd p).
Fixpoint join (l : list (list N * list N)) : list N :=
  match l with
  | [] => []
  | [p] => pair_text p
  | p :: r => pair_text p ++ [38] ++ join r
  end.
Lemma last_byte_cons out c : last_byte (out ++ [c]) = Some c.
Proof. unfold last_byte. now rewrite rev_app_distr. Qed.
Lemma last_byte_app out l : l <> [] -> last_byte (out ++ l) = last_byte l.
Proof.
  intro H. destruct (exists_last H) as (l' & c & ->). rewrite app_assoc, !last_byte_cons. reflexivity.
Qed.
Lemma last_byte_in l c : last_byte l = Some c -> In c l.
Proof.
  unfold last_byte. intro H. apply in_rev. destruct (rev l); [discriminate|].
  injection H as ->. now left.
Qed.
Lemma pair_text_last p : bytes (snd p) -> exists c, last_byte (pair_text p) = Some c /\ c <> 63 /\ c <> 38.
Proof.
  intro H. unfold pair_text. rewrite last_byte_app by discriminate. cbn [app].
  destruct (last_byte (61 :: uri_output false None (snd p))) as [c|] eqn:E.
  - exists c. split; [reflexivity|]. apply last_byte_in in E. destruct E as [<-|E]; [split; discriminate|].
    destruct (uri_output_in _ _ _ _ E) as [->|[(c' & I & J)|[I J]]]; [split; discriminate| |].
    + apply hex2_chars in J; [|now apply (proj1 (Forall_forall _ _) H)].
      unfold unreserved in J. cbn [In] in J. split; lia.
    + split; intros ->; cbn in J; discriminate.
  - exfalso. unfold last_byte in E. destruct (rev (61 :: uri_output false None (snd p))) eqn:R; [|discriminate].
    apply (f_equal (@length N)) in R. rewrite rev_length in R. discriminate.
Qed.
Lemma add_single out n v : text n -> add_query_param out n [v]
  = out ++ param_sep (last_byte out) ++ pair_text (n, v).
Proof.
  intro H. unfold add_query_param, pair_text. cbn [add_values fst snd]. now rewrite (until0_text n H).
Qed.
Definition single (p : list N * list N) : list N * list (list N) := (fst p, [snd p]).
Lemma form_from l : Forall (fun p => text (fst p) /\ text (snd p)) l ->
  forall out c, last_byte out = Some c -> c <> 63 -> c <> 38 -> l <> [] ->
  fold_left (fun o p => add_query_param o (fst p) (snd p)) (map single l) out
  = out ++ [38] ++ join l.
Proof.
  induction 1 as [|p l [Hn Hv] _ IH]; intros out c E H1 H2 NE; [congruence|].
  cbn [map fold_left]. unfold single at 2 3. cbn [fst snd].
  rewrite add_single by exact Hn. rewrite E. unfold param_sep.
  rewrite (proj2 (N.eqb_neq c 63) H1), (proj2 (N.eqb_neq c 38) H2). cbn [orb].
  rewrite <- (surjective_pairing p).
  destruct l as [|q l].
  - reflexivity.
  - destruct (pair_text_last p (text_bytes _ Hv)) as (c' & E' & H1' & H2').
    rewrite (IH (out ++ [38] ++ pair_text p) c'); auto; [| |discriminate].
    + cbn [join]. rewrite <- !app_assoc. reflexivity.
    + rewrite app_assoc, last_byte_app; [exact E'|]. unfold pair_text. intro Z.
      apply (f_equal (@length N)) in Z. rewrite !app_length in Z. cbn in Z. lia.
Qed.
Lemma form_join l : Forall (fun p => text (fst p) /\ text (snd p)) l ->
  form_encode (map single l) = join l.
Proof.
  intro H. destruct l as [|p l]; [reflexivity|]. inversion H as [|? ? [Hn Hv] Hl]; subst.
  unfold form_encode. cbn [map fold_left]. unfold single at 2 3. cbn [fst snd].
  rewrite add_single by exact Hn. cbn [last_byte rev param_sep app]. rewrite <- (surjective_pairing p).
  destruct l as [|q l]; [reflexivity|].
  destruct (pair_text_last p (text_bytes _ Hv)) as (c' & E' & H1' & H2').
  rewrite (form_from (q :: l) Hl _ c' E' H1' H2') by discriminate.
  cbn [join]. reflexivity.
Qed.

Definition is_some {A} (o : option A) : bool := match o with Some _ => true | None => false end.
Lemma pq_join protected l : Forall (fun p => text (fst p) /\ text (snd p)) l ->
  (forall p, last l ([], [1]) = p -> snd p <> []) ->
  forall ss, pq_loop protected (join l) ss None [] true
  = map (fun p => QParam (Some (fst p)) (visible protected (fst p)) (snd p) (asciis (snd p))) l.
Proof.
  induction 1 as [|p l [Hn Hv] _ IH]; intros HL ss; [reflexivity|].
  destruct l as [|q l].
  - cbn [join map]. unfold pair_text.
    rewrite <- (app_nil_r (uri_output false None (snd p))).
    rewrite (pq_pair protected (fst p) (snd p) [] ss Hn Hv).
    assert (NE : snd p <> []) by (apply (HL p); reflexivity).
    cbn [pq_loop]. destruct (rev (snd p)) as [|c b] eqn:R.
    + apply (f_equal (@rev N)) in R. rewrite rev_involutive in R. now rewrite R in NE.
    + rewrite <- R, rev_involutive, (until0_text _ Hv).
      now destruct (visible protected (fst p)).
  - change (join (p :: q :: l)) with (pair_text p ++ [38] ++ join (q :: l)).
    unfold pair_text. rewrite <- !app_assoc.
    rewrite (pq_pair protected (fst p) (snd p) _ ss Hn Hv). cbn [app].
    cbn [pq_loop]. cbn [N.eqb Pos.eqb andb].
    rewrite rev_involutive, (until0_text _ Hv). cbn [map]. f_equal.
    + now destruct (visible protected (fst p)).
    + apply IH. intros r E. apply HL. exact E.
Qed.
