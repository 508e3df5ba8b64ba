(** * Reading a dtype that was cut off. *)

From Coq Require Import NArith ZArith List Bool Lia Permutation Sorted.
From Verif Require Import SortModel BytesModel BytesProofs ValueModel ValueProofs
  ChoicesModel DtypeModel DtypeProofs DtypeProofs2 DtypeProofs3.
From Verif Require BytesProps BigintProofs BigintProofs4 BigintProps NumbersProofs.
Import ListNotations.
Local Open Scope N_scope.

(** The end-of-data constant, an error constant, or a value that contains one. *)
Fixpoint marked (v : dv) : bool :=
  match v with
  | DConst n => (n =? 7) || ((8 <? n) && (n <? 19))
  | DPair a b | DRat a b | DCpx a b => marked a || marked b
  | DVec l | DSlotmap l => existsb marked l
  | DCompound t l => marked t || existsb marked l
  | _ => false
  end.
(** No choices inside. *)
Fixpoint no_choices (v : dv) : bool :=
  match v with
  | DPair a b | DRat a b | DCpx a b => no_choices a && no_choices b
  | DVec l | DSlotmap l => forallb no_choices l
  | DCompound t l => no_choices t && forallb no_choices l
  | DChoice _ | DQChoice _ => false
  | _ => true
  end.
Definition atomic (v : dv) : bool :=
  match v with
  | DConst _ | DChar _ | DSym _ | DFix _ | DOid _ _ | DBig _ | DFlo _ | DStr _ | DPacket _ _ => true
  | _ => false
  end.
(** End of data or an error, as the whole result. *)
Definition refused (r : rd) : Prop := exists b, r = Rd D_EOD b \/ r = Rd D_ERROR b.

Lemma abort_marked v : abortp v = true -> marked v = true.
Proof.
  destruct v; try discriminate. cbn [abortp marked]. intros H. apply orb_true_iff. right.
  apply andb_prop in H. apply andb_true_intro. rewrite ?N.leb_le, ?N.ltb_lt in *. lia.
Qed.
Lemma error_marked v : errorp v = true -> marked v = true.
Proof.
  destruct v; try discriminate. cbn [errorp marked]. intros H. apply orb_true_iff. right.
  apply andb_prop in H. apply andb_true_intro. rewrite ?N.leb_le, ?N.ltb_lt in *. lia.
Qed.
Lemma refused_eod b : refused (Rd D_EOD b). Proof. exists b. auto. Qed.
Lemma refused_err b : refused (Rd D_ERROR b). Proof. exists b. auto. Qed.
Lemma refused_marked r v b : refused r -> r = Rd v b -> marked v = true.
Proof. intros (b' & [-> | ->]) [= <- <-]; reflexivity. Qed.

(** ** Where a string of bytes is cut *)

Lemma cut {T} (h t p q : list T) : h ++ t = p ++ q ->
  (length p < length h)%nat \/ exists p', p = h ++ p' /\ t = p' ++ q.
Proof.
  intros H. destruct (le_lt_dec (length h) (length p)) as [L|L]; [right|left; exact L].
  apply app_eq_app in H. destruct H as (l & [[H1 H2]|[H1 H2]]).
  - subst h q. rewrite app_length in L. destruct l; [|cbn in L; lia].
    exists []. now rewrite !app_nil_r.
  - exists l. auto.
Qed.
Lemma cut_cons {T} (a : T) t p q : a :: t = p ++ q -> p = [] \/ exists p', p = a :: p' /\ t = p' ++ q.
Proof. destruct p as [|b p]; intros H; [now left|right]. inversion H; subst. eauto. Qed.
Lemma cut_strict {T} (t p q : list T) : t = p ++ q -> q <> [] -> (length p < length t)%nat.
Proof. intros -> H. rewrite app_length. destruct q; [congruence|cbn; lia]. Qed.
Lemma req_short b n : (length b < n)%nat -> request_bytes b n = false.
Proof. intros H. unfold request_bytes. now apply Nat.leb_gt. Qed.
Lemma cut_4 {T} (l : list T) body p q (k1 : rd) (k2 : N -> bytes -> rd) (P : rd -> Prop) : short l ->
  put_4bytes (llen l) ++ body = p ++ q -> P k1 ->
  (forall p', body = p' ++ q -> P (k2 (llen l) p')) ->
  P (match read_4bytes p with None => k1 | Some (n, b2) => k2 n b2 end).
Proof.
  intros S H P1 P2. destruct (cut _ _ _ _ H) as [L|(p' & -> & H')].
  - rewrite read_4bytes_short; [exact P1|]. rewrite put_4bytes_len in L. exact L.
  - rewrite read_4bytes_len by exact S. now apply P2.
Qed.
Lemma cut_payload mk sh s p q : s = p ++ q -> q <> [] -> read_payload mk sh (llen s) p = Rd sh p.
Proof.
  intros H Q. unfold read_payload. rewrite llen_nat, req_short; [reflexivity|]. now apply (cut_strict s p q).
Qed.
Lemma cut_symbol sh s p q : s = p ++ q -> q <> [] -> (forall t, sh <> DSym t) ->
  read_symbol sh (llen s) p = Rd sh p.
Proof.
  intros H Q N. unfold read_symbol. rewrite (cut_payload _ _ _ _ _ H Q). destruct sh; try reflexivity. now elim (N _ eq_refl).
Qed.
Lemma cut_small k code packet p q : N.land code 0x40 = 0 -> N.land code 0x80 = 0 ->
  code :: llen packet :: packet = p ++ q -> q <> [] -> refused (read_packaged_dtype k p).
Proof.
  intros Z4 Z8 H Q. unfold read_packaged_dtype.
  destruct (cut_cons _ _ _ _ H) as [->|(p1 & -> & H1)]; [apply refused_err|].
  destruct (cut_cons _ _ _ _ H1) as [->|(p2 & -> & H2)]; [apply refused_err|].
  assert (R2 : forall a b t, request_bytes (a :: b :: t) 2 = true) by reflexivity.
  assert (R1 : forall a t, request_bytes (a :: t) 1 = true) by reflexivity.
  rewrite R2, Z4, Z8. change (0 =? 0) with true. cbn [negb]. rewrite R1. cbn [negb get_byte].
  rewrite llen_nat, req_short by now apply (cut_strict packet p2 q). apply refused_err.
Qed.
Lemma cut_large k code packet p q : N.land code 0x40 = 0x40 -> N.land code 0x80 = 0 -> short packet ->
  code :: put_4bytes (llen packet) ++ packet = p ++ q -> q <> [] -> refused (read_packaged_dtype k p).
Proof.
  intros Z4 Z8 S H Q. unfold read_packaged_dtype.
  destruct (cut_cons _ _ _ _ H) as [->|(p1 & -> & H1)]; [apply refused_err|].
  destruct (negb (request_bytes (code :: p1) 2)); [apply refused_err|].
  rewrite Z4, Z8. change (0 =? 0) with true. change (0x40 =? 0) with false. cbn [negb].
  destruct (cut _ _ _ _ H1) as [L|(p' & -> & H')].
  - rewrite put_4bytes_len in L. rewrite req_short by exact L. apply refused_err.
  - match goal with |- context [request_bytes ?x 4] => change (request_bytes x 4) with true end. cbn [negb]. rewrite read_4bytes_len by exact S. rewrite llen_nat, req_short; [apply refused_err|].
    now apply (cut_strict packet p' q).
Qed.

Section Cut.
Variables (e : renv) (c : wconf).
Hypothesis E : env_ok e.
Hypothesis O : conf_ok c.

(** ** Atomic values *)

Ltac start H :=
  destruct (cut_cons _ _ _ _ H) as [->|(p1 & -> & X1)]; [apply refused_eod|].

Lemma cut_atomic x p q f : storable e c x -> atomic x = true -> enc c x = p ++ q -> q <> [] ->
  refused (read_loop e (S f) p).
Proof.
  intros S A H Q. destruct S; try discriminate; unfold enc in H; cbn [write_dtype] in H.
  - assert (G : n = 0 \/ n = 1 \/ n = 2 \/ n = 3 \/ n = 4) by lia.
    assert (One : forall a (p : list byte), [a] = p ++ q -> p = []).
    { clear p H. intros a p K. destruct (cut_cons _ _ _ _ K) as [->|(p1 & -> & K1)]; [reflexivity|].
      destruct p1; [destruct q; [congruence|discriminate]|discriminate]. }
    assert (Two : forall b, fst (put_byte 2 ++ put_byte b, 2%Z) = p ++ q -> refused (read_loop e (S f) p)).
    { intros b K. start K. destruct (cut_cons _ _ _ _ X1) as [->|(p2 & -> & X2)]; [apply refused_eod|].
      destruct p2, q; try discriminate. congruence. }
    destruct G as [->|[->|[->|[->| ->]]]].
    + apply One in H as ->. apply refused_eod.
    + now apply (Two 0).
    + now apply (Two 1).
    + change (write_const c 3) with (if w_v2 c then (put_byte 0x13, 1%Z)
        else (put_byte 0x42 ++ put_byte 0x80 ++ put_byte 0, 3%Z)) in H.
      destruct (w_v2 c); [apply One in H as ->; apply refused_eod|].
      start H. destruct (cut_cons _ _ _ _ X1) as [->|(p2 & -> & X2)]; [apply refused_err|].
      apply One in X2 as ->. apply refused_err.
    + apply One in H as ->. apply refused_eod.
  - unfold write_char in H.
    assert (G : forall code packet, N.land code 0x40 = 0 -> N.land code 0x80 = 0 ->
      0x40 :: code :: llen packet :: packet = p ++ q -> refused (read_loop e (S f) p)).
    { intros code packet Z4 Z8 K. start K. exact (cut_small 0x40 code packet p1 q Z4 Z8 X1 Q). }
    change (2 ^ 23) with 8388608 in *.
    destruct (N.ltb_spec n 128); [|destruct (N.ltb_spec n 256); [|destruct (N.ltb_spec n 65536);
      [|destruct (N.ltb_spec n 0x1000000); [|lia]]]].
    + exact (G 0 (put_byte n) eq_refl eq_refl H).
    + exact (G 1 (put_byte n) eq_refl eq_refl H).
    + exact (G 1 (put_byte (N.land (N.shiftr n 8) 255) ++ put_byte (N.land n 255)) eq_refl eq_refl H).
    + exact (G 1 (put_byte (N.land (N.shiftr n 16) 255) ++ put_byte (N.land (N.shiftr n 8) 255)
                  ++ put_byte (N.land n 255)) eq_refl eq_refl H).
  - unfold write_named in H; unfold bytes, byte in *. match type of H with context [if ?x then _ else _] => destruct x eqn:B end; cbn [fst] in H; start H.
    + apply andb_prop in B. destruct B as [_ B]. apply N.ltb_lt in B. rewrite (put_small (llen s)) in X1 by exact B.
      destruct (cut_cons _ _ _ _ X1) as [->|(p2 & -> & X2)]; [apply refused_err|].
      change (refused (read_symbol D_ERROR (llen s) p2)). rewrite (cut_symbol _ s p2 q); auto; [apply refused_err|discriminate].
    + change (refused (match read_4bytes p1 with
        | None => Rd D_EOD p1 | Some (len, b2) => read_symbol D_EOD len b2 end)).
      apply (cut_4 s s p1 q); auto; [apply refused_eod|]. intros p' K.
      rewrite (cut_symbol _ s p' q); auto; [apply refused_eod|discriminate].
  - unfold write_fixnum in H. destruct ((z <=? 2147483647) && (-2147483648 <=? z))%Z; cbn [fst] in H; start H.
    + change (refused (match read_4bytes p1 with
        | Some (w, b2) => Rd (DFix (int32 w)) b2 | None => Rd D_EOD p1 end)).
      apply cut_strict in X1; [|exact Q]. rewrite read_4bytes_short by exact X1. apply refused_eod.
    + exact (cut_small 0x41 0 (put_byte (if (z <? 0)%Z then 1 else 0)
        ++ put_8bytes (word_of_z 64 (if (z <? 0)%Z then - z else z))) p1 q eq_refl eq_refl X1 Q).
  - assert (Z : (if hi =? 0 then w_zero c lo else None) = None) by (destruct (N.eqb_spec hi 0); auto).
    rewrite Z in H. cbn [fst] in H. start H.
    change (refused (match read_4bytes p1 with
        | None => Rd D_ERROR p1
        | Some (hi, b2) =>
          match read_4bytes b2 with
          | None => Rd D_ERROR b2
          | Some (lo, b3) => Rd (DOid hi lo) b3
          end
        end)).
    change (put_4bytes hi ++ put_4bytes lo = p1 ++ q) in X1.
    destruct (cut _ _ _ _ X1) as [L|(p' & -> & H')].
    + rewrite read_4bytes_short by exact L. apply refused_err.
    + rewrite read_4bytes_put. apply cut_strict in H'; [|exact Q].
      rewrite read_4bytes_short by exact H'. apply refused_err.
  - unfold write_bigint in H; unfold bytes, byte in *.
    pose proof (proj1 (BigintProps.normal_norm b) ltac:(assumption)) as Nn.
    rewrite BigintProofs4.fits_in_word_spec in H by (auto; lia).
    destruct (B.bigint_to_digit_stream b 256) as [t|] eqn:T;
      [|destruct (BigintProps.C47_writing_exact b 256 ltac:(assumption)) as (t & T' & _); [lia|congruence]].
    assert (Lt : (Z.abs (BigintProofs.bval b) <? 2 ^ (32 - 1))%Z = false).
    { apply Z.ltb_ge. rewrite <- BigintProps.value_bval. unfold A.max_fixnum in *. change (2 ^ (32 - 1))%Z with 2147483648%Z. lia. }
    rewrite Lt in H. cbn [fst] in H.
    assert (Lc : (Z.of_nat (length t) + 1 < 2 ^ 31)%Z) by (apply (digits_count b t); auto).
    set (packet := put_byte (if B.bneg b then 1 else 0) ++ flat_map put_byte (map Z.to_N (rev t))) in *.
    assert (Lp : llen packet = llen t + 1).
    { unfold llen, packet. cbn [length app put_byte]. rewrite flat_put, map_length, rev_length. lia. }
    start H. rewrite <- Lp in *. destruct (N.ltb_spec (llen packet) 256) as [Sm|Lg].
    + rewrite (put_small (llen packet)) in X1 by exact Sm. exact (cut_small 0x41 0 packet p1 q eq_refl eq_refl X1 Q).
    + apply (cut_large 0x41 0x40 packet p1 q); auto.
      unfold short. change (llen packet < 2 ^ 31). rewrite Lp. unfold llen. change (2 ^ 31)%Z with 2147483648%Z in Lc.
      change (2 ^ 31) with 2147483648. lia.
  - cbn [fst] in H. start H. exact (cut_small 0x41 1 (put_8bytes w) p1 q eq_refl eq_refl X1 Q).
  - unfold write_named in H; unfold bytes, byte in *. match type of H with context [if ?x then _ else _] => destruct x eqn:B end; cbn [fst] in H; start H.
    + apply andb_prop in B. destruct B as [_ B]. apply N.ltb_lt in B. rewrite (put_small (llen s)) in X1 by exact B.
      destruct (cut_cons _ _ _ _ X1) as [->|(p2 & -> & X2)]; [apply refused_err|].
      change (refused (read_payload DStr D_ERROR (llen s) p2)). rewrite (cut_payload _ _ s p2 q) by auto. apply refused_err.
    + change (refused (match read_4bytes p1 with
        | None => Rd D_ERROR p1 | Some (len, b2) => read_payload DStr D_ERROR len b2 end)).
      apply (cut_4 s s p1 q); auto; [apply refused_err|]. intros p' K.
      rewrite (cut_payload _ _ s p' q) by auto. apply refused_err.
  - destruct k; cbn [fst] in H.
    + unfold write_secret in H; unfold bytes, byte in *. destruct (N.ltb_spec (llen s) 256) as [Sm|Lg]; cbn [fst] in H; start H.
      * rewrite (put_small (llen s)) in X1 by exact Sm. exact (cut_small 0x40 5 s p1 q eq_refl eq_refl X1 Q).
      * now apply (cut_large 0x40 0x45 s p1 q).
    + unfold bytes, byte in *. start H. change (refused (match read_4bytes p1 with
        | None => Rd D_ERROR p1 | Some (len, b2) => read_payload (DPacket false) D_ERROR len b2 end)).
      apply (cut_4 s s p1 q); auto; [apply refused_err|]. intros p' K.
      rewrite (cut_payload _ _ s p' q) by auto. apply refused_err.
Qed.

(** ** Compound values *)

Definition cut_marks (x : dv) : Prop := forall p q f v r, enc c x = p ++ q -> q <> [] ->
  (length p < f)%nat -> read_loop e f p = Rd v r -> marked v = true.

Lemma read_n_cut f stop : (forall v, stop v = true -> marked v = true) ->
  forall l p q, Forall (rt e c) l -> Forall cut_marks l -> Forall (fun x => stop x = false) l ->
  encs c l = p ++ q -> q <> [] -> (length p < f)%nat ->
  match read_n (read_loop e f) stop (length l) p with
  | Rds l' _ => existsb marked l' = true
  | RdsStop v _ => marked v = true
  | _ => True
  end.
Proof.
  intros Hs l. unfold encs. induction l as [|x l IH]; intros p q R C St H Q L.
  - destruct p; [|discriminate]. cbn in H. congruence.
  - inversion R as [|? ? Rx Rl]; inversion C as [|? ? Cx Cl]; inversion St as [|? ? Sx Sl]; subst.
    cbn [map concat length read_n] in *. destruct (cut _ _ _ _ H) as [K|(p' & -> & H')].
    + apply app_eq_app in H. destruct H as (m & [[H1 H2]|[H1 H2]]); [|exfalso; subst p; rewrite app_length in K; lia].
      assert (M : m <> []) by (intros ->; rewrite app_nil_r in H1; subst p; lia).
      destruct (read_loop e f p) as [v r| |] eqn:E1; auto.
      pose proof (Cx p m f v r H1 M L E1) as Mv.
      destruct (stop v); [exact Mv|].
      destruct (read_n (read_loop e f) stop (length l) r) as [l' r'|v' r'| |] eqn:E2; auto.
      * cbn [existsb]. now rewrite Mv.
      * assert (G : forall n b v b', read_n (read_loop e f) stop n b = RdsStop v b' -> stop v = true).
        { clear. induction n as [|n IH]; intros b v b'; [discriminate|]. cbn [read_n].
          destruct (read_loop e f b) as [w r| |]; try discriminate. destruct (stop w) eqn:S; [intros [= <- <-]; exact S|].
          destruct (read_n (read_loop e f) stop n r) eqn:E; try discriminate. intros [= <- <-]. eauto. }
        apply Hs. eauto.
    + rewrite app_length in L. rewrite (Rx f p') by lia. rewrite Sx.
      specialize (IH p' q Rl Cl Sl H' Q ltac:(lia)).
      destruct (read_n (read_loop e f) stop (length l) p'); auto. cbn [existsb]. rewrite IH. apply orb_true_r.
Qed.

Lemma cut_two a b p q : enc c a ++ enc c b = p ++ q -> q <> [] ->
  (exists m, enc c a = p ++ m /\ m <> []) \/ exists p', p = enc c a ++ p' /\ enc c b = p' ++ q.
Proof.
  intros H Q. destruct (cut _ _ _ _ H) as [K|K]; [left|right; exact K].
  apply app_eq_app in H. destruct H as (m & [[H1 H2]|[H1 H2]]).
  - exists m. split; [exact H1|]. intros ->. rewrite app_nil_r in H1. subst p. lia.
  - exfalso. subst p. rewrite app_length in K. lia.
Qed.

Lemma compound_cut code f a b p q : rt e c a -> cut_marks a -> cut_marks b -> storable e c a ->
  enc c a ++ enc c b = p ++ q -> q <> [] -> (length p < f)%nat -> code = 0x0b \/ code = 0x81 \/ code = 0x82 ->
  forall v r, read_loop e (S f) (code :: p) = Rd v r -> marked v = true.
Proof.
  intros Ra Ca Cb Sa H Q L Hc v r.
  set (g := fun t => match read_loop e f p with
        | Rd car r =>
          if errorp car then Rd car r
          else match read_loop e f r with
          | Rd cdr r' => if errorp cdr then Rd cdr r' else finish_compound e t car cdr r'
          | o => o
          end
        | o => o
        end).
  assert (F : forall t x y b v r, finish_compound e t x y b = Rd v r -> marked x || marked y = true -> marked v = true).
  { clear. intros t x y b v r. unfold finish_compound. destruct (t =? 0x81); [intros [= <- <-]; auto|].
    destruct (t =? 0x82); [intros [= <- <-]; auto|]. destruct (restores e x); [discriminate|].
    destruct y; intros [= <- <-]; cbn [marked existsb] in *; rewrite ?orb_false_r in *; auto. }
  assert (G : forall t, g t = Rd v r -> marked v = true).
  { intros t. unfold g. destruct (cut_two a b p q H Q) as [(m & H1 & M)|(p' & -> & H1)].
    - destruct (read_loop e f p) as [x b1| |] eqn:E1; try discriminate.
      pose proof (Ca p m f x b1 H1 M L E1) as Mx. destruct (errorp x); [intros [= <- <-]; exact Mx|].
      destruct (read_loop e f b1) as [y b2| |]; try discriminate.
      destruct (errorp y) eqn:Ey; [intros [= <- <-]; now apply error_marked|].
      intros K. apply F in K; [exact K|]. now rewrite Mx.
    - rewrite app_length in L. rewrite (Ra f p') by lia. destruct (storable_stop e c a Sa) as [_ ->].
      destruct (read_loop e f p') as [y b2| |] eqn:E2; try discriminate.
      pose proof (Cb p' q f y b2 H1 Q ltac:(lia) E2) as My.
      destruct (errorp y); [intros [= <- <-]; exact My|].
      intros K. apply F in K; [exact K|]. rewrite My. apply orb_true_r. }
  destruct Hc as [->|[->| ->]]; apply G.
Qed.

Lemma vec_cut l : Forall (storable e c) l -> Forall cut_marks l -> short l -> cut_marks (DVec l).
Proof.
  intros Sl C Sh p q f v r H Q L. rewrite (enc_vec e c O) in H by exact Sl.
  assert (R : Forall (rt e c) l) by (eapply Forall_impl; [|exact Sl]; intros x; now apply round_trip).
  destruct f as [|f]; [lia|].
  destruct (cut_cons _ _ _ _ H) as [->|(p1 & -> & H1)]; [intros [= <- <-]; reflexivity|].
  set (k := fun (len : N) (b2 : bytes) => if negb (int_len len) then RBad
          else match read_n (read_loop e f) errorp (N.to_nat len) b2 with
               | Rds l r => Rd (DVec l) r
               | RdsStop _ _ => RBad
               | RdsBad => RBad
               | RdsUnk => RUnk
               end).
  change (match read_4bytes p1 with None => Rd D_EOD p1 | Some (n, b2) => k n b2 end = Rd v r -> marked v = true).
  cbn [length] in L.
  assert (Lp : forall p', encs c l = p' ++ q -> (length p' < f)%nat).
  { intros p' K. apply (f_equal (@length N)) in H1. rewrite !app_length in H1. rewrite K, app_length in H1.
    rewrite put_4bytes_len in H1. lia. }
  apply (cut_4 l (encs c l) p1 q (Rd D_EOD p1) k (fun o => o = Rd v r -> marked v = true)); auto.
  - intros [= <- <-]. reflexivity.
  - intros p' K. unfold k. destruct (negb _); [discriminate|]. rewrite llen_nat.
    pose proof (read_n_cut f errorp error_marked l p' q R C (proj2 (stops e c l Sl)) K Q (Lp p' K)) as M.
    destruct (read_n _ _ _ _); try discriminate. intros [= <- <-]. exact M.
Qed.

Theorem cut_marked x : storable e c x -> no_choices x = true -> cut_marks x.
Proof.
  assert (A : forall x, storable e c x -> atomic x = true -> cut_marks x).
  { intros y Sy Ay p q f v r H Q L R. destruct f as [|f]; [lia|].
    eapply refused_marked; [|exact R]. eapply cut_atomic; eauto. }
  assert (Lst : forall l, Forall (fun x => storable e c x -> no_choices x = true -> cut_marks x) l ->
    Forall (storable e c) l -> forallb no_choices l = true -> Forall cut_marks l).
  { induction 1; intros S N; constructor; inversion S; subst; cbn [forallb] in N; apply andb_prop in N; tauto. }
  assert (RT : forall x, storable e c x -> rt e c x) by (intros y; now apply round_trip).
  induction x using dv_ind2; intros S N; try discriminate N; try (apply A; [exact S|reflexivity]);
    inversion S; subst; cbn [no_choices] in N; try (apply andb_prop in N; destruct N as [N1 N2]).
  - intros p q f v r H Q L. rewrite (enc_rat e c O) in H by assumption. destruct f as [|f]; [lia|].
    destruct (cut_cons _ _ _ _ H) as [->|(p1 & -> & Y1)]; [intros [= <- <-]; reflexivity|].
    cbn [length] in L. apply (compound_cut 0x81 f x1 x2 p1 q); auto. lia.
  - intros p q f v r H Q L. rewrite (enc_cpx e c O) in H by assumption. destruct f as [|f]; [lia|].
    destruct (cut_cons _ _ _ _ H) as [->|(p1 & -> & Y1)]; [intros [= <- <-]; reflexivity|].
    cbn [length] in L. apply (compound_cut 0x82 f x1 x2 p1 q); auto. lia.
  - intros p q f v r H Q L. rewrite (enc_pair e c O) in H by assumption. destruct f as [|f]; [lia|].
    destruct (cut_cons _ _ _ _ H) as [->|(p1 & -> & Y1)]; [intros [= <- <-]; reflexivity|].
    change (match read_loop e f p1 with
        | Rd car r =>
          if abortp car then Rd car r
          else match r with
          | [] => Rd D_ERROR r
          | _ =>
            match read_loop e f r with
            | Rd cdr r' => if abortp cdr then Rd cdr r' else Rd (DPair car cdr) r'
            | o => o
            end
          end
        | o => o
        end = Rd v r -> marked v = true).
    cbn [length] in L. destruct (cut_two x1 x2 p1 q Y1 Q) as [(m & K & M)|(p' & -> & K)].
    + destruct (read_loop e f p1) as [x b1| |] eqn:E1; try discriminate.
      pose proof (IHx1 ltac:(assumption) ltac:(assumption) p1 m f x b1 K M ltac:(lia) E1) as Mx.
      destruct (abortp x); [intros [= <- <-]; exact Mx|]. destruct b1 as [|y b1]; [intros [= <- <-]; reflexivity|].
      destruct (read_loop e f (y :: b1)) as [z b2| |]; try discriminate.
      destruct (abortp z) eqn:Ez; [intros [= <- <-]; now apply abort_marked|].
      intros [= <- <-]. cbn [marked]. now rewrite Mx.
    + rewrite app_length in L. rewrite (RT x1 ltac:(assumption) f p') by lia.
      destruct (storable_stop e c x1) as [-> _]; [assumption|].
      destruct p' as [|y b1]; [intros [= <- <-]; reflexivity|].
      destruct (read_loop e f (y :: b1)) as [z b2| |] eqn:E2; try discriminate.
      pose proof (IHx2 ltac:(assumption) ltac:(assumption) (y :: b1) q f z b2 K Q ltac:(lia) E2) as Mz.
      destruct (abortp z); [intros [= <- <-]; exact Mz|].
      intros [= <- <-]. cbn [marked]. rewrite Mz. apply orb_true_r.
  - apply vec_cut; auto.
  - intros p q f v r Hq Q L. rewrite (enc_compound e c O) in Hq by assumption. destruct f as [|f]; [lia|].
    destruct (cut_cons _ _ _ _ Hq) as [->|(p1 & -> & Y1)]; [intros [= <- <-]; reflexivity|].
    pose proof (Lst l H ltac:(assumption) N2) as Cl. cbn [length] in L.
    assert (Cv : cut_marks (DVec l)) by (apply vec_cut; auto).
    destruct l as [|y [|z l]].
    + apply (compound_cut 0x0b f x (DVec []) p1 q); auto. lia.
    + inversion Cl; subst. apply (compound_cut 0x0b f x y p1 q); auto. lia.
    + apply (compound_cut 0x0b f x (DVec (y :: z :: l)) p1 q); auto. lia.
  - intros p q f v r Hq Q L. rewrite (enc_slotmap e c O) in Hq by assumption. destruct f as [|f]; [lia|].
    pose proof (Lst l H ltac:(assumption) N) as Cl.
    match goal with K : short l |- _ => rename K into Sh end.
    match goal with K : Forall (storable e c) l |- _ => rename K into Sl end.
    match goal with K : length l = _ |- _ => rename K into Ev end.
    assert (R : Forall (rt e c) l) by (eapply Forall_impl; [|exact Sl]; auto).
    destruct (cut _ _ _ _ Hq) as [K|(p' & -> & K)].
    + clear Cl R. unfold package_header in *. destruct (N.ltb_spec (llen l) 256) as [Sm|Lg]; cbn [fst] in *.
      * destruct p as [|a [|b [|d p]]]; [intros [= <- <-]; reflexivity| | |cbn in K; lia].
        -- inversion Hq; subst. intros [= <- <-]. reflexivity.
        -- inversion Hq; subst. intros [= <- <-]. reflexivity.
      * rewrite <- !app_assoc in Hq.
        destruct (cut_cons _ _ _ _ Hq) as [->|(p1 & -> & Y1)]; [intros [= <- <-]; reflexivity|].
        destruct (cut_cons _ _ _ _ Y1) as [->|(p2 & -> & Y2)]; [intros [= <- <-]; reflexivity|].
        change (read_kno_package e (read_loop e f) (0xC1 :: p2) = Rd v r -> marked v = true).
        unfold read_kno_package. destruct (negb _); [intros [= <- <-]; reflexivity|].
        change (negb (N.land 0xC1 0x40 =? 0)) with true. cbn iota.
        rewrite read_4bytes_short; [intros [= <- <-]; reflexivity|].
        rewrite !app_length in K. cbn [length put_byte] in K. rewrite put_4bytes_len in K. lia.
    + rewrite app_length in L. pose proof (header_length 0x81 0xC1 (llen l) (llen l <? 256)) as Hl.
      rewrite read_package by (first [reflexivity|exact Sh]).
      assert (C : (if llen l <? 256 then 0x81 else 0xC1) = 0x81 \/ (if llen l <? 256 then 0x81 else 0xC1) = 0xC1)
        by (destruct (llen l <? 256); auto).
      set (code := if llen l <? 256 then 0x81 else 0xC1) in *. cbv zeta.
      assert (Hq1 : (code =? 0xC3) || (code =? 0x83) = false) by (destruct C as [-> | ->]; reflexivity).
      assert (Hc : (code =? 0xC0) || (code =? 0x80) = false) by (destruct C as [-> | ->]; reflexivity).
      assert (Hd : (code =? 0xC1) || (code =? 0x81) = true) by (destruct C as [-> | ->]; reflexivity).
      rewrite Hq1. cbn [andb orb]. rewrite Hc, Hd. destruct (N.eqb_spec (llen l) 0) as [Z|_].
      * exfalso. destruct l; [|discriminate]. destruct p'; [cbn in K; congruence|discriminate].
      * destruct (short_lt l Sh) as [_ ->]. cbn [negb]. rewrite llen_nat.
        assert (D : (2 * (length l / 2) = length l)%nat) by (rewrite Ev, (Nat.mul_comm 2 n), Nat.div_mul; lia).
        rewrite D. pose proof (read_n_cut f abortp abort_marked l p' q R Cl (proj1 (stops e c l Sl)) K Q ltac:(lia)) as M.
        destruct (read_n _ _ _ _); try discriminate; intros [= <- <-]; exact M.
Qed.
End Cut.
