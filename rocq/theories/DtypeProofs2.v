(** * Reading back what was written as a dtype. *)

From Coq Require Import NArith ZArith List Bool Lia Permutation Sorted.
From Verif Require Import SortModel BytesModel BytesProofs ValueModel ValueProofs
  ChoicesModel ChoicesProofs ChoicesProofs2 DtypeModel DtypeProofs.
From Verif Require BytesProps BigintProofs BigintProofs4 BigintProps NumbersProofs.
Import ListNotations.
Local Open Scope N_scope.

(** ** Values that are read back *)

(** What is assumed about the process: words of symbols are immediates of symbol type,
    words of OIDs have the tag 3, different names and addresses have different words. *)
Definition env_ok (e : renv) : Prop :=
  (forall s, sym_word e s mod 4 = 1 /\ (sym_word e s / 2 ^ 25) mod 128 = 2)
  /\ (forall s t, sym_word e s = sym_word e t -> s = t)
  /\ (forall h l, oid_word e h l mod 4 = 3)
  /\ (forall h l h' l', oid_word e h l = oid_word e h' l' -> h = h' /\ l = l')
  /\ (0 < block_size (r_cf e))%nat.
Definition conf_ok (c : wconf) : Prop :=
  forall o l, w_natsort c = Some o -> Permutation (o l) (seq 0 (length l)).

(** Values for which [vof] is the value. *)
Definition is_int (x : dv) : bool := match x with DFix _ | DBig _ => true | _ => false end.
Fixpoint comparable (x : dv) : bool :=
  match x with
  | DConst _ | DChar _ | DSym _ | DFix _ | DOid _ _ | DBig _ | DStr _ | DPacket _ _ => true
  | DRat n d => is_int n && is_int d
  | DPair a b => comparable a && comparable b
  | DVec l | DChoice l | DQChoice l => forallb comparable l
  | DCompound t l => comparable t && forallb comparable l
  | _ => false
  end.

(** The elements of a choice, as the choice operations keep them: at least two, in strictly
    ascending order. *)
Definition choice_ok (e : renv) (l : list dv) : Prop :=
  (2 <= length l)%nat /\ Forall (fun x => comparable x = true) l
  /\ Forall elt_ok (map (vof e) l)
  /\ StronglySorted (fun x y => cons_compare x y = Lt) (map (vof e) l).
Definition short {T} (l : list T) : Prop := (N.of_nat (length l) < 2 ^ 31).

Inductive storable (e : renv) (c : wconf) : dv -> Prop :=
| sto_const n : n <= 4 -> storable e c (DConst n)
| sto_char n : n < 2 ^ 23 -> storable e c (DChar n)
| sto_sym s : short s -> ~ In 0 s -> storable e c (DSym s)
| sto_fix z : (A.min_fixnum <= z <= A.max_fixnum)%Z -> storable e c (DFix z)
| sto_oid hi lo : hi < 2 ^ 32 -> lo < 2 ^ 32 -> (hi = 0 -> w_zero c lo = None) -> storable e c (DOid hi lo)
| sto_big b : BigintProps.normal_form b -> (A.max_fixnum < Z.abs (BigintProps.value b))%Z ->
    (Z.log2 (Z.abs (BigintProps.value b)) < 8 * (2 ^ 31 - 2))%Z -> storable e c (DBig b)
| sto_flo w : w < 2 ^ 64 -> storable e c (DFlo w)
| sto_rat a b : storable e c a -> storable e c b -> storable e c (DRat a b)
| sto_cpx a b : storable e c a -> storable e c b -> storable e c (DCpx a b)
| sto_str s : short s -> storable e c (DStr s)
| sto_packet k s : short s -> storable e c (DPacket k s)
| sto_pair a b : storable e c a -> storable e c b -> storable e c (DPair a b)
| sto_vec l : short l -> Forall (storable e c) l -> storable e c (DVec l)
| sto_choice l : short l -> Forall (storable e c) l -> choice_ok e l -> storable e c (DChoice l)
| sto_qchoice l : short l -> Forall (storable e c) l -> l = [] \/ choice_ok e l -> storable e c (DQChoice l)
| sto_compound t l : short l -> storable e c t -> Forall (storable e c) l -> restores e t = false ->
    (forall v, l <> [DVec v]) -> storable e c (DCompound t l)
| sto_slotmap l n : short l -> length l = (2 * n)%nat -> Forall (storable e c) l -> storable e c (DSlotmap l).

(** ** Elementary facts *)

Lemma put_small b : b < 256 -> put_byte b = [b].
Proof. intros H. unfold put_byte, to_byte. rewrite land_FF, N.mod_small by exact H. reflexivity. Qed.
Lemma short_lt {T} (l : list T) : short l -> llen l < 2 ^ 32 /\ int_len (llen l) = true.
Proof.
  unfold short, llen, int_len. intros H. rewrite N.ltb_lt.
  change (2 ^ 32) with 4294967296. change (2 ^ 31) with 2147483648 in *. lia.
Qed.
Lemma llen_nat {T} (l : list T) : N.to_nat (llen l) = length l.
Proof. unfold llen. lia. Qed.
Lemma req_app l r : request_bytes (l ++ r) (length l) = true.
Proof. unfold request_bytes. rewrite app_length. apply Nat.leb_le. lia. Qed.
Lemma firstn_app_len {T} (l r : list T) : firstn (length l) (l ++ r) = l.
Proof. rewrite firstn_app, Nat.sub_diag, firstn_all. cbn. apply app_nil_r. Qed.
Lemma skipn_app_len {T} (l r : list T) : skipn (length l) (l ++ r) = r.
Proof. rewrite skipn_app, Nat.sub_diag, skipn_all. reflexivity. Qed.
Lemma read_4bytes_len {T} (l : list T) r : short l -> read_4bytes (put_4bytes (llen l) ++ r) = Some (llen l, r).
Proof. intros H. apply short_lt in H. rewrite read_4bytes_put, N.mod_small; tauto. Qed.
Lemma get_byte_len n r : n < 256 -> get_byte (put_byte n ++ r) = Some (n, r).
Proof. intros H. rewrite put_small by exact H. reflexivity. Qed.

Lemma payload_ok mk sh s r : short s -> read_payload mk sh (llen s) (s ++ r) = Rd (mk s) r.
Proof.
  intros H. unfold read_payload. rewrite llen_nat, req_app, firstn_app_len, skipn_app_len.
  apply short_lt in H. destruct H as [_ ->]. reflexivity.
Qed.
Lemma has_nul_not s : ~ In 0 s -> has_nul s = false.
Proof.
  intros H. unfold has_nul. destruct (existsb _ s) eqn:E; [|reflexivity].
  apply existsb_exists in E. destruct E as (x & Hx & Ex). apply N.eqb_eq in Ex. subst. tauto.
Qed.
Lemma symbol_ok sh s r : short s -> ~ In 0 s -> read_symbol sh (llen s) (s ++ r) = Rd (DSym s) r.
Proof. intros H N. unfold read_symbol. rewrite payload_ok by exact H. now rewrite has_nul_not. Qed.

Lemma packaged_small p code packet r : code < 256 ->
  N.land code 0x40 = 0 -> N.land code 0x80 = 0 -> llen packet < 256 ->
  read_packaged_dtype p (put_byte code ++ put_byte (llen packet) ++ packet ++ r) =
  if p =? 0x40 then make_character_type code packet r
  else if p =? 0x41 then make_numeric code packet r else RUnk.
Proof.
  intros Hc H4 H8 Hl. rewrite !put_small by assumption. cbn [app]. unfold read_packaged_dtype.
  assert (R : forall (a b : N) t, request_bytes (a :: b :: t) 2 = true) by reflexivity.
  assert (R1 : forall (a : N) t, request_bytes (a :: t) 1 = true) by reflexivity.
  rewrite R. cbn [negb]. rewrite H4, H8. change (0 =? 0) with true. cbn [negb]. rewrite R1. cbn [negb get_byte].
  rewrite llen_nat, req_app, firstn_app_len, skipn_app_len. cbn [negb].
  assert (int_len (llen packet) = true) as ->; [|reflexivity].
  unfold int_len. apply N.ltb_lt. change (2 ^ 31) with 2147483648. lia.
Qed.
Lemma packaged_large p code packet r : code < 256 ->
  N.land code 0x40 = 0x40 -> N.land code 0x80 = 0 -> short packet ->
  read_packaged_dtype p (put_byte code ++ put_4bytes (llen packet) ++ packet ++ r) =
  if p =? 0x40 then make_character_type code packet r
  else if p =? 0x41 then make_numeric code packet r else RUnk.
Proof.
  intros Hc H4 H8 Hl. rewrite put_small by assumption. change ([code] ++ put_4bytes (llen packet) ++ packet ++ r) with (code :: put_4bytes (llen packet) ++ packet ++ r). unfold read_packaged_dtype.
  assert (R : request_bytes (code :: put_4bytes (llen packet) ++ packet ++ r) 2 = true) by reflexivity.
  rewrite R. cbn [negb]. rewrite H4, H8. change (0 =? 0) with true. change (0x40 =? 0) with false. cbn [negb].
  assert (R4 : request_bytes (put_4bytes (llen packet) ++ packet ++ r) 4 = true) by reflexivity.
  rewrite R4. cbn [negb]. rewrite read_4bytes_len by exact Hl. cbn [negb].
  rewrite llen_nat, req_app, firstn_app_len, skipn_app_len. cbn [negb].
  apply short_lt in Hl. destruct Hl as [_ ->]. reflexivity.
Qed.

(** ** Numbers *)

Lemma int32_word z : (-2147483648 <= z <= 2147483647)%Z -> int32 (word_of_z 32 z) = z.
Proof.
  intros H. unfold int32, word_of_z. change (2 ^ 32)%Z with 4294967296%Z. change (2 ^ 31) with 2147483648.
  assert (Hz : (0 <= z mod 4294967296 < 4294967296)%Z) by (apply Z.mod_pos_bound; lia).
  assert (E : (z = z mod 4294967296 \/ z = z mod 4294967296 - 4294967296)%Z).
  { destruct (Z.le_gt_cases 0 z); [left; rewrite Z.mod_small; lia|right].
    rewrite <- (Z.mod_unique z 4294967296 (-1) (z + 4294967296)); lia. }
  destruct (N.ltb_spec (Z.to_N (z mod 4294967296)) 2147483648); rewrite Z2N.id by lia; lia.
Qed.
Lemma word32_lt z : word_of_z 32 z < 2 ^ 32.
Proof.
  unfold word_of_z. change (2 ^ 32)%Z with 4294967296%Z. change (2 ^ 32) with 4294967296.
  pose proof (Z.mod_pos_bound z 4294967296). lia.
Qed.

Lemma reading_be l : forall acc, BigintProps.reading 256 (map Z.of_N l) = Z.of_N (BytesProps.be_val l)
  /\ fold_left (fun v d => v * 256 + d)%Z (map Z.of_N l) (Z.of_N acc) = Z.of_N (BytesProps.be_val_from acc l).
Proof.
  assert (G : forall l acc, fold_left (fun v d => v * 256 + d)%Z (map Z.of_N l) (Z.of_N acc)
     = Z.of_N (BytesProps.be_val_from acc l)).
  { clear l. induction l as [|b l IH]; intros acc; [reflexivity|]. cbn [map fold_left BytesProps.be_val_from].
    rewrite <- IH. f_equal. lia. }
  intros acc. split; [apply (G l 0)|apply G].
Qed.

Lemma simplify_fix b z : BigintProofs.norm b -> BigintProofs.bval b = z ->
  (A.min_fixnum <= z <= A.max_fixnum)%Z -> A.simplify b = Some (A.Fix z).
Proof.
  intros N V R. destruct (NumbersProofs.simplify_spec b N) as (i & -> & Ci & Vi).
  destruct i as [y|b']; cbn in Ci, Vi.
  - congruence.
  - exfalso. apply (proj2 Ci). unfold NumbersProofs.fixr. rewrite Vi, V. exact R.
Qed.
Lemma simplify_big b : BigintProofs.norm b -> (A.max_fixnum < Z.abs (BigintProofs.bval b))%Z ->
  A.simplify b = Some (A.Big b).
Proof.
  intros N R. destruct (NumbersProofs.simplify_spec b N) as (i & -> & Ci & Vi).
  destruct i as [y|b']; cbn in Ci, Vi.
  - exfalso. unfold NumbersProofs.fixr in Ci. unfold A.max_fixnum, A.min_fixnum in *. lia.
  - do 2 f_equal. apply BigintProps.C22_normal_form_unique.
    + apply BigintProps.normal_norm. tauto.
    + now apply BigintProps.normal_norm.
    + now rewrite !BigintProps.value_bval.
Qed.

Lemma put_flat l : Forall (fun d => (0 <= d < 256)%Z) l -> map Z.of_N (flat_map put_byte (map Z.to_N l)) = l.
Proof.
  induction 1 as [|d l Hd _ IH]; [reflexivity|]. cbn [map flat_map].
  rewrite put_small by lia. cbn [app map]. rewrite IH. f_equal. lia.
Qed.
Lemma put_8bytes_small w : Forall (fun d => (0 <= d < 256)%Z) (map Z.of_N (put_8bytes w)).
Proof.
  rewrite put_8bytes_div.
  assert (G : forall x, (0 <= Z.of_N (x mod 256) < 256)%Z)
    by (intros x; pose proof (N.mod_lt x 256 ltac:(discriminate)); lia).
  cbn [map]. repeat (constructor; [apply G|]). constructor.
Qed.

(** A sign byte and digits in base 256. *)
Lemma unpack_fix z digits : (A.min_fixnum <= z <= A.max_fixnum)%Z ->
  Forall (fun d => (0 <= d < 256)%Z) (map Z.of_N digits) ->
  BigintProps.reading 256 (map Z.of_N digits) = Z.abs z ->
  unpack_bigint ((if (z <? 0)%Z then 1 else 0) :: digits) = Some (DFix z).
Proof.
  intros R F V. unfold unpack_bigint.
  assert (E : negb ((if (z <? 0)%Z then 1 else 0) =? 0) = (z <? 0)%Z) by (destruct (z <? 0)%Z; reflexivity).
  rewrite E. destruct (BigintProps.C47_reading_exact (map Z.of_N digits) 256 (z <? 0)%Z) as (b & -> & N & Vb); [lia|exact F|].
  rewrite (simplify_fix b z).
  - reflexivity.
  - now apply BigintProps.normal_norm.
  - rewrite <- BigintProps.value_bval, Vb, V. destruct (Z.ltb_spec z 0); lia.
  - exact R.
Qed.
Lemma unpack_big b t : BigintProps.normal_form b -> (A.max_fixnum < Z.abs (BigintProps.value b))%Z ->
  B.bigint_to_digit_stream b 256 = Some t ->
  unpack_bigint ((if B.bneg b then 1 else 0) :: flat_map put_byte (map Z.to_N (rev t))) = Some (DBig b).
Proof.
  intros N R T. unfold unpack_bigint.
  destruct (BigintProps.C47_writing_exact b 256 N) as (t1 & T1 & F & _); [lia|].
  destruct (BigintProps.C47_round_trip b 256 N) as (t2 & T2 & RT); [lia|].
  rewrite T in T1, T2. inversion T1; inversion T2; subst t1 t2.
  rewrite put_flat by (now apply Forall_rev).
  assert (E : negb ((if B.bneg b then 1 else 0) =? 0) = B.bneg b) by (destruct (B.bneg b); reflexivity).
  rewrite E, RT. rewrite simplify_big; [reflexivity| |].
  - now apply BigintProps.normal_norm.
  - now rewrite <- BigintProps.value_bval.
Qed.
Lemma lsd_lower t : Forall (fun d => (0 <= d < 256)%Z) t -> t <> [] -> last t 0%Z <> 0%Z ->
  (256 ^ (Z.of_nat (length t) - 1) <= BigintProps.reading 256 (rev t))%Z.
Proof.
  unfold BigintProps.reading. intros F. rewrite <- fold_left_rev_right, rev_involutive.
  induction F as [|d t Hd F IH]; intros NE L; [congruence|]. cbn [fold_right].
  destruct t as [|d' t]; [cbn in *; lia|]. specialize (IH ltac:(discriminate) L).
  set (m := fold_right _ _ (d' :: t)) in *.
  assert (E : (Z.of_nat (length (d :: d' :: t)) - 1 = Z.succ (Z.of_nat (length (d' :: t)) - 1))%Z)
    by (cbn [length]; lia).
  rewrite E, Z.pow_succ_r by (cbn [length]; lia). lia.
Qed.
Lemma digits_count b t : BigintProps.normal_form b -> (Z.log2 (Z.abs (BigintProps.value b)) < 8 * (2 ^ 31 - 2))%Z ->
  B.bigint_to_digit_stream b 256 = Some t -> (Z.of_nat (length t) + 1 < 2 ^ 31)%Z.
Proof.
  intros N L T. destruct (BigintProps.C47_writing_exact b 256 N) as (t1 & T1 & F & V & La); [lia|].
  rewrite T in T1. inversion T1; subst t1. change (2 ^ 31)%Z with 2147483648%Z in *.
  destruct t as [|d t]; [cbn; lia|]. destruct La as [La|La]; [discriminate|].
  pose proof (lsd_lower (d :: t) F ltac:(discriminate) La) as P. rewrite V in P.
  apply Z.log2_le_mono in P. change 256%Z with (2 ^ 8)%Z in P.
  rewrite <- Z.pow_mul_r, Z.log2_pow2 in P by (cbn [length]; lia). lia.
Qed.

(** ** Characters *)

Lemma lor_shift a b : b < 256 -> N.lor (N.shiftl a 8) b = a * 256 + b.
Proof.
  intros H. rewrite (lor_add _ 8).
  - rewrite N.shiftl_mul_pow2. reflexivity.
  - rewrite N.shiftl_mul_pow2. apply N.mod_mul. discriminate.
  - exact H.
Qed.
Lemma shiftr8 n : N.shiftr n 8 = n / 256. Proof. now rewrite N.shiftr_div_pow2. Qed.
Lemma shiftr16 n : N.shiftr n 16 = n / 65536. Proof. now rewrite N.shiftr_div_pow2. Qed.
Lemma code2char_ok n r : n < 2 ^ 23 -> code2char n r = Rd (DChar n) r.
Proof. intros H. unfold code2char. apply N.ltb_lt in H. now rewrite H. Qed.
Lemma small_packet p code packet r : code < 256 ->
  N.land code 0x40 = 0 -> N.land code 0x80 = 0 -> llen packet < 256 ->
  read_packaged_dtype p (code :: llen packet :: packet ++ r) =
  if p =? 0x40 then make_character_type code packet r
  else if p =? 0x41 then make_numeric code packet r else RUnk.
Proof. intros. rewrite <- packaged_small by assumption. now rewrite !put_small by assumption. Qed.
Lemma char_ok n r : n < 2 ^ 23 ->
  exists b, fst (write_char n) = 0x40 :: b /\ read_packaged_dtype 0x40 (b ++ r) = Rd (DChar n) r.
Proof.
  intros H. pose proof (code2char_ok n r H) as C. change (2 ^ 23) with 8388608 in H. unfold write_char.
  destruct (N.ltb_spec n 128); [|destruct (N.ltb_spec n 256); [|destruct (N.ltb_spec n 65536);
    [|destruct (N.ltb_spec n 0x1000000); [|lia]]]]; (eexists; split; [reflexivity|]).
  - rewrite (put_small n) by lia. 
    etransitivity; [apply (small_packet 0x40 0 [n] r); reflexivity|]. exact C.
  - rewrite (put_small n) by lia.
    etransitivity; [apply (small_packet 0x40 1 [n] r); reflexivity|]. exact C.
  - assert (E : n = N.land (N.shiftr n 8) 255 * 256 + N.land n 255).
    { rewrite !land_FF, shiftr8. rewrite (N.mod_small (n / 256)) by (apply N.div_lt_upper_bound; lia).
      pose proof (N.div_mod n 256). lia. }
    rewrite !put_small by (first [reflexivity|rewrite land_FF; apply N.mod_lt; discriminate]).
    etransitivity; [apply (small_packet 0x40 1 [N.land (N.shiftr n 8) 255; N.land n 255] r); reflexivity|].
    change (0x40 =? 0x40) with true. cbn iota. unfold make_character_type. cbn [N.eqb fold_left].
    change (1 =? 1) with true. change (3 <? llen _) with false. cbn iota.
    rewrite !lor_shift by (rewrite land_FF; apply N.mod_lt; discriminate). rewrite N.mul_0_l, N.add_0_l, <- E. exact C.
  - assert (E : n = (N.land (N.shiftr n 16) 255 * 256 + N.land (N.shiftr n 8) 255) * 256 + N.land n 255).
    { rewrite !land_FF, shiftr8, shiftr16. rewrite (N.mod_small (n / 65536)) by (apply N.div_lt_upper_bound; lia).
      assert (E : n / 65536 = n / 256 / 256) by (rewrite N.div_div by discriminate; reflexivity).
      rewrite E. pose proof (N.div_mod n 256). pose proof (N.div_mod (n / 256) 256). lia. }
    rewrite !put_small by (first [reflexivity|rewrite land_FF; apply N.mod_lt; discriminate]).
    etransitivity; [apply (small_packet 0x40 1 [N.land (N.shiftr n 16) 255; N.land (N.shiftr n 8) 255; N.land n 255] r); reflexivity|].
    change (0x40 =? 0x40) with true. cbn iota. unfold make_character_type. cbn [N.eqb fold_left].
    change (1 =? 1) with true. change (3 <? llen _) with false. cbn iota.
    rewrite !lor_shift by (rewrite land_FF; apply N.mod_lt; discriminate). rewrite N.mul_0_l, N.add_0_l, <- E. exact C.
Qed.

(** ** Choices *)

Lemma imm_word_eq t d : d < 2 ^ 23 -> imm_word t d = t * 2 ^ 25 + d * 4 + 1.
Proof.
  intros H. unfold imm_word. rewrite !N.shiftl_mul_pow2. change (2 ^ 2) with 4.
  change (2 ^ 25) with 33554432. change (2 ^ 23) with 8388608 in H.
  rewrite (lor_add (d * 4) 2).
  - rewrite (lor_add (t * 33554432) 25); [lia| |change (2 ^ 25) with 33554432; lia].
    apply N.mod_mul. discriminate.
  - apply N.mod_mul. discriminate.
  - reflexivity.
Qed.
Lemma imm_word_tag t d : d < 2 ^ 23 -> t < 128 -> imm_word t d mod 4 = 1 /\ (imm_word t d / 2 ^ 25) mod 128 = t.
Proof.
  intros H Ht. rewrite imm_word_eq by exact H. change (2 ^ 25) with 33554432. change (2 ^ 23) with 8388608 in H. split.
  - replace (t * 33554432 + d * 4 + 1) with (1 + (t * 8388608 + d) * 4) by lia.
    now rewrite N.mod_add by discriminate.
  - replace (t * 33554432 + d * 4 + 1) with (d * 4 + 1 + t * 33554432) by lia.
    rewrite N.div_add by discriminate. rewrite N.div_small by lia. apply N.mod_small. lia.
Qed.
Lemma imm_word_inj t d d' : d < 2 ^ 23 -> d' < 2 ^ 23 -> imm_word t d = imm_word t d' -> d = d'.
Proof. intros H H'. rewrite !imm_word_eq by assumption. lia. Qed.

Definition fixword (z : Z) : N := Z.to_N ((4 * z + 2) mod 2 ^ 64).
Lemma fixword_tag z : fixword z mod 4 = 2.
Proof.
  unfold fixword. change (2 ^ 64)%Z with 18446744073709551616%Z.
  pose proof (Z.mod_pos_bound (4 * z + 2) 18446744073709551616 ltac:(lia)) as B.
  pose proof (Z.div_mod (4 * z + 2) 18446744073709551616 ltac:(lia)) as E.
  assert (G : ((4 * z + 2) mod 18446744073709551616 =
     (z - 4611686018427387904 * ((4 * z + 2) / 18446744073709551616)) * 4 + 2)%Z) by lia.
  apply N2Z.inj. rewrite N2Z.inj_mod, Z2N.id by lia. rewrite G.
  rewrite Z.add_comm, Z.mod_add by lia. reflexivity.
Qed.
Lemma fixword_inj z y : (A.min_fixnum <= z <= A.max_fixnum)%Z -> (A.min_fixnum <= y <= A.max_fixnum)%Z ->
  fixword z = fixword y -> z = y.
Proof.
  unfold fixword, A.min_fixnum, A.max_fixnum. change (2 ^ 64)%Z with 18446744073709551616%Z. intros Hz Hy E.
  pose proof (Z.mod_pos_bound (4 * z + 2) 18446744073709551616 ltac:(lia)) as B.
  pose proof (Z.mod_pos_bound (4 * y + 2) 18446744073709551616 ltac:(lia)) as B'.
  pose proof (Z.div_mod (4 * z + 2) 18446744073709551616 ltac:(lia)) as E1.
  pose proof (Z.div_mod (4 * y + 2) 18446744073709551616 ltac:(lia)) as E2. lia.
Qed.

Lemma int_val_inj e c x y : is_int x = true -> is_int y = true -> storable e c x -> storable e c y ->
  int_val x = int_val y -> x = y.
Proof.
  assert (V : forall b, int_val (DBig b) = BigintProps.value b) by reflexivity.
  intros Ix Iy Sx Sy E.
  destruct x, y; try discriminate; inversion Sx; inversion Sy; subst; rewrite ?V in E.
  - f_equal. exact E.
  - cbn [int_val] in E. unfold A.min_fixnum, A.max_fixnum in *. lia.
  - cbn [int_val] in E. unfold A.min_fixnum, A.max_fixnum in *. lia.
  - f_equal. now apply BigintProps.C22_normal_form_unique.
Qed.

Section Inj.
Variables (e : renv) (c : wconf).
Hypothesis E : env_ok e.
Local Notation V := (vof e).

Lemma atom_kind x w : storable e c x -> V x = VAtom w ->
  match x with
  | DConst n => w mod 4 = 1 /\ (w / 2 ^ 25) mod 128 = 0 /\ n < 2 ^ 23 /\ w = imm_word 0 n
  | DChar n => w mod 4 = 1 /\ (w / 2 ^ 25) mod 128 = 1 /\ n < 2 ^ 23 /\ w = imm_word 1 n
  | DSym s => w mod 4 = 1 /\ (w / 2 ^ 25) mod 128 = 2 /\ w = sym_word e s
  | DFix z => w mod 4 = 2 /\ (A.min_fixnum <= z <= A.max_fixnum)%Z /\ w = fixword z
  | DOid hi lo => w mod 4 = 3 /\ w = oid_word e hi lo
  | _ => False
  end.
Proof.
  destruct E as (Es & Ei & Ot & Oi & _). intros S. inversion S; subst; intros [= <-].
  - assert (n < 2 ^ 23) by (change (2 ^ 23) with 8388608; lia).
    destruct (imm_word_tag 0 n) as [-> ->]; auto. reflexivity.
  - destruct (imm_word_tag 1 n) as [-> ->]; auto. reflexivity.
  - destruct (Es s) as [-> ->]; auto.
  - pose proof (fixword_tag z). auto.
  - auto.
Qed.
Lemma vof_inj_atom x y w : storable e c x -> storable e c y -> V x = VAtom w -> V y = VAtom w -> x = y.
Proof.
  destruct E as (Es & Ei & Ot & Oi & _).
  intros Sx Sy Hx Hy. apply atom_kind in Hx; [|exact Sx]. apply atom_kind in Hy; [|exact Sy].
  destruct x, y; try tauto; try (exfalso; lia); f_equal.
  - apply (imm_word_inj 0); intuition congruence.
  - apply (imm_word_inj 1); intuition congruence.
  - apply Ei. intuition congruence.
  - apply fixword_inj; intuition congruence.
  - apply (Oi hi lo hi0 lo0). intuition congruence.
  - apply (Oi hi lo hi0 lo0). intuition congruence.
Qed.

Lemma vof_inj x : forall y, comparable x = true -> comparable y = true -> storable e c x -> storable e c y ->
  V x = V y -> x = y.
Proof.
  assert (Lst : forall l, Forall (fun x => forall y, comparable x = true -> comparable y = true ->
       storable e c x -> storable e c y -> V x = V y -> x = y) l ->
     forall m, forallb comparable l = true -> forallb comparable m = true ->
       Forall (storable e c) l -> Forall (storable e c) m -> map V l = map V m -> l = m).
  { induction 1 as [|a l Ha _ IH]; intros [|b m] Cl Cm Sl Sm M; try discriminate; [reflexivity|].
    cbn [forallb map] in *. apply andb_prop in Cl, Cm. inversion Sl; inversion Sm; inversion M; subst.
    f_equal; [apply Ha|apply IH]; tauto. }
  induction x using dv_ind2; intros y Cx Cy Sx Sy H0;
    try (apply vof_inj_atom with (1 := Sx) (2 := Sy) (w := match V y with VAtom w => w | _ => 0 end);
         rewrite <- H0; reflexivity);
    destruct y; try discriminate; cbn [vof] in H0; cbn [comparable] in Cx, Cy.
  - f_equal. inversion H0 as [H1]. inversion Sx; inversion Sy; subst. now apply BigintProps.C22_normal_form_unique.
  - inversion H0. inversion Sx; inversion Sy; subst. apply andb_prop in Cx, Cy.
    f_equal; apply (int_val_inj e c); tauto.
  - now inversion H0.
  - now inversion H0.
  - inversion H0. inversion Sx; inversion Sy; subst. apply andb_prop in Cx, Cy. f_equal; [apply IHx1|apply IHx2]; tauto.
  - inversion H0. inversion Sx; inversion Sy; subst. f_equal. now apply Lst.
  - inversion H0. inversion Sx; inversion Sy; subst. f_equal. now apply Lst.
  - inversion H0. inversion Sx; inversion Sy; subst; f_equal; now apply Lst.
  - inversion H0. inversion Sx; inversion Sy; subst. apply andb_prop in Cx, Cy. f_equal; [apply IHx|apply Lst]; tauto.
Qed.

Lemma find_elt_ok l d : Forall (storable e c) l -> Forall (fun x => comparable x = true) l ->
  Forall elt_ok (map V l) -> In d l -> find_elt e l (V d) = Some d.
Proof.
  intros S C K I. unfold find_elt. destruct (find _ l) eqn:F.
  - apply find_some in F. destruct F as [Hd F]. f_equal.
    rewrite Forall_forall in S, C, K.
    assert (elt_ok (V d0)) as K0 by (apply K; now apply in_map).
    assert (elt_ok (V d)) as K1 by (apply K; now apply in_map).
    apply vof_inj; auto. apply cmp_eq; [apply K0|apply K1|].
    unfold is_eq in F. now destruct (cons_compare (V d0) (V d)).
  - exfalso. rewrite Forall_forall in K.
    assert (elt_ok (V d)) as [K0 _] by (apply K; now apply in_map).
    apply (find_none _ _ F) in I. rewrite cmp_refl in I by exact K0. discriminate.
Qed.
Lemma find_elts_ok l m : Forall (storable e c) l -> Forall (fun x => comparable x = true) l ->
  Forall elt_ok (map V l) -> incl m l -> find_elts e l (map V m) = Some m.
Proof.
  intros S C K. induction m as [|d m IH]; intros I; [reflexivity|]. cbn [map find_elts].
  rewrite find_elt_ok; auto; [|apply I; now left]. rewrite IH; [reflexivity|].
  intros x Hx. apply I. now right.
Qed.
Lemma make_choice_ok l l' : Forall (storable e c) l -> choice_ok e l -> Permutation l' l ->
  make_choice e l' = Some (DChoice l).
Proof.
  intros S (L & C & K & So) P. unfold make_choice.
  assert (Forall elt_ok (map V l')) as K' by (eapply Permutation_Forall; [apply Permutation_map, Permutation_sym, P|exact K]).
  destruct (init_choice_spec (r_cf e) (map V l') sort_flags) as (s & -> & [R1 R2] & Ch).
  - apply E.
  - exact K'.
  - apply Forall_forall. intros x _. cbn. discriminate.
  - now left.
  - now left.
  - assert (selts s = map V l) as Q.
    { destruct (selts_ok s R1) as [F1 F2]. apply ssorted_unique.
      - now apply elts_vp.
      - now apply elts_vp.
      - exact F2.
      - exact So.
      - intros x. rewrite R2. split; intros H.
        + eapply Permutation_in; [apply Permutation_map, P|exact H].
        + eapply Permutation_in; [apply Permutation_map, Permutation_sym, P|exact H]. }
    destruct s as [v|a vs].
    + rewrite Q, map_length in Ch. specialize (Ch L). discriminate.
    + cbn [selts] in Q. rewrite Q. rewrite (find_elts_ok l' l).
      * reflexivity.
      * eapply Permutation_Forall; [apply Permutation_sym, P|exact S].
      * eapply Permutation_Forall; [apply Permutation_sym, P|exact C].
      * exact K'.
      * intros x. apply Permutation_in. now apply Permutation_sym.
Qed.
End Inj.
