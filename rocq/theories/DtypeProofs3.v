(** * Reading back what was written as a dtype: the round trip. *)

From Coq Require Import NArith ZArith List Bool Lia Permutation Sorted.
From Verif Require Import SortModel BytesModel BytesProofs ValueModel ValueProofs
  ChoicesModel ChoicesProofs ChoicesProofs2 DtypeModel DtypeProofs DtypeProofs2.
From Verif Require BytesProps BigintProofs BigintProofs4 BigintProps NumbersProofs.
Import ListNotations.
Local Open Scope N_scope.

Lemma wseq_fst l : forall n, Forall (fun r => 0 <= snd r)%Z l -> fst (wseq l n) = concat (map fst l).
Proof.
  induction l as [|[b d] l IH]; intros n F; [reflexivity|]. inversion F as [|? ? Hd Fl]; subst. cbn [snd] in Hd.
  cbn [wseq map concat fst]. destruct (Z.ltb_spec d 0); [lia|].
  specialize (IH (n + d)%Z Fl). destruct (wseq l (n + d)). cbn [fst] in *. now rewrite IH.
Qed.
Lemma wfields_fst l : forall n, Forall (fun r => 0 <= snd r)%Z l -> fst (wfields l n) = concat (map fst l).
Proof.
  induction l as [|[b d] l IH]; intros n F; [reflexivity|]. inversion F as [|? ? Hd Fl]; subst. cbn [snd] in Hd.
  cbn [wfields map concat fst]. destruct (Z.ltb_spec d 0); [lia|].
  specialize (IH (n + d)%Z Fl). destruct (wfields l (n + d)). cbn [fst] in *. now rewrite IH.
Qed.
Lemma map_nth_seq {T} (l : list T) d : map (fun i => nth i l d) (seq 0 (length l)) = l.
Proof.
  induction l as [|a l IH]; [reflexivity|]. cbn [length seq map nth]. f_equal.
  rewrite <- seq_shift, map_map. exact IH.
Qed.

Section RoundTrip.
Variables (e : renv) (c : wconf).
Hypothesis E : env_ok e.
Hypothesis O : conf_ok c.
Definition enc (x : dv) : bytes := fst (write_dtype c x).
Definition encs (l : list dv) : bytes := concat (map enc l).

Lemma storable_writable x : storable e c x -> writable c x.
Proof.
  assert (L : forall l, Forall (fun x => storable e c x -> writable c x) l -> Forall (storable e c) l ->
    fold_right and True (map (writable c) l)).
  { intros l F S. apply (all_of_Forall (writable c)). induction F; inversion S; constructor; auto. }
  induction x using dv_ind2; intros S; inversion S; subst; cbn [writable]; auto.
  - intros -> r W. match goal with H : 0 = 0 -> _ |- _ => rewrite H in W by reflexivity end. discriminate.
  - split; [now apply L|]. destruct (w_natsort c) as [o|] eqn:W; [|exact I].
    apply Forall_forall. intros i Hi. eapply Permutation_in in Hi; [|apply (O o l W)].
    apply in_seq in Hi. lia.
Qed.
Lemma storable_pos x : storable e c x -> (0 <= snd (write_dtype c x))%Z.
Proof. intros S. now apply writable_spec, storable_writable. Qed.
Lemma storables_pos l : Forall (storable e c) l -> Forall (fun r => 0 <= snd r)%Z (map (write_dtype c) l).
Proof. induction 1; constructor; auto. now apply storable_pos. Qed.
Lemma storable_stop x : storable e c x -> abortp x = false /\ errorp x = false.
Proof.
  intros S. destruct S; try (split; reflexivity).
  unfold abortp, errorp. split; destruct (N.leb_spec 9 n); try lia; reflexivity.
Qed.

(** The encodings of the compound values. *)
Lemma enc_list h l n : Forall (storable e c) l -> fst (wpre h (wseq (map (write_dtype c) l) n)) = h ++ encs l.
Proof.
  intros S. unfold wpre. cbn [fst]. rewrite wseq_fst by now apply storables_pos. now rewrite map_map.
Qed.
Lemma enc_pair a b : storable e c a -> storable e c b -> enc (DPair a b) = 0x08 :: enc a ++ enc b.
Proof.
  intros A B. unfold enc at 1. cbn [write_dtype]. etransitivity; [apply (enc_list (put_byte 0x08) [a; b] 1)|].
  - constructor; [exact A|constructor; [exact B|constructor]].
  - unfold encs. cbn [map concat]. rewrite app_nil_r. reflexivity.
Qed.
Lemma enc_rat a b : storable e c a -> storable e c b -> enc (DRat a b) = 0x81 :: enc a ++ enc b.
Proof.
  intros A B. unfold enc at 1. cbn [write_dtype]. etransitivity; [apply (enc_list (put_byte 0x81) [a; b] 1)|].
  - constructor; [exact A|constructor; [exact B|constructor]].
  - unfold encs. cbn [map concat]. rewrite app_nil_r. reflexivity.
Qed.
Lemma enc_cpx a b : storable e c a -> storable e c b -> enc (DCpx a b) = 0x82 :: enc a ++ enc b.
Proof.
  intros A B. unfold enc at 1. cbn [write_dtype]. etransitivity; [apply (enc_list (put_byte 0x82) [a; b] 1)|].
  - constructor; [exact A|constructor; [exact B|constructor]].
  - unfold encs. cbn [map concat]. rewrite app_nil_r. reflexivity.
Qed.
Lemma enc_vec l : Forall (storable e c) l -> enc (DVec l) = 0x09 :: put_4bytes (llen l) ++ encs l.
Proof.
  intros S. unfold enc at 1. cbn [write_dtype]. rewrite enc_list by exact S. now rewrite <- app_assoc.
Qed.
Lemma enc_compound t l : storable e c t -> Forall (storable e c) l ->
  enc (DCompound t l) = 0x0b :: enc t ++ match l with [f] => enc f | _ => enc (DVec l) end.
Proof.
  intros T S. unfold enc at 1. cbn [write_dtype]. unfold write_compound.
  assert (G : fst (wpre (put_byte 0x0b ++ fst (write_dtype c t) ++ put_byte 0x09 ++ put_4bytes (llen (map (write_dtype c) l)))
              (wfields (map (write_dtype c) l) (1 + snd (write_dtype c t) + 5))) = 0x0b :: enc t ++ enc (DVec l)).
  { unfold wpre. cbn [fst]. rewrite wfields_fst by now apply storables_pos. rewrite map_map.
    rewrite enc_vec by exact S. unfold llen at 1. rewrite map_length. fold (llen l).
    rewrite <- !app_assoc. reflexivity. }
  destruct l as [|f [|g r]]; [exact G|reflexivity|exact G].
Qed.
Lemma enc_choice l : Forall (storable e c) l -> exists l', Permutation l' l /\
  enc (DChoice l) = fst (choice_header c (llen l)) ++ encs l'.
Proof.
  intros S. unfold enc at 1. cbn [write_dtype]. destruct (w_natsort c) as [o|] eqn:W.
  - pose proof (O o l W) as P. exists (map (fun i => nth i l D_VOID) (o l)). split.
    + etransitivity; [apply Permutation_map, P|]. now rewrite map_nth_seq.
    + assert (Q : map (fun i => nth i (map (write_dtype c) l) ([], (-1)%Z)) (o l)
        = map (write_dtype c) (map (fun i => nth i l D_VOID) (o l))).
      { rewrite map_map. apply map_ext_in. intros i Hi. eapply Permutation_in in Hi; [|exact P].
        apply in_seq in Hi. rewrite (nth_indep _ ([], (-1)%Z) (write_dtype c D_VOID)) by (rewrite map_length; lia).
        apply map_nth. }
      rewrite Q. apply enc_list. apply Forall_forall. intros x Hx. apply in_map_iff in Hx.
      destruct Hx as (i & <- & Hi). eapply Permutation_in in Hi; [|exact P]. apply in_seq in Hi.
      rewrite Forall_forall in S. apply S. apply nth_In. lia.
  - exists l. split; [reflexivity|]. now apply enc_list.
Qed.
Lemma enc_qchoice l : Forall (storable e c) l ->
  enc (DQChoice l) = fst (package_header 0x83 0xC3 (llen l <? 256) (llen l)) ++ encs l.
Proof. intros S. unfold enc at 1. cbn [write_dtype]. now apply enc_list. Qed.
Lemma enc_slotmap l : Forall (storable e c) l ->
  enc (DSlotmap l) = fst (package_header 0x81 0xC1 (llen l <? 256) (llen l)) ++ encs l.
Proof. intros S. unfold enc at 1. cbn [write_dtype]. now apply enc_list. Qed.

(** ** The reader, code by code *)

Definition rt (x : dv) : Prop := forall f rest, (length (enc x) <= f)%nat -> read_loop e f (enc x ++ rest) = Rd x rest.

Lemma read_n_ok f l rest stop : Forall rt l -> Forall (fun x => stop x = false) l ->
  (length (encs l) <= f)%nat -> read_n (read_loop e f) stop (length l) (encs l ++ rest) = Rds l rest.
Proof.
  unfold encs. induction 1 as [|x l Hx _ IH]; intros St L; [reflexivity|]. inversion St as [|? ? Sx Sl]; subst.
  cbn [map concat length read_n] in *. rewrite app_length in L.
  rewrite <- app_assoc, Hx by lia. rewrite Sx, IH by (auto; lia). reflexivity.
Qed.
Lemma stops l : Forall (storable e c) l -> Forall (fun x => abortp x = false) l /\ Forall (fun x => errorp x = false) l.
Proof. intros S. split; (eapply Forall_impl; [|exact S]); intros x Hx; now apply storable_stop. Qed.

Ltac fuel f L := destruct f as [|f]; [apply Nat.le_0_r, length_zero_iff_nil in L; discriminate L|].

Lemma finish_pair code f a b rest : storable e c a -> storable e c b -> rt a -> rt b ->
  (length (enc a ++ enc b) <= f)%nat -> code = 0x0b \/ code = 0x81 \/ code = 0x82 ->
  read_loop e (S f) (code :: (enc a ++ enc b) ++ rest) = finish_compound e code a b rest.
Proof.
  intros Sa Sb Ra Rb L H. rewrite app_length in L.
  assert (G : forall t, match read_loop e f (enc a ++ enc b ++ rest) with
        | Rd car r =>
          if errorp car then Rd car r
          else match read_loop e f r with
          | Rd cdr r' => if errorp cdr then Rd cdr r' else finish_compound e t car cdr r'
          | o => o
          end
        | o => o
        end = finish_compound e t a b rest).
  { intros t. rewrite Ra by lia. destruct (storable_stop a Sa) as [_ ->].
    rewrite Rb by lia. destruct (storable_stop b Sb) as [_ ->]. reflexivity. }
  rewrite <- app_assoc. destruct H as [->|[->| ->]]; apply G.
Qed.

Lemma rts l : Forall (fun x => storable e c x -> rt x) l -> Forall (storable e c) l -> Forall rt l.
Proof. induction 1; intros S; inversion S; constructor; auto. Qed.
Lemma read_vec f l rest : Forall (storable e c) l -> Forall rt l -> short l ->
  (length (enc (DVec l)) <= f)%nat -> read_loop e f (enc (DVec l) ++ rest) = Rd (DVec l) rest.
Proof.
  intros Sl R Sh L. rewrite enc_vec in * by exact Sl. fuel f L.
  change ((0x09 :: put_4bytes (llen l) ++ encs l) ++ rest) with (0x09 :: (put_4bytes (llen l) ++ encs l) ++ rest).
  rewrite <- app_assoc.
  change (match read_4bytes (put_4bytes (llen l) ++ encs l ++ rest) with
        | None => Rd D_EOD (put_4bytes (llen l) ++ encs l ++ rest)
        | Some (len, b2) =>
          if negb (int_len len) then RBad
          else match read_n (read_loop e f) errorp (N.to_nat len) b2 with
               | Rds l r => Rd (DVec l) r
               | RdsStop _ _ => RBad
               | RdsBad => RBad
               | RdsUnk => RUnk
               end
        end = Rd (DVec l) rest).
  rewrite read_4bytes_len by exact Sh. destruct (short_lt l Sh) as [_ ->]. cbn [negb].
  rewrite llen_nat, read_n_ok; [reflexivity|exact R|apply (stops l Sl)|].
  change (S (length (put_4bytes (llen l) ++ encs l)) <= S f)%nat in L. rewrite app_length in L. lia.
Qed.
(** The kno package with its header. *)
Lemma read_package f small large len body : small < 256 -> large < 256 -> len < 2 ^ 31 ->
  N.land small 0x40 = 0 -> N.land large 0x40 = 0x40 ->
  read_loop e (S f) (fst (package_header small large (len <? 256) len) ++ body) =
  (let code := if len <? 256 then small else large in
   let quoted := (code =? 0xC3) || (code =? 0x83) in
      if quoted && (len =? 0) then Rd (DQChoice []) body
      else if quoted || (code =? 0xC0) || (code =? 0x80) then
        if len =? 0 then Rd D_EMPTY body
        else if negb (int_len len) then RUnk
        else match read_n (read_loop e f) abortp (N.to_nat len) body with
             | Rds l r =>
               match finish_choice e l r with
               | Rd (DChoice l') r' => if quoted then Rd (DQChoice l') r' else Rd (DChoice l') r'
               | o => o
               end
             | RdsStop v r => Rd v r
             | RdsBad => RBad
             | RdsUnk => RUnk
             end
      else if (code =? 0xC1) || (code =? 0x81) then
        if len =? 0 then Rd (DSlotmap []) body
        else if negb (int_len len) then RUnk
        else match read_n (read_loop e f) abortp (2 * (N.to_nat len / 2)) body with
             | Rds l r => Rd (DSlotmap l) r
             | RdsStop v r => Rd v r
             | RdsBad => RBad
             | RdsUnk => RUnk
             end
      else RUnk).
Proof.
  intros Hs Hl Hn Zs Zl. unfold package_header. destruct (N.ltb_spec len 256) as [Sm|Lg]; cbn [fst]; rewrite <- !app_assoc.
  - rewrite (put_small small), (put_small len) by assumption.
    match goal with |- _ = ?r => change (read_kno_package e (read_loop e f) (small :: len :: body) = r) end.
    unfold read_kno_package. change (request_bytes (small :: len :: body) 2) with true. cbn [negb].
    rewrite Zs. reflexivity.
  - rewrite (put_small large) by assumption.
    match goal with |- _ = ?r => change (read_kno_package e (read_loop e f) (large :: put_4bytes len ++ body) = r) end.
    unfold read_kno_package. change (request_bytes (large :: put_4bytes len ++ body) 2) with true. cbn [negb].
    rewrite Zl. change (0x40 =? 0) with false. cbn [negb]. rewrite read_4bytes_put, N.mod_small; [reflexivity|].
    change (2 ^ 31) with 2147483648 in Hn. change (2 ^ 32) with 4294967296. lia.
Qed.
Lemma header_length s g n b : (3 <= length (fst (package_header s g b n)))%nat.
Proof. destruct b; cbn; lia. Qed.
Lemma perm_encs l l' : Permutation l' l -> length (encs l') = length (encs l).
Proof. intros P. unfold encs. induction P; cbn [map concat]; rewrite ?app_length in *; lia. Qed.
Theorem round_trip x : storable e c x -> rt x.
Proof.
  induction x using dv_ind2; intros St; inversion St; subst; intros f rest L.
  - assert (H : n = 0 \/ n = 1 \/ n = 2 \/ n = 3 \/ n = 4) by lia.
    unfold enc in *. cbn [write_dtype] in *.
    destruct H as [->|[->|[->|[->| ->]]]].
    + fuel f L. reflexivity.
    + fuel f L. reflexivity.
    + fuel f L. reflexivity.
    + change (write_const c 3) with (if w_v2 c then (put_byte 0x13, 1%Z)
        else (put_byte 0x42 ++ put_byte 0x80 ++ put_byte 0, 3%Z)) in *.
      destruct (w_v2 c); fuel f L; reflexivity.
    + fuel f L. reflexivity.
  - unfold enc in *. cbn [write_dtype] in *.
    destruct (char_ok c0 rest) as (b & Hb & R); [assumption|]. rewrite Hb in *. fuel f L. exact R.
  - unfold enc in *. cbn [write_dtype] in *. unfold write_named in *.
    destruct (w_v2 c && (llen s <? 256)) eqn:B; cbn [fst] in *; fuel f L.
    + apply andb_prop in B. destruct B as [_ B]. apply N.ltb_lt in B. rewrite (put_small (llen s)) by exact B.
      now apply symbol_ok.
    + rewrite <- !app_assoc.
      change (match read_4bytes (put_4bytes (llen s) ++ s ++ rest) with
        | None => Rd D_EOD (put_4bytes (llen s) ++ s ++ rest)
        | Some (len, b2) => read_symbol D_EOD len b2
        end = Rd (DSym s) rest).
      rewrite read_4bytes_len by assumption. now apply symbol_ok.
  - unfold enc in *. cbn [write_dtype] in *. unfold write_fixnum in *. destruct (_ && _) eqn:B; cbn [fst] in *; fuel f L.
    + rewrite <- !app_assoc.
      change (match read_4bytes (put_4bytes (word_of_z 32 z) ++ rest) with
        | Some (w, b2) => Rd (DFix (int32 w)) b2
        | None => Rd D_EOD (put_4bytes (word_of_z 32 z) ++ rest)
        end = Rd (DFix z) rest).
      rewrite read_4bytes_put. rewrite N.mod_small by apply word32_lt.
      apply andb_prop in B. rewrite !Z.leb_le in B. rewrite int32_word by lia. reflexivity.
    + set (w := word_of_z 64 _).
      assert (Hw : Z.of_N w = Z.abs z).
      { unfold w, word_of_z, A.min_fixnum, A.max_fixnum in *. change (2 ^ 64)%Z with 18446744073709551616%Z.
        destruct (Z.ltb_spec z 0); rewrite Z.mod_small by lia; lia. }
      assert (Wl : w < 2 ^ 64).
      { unfold A.min_fixnum, A.max_fixnum in *. change (2 ^ 64) with 18446744073709551616. lia. }
      set (sg := if (z <? 0)%Z then 1 else 0).
      assert (Hs : put_byte sg = [sg]) by (apply put_small; unfold sg; destruct (z <? 0)%Z; lia).
      rewrite Hs.
      assert (Ll : llen (sg :: put_8bytes w) = 9) by reflexivity.
      change (read_packaged_dtype 0x41 (0 :: 9 :: (sg :: put_8bytes w) ++ rest) = Rd (DFix z) rest).
      rewrite <- Ll. rewrite small_packet by (try reflexivity; rewrite Ll; reflexivity).
      change (0x41 =? 0x40) with false. change (0x41 =? 0x41) with true. cbn iota.
      change (match unpack_bigint (sg :: put_8bytes w) with Some v => Rd v rest | None => RBad end = Rd (DFix z) rest).
      unfold sg. rewrite (unpack_fix z); [reflexivity|assumption|apply put_8bytes_small|].
      rewrite (proj1 (reading_be (put_8bytes w) 0)).
      destruct (BytesProps.C01_8bytes_roundtrip w [] Wl) as (_ & _ & -> & _). exact Hw.
  - assert (Z : (if h =? 0 then w_zero c l else None) = None).
    { destruct (N.eqb_spec h 0); auto. }
    unfold enc in *. cbn [write_dtype] in *. rewrite Z in *. cbn [fst] in *. fuel f L.
    rewrite <- !app_assoc.
    change (match read_4bytes (put_4bytes h ++ put_4bytes l ++ rest) with
        | None => Rd D_ERROR (put_4bytes h ++ put_4bytes l ++ rest)
        | Some (hi, b2) =>
          match read_4bytes b2 with
          | None => Rd D_ERROR b2
          | Some (lo, b3) => Rd (DOid hi lo) b3
          end
        end = Rd (DOid h l) rest).
    rewrite !read_4bytes_put, !N.mod_small by assumption. reflexivity.
  - unfold enc in *. cbn [write_dtype] in *. unfold write_bigint in *.
    match goal with N : BigintProps.normal_form b |- _ => rename N into Nf end.
    pose proof (proj1 (BigintProps.normal_norm b) Nf) as Nn.
    rewrite BigintProofs4.fits_in_word_spec in * by (auto; lia).
    destruct (B.bigint_to_digit_stream b 256) as [t|] eqn:T;
      [|destruct (BigintProps.C47_writing_exact b 256 Nf) as (t & T' & _); [lia|congruence]].
    assert (Lt : (Z.abs (BigintProofs.bval b) <? 2 ^ (32 - 1))%Z = false).
    { apply Z.ltb_ge. rewrite <- BigintProps.value_bval. unfold A.max_fixnum in *. change (2 ^ (32 - 1))%Z with 2147483648%Z. lia. }
    rewrite Lt in *. cbn [fst] in *.
    assert (Lc : (Z.of_nat (length t) + 1 < 2 ^ 31)%Z) by (apply (digits_count b t); auto).
    assert (U : unpack_bigint ((if B.bneg b then 1 else 0) :: flat_map put_byte (map Z.to_N (rev t))) = Some (DBig b))
      by now apply unpack_big.
    set (sg := if B.bneg b then 1 else 0) in *. set (ds := flat_map put_byte (map Z.to_N (rev t))) in *.
    assert (Hs : put_byte sg = [sg]) by (apply put_small; unfold sg; destruct (B.bneg b); lia).
    assert (Lp : llen (sg :: ds) = llen t + 1).
    { unfold llen, ds. cbn [length]. rewrite flat_put, map_length, rev_length. lia. }
    rewrite Hs in *. fuel f L. rewrite <- !app_assoc.
    destruct (N.ltb_spec (llen t + 1) 256) as [Sm|Lg].
    + rewrite <- Lp in *. rewrite (put_small (llen _)) by exact Sm.
      change (read_packaged_dtype 0x41 (0 :: llen (sg :: ds) :: (sg :: ds) ++ rest) = Rd (DBig b) rest).
      rewrite small_packet by (try reflexivity; exact Sm).
      change (match unpack_bigint (sg :: ds) with Some v => Rd v rest | None => RBad end = Rd (DBig b) rest).
      now rewrite U.
    + rewrite <- Lp.
      change (read_packaged_dtype 0x41 (put_byte 0x40 ++ put_4bytes (llen (sg :: ds)) ++ (sg :: ds) ++ rest) = Rd (DBig b) rest).
      rewrite packaged_large.
      * change (match unpack_bigint (sg :: ds) with Some v => Rd v rest | None => RBad end = Rd (DBig b) rest).
        now rewrite U.
      * reflexivity.
      * reflexivity.
      * reflexivity.
      * unfold short. change (llen (sg :: ds) < 2 ^ 31). rewrite Lp. unfold llen. change (2 ^ 31)%Z with 2147483648%Z in Lc.
        change (2 ^ 31) with 2147483648. lia.
  - unfold enc in *. cbn [write_dtype fst] in *. fuel f L.
    change (read_packaged_dtype 0x41 (1 :: 8 :: put_8bytes w ++ rest) = Rd (DFlo w) rest).
    change 8 with (llen (put_8bytes w)). rewrite small_packet by reflexivity.
    change (match unpack_flonum (put_8bytes w) with Some v => Rd v rest | None => RBad end = Rd (DFlo w) rest).
    unfold unpack_flonum.
    assert (G : get8 (put_8bytes w) = Some w).
    { pose proof (read_8bytes_put w [] ) as R. rewrite app_nil_r in R.
      unfold read_8bytes in R. rewrite N.mod_small in R by assumption.
      destruct (request_bytes (put_8bytes w) 8); [|discriminate].
      destruct (get8 (put_8bytes w)); [|discriminate]. congruence. }
    now rewrite G.
  - rewrite enc_rat in * by assumption. fuel f L. cbn [length] in L.
    change (read_loop e (S f) (0x81 :: (enc x1 ++ enc x2) ++ rest) = Rd (DRat x1 x2) rest).
    rewrite finish_pair; auto; first [apply IHx1; assumption|apply IHx2; assumption|lia].
  - rewrite enc_cpx in * by assumption. fuel f L. cbn [length] in L.
    change (read_loop e (S f) (0x82 :: (enc x1 ++ enc x2) ++ rest) = Rd (DCpx x1 x2) rest).
    rewrite finish_pair; auto; first [apply IHx1; assumption|apply IHx2; assumption|lia].
  - unfold enc in *. cbn [write_dtype] in *. unfold write_named in *.
    destruct (w_v2 c && (llen s <? 256)) eqn:B; cbn [fst] in *; fuel f L.
    + apply andb_prop in B. destruct B as [_ B]. apply N.ltb_lt in B. rewrite (put_small (llen s)) by exact B.
      now apply (payload_ok DStr).
    + rewrite <- !app_assoc.
      change (match read_4bytes (put_4bytes (llen s) ++ s ++ rest) with
        | None => Rd D_ERROR (put_4bytes (llen s) ++ s ++ rest)
        | Some (len, b2) => read_payload DStr D_ERROR len b2
        end = Rd (DStr s) rest).
      rewrite read_4bytes_len by assumption. now apply payload_ok.
  - unfold enc in *. cbn [write_dtype] in *. destruct k; cbn [fst] in *.
    + unfold write_secret in *. destruct (N.ltb_spec (llen s) 256) as [Sm|Lg]; cbn [fst] in *; fuel f L; rewrite <- !app_assoc.
      * rewrite (put_small (llen s)) by exact Sm.
        change (read_packaged_dtype 0x40 (0x05 :: llen s :: s ++ rest) = Rd (DPacket true s) rest).
        now rewrite small_packet.
      * change (read_packaged_dtype 0x40 (put_byte 0x45 ++ put_4bytes (llen s) ++ s ++ rest) = Rd (DPacket true s) rest).
        now rewrite packaged_large.
    + fuel f L. rewrite <- !app_assoc.
      change (match read_4bytes (put_4bytes (llen s) ++ s ++ rest) with
        | None => Rd D_ERROR (put_4bytes (llen s) ++ s ++ rest)
        | Some (len, b2) => read_payload (DPacket false) D_ERROR len b2
        end = Rd (DPacket false s) rest).
      rewrite read_4bytes_len by assumption. now apply payload_ok.
  - rewrite enc_pair in * by assumption. fuel f L. cbn [length] in L. rewrite app_length in L.
    cbn [app]. rewrite <- app_assoc.
    change (match read_loop e f (enc x1 ++ enc x2 ++ rest) with
        | Rd car r =>
          if abortp car then Rd car r
          else match r with
          | [] => Rd D_ERROR r
          | _ =>
            match read_loop e f r with
            | Rd cdr r' => if abortp cdr then Rd cdr r' else Rd (DPair car cdr) r'
            | o => o
            end
          end
        | o => o
        end = Rd (DPair x1 x2) rest).
    rewrite (IHx1 ltac:(assumption)) by lia. destruct (storable_stop x1) as [-> _]; [assumption|].
    pose proof (IHx2 ltac:(assumption) f rest ltac:(lia)) as R2.
    destruct (enc x2 ++ rest) eqn:Q.
    + exfalso. apply app_eq_nil in Q. destruct Q as [Q ->]. rewrite Q in *.
      specialize (IHx2 ltac:(assumption) 1%nat []). rewrite Q in IHx2. specialize (IHx2 ltac:(cbn; lia)).
      cbn in IHx2. inversion IHx2; subst. match goal with H : storable e c D_EOD |- _ => inversion H; lia end.
    + rewrite R2. destruct (storable_stop x2) as [-> _]; [assumption|]. reflexivity.
  - apply read_vec; auto. now apply rts.
  - pose proof (rts l H ltac:(assumption)) as R.
    match goal with K : choice_ok e l |- _ => rename K into Ck end.
    match goal with K : short l |- _ => rename K into Sh end.
    match goal with K : Forall (storable e c) l |- _ => rename K into Sl end.
    destruct (enc_choice l Sl) as (l' & P & Q). rewrite Q in *.
    assert (Sl' : Forall (storable e c) l') by (eapply Permutation_Forall; [apply Permutation_sym, P|exact Sl]).
    assert (R' : Forall rt l') by (eapply Permutation_Forall; [apply Permutation_sym, P|exact R]).
    assert (Ll : length l' = length l) by now apply Permutation_length.
    pose proof (make_choice_ok e c E l l' Sl Ck P) as Mk.
    rewrite <- app_assoc. unfold choice_header in *.
    assert (Two : (2 <= length l)%nat) by apply Ck.
    destruct ((llen l <? 256) && w_v2 c) eqn:B.
    + apply andb_prop in B. destruct B as [B _]. apply N.ltb_lt in B.
      cbn [fst] in *. rewrite (put_small (llen l)) in * by exact B.
      change (length (0x12%N :: llen l :: encs l') <= f)%nat in L. fuel f L.
      change (match read_n (read_loop e f) abortp (N.to_nat (llen l)) (encs l' ++ rest) with
          | Rds l r => finish_choice e l r
          | RdsStop v r => Rd v r
          | RdsBad => RBad
          | RdsUnk => RUnk
          end = Rd (DChoice l) rest).
      rewrite llen_nat, <- Ll, read_n_ok; [|exact R'|apply (stops l' Sl')|apply le_S_n in L; apply Nat.lt_le_incl; exact L].
      unfold finish_choice. now rewrite Mk.
    + pose proof (header_length 0x80 0xC0 (llen l) (llen l <? 256)) as Hl. rewrite app_length in L.
      destruct f as [|f]; [lia|]. rewrite read_package by (first [reflexivity|exact Sh]).
      assert (C : (if llen l <? 256 then 0x80 else 0xC0) = 0x80 \/ (if llen l <? 256 then 0x80 else 0xC0) = 0xC0)
        by (destruct (llen l <? 256); auto).
      set (code := if llen l <? 256 then 0x80 else 0xC0) in *. cbv zeta.
      assert (Hq : (code =? 0xC3) || (code =? 0x83) = false) by (destruct C as [-> | ->]; reflexivity).
      assert (Hc : (code =? 0xC0) || (code =? 0x80) = true) by (destruct C as [-> | ->]; reflexivity).
      rewrite Hq. cbn [andb orb]. rewrite Hc. destruct (N.eqb_spec (llen l) 0) as [Z|_]; [unfold llen in Z; lia|].
      destruct (short_lt l Sh) as [_ ->]. cbn [negb].
      rewrite llen_nat, <- Ll, read_n_ok; [|exact R'|apply (stops l' Sl')|lia].
      unfold finish_choice. now rewrite Mk.
  - pose proof (rts l H ltac:(assumption)) as R.
    match goal with K : short l |- _ => rename K into Sh end.
    match goal with K : Forall (storable e c) l |- _ => rename K into Sl end.
    match goal with K : l = [] \/ choice_ok e l |- _ => rename K into Ck end.
    rewrite enc_qchoice in * by exact Sl. rewrite <- app_assoc.
    pose proof (header_length 0x83 0xC3 (llen l) (llen l <? 256)) as Hl. rewrite app_length in L.
    destruct f as [|f]; [lia|]. rewrite read_package by (first [reflexivity|exact Sh]).
    destruct Ck as [->|Ck]; [reflexivity|].
    pose proof (make_choice_ok e c E l l Sl Ck (Permutation_refl l)) as Mk.
    assert (C : (if llen l <? 256 then 0x83 else 0xC3) = 0x83 \/ (if llen l <? 256 then 0x83 else 0xC3) = 0xC3)
      by (destruct (llen l <? 256); auto).
    set (code := if llen l <? 256 then 0x83 else 0xC3) in *. cbv zeta.
    assert (Hq : (code =? 0xC3) || (code =? 0x83) = true) by (destruct C as [-> | ->]; reflexivity).
    rewrite Hq. cbn [andb orb]. assert (Two : (2 <= length l)%nat) by apply Ck.
    destruct (N.eqb_spec (llen l) 0) as [Z|_]; [unfold llen in Z; lia|].
    destruct (short_lt l Sh) as [_ ->]. cbn [negb].
    rewrite llen_nat, read_n_ok; [|exact R|apply (stops l Sl)|lia].
    unfold finish_choice. now rewrite Mk.
  - match goal with K : Forall (storable e c) l |- _ => rename K into Sl end.
    match goal with K : storable e c x |- _ => rename K into Sx end.
    match goal with K : short l |- _ => rename K into Sh end.
    match goal with K : restores e x = false |- _ => rename K into Re end.
    pose proof (rts l H Sl) as R. rewrite enc_compound in * by assumption.
    assert (G : forall v, storable e c v -> rt v -> (length (0x0b%N :: enc x ++ enc v) <= f)%nat ->
       read_loop e f ((0x0b :: enc x ++ enc v) ++ rest) =
         Rd (DCompound x (match v with DVec l => l | _ => [v] end)) rest).
    { intros v Sv Rv Lv. clear L. fuel f Lv. cbn [length] in Lv.
      change (read_loop e (S f) (0x0b :: (enc x ++ enc v) ++ rest) =
         Rd (DCompound x (match v with DVec l => l | _ => [v] end)) rest).
      rewrite finish_pair by (first [assumption|now apply IHx|now left|apply le_S_n in Lv; exact Lv]). unfold finish_compound. change (0x0b =? 0x81) with false. change (0x0b =? 0x82) with false.
      rewrite Re. destruct v; reflexivity. }
    destruct l as [|a [|b l]].
    + apply (G (DVec [])); auto; [constructor; auto|]. intros g r Lg. now apply read_vec.
    + inversion Sl as [|? ? Sa _]; inversion R as [|? ? Ra _]; subst. etransitivity; [apply G; assumption|].
      destruct a; try reflexivity. exfalso. match goal with K : forall v, _ |- _ => eapply K; reflexivity end.
    + apply (G (DVec (a :: b :: l))); auto; [constructor; auto|]. intros g r Lg. now apply read_vec.
  - match goal with K : Forall (storable e c) l |- _ => rename K into Sl end.
    match goal with K : short l |- _ => rename K into Sh end.
    match goal with K : length l = _ |- _ => rename K into Ev end.
    pose proof (rts l H Sl) as R. rewrite enc_slotmap in * by exact Sl. rewrite <- app_assoc.
    pose proof (header_length 0x81 0xC1 (llen l) (llen l <? 256)) as Hl. rewrite app_length in L.
    destruct f as [|f]; [lia|]. rewrite read_package by (first [reflexivity|exact Sh]).
    assert (C : (if llen l <? 256 then 0x81 else 0xC1) = 0x81 \/ (if llen l <? 256 then 0x81 else 0xC1) = 0xC1)
      by (destruct (llen l <? 256); auto).
    set (code := if llen l <? 256 then 0x81 else 0xC1) in *. cbv zeta.
    assert (Hq : (code =? 0xC3) || (code =? 0x83) = false) by (destruct C as [-> | ->]; reflexivity).
    assert (Hc : (code =? 0xC0) || (code =? 0x80) = false) by (destruct C as [-> | ->]; reflexivity).
    assert (Hd : (code =? 0xC1) || (code =? 0x81) = true) by (destruct C as [-> | ->]; reflexivity).
    rewrite Hq. cbn [andb orb]. rewrite Hc, Hd. destruct (N.eqb_spec (llen l) 0) as [Z|_].
    + destruct l; [reflexivity|discriminate].
    + destruct (short_lt l Sh) as [_ ->]. cbn [negb]. rewrite llen_nat.
      assert (D : (2 * (length l / 2) = length l)%nat) by (rewrite Ev, (Nat.mul_comm 2 n), Nat.div_mul; lia).
      rewrite D, read_n_ok; [reflexivity|exact R|apply (stops l Sl)|lia].
Qed.
End RoundTrip.
