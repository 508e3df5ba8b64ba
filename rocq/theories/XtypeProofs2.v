(** * Reading back what was written as an xtype. *)

From Coq Require Import NArith ZArith List Bool Lia Permutation Sorted.
From Verif Require Import SortModel BytesModel BytesProofs ValueModel ValueProofs
  ChoicesModel ChoicesProofs ChoicesProofs2 DtypeModel DtypeProofs DtypeProofs2 DtypeProofs3 XtypeModel XtypeProofs.
From Verif Require BigintProofs BigintProofs4 BigintProps NumbersProofs.
Import ListNotations.
Local Open Scope N_scope.

(** ** Values that are read back *)

(** The process: the ten constants come after the ones built in (26 of them) and are
    immediates; the bases of OIDs are different multiples of 2^20. *)
Definition xenv_ok (e : xenv) : Prop :=
  env_ok (x_r e) /\ bases_ok (x_bases e) /\ 24 <= x_first e /\ x_first e + 10 <= 2 ^ 23.
Definition xconf_ok (c : xconf) : Prop := forall l, Permutation (x_order c l) (seq 0 (length l)).

(** Imaginary parts that are not an exact zero. *)
Definition imag_ok (x : dv) : Prop :=
  match x with
  | DFix z => z <> 0%Z
  | DBig _ | DFlo _ => True
  | DRat n _ => int_val n <> 0%Z
  | _ => False
  end.

(** [K]: the OIDs. *)
Inductive xstorable (e : xenv) (K : N -> N -> Prop) : dv -> Prop :=
| xs_const n : 1 <= n <= 5 \/ n = 23 \/ x_first e <= n < x_first e + 10 -> xstorable e K (DConst n)
| xs_char n : n < 2 ^ 23 -> xstorable e K (DChar n)
| xs_sym s : short s -> ~ In 0 s -> xstorable e K (DSym s)
| xs_fix z : (A.min_fixnum <= z <= A.max_fixnum)%Z -> xstorable e K (DFix z)
| xs_oid hi lo : hi < 2 ^ 32 -> lo < 2 ^ 32 -> K hi lo -> xstorable e K (DOid hi lo)
| xs_big b : BigintProps.normal_form b -> (A.max_fixnum < Z.abs (BigintProps.value b))%Z ->
    (Z.log2 (Z.abs (BigintProps.value b)) < 8 * (2 ^ 31 - 2))%Z -> xstorable e K (DBig b)
| xs_flo w : w < 2 ^ 64 -> xstorable e K (DFlo w)
| xs_rat a b : xstorable e K a -> xstorable e K b -> is_int a = true -> is_int b = true ->
    (1 < int_val b)%Z -> Z.gcd (int_val a) (int_val b) = 1%Z -> xstorable e K (DRat a b)
| xs_cpx a b : xstorable e K a -> xstorable e K b -> imag_ok b -> xstorable e K (DCpx a b)
| xs_str s : short s -> xstorable e K (DStr s)
| xs_packet k s : short s -> xstorable e K (DPacket k s)
| xs_pair a b : xstorable e K a -> xstorable e K b -> xstorable e K (DPair a b)
| xs_vec l : short l -> Forall (xstorable e K) l -> xstorable e K (DVec l)
| xs_choice l : short l -> Forall (xstorable e K) l -> choice_ok (x_r e) l -> not_big (x_r e) l ->
    xstorable e K (DChoice l)
| xs_qchoice l : short l -> Forall (xstorable e K) l ->
    l = [] \/ choice_ok (x_r e) l /\ not_big (x_r e) l -> xstorable e K (DQChoice l)
| xs_compound t l : N.of_nat (length l) + 4 < 2 ^ 31 -> xstorable e K t -> Forall (xstorable e K) l ->
    verbatim t l = None -> xstorable e K (DCompound t l)
| xs_slotmap l n : short l -> length l = (2 * n)%nat -> Forall (xstorable e K) l -> xstorable e K (DSlotmap l).

Lemma xstorable_stop e K x : xenv_ok e -> xstorable e K x -> abortp x = false.
Proof.
  intros (_ & _ & F1 & _) H. destruct H; try reflexivity. unfold abortp.
  destruct (N.ltb_spec 8 n); [|reflexivity]. cbn [andb]. apply N.leb_gt. lia.
Qed.

(** [comparable] values that can be stored are kept apart by [vof]. *)
Lemma xstorable_solid e K x : xenv_ok e -> xstorable e K x -> comparable x = true -> solid x.
Proof.
  intros (_ & _ & F1 & F2).
  assert (L : forall l, Forall (fun x => xstorable e K x -> comparable x = true -> solid x) l ->
     Forall (xstorable e K) l -> forallb comparable l = true -> Forall solid l).
  { induction 1; intros S C; constructor; cbn [forallb] in C; apply andb_prop in C; inversion S; subst; tauto. }
  change (2 ^ 23) with 8388608 in F2.
  induction x using dv_ind2; intros S C; inversion S; subst; cbn [comparable] in C; try discriminate; constructor; auto.
  - change (2 ^ 23) with 8388608. lia.
  - apply andb_prop in C. apply IHx1; auto. destruct x1; try discriminate; reflexivity.
  - apply IHx2; auto. destruct x2; try discriminate; reflexivity.
  - apply andb_prop in C. apply IHx1; tauto.
  - apply andb_prop in C. apply IHx2; tauto.
  - apply andb_prop in C. apply IHx; tauto.
  - apply andb_prop in C. apply L; tauto.
Qed.
Lemma choice_solid e K l : xenv_ok e -> Forall (xstorable e K) l -> choice_ok (x_r e) l -> Forall solid l.
Proof.
  intros E S (_ & C & _). rewrite Forall_forall in *. intros x Hx. apply (xstorable_solid e K); auto.
Qed.

(** ** Varints *)

Lemma varint_rv n : n < 2 ^ 63 -> Z.of_N (write_varint_rv n) = Z.of_nat (length (put_varint n)).
Proof. intros H. destruct (put_varint_len n H) as [H1 _]. lia. Qed.
Lemma xt_varint_put n r : n < 2 ^ 63 -> xt_varint (put_varint n ++ r) = (Z.of_N n, r).
Proof.
  intros H. unfold xt_varint. rewrite read_varint_put by exact H. unfold ssize.
  apply N.ltb_lt in H. now rewrite H.
Qed.
Lemma short_63 {T} (l : list T) : short l -> llen l < 2 ^ 63 /\ (Z.of_N (llen l) < 2 ^ 31)%Z.
Proof.
  unfold short, llen. change (2 ^ 63) with 9223372036854775808. change (2 ^ 31) with 2147483648.
  change (2 ^ 31)%Z with 2147483648%Z. lia.
Qed.
Lemma xread_bytes_app s r k : xread_bytes (Z.of_N (llen s)) (s ++ r) k = k s r.
Proof.
  unfold xread_bytes. destruct (Z.ltb_spec (Z.of_N (llen s)) 0); [lia|].
  assert (Z.to_nat (Z.of_N (llen s)) = length s) as -> by (unfold llen; lia).
  now rewrite req_app, firstn_app_len, skipn_app_len.
Qed.

(** ** What a writer does *)

Section RoundTrip.
Variables (e : xenv) (c : xconf).
Hypothesis E : xenv_ok e.
Hypothesis O : xconf_ok c.

Definition tab_ok (r : option xrefs) : Prop := match r with Some t => refs_ok t | None => True end.
Definition tab_grown (r r' : option xrefs) : Prop :=
  match r, r' with Some t, Some t' => grown t t' | None, None => True | _, _ => False end.
(** A table that can be used to read what was written with [r]: it begins with the
    entries of [r]. *)
Definition reads (r : option xrefs) (tbl : option (list dv)) : Prop :=
  match r with
  | None => True
  | Some t => exists s, tbl = Some (r_refs t ++ s) /\ N.of_nat (length (r_refs t ++ s)) < 2 ^ 63
  end.
(** OIDs whose base is among the first 2^14. *)
Definition low_base (hi lo : N) : Prop := forall id, oid_base_id e hi lo = Some id -> N.of_nat id < 2 ^ 14.
(** Which OIDs can be written with [r]. *)
Definition kinds (r : option xrefs) (K : N -> N -> Prop) : Prop :=
  match r with None => True | Some _ => forall hi lo, K hi lo -> low_base hi lo end.

Lemma tab_grown_refl r : tab_grown r r.
Proof. destruct r; [apply grown_refl|exact I]. Qed.
Lemma tab_grown_trans a b d : tab_grown a b -> tab_grown b d -> tab_grown a d.
Proof. destruct a, b, d; cbn; try tauto. apply grown_trans. Qed.
Lemma reads_before r r' tbl : tab_grown r r' -> reads r' tbl -> reads r tbl.
Proof.
  destruct r as [t|], r' as [t'|]; cbn; try tauto. intros [[s Hs] _] (s' & -> & L).
  exists (s ++ s'). rewrite Hs, <- app_assoc in *. auto.
Qed.
Lemma kinds_grown r r' K : tab_grown r r' -> kinds r K -> kinds r' K.
Proof. destruct r, r'; cbn; tauto. Qed.

Section Kinds.
Variable K : N -> N -> Prop.

(** [w] writes [x] in a way that can be read back. *)
Definition sends (w : writer) (x : dv) : Prop := forall r, tab_ok r -> kinds r K ->
  match w r with
  | ((b, n), r') =>
    tab_ok r' /\ tab_grown r r' /\ ((exists tbl, reads r' tbl) -> b <> [] /\ n = Z.of_nat (length b)) /\ (0 < n)%Z /\
    forall tbl, reads r' tbl -> forall f rest, (length b <= f)%nat ->
      xread_loop e f tbl (b ++ rest) = XRd x rest
  end.
(** [w] writes the elements of [l] one after the other, and adds their lengths to [len]. *)
Definition sends_all (w : writer) (len : Z) (l : list dv) : Prop := forall r, tab_ok r -> kinds r K ->
  match w r with
  | ((b, n), r') =>
    tab_ok r' /\ tab_grown r r' /\ ((exists tbl, reads r' tbl) -> n = (len + Z.of_nat (length b))%Z) /\ (len <= n)%Z /\
    forall tbl, reads r' tbl -> forall f rest, (length b <= f)%nat ->
      xread_n (xread_loop e f tbl) (length l) (b ++ rest) = XRds l rest
  end.

Lemma wall_sends ws l : Forall2 (fun w x => sends w x /\ abortp x = false) ws l ->
  forall len, sends_all (wall ws len) len l.
Proof.
  induction 1 as [|w x ws l [Hw Hx] _ IH]; intros len r Tr Kr.
  - cbn [wall]. split; [exact Tr|]. split; [apply tab_grown_refl|]. split; [intros _; cbn; lia|]. split; [lia|]. reflexivity.
  - cbn [wall]. specialize (Hw r Tr Kr). destruct (w r) as [[b n] r1]. destruct Hw as (T1 & G1 & L1 & P1 & R1).
    destruct (Z.ltb_spec n 0); [lia|].
    specialize (IH (len + n)%Z r1 T1 (kinds_grown r r1 K G1 Kr)).
    destruct (wall ws (len + n) r1) as [[bs m] r2]. destruct IH as (T2 & G2 & L2 & P2 & R2).
    split; [exact T2|]. split; [eapply tab_grown_trans; eauto|]. split; [|split; [lia|]].
    + intros [tbl Ht]. rewrite app_length. destruct L1 as [_ L1]; [exists tbl; eapply reads_before; eauto|].
      specialize (L2 (ex_intro _ tbl Ht)). lia.
    + intros tbl Ht f rest L. rewrite app_length in L. cbn [length xread_n]. rewrite <- app_assoc.
      rewrite R1 by (first [eapply reads_before; eauto|lia]). rewrite Hx, R2 by (auto; lia). reflexivity.
Qed.
Lemma wsome_wall ws l : Forall2 (fun w x => sends w x /\ abortp x = false) ws l ->
  forall len r, tab_ok r -> kinds r K -> wsome ws len r = wall ws len r.
Proof.
  induction 1 as [|w x ws l [Hw Hx] _ IH]; intros len r Tr Kr; [reflexivity|]. cbn [wsome wall].
  specialize (Hw r Tr Kr). destruct (w r) as [[b n] r1]. destruct Hw as (T1 & G1 & _ & P1 & _).
  destruct (Z.ltb_spec n 0); [lia|]. destruct (Z.ltb_spec 0 n); [|lia].
  now rewrite (IH (len + n)%Z r1 T1 (kinds_grown r r1 K G1 Kr)).
Qed.

(** A writer that appends the same bytes whatever the table. *)
Lemma const_sends b x : b <> [] ->
  (forall tbl f rest, (length b <= f)%nat -> xread_loop e f tbl (b ++ rest) = XRd x rest) ->
  sends (wput b) x.
Proof.
  intros Hb R r Tr Kr. unfold wput. split; [exact Tr|]. split; [apply tab_grown_refl|]. split; [auto|].
  split; [destruct b; [congruence|cbn [length]; lia]|]. auto.
Qed.
Lemma flat_sends b n x w : (forall r, w r = ((b, n), r)) -> b <> [] -> n = Z.of_nat (length b) ->
  (forall tbl f rest, (length b <= f)%nat -> xread_loop e f tbl (b ++ rest) = XRd x rest) -> sends w x.
Proof.
  intros Hw Hb Hn R r Tr Kr. rewrite Hw, Hn. now apply (const_sends b x Hb R r).
Qed.
Lemma sends_wafter h w len l x : h <> [] -> (0 < len)%Z -> len = Z.of_nat (length h) -> sends_all w len l ->
  (forall tbl f b rest, (length b <= f)%nat ->
     xread_n (xread_loop e f tbl) (length l) (b ++ rest) = XRds l rest ->
     xread_loop e (S f) tbl (h ++ b ++ rest) = XRd x rest) ->
  sends (wafter h w) x.
Proof.
  intros Hh Hp Hl Hw R r Tr Kr. unfold wafter. specialize (Hw r Tr Kr). destruct (w r) as [[b n] r1].
  destruct Hw as (T1 & G1 & L1 & P1 & R1). split; [exact T1|]. split; [exact G1|]. split; [|split; [lia|]].
  - intros Ht. split; [destruct h; [congruence|discriminate]|]. rewrite app_length, (L1 Ht). lia.
  - intros tbl Ht f rest L. rewrite app_length in L. destruct h as [|a h]; [congruence|]. cbn [length] in L.
    destruct f as [|f]; [lia|]. rewrite <- app_assoc. apply R; [lia|]. apply R1; [exact Ht|lia].
Qed.
End Kinds.
End RoundTrip.
