(** * Properties of the xtype codec (C03, C06, C55, C56). *)

From Coq Require Import NArith ZArith List Bool Lia Permutation Sorted.
From Verif Require Import SortModel BytesModel BytesProofs ValueModel ValueProofs
  ChoicesModel ChoicesProofs DtypeModel DtypeProofs DtypeProofs2 DtypeProofs3 DtypeProps
  XtypeModel XtypeProofs XtypeProofs2 XtypeProofs3 XtypeProofs4 XtypeProofs5.
From Verif Require BigintProofs BigintProps.
Import ListNotations.
Local Open Scope N_scope.

(** The words used here: [xstorable] (XtypeProofs2) are the values the theorems about the
    round trip are for, with a condition on the OIDs; [xenv_ok], [xconf_ok] what is
    assumed of the process and of the order of kno_natsort_choice; [refs_ok]
    (XtypeProofs) a table of references in which every index leads to its key and which
    has room; [low_base] (XtypeProofs2) OIDs whose base is one of the first 2^14. *)

Definition any (hi lo : N) : Prop := True.
(** kno_write_xtype on a buffer: the bytes, the number returned, the table afterwards. *)
Definition out (w : writer) (r : option xrefs) : bytes := fst (fst (w r)).
Definition ret (w : writer) (r : option xrefs) : Z := snd (fst (w r)).
Definition left (w : writer) (r : option xrefs) : option xrefs := snd (w r).

(** ** A process *)

Definition ex : xenv := {| x_r := e0; x_bases := [2 ^ 32; 5 * 2 ^ 20]; x_first := 26 |}.
Definition cx : xconf := {| x_norefs := false; x_opaque := None; x_order := fun l => rev (seq 0 (length l)) |}.
Definition tx : xrefs := init_xrefs (-1) None 2 (-1) [DSym [97]; DOid 0 5242880].
Lemma ex_ok : xenv_ok ex.
Proof.
  split; [exact e0_ok|]. split; [|split; [cbn; lia|]].
  - split; [|repeat constructor]. cbn [x_bases ex]. repeat constructor; cbn; intros H; intuition discriminate.
  - cbn [x_first ex]. change (2 ^ 23) with 8388608. lia.
Qed.
Lemma cx_ok : xconf_ok cx.
Proof. intros l. apply Permutation_sym, Permutation_rev. Qed.
Lemma tx_ok : refs_ok tx.
Proof. apply init_ok; [cbn; lia|left; lia]. Qed.
Lemma ex_low hi lo : low_base ex hi lo.
Proof.
  intros id H. apply position_nth in H.
  assert (id < 2)%nat by (apply (proj1 (nth_error_Some (x_bases ex) id)); congruence).
  change (2 ^ 14) with 16384. lia.
Qed.

Ltac xs_sym := apply xs_sym; [reflexivity|intros H; repeat (destruct H as [H|H]; [discriminate|]); exact H].
Lemma sample_xstorable (K : N -> N -> Prop) : (forall hi lo, K hi lo) -> xstorable ex K sample.
Proof.
  intros HK.
  assert (F : forall z, (A.min_fixnum <= z <= A.max_fixnum)%Z -> xstorable ex K (DFix z)) by (intros; now constructor).
  apply xs_vec; [reflexivity|].
  apply Forall_cons. { apply xs_pair; [apply F; unfold A.min_fixnum, A.max_fixnum; lia|]. now apply xs_str. }
  apply Forall_cons.
  { apply xs_choice; [reflexivity| | |left; reflexivity].
    - apply Forall_cons; [xs_sym|]. apply Forall_cons; [xs_sym|]. apply Forall_cons; [xs_sym|]. constructor.
    - split; [cbn; lia|]. split; [repeat constructor|]. split.
      + repeat apply Forall_cons; try apply Forall_nil;
          (split; [split; reflexivity|]; split; [discriminate|]; split; [discriminate|]; split; discriminate).
      + repeat apply SSorted_cons; repeat apply Forall_cons; try apply Forall_nil; try apply SSorted_nil; vm_compute; reflexivity. }
  apply Forall_cons.
  { apply (xs_slotmap _ _ _ 2); [reflexivity|reflexivity|].
    apply Forall_cons; [xs_sym|]. apply Forall_cons; [apply F; unfold A.min_fixnum, A.max_fixnum; lia|].
    apply Forall_cons; [constructor; [reflexivity|reflexivity|apply HK]|].
    apply Forall_cons; [constructor; lia|]. constructor. }
  apply Forall_cons.
  { apply xs_big.
    - split; [repeat (constructor; [cbn; lia|]); constructor|]. split; intros; discriminate.
    - vm_compute. reflexivity.
    - vm_compute. reflexivity. }
  apply Forall_cons.
  { apply xs_compound; [reflexivity|xs_sym| |reflexivity].
    apply Forall_cons; [now constructor|]. apply Forall_cons; [now constructor|]. constructor. }
  apply Forall_cons. { apply xs_qchoice; [reflexivity|constructor|now left]. }
  apply Forall_cons. { apply xs_const. lia. }
  apply Forall_cons.
  { apply xs_rat; [apply F|apply F| | | |]; try (unfold A.min_fixnum, A.max_fixnum; lia); reflexivity. }
  apply Forall_cons. { now apply xs_flo. }
  apply Forall_nil.
Qed.
Lemma fix_xstorable e K z : (-1000 <= z <= 1000)%Z -> xstorable e K (DFix z).
Proof. intros H. apply xs_fix. unfold A.min_fixnum, A.max_fixnum. lia. Qed.

(** ** C06: what was written is read back *)

(** Without a table: the value comes back and the reader stops exactly behind it,
    whatever follows and whatever table the reader has. *)
Theorem C06_plain_partial : forall e c x tbl rest, xenv_ok e -> xconf_ok c -> xstorable e any x ->
  read_xtype e tbl (out (write_xtype e c x) None ++ rest) = XRd x rest.
Proof.
  intros e c x tbl rest E O St. pose proof (xround_trip e c E O any x St None I I) as H. unfold out.
  destruct (write_xtype e c x None) as [[b n] r']. destruct H as (_ & G & _ & _ & R). destruct r'; [destruct G|].
  unfold read_xtype. apply (R tbl I). cbn [fst]. rewrite app_length. lia.
Qed.
Example C06_plain_case : xenv_ok ex /\ xconf_ok cx /\ xstorable ex any sample
  /\ length (out (write_xtype ex cx sample) None) = 87%nat
  /\ read_xtype ex None (out (write_xtype ex cx sample) None ++ [9; 9]) = XRd sample [9; 9].
Proof.
  split; [exact ex_ok|]. split; [exact cx_ok|]. split; [apply sample_xstorable; exact (fun _ _ => I)|].
  split; vm_compute; reflexivity.
Qed.
Print Assumptions C06_plain_partial.

(** With a table: the table after writing reads it back; so does every table that begins
    with it.  The table stays a good one, and what it had is where it was. *)
Theorem C06_refs_partial : forall e c x t rest, xenv_ok e -> xconf_ok c -> refs_ok t -> xstorable e (low_base e) x ->
  exists t' s, left (write_xtype e c x) (Some t) = Some t' /\ refs_ok t' /\ r_refs t' = r_refs t ++ s
    /\ forall more, N.of_nat (length (r_refs t' ++ more)) < 2 ^ 63 ->
         read_xtype e (Some (r_refs t' ++ more)) (out (write_xtype e c x) (Some t) ++ rest) = XRd x rest.
Proof.
  intros e c x t rest E O Ok St.
  pose proof (xround_trip e c E O _ x St (Some t) Ok (fun _ _ H => H)) as H. unfold out, left.
  destruct (write_xtype e c x (Some t)) as [[b n] [t'|]]; [|destruct H as (_ & [] & _)].
  destruct H as (T & [[s Hs] _] & _ & _ & R). exists t', s. split; [reflexivity|]. split; [exact T|]. split; [exact Hs|].
  intros more L. unfold read_xtype. apply (R (Some (r_refs t' ++ more))); [exists more; auto|].
  cbn [fst]. rewrite app_length. lia.
Qed.
Example C06_refs_case : refs_ok tx /\ xstorable ex (low_base ex) sample
  /\ length (out (write_xtype ex cx sample) (Some tx)) = 75%nat
  /\ exists t', left (write_xtype ex cx sample) (Some tx) = Some t' /\ length (r_refs t') = 7%nat
       /\ read_xtype ex (Some (r_refs t')) (out (write_xtype ex cx sample) (Some tx)) = XRd sample [].
Proof.
  split; [exact tx_ok|]. split; [apply sample_xstorable; exact ex_low|]. split; [vm_compute; reflexivity|].
  eexists. split; [vm_compute; reflexivity|]. split; vm_compute; reflexivity.
Qed.
Print Assumptions C06_refs_partial.

(** A history: values written one after the other with the same, growing table. *)
Fixpoint write_list (e : xenv) (c : xconf) (l : list dv) (r : option xrefs) : bytes * option xrefs :=
  match l with
  | [] => ([], r)
  | x :: t => let (bs, r') := write_list e c t (left (write_xtype e c x) r) in (out (write_xtype e c x) r ++ bs, r')
  end.
Fixpoint read_list (e : xenv) (refs : option (list dv)) (n : nat) (b : bytes) : option (list dv * bytes) :=
  match n with
  | O => Some ([], b)
  | S n => match read_xtype e refs b with
           | XRd v r => match read_list e refs n r with Some (l, r') => Some (v :: l, r') | None => None end
           | _ => None
           end
  end.
Lemma history e c l : xenv_ok e -> xconf_ok c -> Forall (xstorable e (low_base e)) l -> forall t, refs_ok t ->
  exists t' s, snd (write_list e c l (Some t)) = Some t' /\ r_refs t' = r_refs t ++ s
    /\ forall rest more, N.of_nat (length (r_refs t' ++ more)) < 2 ^ 63 ->
         read_list e (Some (r_refs t' ++ more)) (length l) (fst (write_list e c l (Some t)) ++ rest) = Some (l, rest).
Proof.
  intros E O F. induction F as [|x l Sx _ IH]; intros t Ok.
  - exists t, []. split; [reflexivity|]. split; [now rewrite app_nil_r|]. reflexivity.
  - destruct (C06_refs_partial e c x t [] E O Ok Sx) as (t1 & s1 & W & Ok1 & R1 & _).
    destruct (IH t1 Ok1) as (t2 & s2 & W2 & R2 & Rd). exists t2, (s1 ++ s2). cbn [write_list]. rewrite W.
    destruct (write_list e c l (Some t1)) as [bs r2]. cbn [fst snd] in *. split; [exact W2|].
    split; [rewrite R2, R1; now rewrite app_assoc|]. intros rest more Lm. specialize (Rd rest more Lm). cbn [length read_list]. rewrite <- app_assoc.
    destruct (C06_refs_partial e c x t (bs ++ rest) E O Ok Sx) as (t1' & s1' & W' & _ & _ & Q).
    rewrite W in W'. inversion W'; subst t1'.
    rewrite R2 in *. rewrite <- app_assoc in *. now rewrite (Q (s2 ++ more) Lm), Rd.
Qed.
Theorem C06_history_partial : forall e c l old flags len max elts rest, xenv_ok e -> xconf_ok c ->
  Forall (xstorable e (low_base e)) l -> N.of_nat (length elts) <= len -> 0 < len ->
  exists t', snd (write_list e c l (Some (init_xrefs old flags len max elts))) = Some t'
    /\ (N.of_nat (length (r_refs t')) < 2 ^ 63 ->
        read_list e (Some (r_refs t')) (length l)
          (fst (write_list e c l (Some (init_xrefs old flags len max elts))) ++ rest) = Some (l, rest)).
Proof.
  intros e c l old flags len max elts rest E O F Le Lp.
  destruct (history e c l E O F (init_xrefs old flags len max elts)) as (t' & s & W & _ & R).
  - apply init_ok; auto.
  - exists t'. split; [exact W|]. intros L. specialize (R rest []). rewrite app_nil_r in R. now apply R.
Qed.
Example C06_history_case : Forall (xstorable ex (low_base ex)) [sample; DFix 7; sample]
  /\ length (fst (write_list ex cx [sample; DFix 7; sample] (Some tx))) = 152%nat.
Proof.
  split; [|vm_compute; reflexivity]. constructor; [apply sample_xstorable; exact ex_low|].
  constructor; [apply fix_xstorable; lia|]. constructor; [apply sample_xstorable; exact ex_low|constructor].
Qed.
Print Assumptions C06_history_partial.

(** kno_embed_xtype puts the table in front of the value: then no table is needed, if the
    value is written without adding to it. *)
Lemma wplain_wall e c l K : xenv_ok e -> xconf_ok c -> Forall (xstorable e K) l -> forall len,
  wplain e c l len = fst (wall (map (write_xtype e c) l) len None)
  /\ (len <= snd (wplain e c l len))%Z.
Proof.
  intros E O F. induction F as [|x l Sx _ IH]; intros len; cbn [wplain map wall]; [split; [reflexivity|cbn; lia]|].
  pose proof (xround_trip e c E O K x Sx None I I) as H. destruct (write_xtype e c x None) as [[b n] r'].
  destruct H as (_ & G & _ & P & _). destruct r'; [destruct G|].
  destruct (Z.leb_spec n 0); [lia|]. destruct (Z.ltb_spec n 0); [lia|]. destruct (IH (len + n)%Z) as [-> IH2].
  destruct (wall _ _ None) as [[bs m] r2]. cbn [fst snd] in *. split; [reflexivity|lia].
Qed.
Theorem C06_embed_partial : forall e c x t t' rest tbl, xenv_ok e -> xconf_ok c -> refs_ok t ->
  xstorable e (low_base e) x -> r_refs t <> [] -> Forall (xstorable e any) (r_refs t) -> short (r_refs t) ->
  left (write_xtype e c x) (Some t) = Some t' -> r_refs t' = r_refs t ->
  read_xtype e tbl (out (embed_xtype e c x) (Some t) ++ rest) = XRd x rest.
Proof.
  intros e c x t t' rest tbl E O Ok Sx Ne Fr Sh W Eq. unfold out, embed_xtype.
  destruct (short_63 _ Sh) as [H63 H31].
  assert (R1 : forall f, (length (fst (fst (write_xtype e c x (Some t)))) <= f)%nat ->
    xread_loop e f (Some (r_refs t)) (fst (fst (write_xtype e c x (Some t))) ++ rest) = XRd x rest).
  { pose proof (xround_trip e c E O _ x Sx (Some t) Ok (fun _ _ H => H)) as Q. unfold left in W.
    destruct (write_xtype e c x (Some t)) as [[b2 n2] r2]. cbn [snd fst] in *. subst r2.
    destruct Q as (_ & _ & _ & _ & Q). intros f Lf. apply Q; [|exact Lf].
    exists []. rewrite app_nil_r, Eq. auto. }
  pose proof (xround_trip e c E O any (DVec (r_refs t)) ltac:(now constructor) None I I) as V.
  assert (Fw : Forall2 (fun w x => sends e any w x /\ abortp x = false) (map (write_xtype e c) (r_refs t)) (r_refs t)).
  { apply forall2_map; auto. rewrite Forall_forall in *. intros y Hy. apply xround_trip; auto. }
  set (k := (2 + Z.of_N (write_varint_rv (llen (r_refs t))))%Z).
  assert (Wb : fst (fst (write_xtype e c (DVec (r_refs t)) None))
               = 0xA1 :: put_varint (llen (r_refs t)) ++ fst (wplain e c (r_refs t) k)
               /\ (snd (wplain e c (r_refs t) k) <? 0)%Z = false).
  { destruct (wplain_wall e c (r_refs t) any E O Fr k) as [Q1 Q2]. split; [|apply Z.ltb_ge; lia]. rewrite Q1.
    cbn [write_xtype]. unfold wcounted, wafter.
    rewrite (wsome_wall e any _ _ Fw _ None I I).
    assert (Ind : forall ws, Forall2 (fun w x => sends e any w x /\ abortp x = false) ws (r_refs t) ->
      forall a b r, fst (fst (wall ws a r)) = fst (fst (wall ws b r))).
    { intros ws _. induction ws as [|w ws IH]; intros a b r; [reflexivity|]. cbn [wall].
      destruct (w r) as [[bb nn] rr]. destruct (nn <? 0)%Z; [reflexivity|]. specialize (IH (a + nn)%Z (b + nn)%Z rr).
      destruct (wall ws (a + nn) rr) as [[? ?] ?], (wall ws (b + nn) rr) as [[? ?] ?]. cbn [fst] in *. now rewrite IH. }
    specialize (Ind _ Fw (1 + Z.of_N (write_varint_rv (llen (r_refs t))))%Z k None).
    destruct (wall _ (1 + _) None) as [[? ?] ?]. cbn [fst app] in *. now rewrite Ind. }
  destruct (r_refs t) as [|y l] eqn:Rt; [congruence|]. fold k.
  destruct (wplain e c (y :: l) k) as [b1 n1]. cbn [fst snd] in Wb. destruct Wb as [Wb ->].
  destruct (write_xtype e c x (Some t)) as [[b2 n2] r2]. cbn [fst] in *.
  destruct (write_xtype e c (DVec (y :: l)) None) as [[bv nv] rv]. cbn [fst] in Wb. subst bv.
  destruct V as (_ & G & _ & _ & V). destruct rv; [destruct G|].
  set (bs := 0xA1 :: put_varint (llen (y :: l)) ++ b1) in *.
  match goal with |- read_xtype e tbl ?b = _ =>
    replace b with (0x9D :: bs ++ (b2 ++ rest)) by (unfold bs; cbn [app]; now rewrite <- !app_assoc) end.
  unfold read_xtype. set (f := length (0x9D :: bs ++ b2 ++ rest)).
  assert (Lf : f = S (length bs + length (b2 ++ rest))) by (unfold f; cbn [length]; now rewrite app_length).
  match goal with |- _ = ?rhs => change (match xread_loop e f tbl (bs ++ b2 ++ rest) with
        | XRd v r =>
          if abortp v then XRd v r
          else match v with DVec l => xread_loop e f (Some l) r | _ => XRd D_ERROR r end
        | o => o
        end = rhs) end.
  assert (V' : xread_loop e f tbl (bs ++ b2 ++ rest) = XRd (DVec (y :: l)) (b2 ++ rest)).
  { apply (V tbl I f (b2 ++ rest)). change (length bs <= f)%nat. lia. }
  rewrite V'. cbn [abortp].
  apply R1. rewrite Lf, app_length. lia.
Qed.
Example C06_embed_case : refs_ok tx /\ r_refs tx <> [] /\ Forall (xstorable ex any) (r_refs tx)
  /\ xstorable ex (low_base ex) (DPair (DSym [97]) (DOid 0 5242883))
  /\ left (write_xtype ex cx (DPair (DSym [97]) (DOid 0 5242883))) (Some tx) = Some tx
  /\ read_xtype ex None (out (embed_xtype ex cx (DPair (DSym [97]) (DOid 0 5242883))) (Some tx) ++ [9])
     = XRd (DPair (DSym [97]) (DOid 0 5242883)) [9].
Proof.
  split; [exact tx_ok|]. split; [discriminate|].
  split. { constructor; [xs_sym|]. constructor; [|constructor]. constructor; [reflexivity|reflexivity|exact I]. }
  split. { constructor; [xs_sym|]. constructor; [reflexivity|reflexivity|apply ex_low]. }
  split; vm_compute; reflexivity.
Qed.
Print Assumptions C06_embed_partial.

(** Not if the value adds to the table: the new entry is not in what was embedded. *)
Theorem C06_embed_refuted : exists e c t x, xenv_ok e /\ xconf_ok c /\ refs_ok t /\ xstorable e (low_base e) x
  /\ (0 < ret (embed_xtype e c x) (Some t))%Z /\ read_xtype e None (out (embed_xtype e c x) (Some t)) = XRd D_ERROR [].
Proof.
  exists ex, cx, tx, (DSym [99]). split; [exact ex_ok|]. split; [exact cx_ok|]. split; [exact tx_ok|].
  split; [xs_sym|]. split; vm_compute; reflexivity.
Qed.
Print Assumptions C06_embed_refuted.

(** Not for every value.  VOID is written as the constant for a quoted void; a schemap
    comes back as a slotmap; a compound tagged xtype is written as the bytes of its
    packet. *)
Theorem C06_values_refuted : exists e c, xenv_ok e /\ xconf_ok c /\
  Forall (fun p => fst p <> snd p /\ (0 < ret (write_xtype e c (fst p)) None)%Z
            /\ read_xtype e None (out (write_xtype e c (fst p)) None) = XRd (snd p) [])
    [(DConst 0, DConst 23); (DSchemap [DSym [97]; DFix 1], DSlotmap [DSym [97]; DFix 1]);
     (DCompound (DSym xtype_symbol) [DPacket false [0x81]], DConst 2)].
Proof.
  exists ex, cx. split; [exact ex_ok|]. split; [exact cx_ok|].
  repeat (apply Forall_cons; [split; [discriminate|]; split; vm_compute; reflexivity|]). apply Forall_nil.
Qed.
Print Assumptions C06_values_refuted.
(** A hashset is never read back: the loop over its elements has no end. *)
Theorem C06_hashset_refuted : exists e c x, xenv_ok e /\ xconf_ok c
  /\ (0 < ret (write_xtype e c (DHashset 3 [x])) None)%Z
  /\ read_xtype e None (out (write_xtype e c (DHashset 3 [x])) None) = XLoop.
Proof.
  exists ex, cx, (DFix 1). split; [exact ex_ok|]. split; [exact cx_ok|]. split; vm_compute; reflexivity.
Qed.
Print Assumptions C06_hashset_refuted.
(** A bigint at the edge of the fixnums (which arithmetic makes, NumbersProps) is written
    and cannot be read. *)
Theorem C06_edge_bigint_refuted : exists e c b, xenv_ok e /\ xconf_ok c /\ BigintProps.normal_form b
  /\ (0 < ret (write_xtype e c (DBig b)) None)%Z
  /\ read_xtype e None (out (write_xtype e c (DBig b)) None) = XRd D_ERROR [].
Proof.
  exists ex, cx, {| B.bneg := false; B.bdig := [1073741823; 1073741823; 1]%Z |}.
  split; [exact ex_ok|]. split; [exact cx_ok|].
  split. { split; [repeat (constructor; [cbn; lia|]); constructor|]. split; intros; discriminate. }
  split; vm_compute; reflexivity.
Qed.
Print Assumptions C06_edge_bigint_refuted.
(** A compound that is a sequence and has annotations comes back with a longer header. *)
Theorem C06_sequence_refuted : exists e c tag elts f h', xenv_ok e /\ xconf_ok c
  /\ read_compound (xread_loop e f None)
       (tl (out (write_compound {| ch_seqoff := 1; ch_annotated := true |} (write_xtype e c tag)
                   (map (write_xtype e c) elts)) None))
     = XComp h' tag elts []
  /\ ch_annotated h' = true /\ ch_seqoff h' = 2%Z.
Proof.
  exists ex, cx, (DSym [116]), [DSlotmap []; DFix 1; DFix 2], 20%nat. eexists.
  split; [exact ex_ok|]. split; [exact cx_ok|]. split; [vm_compute; reflexivity|]. split; reflexivity.
Qed.
Print Assumptions C06_sequence_refuted.

(** OIDs beyond the first 2^14 bases are written as OIDs of another base. *)
Definition bases (n : nat) : list N := map (fun i => N.of_nat i * 2 ^ 20) (seq 0 n).
Lemma bases_bases n : N.of_nat n < 2 ^ 44 -> bases_ok (bases n).
Proof.
  intros Hn. unfold bases_ok, bases. split.
  - apply FinFun.Injective_map_NoDup; [|apply seq_NoDup]. intros i j H. change (2 ^ 20) with 1048576 in H. lia.
  - apply Forall_forall. intros b Hb. apply in_map_iff in Hb. destruct Hb as (i & <- & Hi). apply in_seq in Hi.
    split; [now apply N.mod_mul|]. change (2 ^ 44) with 17592186044416 in Hn. change (2 ^ 20) with 1048576.
    change (2 ^ 64) with 18446744073709551616. lia.
Qed.
Theorem C06_oid_base_refuted : exists e c t x y, xenv_ok e /\ xconf_ok c /\ refs_ok t /\ xstorable e any x /\ x <> y
  /\ exists t', left (write_xtype e c x) (Some t) = Some t'
  /\ read_xtype e (Some (r_refs t')) (out (write_xtype e c x) (Some t)) = XRd y [].
Proof.
  set (k := N.to_nat 16384). set (e := {| x_r := e0; x_bases := bases (S k); x_first := 26 |}).
  exists e, cx, (init_xrefs (-1) None 2 (-1) []), (DOid 4 7), (DOid 0 7).
  assert (Ok : bases_ok (x_bases e)) by (apply bases_bases; unfold k; rewrite Nat2N.inj_succ, N2Nat.id; reflexivity).
  split. { split; [exact e0_ok|]. split; [exact Ok|]. split; [cbn; lia|]. cbn [x_first e]. change (2 ^ 23) with 8388608. lia. }
  split; [exact cx_ok|]. split; [apply init_ok; [cbn; lia|left; lia]|].
  split; [constructor; [reflexivity|reflexivity|exact I]|]. split; [discriminate|].
  assert (P : oid_base_id e 4 7 = Some k).
  { apply nth_position; [apply Ok|]. change (x_bases e) with (bases (S k)). unfold bases.
    rewrite nth_error_map, nth_error_nth' with (d := O) by (rewrite seq_length; lia).
    rewrite seq_nth by lia. cbn [option_map plus]. unfold k. rewrite N2Nat.id. reflexivity. }
  assert (Q : base_key e k = Some (DOid 0 0)).
  { unfold base_key, k. rewrite N2Nat.id. reflexivity. }
  unfold left, out. cbn [write_xtype]. unfold write_oid. rewrite P, Q. cbn [x_norefs cx].
  eexists. split; reflexivity.
Qed.
Print Assumptions C06_oid_base_refuted.
(** A table set up with a length of zero is freed when the first symbol is added. *)
Theorem C06_empty_table_refuted : exists e c x, xenv_ok e /\ xconf_ok c /\ xstorable e any x
  /\ exists t', left (write_xtype e c x) (Some (init_xrefs (-1) None 0 (-1) [])) = Some t' /\ r_bad t' = true.
Proof.
  exists ex, cx, (DSym [97]). split; [exact ex_ok|]. split; [exact cx_ok|]. split; [xs_sym|].
  eexists. split; vm_compute; reflexivity.
Qed.
Print Assumptions C06_empty_table_refuted.
(** A choice above kno_bigchoice_threshold is sorted into itself: elements are lost, the
    others are there twice.  The choice is that of 1, 2, -2 and -1, written in natural
    order. *)
Definition eb : xenv :=
  {| x_r := {| sym_word := sym_word e0; oid_word := oid_word e0;
               r_cf := {| small_threshold := 10; big_threshold := 3; block_size := 2 |}; restores := fun _ => false |};
     x_bases := []; x_first := 26 |}.
Definition cb : xconf :=
  {| x_norefs := false; x_opaque := None;
     x_order := fun l => if Nat.eqb (length l) 4 then [2; 3; 0; 1]%nat else seq 0 (length l) |}.
Theorem C06_big_choice_refuted : exists e c l, xenv_ok e /\ xconf_ok c /\ choice_ok (x_r e) l
  /\ Forall (xstorable e any) l
  /\ read_xtype e None (out (write_xtype e c (DChoice l)) None) = XRd (DChoice [DFix 1; DFix 2; DFix 1; DFix 2]) []
  /\ In (DFix (-1)) l.
Proof.
  exists eb, cb, [DFix 1; DFix 2; DFix (-2); DFix (-1)].
  split. { destruct e0_ok as (A1 & A2 & A3 & A4 & A5).
    split; [|split; [split; constructor|split; [cbn; lia|cbn [x_first eb]; change (2 ^ 23) with 8388608; lia]]].
    split; [exact A1|]. split; [exact A2|]. split; [exact A3|]. split; [exact A4|]. cbn. lia. }
  split. { intros l. cbn [x_order cb]. destruct (Nat.eqb_spec (length l) 4) as [->|]; [|reflexivity].
    cbn [seq]. apply (Permutation_app_comm [2; 3]%nat [0; 1]%nat). }
  split. { split; [cbn; lia|]. split; [repeat constructor|]. split.
      - repeat apply Forall_cons; try apply Forall_nil;
          (split; [split; reflexivity|]; split; [discriminate|]; split; [discriminate|]; split; discriminate).
      - repeat apply SSorted_cons; repeat apply Forall_cons; try apply Forall_nil; try apply SSorted_nil; vm_compute; reflexivity. }
  split. { repeat apply Forall_cons; try apply Forall_nil; apply fix_xstorable; lia. }
  split; [vm_compute; reflexivity|]. cbn. auto.
Qed.
Print Assumptions C06_big_choice_refuted.

(** ** C55: the number returned is the number of bytes appended *)

(** Whatever the table, for every value whose vectors and schemaps have parts that can be
    written ([strict]): if all parts can be written ([xwritable]) the number of bytes is
    returned, otherwise -1. *)
Theorem C55_size_partial : forall e c x t, xconf_ok c -> opaque_sized c -> tab_ok t -> xsized x -> strict e c x = true ->
  (xwritable e c x = true -> small (left (write_xtype e c x) t) ->
     ret (write_xtype e c x) t = Z.of_nat (length (out (write_xtype e c x) t)))
  /\ (xwritable e c x = false -> (ret (write_xtype e c x) t < 0)%Z).
Proof.
  intros e c x t O Os Tt Sx St. pose proof (write_sizes e c O Os x Sx t Tt) as H. unfold ret, out, left.
  destruct (write_xtype e c x t) as [[b n] r']. cbn [fst snd]. destruct H as (_ & _ & H1 & H2). split; [|auto].
  intros W Sm. now apply H1.
Qed.
Lemma sample_sized : xsized sample.
Proof.
  assert (Bg : xsized (DBig big64)).
  { split. { split; [repeat (constructor; [cbn; lia|]); constructor|]. split; intros; discriminate. }
    split; [vm_compute; discriminate|]. intros t H. vm_compute in H. inversion H. reflexivity. }
  cbn [xsized sample map fold_right]. repeat split; try reflexivity; apply Bg.
Qed.
Example C55_size_case : xsized sample /\ opaque_sized cx /\ tab_ok (Some tx) /\
  strict ex cx sample = true /\ xwritable ex cx sample = true /\ ret (write_xtype ex cx sample) (Some tx) = 75%Z
  /\ strict ex cx (DPair sample (DOther 159 1)) = true /\ xwritable ex cx (DPair sample (DOther 159 1)) = false
  /\ ret (write_xtype ex cx (DPair sample (DOther 159 1))) (Some tx) = (-1)%Z.
Proof.
  split; [exact sample_sized|]. split; [intros f x; discriminate|]. split; [exact tx_ok|].
  repeat split; vm_compute; reflexivity.
Qed.
Print Assumptions C55_size_partial.

(** In particular for every value that is read back, without a table and with one. *)
Theorem C55_storable_partial : forall e c x t, xenv_ok e -> xconf_ok c -> tab_ok t -> xstorable e (low_base e) x ->
  (exists tbl, reads (left (write_xtype e c x) t) tbl) ->
  ret (write_xtype e c x) t = Z.of_nat (length (out (write_xtype e c x) t)).
Proof.
  intros e c x t E O Tt Sx H.
  assert (Kt : kinds e t (low_base e)) by (destruct t; cbn; auto).
  pose proof (xround_trip e c E O _ x Sx t Tt Kt) as R. unfold ret, out, left in *.
  destruct (write_xtype e c x t) as [[b n] r']. destruct R as (_ & _ & R & _). now apply R.
Qed.
Example C55_storable_case : xstorable ex (low_base ex) sample /\ ret (write_xtype ex cx sample) None = 87%Z
  /\ length (out (write_xtype ex cx sample) None) = 87%nat.
Proof. split; [apply sample_xstorable; exact ex_low|]. split; vm_compute; reflexivity. Qed.
Print Assumptions C55_storable_partial.

(** Not for vectors: elements that cannot be written are passed over, and the number
    returned is neither -1 nor the number of bytes appended; what was written is read as
    another value. *)
Theorem C55_vector_refuted : exists e c x, xenv_ok e /\ xconf_ok c /\ xwritable e c x = false
  /\ (0 <= ret (write_xtype e c x) None)%Z
  /\ ret (write_xtype e c x) None <> Z.of_nat (length (out (write_xtype e c x) None)).
Proof.
  exists ex, cx, (DVec [DPair (DFix 1) (DOther 159 1)]). split; [exact ex_ok|]. split; [exact cx_ok|].
  split; [reflexivity|]. vm_compute. split; discriminate.
Qed.
Print Assumptions C55_vector_refuted.
(** Nor for schemaps, where the -1 for a value is added to the size. *)
Theorem C55_schemap_refuted : exists e c x, xenv_ok e /\ xconf_ok c /\ xwritable e c x = false
  /\ (0 <= ret (write_xtype e c x) None)%Z
  /\ ret (write_xtype e c x) None <> Z.of_nat (length (out (write_xtype e c x) None)).
Proof.
  exists ex, cx, (DSchemap [DSym [97]; DOther 159 1]). split; [exact ex_ok|]. split; [exact cx_ok|].
  split; [reflexivity|]. vm_compute. split; discriminate.
Qed.
Print Assumptions C55_schemap_refuted.

(** ** C56: kno_validate_xtype *)

(** What was written is accepted and passed over exactly, whether or not references were
    used; [vknown] leaves out compounds. *)
Theorem C56_accepts_partial : forall e c x t tbl rest, xenv_ok e -> xconf_ok c -> tab_ok t ->
  xstorable e (low_base e) x -> vknown e x = true -> reads (left (write_xtype e c x) t) tbl ->
  validate_xtype e tbl (out (write_xtype e c x) t ++ rest) = VRes 1 rest.
Proof.
  intros e c x t tbl rest E O Tt Sx V H. unfold validate_xtype, out, left in *.
  destruct (validates e c E O _ x Sx V) as (_ & A & _). apply A; auto.
  - destruct t; cbn; auto.
  - rewrite app_length. lia.
Qed.
Example C56_accepts_case :
  let x := DVec [DSym [98]; DOid 1 2; DPair (DStr [104]) (DRat (DFix 1) (DFix 3))] in
  xstorable ex (low_base ex) x /\ vknown ex x = true
  /\ exists t', left (write_xtype ex cx x) (Some tx) = Some t' /\ reads (Some t') (Some (r_refs t'))
    /\ out (write_xtype ex cx x) (Some tx) = [161; 3; 168; 2; 169; 2; 3; 152; 144; 1; 104; 153; 176; 152; 140; 1; 140; 3].
Proof.
  cbv zeta. split.
  { apply xs_vec; [reflexivity|]. apply Forall_cons; [xs_sym|].
    apply Forall_cons; [constructor; [reflexivity|reflexivity|apply ex_low]|]. apply Forall_cons; [|constructor].
    apply xs_pair; [now apply xs_str|]. apply xs_rat; try reflexivity; apply fix_xstorable; lia. }
  split; [reflexivity|]. eexists. split; [vm_compute; reflexivity|].
  split; [exists []; rewrite app_nil_r; split; reflexivity|]. vm_compute. reflexivity.
Qed.
Print Assumptions C56_accepts_partial.

(** Written without a table, every strict prefix is refused. *)
Theorem C56_prefix_partial : forall e c x tbl p q, xenv_ok e -> xconf_ok c -> xstorable e any x -> vknown e x = true ->
  out (write_xtype e c x) None = p ++ q -> q <> [] -> exists rest, validate_xtype e tbl p = VRes (-1) rest.
Proof.
  intros e c x tbl p q E O Sx V H Q. destruct (validates e c E O _ x Sx V) as (_ & _ & R).
  apply (R tbl p q H Q). lia.
Qed.
Example C56_prefix_case : let x := DVec [DSym [98]; DStr [104; 105]] in
  xstorable ex any x /\ vknown ex x = true
  /\ out (write_xtype ex cx x) None = [161; 2; 147; 1; 98; 144; 2; 104] ++ [105].
Proof.
  cbv zeta. split; [|split; vm_compute; reflexivity]. apply xs_vec; [reflexivity|].
  apply Forall_cons; [xs_sym|]. apply Forall_cons; [now apply xs_str|constructor].
Qed.
Print Assumptions C56_prefix_partial.

(** So a value that is accepted although the input has been cut, or a compound that is
    refused, does not occur among these.  But: a byte that is no code is accepted, with 61. *)
Theorem C56_unknown_refuted : exists e b, xenv_ok e /\ read_xtype e None b = XRd D_ERROR []
  /\ exists rv, validate_xtype e None b = VRes rv [] /\ (0 < rv)%Z.
Proof. exists ex, [1]. split; [exact ex_ok|]. split; [reflexivity|]. eexists. split; vm_compute; reflexivity. Qed.
Print Assumptions C56_unknown_refuted.
(** A compound is not passed over: the code is skipped and 61 returned. *)
Theorem C56_compound_refuted : exists e c x rest, xenv_ok e /\ xconf_ok c /\ xstorable e any x /\ rest <> []
  /\ validate_xtype e None (out (write_xtype e c x) None) = VRes 61 rest.
Proof.
  exists ex, cx, (DCompound (DSym [116]) [DFix 1]). eexists. split; [exact ex_ok|]. split; [exact cx_ok|].
  split. { apply xs_compound; [reflexivity|xs_sym| |reflexivity]. apply Forall_cons; [apply fix_xstorable; lia|constructor]. }
  split; [|vm_compute; reflexivity]. discriminate.
Qed.
Print Assumptions C56_compound_refuted.
(** A reference whose index is missing is accepted. *)
Theorem C56_reference_refuted : exists e c x t p q, xenv_ok e /\ xconf_ok c /\ refs_ok t /\ xstorable e (low_base e) x
  /\ out (write_xtype e c x) (Some t) = p ++ q /\ q <> []
  /\ validate_xtype e (Some (r_refs t)) p = VRes 1 [].
Proof.
  exists ex, cx, (DSym [97]), tx, [0xA8], [0]. split; [exact ex_ok|]. split; [exact cx_ok|]. split; [exact tx_ok|].
  split; [xs_sym|]. split; [reflexivity|]. split; [discriminate|]. vm_compute. reflexivity.
Qed.
Print Assumptions C56_reference_refuted.

(** ** C03: input that is cut off *)

(** Constants, characters, numbers, OIDs and symbols: every strict prefix gives end of
    data or an error. *)
Theorem C03_xtype_atomic_partial : forall e c x tbl p q, xenv_ok e -> xstorable e any x -> xatomic x = true ->
  out (write_xtype e c x) None = p ++ q -> q <> [] ->
  exists r, read_xtype e tbl p = XRd D_EOD r \/ read_xtype e tbl p = XRd D_ERROR r.
Proof. intros e c x tbl p q E S A H Q. exact (xcut_atomic e c E any x tbl p q (length p) S A H Q). Qed.
Example C03_xtype_atomic_case : xstorable ex any (DSym [104; 105])
  /\ out (write_xtype ex cx (DSym [104; 105])) None = [0x93; 2; 104] ++ [105].
Proof. split; [xs_sym|reflexivity]. Qed.
Print Assumptions C03_xtype_atomic_partial.

(** Values without choices and empty compounds, written with or without a table: whatever
    value is returned for a strict prefix, it is or contains the end-of-data constant, an
    error or VOID.  So it is not a value that can be written. *)
Theorem C03_xtype_marked_partial : forall e c x t tbl p q v r, xenv_ok e -> xconf_ok c -> tab_ok t ->
  xstorable e (low_base e) x -> cuttable x = true -> reads (left (write_xtype e c x) t) tbl ->
  out (write_xtype e c x) t = p ++ q -> q <> [] -> read_xtype e tbl p = XRd v r ->
  xmarked v = true /\ forall K, ~ xstorable e K v.
Proof.
  intros e c x t tbl p q v r E O Tt Sx Cx Ht H Q R.
  assert (Kt : kinds e t (low_base e)) by (destruct t; cbn; auto).
  pose proof (xcut e c E O _ x Sx Cx t Tt Kt tbl Ht p q H Q (S (length p)) ltac:(lia)) as G.
  unfold read_xtype in R. rewrite R in G. cbn [gives] in G. split; [exact G|].
  intros K St. rewrite (xmarked_storable e K v E St) in G. discriminate.
Qed.
Example C03_xtype_marked_case :
  let x := DVec [DSym [97]; DPair (DFix 2) (DFix 3)] in
  xstorable ex (low_base ex) x /\ cuttable x = true
  /\ left (write_xtype ex cx x) (Some tx) = Some tx /\ reads (Some tx) (Some (r_refs tx))
  /\ out (write_xtype ex cx x) (Some tx) = [161; 2; 168; 0; 152; 140; 2] ++ [140; 3]
  /\ read_xtype ex (Some (r_refs tx)) [161; 2; 168; 0; 152; 140; 2] = XRd (DVec [DSym [97]; DPair (DFix 2) (DConst 7)]) [].
Proof.
  cbv zeta. split.
  { apply xs_vec; [reflexivity|]. apply Forall_cons; [xs_sym|]. apply Forall_cons; [|constructor].
    apply xs_pair; apply fix_xstorable; lia. }
  split; [reflexivity|]. split; [vm_compute; reflexivity|].
  split; [exists []; rewrite app_nil_r; split; reflexivity|]. split; vm_compute; reflexivity.
Qed.
Print Assumptions C03_xtype_marked_partial.

(** But a value is returned: here with the end-of-data constant in it, and the slotmap
    of which the second value is missing, with VOID. *)
Theorem C03_xtype_value_refuted : exists e c x p q v r, xenv_ok e /\ xconf_ok c /\ xstorable e any x
  /\ out (write_xtype e c x) None = p ++ q /\ q <> [] /\ read_xtype e None p = XRd v r
  /\ abortp v = false /\ v <> D_EOD.
Proof.
  exists ex, cx, (DPair (DFix 1) (DFix 2)), [0x98; 0x8C; 1], [0x8C; 2]. do 2 eexists.
  split; [exact ex_ok|]. split; [exact cx_ok|]. split. { apply xs_pair; apply fix_xstorable; lia. }
  split; [reflexivity|]. split; [discriminate|]. split; [vm_compute; reflexivity|]. split; [reflexivity|discriminate].
Qed.
Print Assumptions C03_xtype_value_refuted.
Theorem C03_xtype_table_refuted : exists e c x p q v r, xenv_ok e /\ xconf_ok c /\ xstorable e any x
  /\ out (write_xtype e c x) None = p ++ q /\ q <> [] /\ read_xtype e None p = XRd (DSlotmap v) r
  /\ In D_VOID v.
Proof.
  exists ex, cx, (DSlotmap [DFix 1; DFix 2; DFix 3; DFix 300]), [162; 4; 140; 1; 140; 2; 140; 3; 140; 130], [44]. do 2 eexists.
  split; [exact ex_ok|]. split; [exact cx_ok|].
  split. { apply (xs_slotmap _ _ _ 2); [reflexivity|reflexivity|].
           repeat apply Forall_cons; try apply Forall_nil; apply fix_xstorable; lia. }
  split; [reflexivity|]. split; [discriminate|]. split; [vm_compute; reflexivity|]. cbn. auto.
Qed.
Print Assumptions C03_xtype_table_refuted.
(** A compound without elements that is cut in its header is returned complete. *)
Theorem C03_xtype_compound_refuted : exists e c x p q, xenv_ok e /\ xconf_ok c /\ xstorable e any x
  /\ out (write_xtype e c x) None = p ++ q /\ q <> [] /\ read_xtype e None p = XRd x [].
Proof.
  exists ex, cx, (DCompound (DSym [116]) []), [163; 4; 147; 1; 116], [130; 130; 130].
  split; [exact ex_ok|]. split; [exact cx_ok|].
  split. { apply xs_compound; [reflexivity|xs_sym|constructor|reflexivity]. }
  split; [reflexivity|]. split; [discriminate|]. vm_compute. reflexivity.
Qed.
Print Assumptions C03_xtype_compound_refuted.
(** Memory outside the buffer or the table: a string or a vector cut in front of its
    length (a negative length), a reference cut in front of its index (the entry at -1). *)
Theorem C03_xtype_memory_refuted : exists e c t, xenv_ok e /\ xconf_ok c /\ refs_ok t /\
  Forall (fun x => xstorable e (low_base e) x /\ exists code q,
            out (write_xtype e c x) (Some t) = code :: q /\ q <> [] /\ read_xtype e (Some (r_refs t)) [code] = XBad)
    [DStr [104]; DVec [DFix 1]; DSym [97]].
Proof.
  exists ex, cx, tx. split; [exact ex_ok|]. split; [exact cx_ok|]. split; [exact tx_ok|].
  apply Forall_cons.
  { split; [now apply xs_str|]. do 2 eexists. split; [reflexivity|]. split; [discriminate|vm_compute; reflexivity]. }
  apply Forall_cons.
  { split; [apply xs_vec; [reflexivity|]; apply Forall_cons; [apply fix_xstorable; lia|constructor]|].
    do 2 eexists. split; [vm_compute; reflexivity|]. split; [discriminate|vm_compute; reflexivity]. }
  apply Forall_cons; [|apply Forall_nil].
  split; [xs_sym|]. do 2 eexists. split; [vm_compute; reflexivity|]. split; [discriminate|vm_compute; reflexivity].
Qed.
Print Assumptions C03_xtype_memory_refuted.
