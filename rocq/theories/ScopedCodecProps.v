(** * C81, C82: the dtype and xtype codecs on storable values, with the limits of C04-C06 and C55
    as hypotheses. *)
From Coq Require Import NArith ZArith List Bool Lia Permutation Sorted.
From Verif Require Import SortModel BytesModel BytesProofs ValueModel ValueProofs
  ChoicesModel ChoicesProofs DtypeModel DtypeProofs DtypeProofs2 DtypeProofs3 DtypeProps
  XtypeModel XtypeProofs XtypeProofs2 XtypeProofs3 XtypeProofs4 XtypeProofs5 XtypeProps.
From Verif Require BigintProofs BigintProps.
Import ListNotations.
Local Open Scope N_scope.

(** Dtypes of storable values: what is written is as long as the writer says, and is read back
    as it was, with any rest, one value or many, and whichever flags it was written
    with; no two values are written the same, nor one as the beginning of the other. *)
Theorem C81_dtypes : forall e c, env_ok e -> conf_ok c ->
  (forall x, storable e c x -> snd (write_dtype c x) = Z.of_nat (length (fst (write_dtype c x)))) /\
  (forall x rest, storable e c x -> read_dtype e (fst (write_dtype c x) ++ rest) = Rd x rest) /\
  (forall l rest, Forall (storable e c) l ->
    read_all e (length l) (flat_map (fun x => fst (write_dtype c x)) l ++ rest) = Some (l, rest)) /\
  (forall x y r s, storable e c x -> storable e c y ->
    fst (write_dtype c x) ++ r = fst (write_dtype c y) ++ s -> x = y /\ r = s) /\
  (forall c' x rest, conf_ok c' -> storable e c x -> storable e c' x ->
    read_dtype e (fst (write_dtype c' x) ++ rest) = Rd x rest).
Proof.
  intros e c E C. split; [intros x X; apply (C05_storable_partial e); assumption|].
  split; [intros; apply C04_round_trip_partial; assumption|].
  split; [intros; apply C04_stream_partial; assumption|].
  split; [intros x y r s X Y; apply (C04_prefix_free_partial e); assumption|].
  intros c' x rest C' X X'. apply C04_round_trip_partial; assumption.
Qed.
Example C81_dtypes_case : env_ok e0 /\ conf_ok c1 /\ storable e0 c1 sample
  /\ snd (write_dtype c1 sample) = 112%Z.
Proof.
  destruct C04_round_trip_case as (A & B & C & _). destruct C05_storable_case as (_ & D & _).
  split; [exact A|]. split; [exact B|]. split; [exact C|exact D].
Qed.
Print Assumptions C81_dtypes.

(** Xtypes of storable values, without a table of references or with one: what is written is
    read back as it was, with any rest, one value or many; with the table the writer had,
    to which it only adds at the end, and with every later table. *)
Theorem C82_xtypes : forall e c, xenv_ok e -> xconf_ok c ->
  (forall x tbl rest, xstorable e any x -> read_xtype e tbl (out (write_xtype e c x) None ++ rest) = XRd x rest) /\
  (forall x t rest, refs_ok t -> xstorable e (low_base e) x ->
    exists t' s, left (write_xtype e c x) (Some t) = Some t' /\ refs_ok t' /\ r_refs t' = r_refs t ++ s
      /\ forall more, N.of_nat (length (r_refs t' ++ more)) < 2 ^ 63 ->
         read_xtype e (Some (r_refs t' ++ more)) (out (write_xtype e c x) (Some t) ++ rest) = XRd x rest) /\
  (forall l old flags len max elts rest, Forall (xstorable e (low_base e)) l -> N.of_nat (length elts) <= len -> 0 < len ->
    exists t', snd (write_list e c l (Some (init_xrefs old flags len max elts))) = Some t'
      /\ (N.of_nat (length (r_refs t')) < 2 ^ 63 ->
          read_list e (Some (r_refs t')) (length l)
            (fst (write_list e c l (Some (init_xrefs old flags len max elts))) ++ rest) = Some (l, rest))).
Proof.
  intros e c E C. split; [intros; apply C06_plain_partial; assumption|].
  split; [intros; apply C06_refs_partial; assumption|]. intros; apply C06_history_partial; assumption.
Qed.
Example C82_xtypes_case : xenv_ok ex /\ xconf_ok cx /\ xstorable ex any sample /\ refs_ok tx /\ xstorable ex (low_base ex) sample.
Proof.
  destruct C06_plain_case as (A & B & C & _). destruct C06_refs_case as (D & E & _).
  repeat (split; [assumption|]). exact E.
Qed.
Print Assumptions C82_xtypes.
