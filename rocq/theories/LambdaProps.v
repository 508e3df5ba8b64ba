(* C124, C125: parameters, arguments and locals of lambdas *)

From Coq Require Import List Arith Bool ZArith Lia.
Import ListNotations.
From Verif Require Import LambdaModel LambdaSpec LambdaProofs.

(** * C124 *)

(** An argument list is accepted exactly if it is a list of symbols and of
    lists of one to three elements whose type expressions can be evaluated,
    ending in the empty list or in a symbol. *)
Theorem C124_grammar : forall tev arglist sync,
  (exists L, make_lambda tev arglist Nil sync = Ok L) <->
  (exists es tl, arglist = fold_right Pair tl es /\
     (tl = Nil \/ exists n, tl = Sym n) /\ Forall (spec_ok tev) es).
Proof.
  intros tev arglist sync.
  assert (S1 : forall arglist i fo vs,
    match scan_args tev arglist i fo vs with
    | Ok (tl, _, _, _) =>
        (exists es, arglist = fold_right Pair tl es /\ Forall (spec_ok tev) es) /\
        (forall a d, tl <> Pair a d)
    | _ => forall es tl, arglist = fold_right Pair tl es -> (forall a d, tl <> Pair a d) ->
             ~ Forall (spec_ok tev) es
    end).
  { clear. induction arglist as [| | | |elt _ rest IH| | | | | | | | | |]; intros i fo vs;
      try (cbn; split; [exists []; split; [reflexivity|constructor] | discriminate]).
    assert (BAD : ~ spec_ok tev elt -> forall es tl, Pair elt rest = fold_right Pair tl es ->
       (forall a d, tl <> Pair a d) -> ~ Forall (spec_ok tev) es).
    { intros NS es tl E NP F. destruct es as [|x es]; cbn in E.
      - now elim (NP elt rest).
      - inversion E; subst. inversion F; subst. now apply NS. }
    assert (GOOD : spec_ok tev elt -> forall i fo vs,
       match scan_args tev rest i fo vs with
       | Ok (tl, _, _, _) =>
        (exists es, Pair elt rest = fold_right Pair tl es /\ Forall (spec_ok tev) es) /\
        (forall a d, tl <> Pair a d)
       | _ => forall es tl, Pair elt rest = fold_right Pair tl es -> (forall a d, tl <> Pair a d) ->
             ~ Forall (spec_ok tev) es
       end).
    { intros SO i' fo' vs'. specialize (IH i' fo' vs').
      destruct (scan_args tev rest i' fo' vs') as [[[[tl k] f2] v2]| |].
      - destruct IH as [(es & E & F) NP]. split; [|exact NP].
        exists (elt :: es). split; [cbn; congruence | constructor; assumption].
      - intros es tl E NP F. destruct es as [|x es]; cbn in E; [now elim (NP elt rest)|].
        inversion E; subst. inversion F; subst. eapply IH; eauto.
      - intros es tl E NP F. destruct es as [|x es]; cbn in E; [now elim (NP elt rest)|].
        inversion E; subst. inversion F; subst. eapply IH; eauto. }
    destruct elt as [n| | | |a d| | | | | | | | | |];
      try (cbn [scan_args]; apply BAD; intro X; inversion X; fail).
    - cbn [scan_args]. apply GOOD. constructor.
    - cbn [scan_args pop_arg].
      destruct d as [| | | |e1 d2| | | | | | | | | |];
        try (cbn [pop_arg is_nil negb]; apply BAD; intro X; inversion X; fail).
      + cbn [pop_arg is_nil negb no_type]. apply GOOD. apply spec_1.
      + destruct d2 as [| | | |ty d3| | | | | | | | | |];
          try (cbn [pop_arg is_nil negb]; apply BAD; intro X; inversion X; fail).
        * cbn [pop_arg is_nil negb no_type]. apply GOOD. apply spec_2.
        * destruct d3;
            try (cbn [pop_arg is_nil negb]; apply BAD; intro X; inversion X; fail).
          cbn [pop_arg is_nil negb].
          destruct (no_type ty) eqn:NT.
          { apply GOOD. apply spec_3. destruct ty; try discriminate; auto. }
          destruct (tev ty) as [tv|] eqn:E.
          { apply GOOD. apply spec_3. left; congruence. }
          { apply BAD. intro X; inversion X; subst.
            destruct H0 as [Q|[Q|[Q|Q]]]; [congruence| | |]; subst; discriminate. } }
  specialize (S1 arglist 0 None novars). unfold make_lambda.
  destruct (scan_args tev arglist 0 None novars) as [[[[tl k] fo] vs]| |] eqn:E; cbn [bind].
  - destruct S1 as [(es & A & F) NP]. split.
    + intros [L H]. exists es, tl. split; [exact A|]. split; [|exact F].
      destruct tl; try discriminate; eauto.
    + intros (es' & tl' & A' & T' & F').
      assert (X : tl = tl').
      { assert (NP' : forall a d, tl' <> Pair a d)
          by (destruct T' as [-> | [n ->]]; discriminate).
        rewrite A in A'. clear - A' NP NP'. revert es' A'.
        induction es as [|x es IH]; intros es' A'; destruct es' as [|y es']; cbn in A'.
        - exact A'.
        - now elim (NP y (fold_right Pair tl' es')).
        - now elim (NP' x (fold_right Pair tl es)).
        - inversion A'. eauto. }
      subst tl'. destruct T' as [-> | [n ->]]; eexists; reflexivity.
  - split; [intros [L H]; discriminate|].
    intros (es & tl & A & T & F). exfalso. eapply S1; eauto.
    destruct T as [-> | [n ->]]; discriminate.
  - split; [intros [L H]; discriminate|].
    intros (es & tl & A & T & F). exfalso. eapply S1; eauto.
    destruct T as [-> | [n ->]]; discriminate.
Qed.
Print Assumptions C124_grammar.

Example C124_grammar_case :
  (exists L, make_lambda Some
     (Pair (Sym 5) (Pair (listof [Sym 6; Num 1; Sym 9]) (Sym 7))) Nil false = Ok L) /\
  ~ (exists L, make_lambda Some (listof [Sym 5; Num 3]) Nil false = Ok L) /\
  ~ (exists L, make_lambda (fun _ => None) (listof [listof [Sym 6; Num 1; Sym 9]]) Nil false = Ok L).
Proof.
  split; [eexists; reflexivity|].
  split; intros [L H]; discriminate.
Qed.

Lemma scan_defs_forms : forall forms vs,
  forms <> [] -> Forall plain_form forms ->
  exists vs', scan_defs (listof forms) vs = Ok vs' /\
    v_args vs' = v_args vs ++ map Sym (flat_map def_name (leading forms)).
Proof.
  induction forms as [|f forms IH]; intros vs NE P; [congruence|].
  inversion P as [|? ? [PL PD] P2]; subst.
  change (listof (f :: forms)) with (Pair f (listof forms)).
  cbn [leading].
  destruct (is_pair f) eqn:IP.
  2:{ exists vs. cbn [flat_map map]. rewrite app_nil_r.
      destruct f; try discriminate IP; split; reflexivity. }
  destruct f as [| | | |a d| | | | | | | | | |]; try discriminate IP.
  assert (FV : exists vs1, form_vars (Pair a d) vs = Ok vs1 /\
    v_args vs1 = v_args vs ++ map Sym (def_name (Pair a d))).
  { assert (D : def_name (Pair a d) = [] -> form_vars (Pair a d) vs = Ok vs ->
      exists vs1, form_vars (Pair a d) vs = Ok vs1 /\
        v_args vs1 = v_args vs ++ map Sym (def_name (Pair a d))).
    { intros A B. exists vs. rewrite A, app_nil_r. auto. }
    destruct a as [n| | | | | | | | | | | | | |]; try (apply D; reflexivity).
    destruct n as [|[|[|n]]]; try (apply D; reflexivity).
    - destruct (PL d) as [X _]. now elim X.
    - destruct (PL d) as [_ X]. now elim X.
    - specialize (PD d eq_refl). cbn [form_vars]. unfold define_var.
      destruct d as [| | | |s d2| | | | | | | | | |]; try (cbn in PD; congruence).
      cbn [get_arg].
      destruct s as [n| | | |s1 s2| | | | | | | | | |]; try (cbn in PD; congruence).
      + eexists; split; reflexivity.
      + destruct s1; try (cbn in PD; congruence).
        eexists; split; reflexivity. }
  destruct FV as (vs1 & F1 & F2).
  cbn [scan_defs]. rewrite F1. cbn [bind].
  destruct forms as [|g forms].
  - exists vs1. split; [reflexivity|]. cbn [leading flat_map]. rewrite F2, app_nil_r. reflexivity.
  - destruct (IH vs1 ltac:(discriminate) P2) as (vs' & A & B).
    exists vs'. split; [exact A|].
    rewrite B, F2. cbn [flat_map]. rewrite map_app, app_assoc. reflexivity.
Qed.

Lemma skip_docs_forms : forall forms, skip_docs (listof forms) = listof (undoc forms).
Proof.
  induction forms as [|x forms IH]; [reflexivity|].
  destruct forms as [|y forms].
  - destruct x; reflexivity.
  - cbn [undoc]. destruct x; try reflexivity. exact IH.
Qed.

Lemma undoc_incl : forall forms, Forall plain_form forms -> Forall plain_form (undoc forms).
Proof.
  induction forms as [|x forms IH]; intros P; [constructor|].
  inversion P; subst. destruct forms as [|y forms]; [exact P|].
  cbn [undoc]. destruct (is_str x); [now apply IH | exact P].
Qed.

Lemma undoc_nil : forall forms, undoc forms = [] -> forms = [].
Proof.
  induction forms as [|x forms IH]; intros E; [reflexivity|].
  destruct forms as [|y forms]; [discriminate|].
  cbn [undoc] in E. destruct (is_str x); [|discriminate]. discriminate (IH E).
Qed.

Lemma scan_body_forms : forall forms vs, Forall plain_form forms ->
  exists e vs' s, scan_body (listof forms) vs = Ok (e, vs', s) /\
    v_args vs' = v_args vs ++ map Sym (locals forms).
Proof.
  intros forms vs P. unfold scan_body. rewrite skip_docs_forms. unfold locals.
  pose proof (undoc_incl _ P) as P2. pose proof (undoc_nil forms) as UN.
  destruct forms as [|x forms].
  { cbn. do 3 eexists. split; [reflexivity|]. now rewrite app_nil_r. }
  destruct (undoc (x :: forms)) as [|y l]; [discriminate (UN eq_refl)|].
  change (listof (x :: forms)) with (Pair x (listof forms)).
  destruct l as [|z l].
  - cbn. do 3 eexists. split; [reflexivity|]. now rewrite app_nil_r.
  - change (listof (y :: z :: l)) with (Pair y (Pair z (listof l))).
    cbn [is_nil].
    destruct (scan_defs_forms (y :: z :: l) vs ltac:(discriminate) P2) as (vs' & A & B).
    change (listof (y :: z :: l)) with (Pair y (Pair z (listof l))) in A.
    rewrite A. cbn [bind]. do 3 eexists. split; [reflexivity|exact B].
Qed.

(** A lambda can be made from written parameters and a body without (local
    ...) forms exactly if the parameters' type expressions can be evaluated;
    its variables are the parameters, the rest parameter and the names which
    the body's leading definitions define, in this order. *)
Theorem C124_made : forall tev fs r forms sync,
  Forall plain_formal fs -> Forall plain_form forms ->
  ((exists L, make_lambda tev (write_params fs r) (listof forms) sync = Ok L) <->
   Forall (fun f => match f_type f with Some t => tev t <> None | None => True end) fs) /\
  (forall L, make_lambda tev (write_params fs r) (listof forms) sync = Ok L ->
     l_vars L = map Sym (names fs r ++ locals forms)).
Proof.
  intros tev fs r forms sync P B.
  assert (X : Forall (typed tev) fs -> exists L,
    make_lambda tev (write_params fs r) (listof forms) sync = Ok L /\
    l_vars L = map Sym (names fs r ++ locals forms)).
  { intros T. unfold make_lambda. rewrite scan_args_write by assumption. cbn [bind].
    destruct r as [n|]; cbn [write_rest].
    - destruct (scan_body_forms forms
        (push (ext novars (map (fun f => Sym (f_name f)) fs) (map initof fs) (map (typeof tev) fs)) (Sym n) Nil Fals) B)
        as (e & vs' & s & E & V).
      rewrite E. cbn [bind]. eexists. split; [reflexivity|]. cbn [l_vars].
      rewrite V. unfold names. cbn. rewrite !map_app, map_map. reflexivity.
    - destruct (scan_body_forms forms
        (ext novars (map (fun f => Sym (f_name f)) fs) (map initof fs) (map (typeof tev) fs)) B)
        as (e & vs' & s & E & V).
      rewrite E. cbn [bind]. eexists. split; [reflexivity|]. cbn [l_vars].
      rewrite V. unfold names. cbn. rewrite app_nil_r, !map_app, map_map. reflexivity. }
  split.
  - split.
    + intros [L H]. exact (proj1 (make_made tev fs r _ _ _ P H)).
    + intros T. destruct (X T) as (L & H & _). eauto.
  - intros L H. destruct (X (proj1 (make_made tev fs r _ _ _ P H))) as (L' & H' & V). congruence.
Qed.
Print Assumptions C124_made.

Definition ex_params : list formal :=
  [ {| f_name := 10; f_kind := KReq; f_type := None |};
    {| f_name := 11; f_kind := KReq; f_type := Some (Sym 20) |};
    {| f_name := 12; f_kind := KOpt (Num 7); f_type := None |} ].
(* ("doc" (define x 1) (define (f) 2) 3 (define z 4)) *)
Definition ex_body : list lisp :=
  [ Str 0; listof [Sym 2; Sym 14; Num 1]; listof [Sym 2; listof [Sym 15]; Num 2];
    Num 3; listof [Sym 2; Sym 16; Num 4] ].

Example C124_made_case :
  Forall plain_formal ex_params /\ Forall plain_form ex_body /\
  names ex_params (Some 13) ++ locals ex_body = [10; 11; 12; 13; 14; 15] /\
  exists L, make_lambda Some (write_params ex_params (Some 13)) (listof ex_body) false = Ok L.
Proof.
  split; [repeat constructor; try discriminate|].
  split.
  { repeat (apply Forall_cons; [split; [intros l; split; discriminate|intros l E; cbn; discriminate]|]).
    constructor. }
  split; [reflexivity|]. eexists; reflexivity.
Qed.

(** Calling a lambda whose required parameters come first runs its body
    exactly if there are at least as many arguments as required parameters, no
    more than parameters unless there is a rest parameter, the lambda's lock
    is free if it is synchronized, and every parameter has a value of its
    type. *)
Theorem C124_runs : forall tev dev check req opt r body sync L args held,
  Forall plain_formal (req ++ opt) ->
  Forall (fun f => required f = true) req -> Forall (fun f => required f = false) opt ->
  make_lambda tev (write_params (req ++ opt) r) body sync = Ok L ->
  ((exists env h, call dev check L args held = (Runs env, h)) <->
   length req <= length args /\ (r = None -> length args <= length req + length opt) /\
   (l_sync L = true -> held = false) /\
   exists vs, binds tev dev check (req ++ opt) args vs).
Proof.
  intros tev dev check req opt r body sync L args held P R O MK.
  destruct (make_made tev _ _ _ _ _ P MK) as (T & ls & M).
  assert (MIN : l_min L = length req).
  { rewrite (m_min _ _ _ _ _ M).
    pose proof (firstopt_split req opt 0 R O) as X. rewrite !Nat.add_0_l in X. exact X. }
  pose proof (setup_iff tev dev check _ _ _ _ P T M args) as SI.
  assert (AR : arity_ok L (length args) = true <->
    length req <= length args /\ (r = None -> length args <= length req + length opt)).
  { unfold arity_ok. rewrite MIN, (m_arity _ _ _ _ _ M), app_length.
    destruct (Nat.ltb_spec (length args) (length req)).
    - split; [discriminate|]. intros [A _]; lia.
    - destruct r as [n|].
      + split; [intros _; split; [lia|discriminate]|reflexivity].
      + rewrite negb_true_iff, Nat.ltb_ge. split; [intros; split; auto|]. intros [_ A]; auto. }
  unfold call. destruct (arity_ok L (length args)) eqn:AO; cbn [negb].
  - destruct (proj1 AR eq_refl) as [A1 A2].
    destruct (l_sync L) eqn:SY; destruct held; cbn [andb].
    1:{ split; [intros (env & h & Q); discriminate|]. intros (_ & _ & X & _). now specialize (X eq_refl). }
    all: destruct (setup dev check L args) as [vals| |] eqn:ST.
    all: try (split; [intros _; destruct (proj1 (SI vals) eq_refl) as (l & B & _); repeat split; eauto; discriminate
                     |intros _; eauto]).
    all: split; [intros (env & h & Q); discriminate|];
         intros (_ & _ & _ & vs & B);
         pose proof (proj2 (SI _) (ex_intro _ vs (conj B eq_refl))); discriminate.
  - split; [intros (env & h & Q); discriminate|].
    intros (A1 & A2 & _). pose proof (proj2 AR (conj A1 A2)). discriminate.
Qed.
Print Assumptions C124_runs.

(** In the environment the body runs in, each parameter has the value which
    its argument, or its default expression evaluated in the lambda's own
    environment, gives it; the rest parameter is the list of the arguments
    beyond the parameters; every other variable of the lambda is there but
    unbound; no other name is there. *)
Theorem C124_values : forall tev dev check fs r body sync L args held env h,
  Forall plain_formal fs -> NoDup (names fs r) ->
  make_lambda tev (write_params fs r) body sync = Ok L ->
  call dev check L args held = (Runs env, h) ->
  exists vs, binds tev dev check fs args vs /\
    (forall i f v, nth_error fs i = Some f -> nth_error vs i = Some v ->
       find (f_name f) env = Some v) /\
    (forall n, r = Some n -> find n env = Some (listof (skipn (length fs) args))) /\
    (forall n, ~ In n (names fs r) -> In (Sym n) (l_vars L) -> find n env = Some Unbound) /\
    (forall n, ~ In (Sym n) (l_vars L) -> find n env = None).
Proof.
  intros tev dev check fs r body sync L args held env h P ND MK C.
  destruct (make_made tev _ _ _ _ _ P MK) as (T & ls & M).
  unfold call in C.
  destruct (negb (arity_ok L (length args))); [discriminate|].
  destruct (l_sync L && held); [discriminate|].
  destruct (setup dev check L args) as [vals| |] eqn:ST; try discriminate.
  inversion C as [[C1 C2]]; clear C C2.
  destruct (proj1 (setup_iff tev dev check _ _ _ _ P T M args vals) ST) as (vs & B & ->).
  exists vs. split; [exact B|].
  pose proof (binds_length tev dev check _ _ _ B) as BL.
  rewrite (m_vars _ _ _ _ _ M), app_assoc.
  assert (LE : length (names fs r) = length (vs ++ rest_values fs r args)).
  { rewrite names_length, app_length, BL. unfold rest_values. destruct r; reflexivity. }
  split; [|split; [|split]].
  - intros i f v F V. eapply find_app_l with (i := i).
    + exact LE.
    + exact ND.
    + unfold names. rewrite nth_error_app1.
      * now apply map_nth_error.
      * rewrite map_length. apply nth_error_Some. congruence.
    + rewrite nth_error_app1; [exact V|]. apply nth_error_Some. congruence.
  - intros n ->. eapply find_app_l with (i := length fs).
    + exact LE.
    + exact ND.
    + unfold names. rewrite nth_error_app2; rewrite map_length; [|lia].
      rewrite Nat.sub_diag. reflexivity.
    + rewrite nth_error_app2; [|lia]. rewrite BL, Nat.sub_diag. reflexivity.
  - intros n NI IN. rewrite find_app_r by assumption. rewrite find_unbound.
    destruct (in_dec Nat.eq_dec n ls) as [_|NL]; [reflexivity|].
    apply in_map_iff in IN. destruct IN as (m & E & IN). inversion E; subst m.
    apply in_app_or in IN. tauto.
  - intros n NI.
    assert (NI2 : ~ In n (names fs r ++ ls)).
    { intro X. apply NI. now apply in_map. }
    rewrite find_app_r; [|exact LE|].
    + rewrite find_unbound. destruct (in_dec Nat.eq_dec n ls) as [X|_]; [|reflexivity].
      elim NI2. apply in_or_app; auto.
    + intro X. apply NI2. apply in_or_app; auto.
Qed.
Print Assumptions C124_values.

(* Three parameters and a rest parameter given five arguments, one of them a
   quoted choice, and given two; the type of the second is checked. *)
Definition ex_check (v t : lisp) : bool :=
  match v with Num _ => true | _ => false end.
Example C124_values_case :
  exists L, make_lambda Some (write_params ex_params (Some 13)) (listof ex_body) false = Ok L /\
   NoDup (names ex_params (Some 13)) /\
   (exists env, call Some ex_check L [QCh (Sym 3); Num 1; Num 2; Num 3; Num 4] false = (Runs env, false) /\
     find 10 env = Some (Sym 3) /\ find 12 env = Some (Num 2) /\
     find 13 env = Some (listof [Num 3; Num 4]) /\ find 15 env = Some Unbound) /\
   (exists env, call Some ex_check L [Num 0; Num 1] false = (Runs env, false) /\
     find 12 env = Some (Num 7) /\ find 13 env = Some Nil /\ find 16 env = None) /\
   call Some ex_check L [Num 0] false = (Fail, false) /\
   call Some ex_check L [Num 0; Str 1] false = (Fail, false).
Proof.
  eexists. split; [reflexivity|].
  split; [repeat constructor; cbn; intuition discriminate|].
  split; [eexists; repeat split; reflexivity|].
  split; [eexists; repeat split; reflexivity|].
  split; reflexivity.
Qed.

Example C124_runs_case :
  (exists a b, ex_params = a ++ b /\ length a = 2 /\
    Forall (fun f => required f = true) a /\ Forall (fun f => required f = false) b) /\
  exists L, make_lambda Some (write_params ex_params None) (listof ex_body) true = Ok L /\
   l_sync L = true /\
   call Some ex_check L [Num 0; Num 1; Num 2] false =
     (Runs [(Sym 10, Num 0); (Sym 11, Num 1); (Sym 12, Num 2); (Sym 14, Unbound); (Sym 15, Unbound)], false) /\
   call Some ex_check L [Num 0; Num 1; Num 2; Num 3] false = (Fail, false) /\
   call Some ex_check L [Num 0; Num 1; Num 2] true = (Wait, true).
Proof.
  split.
  - exists (firstn 2 ex_params), (skipn 2 ex_params). repeat split; repeat constructor.
  - eexists. split; [reflexivity|]. repeat split.
Qed.

(** * C125 *)

(** If the required parameters come first and no argument is void or
    #default, a body which runs finds every required parameter bound to its
    argument, taken out of its quotes if it is a quoted choice. *)
Theorem C125_required_partial : forall tev dev check req opt r body sync L args held env h,
  Forall plain_formal (req ++ opt) -> NoDup (names (req ++ opt) r) ->
  Forall (fun f => required f = true) req -> Forall (fun f => required f = false) opt ->
  make_lambda tev (write_params (req ++ opt) r) body sync = Ok L ->
  Forall (fun a => a <> Void /\ a <> Dflt) args ->
  call dev check L args held = (Runs env, h) ->
  forall i f, nth_error req i = Some f ->
  exists a, nth_error args i = Some a /\
    (find (f_name f) env = Some a \/ exists v, a = QCh v /\ find (f_name f) env = Some v).
Proof.
  intros tev dev check req opt r body sync L args held env h P ND R O MK AV C i f F.
  pose proof (proj1 (C124_runs tev dev check req opt r body sync L args held P R O MK)
                (ex_intro _ env (ex_intro _ h C))) as (LE & _).
  destruct (C124_values tev dev check _ r body sync L args held env h P ND MK C)
    as (vs & B & V & _).
  assert (LI : i < length req) by (apply nth_error_Some; congruence).
  destruct (nth_error args i) as [a|] eqn:A.
  2:{ apply nth_error_None in A. lia. }
  exists a. split; [reflexivity|].
  assert (F' : nth_error (req ++ opt) i = Some f) by (rewrite nth_error_app1; assumption).
  assert (X : exists v, nth_error vs i = Some v /\ value_of dev f (Some a) v).
  { clear - B F' A. revert i F' A. induction B; intros i F' A.
    - destruct i; discriminate.
    - destruct i as [|i]; cbn in F', A |- *.
      + inversion F'; inversion A; subst. eauto.
      + exact (IHB i F' A).
    - destruct i; discriminate. }
  destruct X as (v & VI & VO). rewrite (V i f v F' VI).
  rewrite Forall_forall in AV. destruct (AV a (nth_error_In _ _ A)) as [N1 N2].
  inversion VO; subst; auto; try congruence; eauto.
Qed.
Print Assumptions C125_required_partial.

Example C125_required_case :
  exists L env, make_lambda Some (write_params ex_params None) (listof ex_body) false = Ok L /\
   call Some ex_check L [QCh (Num 4); Num 1] false = (Runs env, false) /\
   find 10 env = Some (Num 4) /\ find 11 env = Some (Num 1).
Proof. do 2 eexists. repeat split. Qed.

(** A call leaves the lock of a lambda free if its body ran; a lambda which is
    not synchronized does not touch it; arguments refused for their number
    leave it as it was. *)
Theorem C125_lock_partial : forall dev check L args held o h,
  call dev check L args held = (o, h) ->
  (l_sync L = false -> h = held /\ o <> Wait) /\
  (l_sync L = true -> forall env, o = Runs env -> held = false /\ h = false) /\
  (length args < l_min L -> o = Fail /\ h = held) /\
  (forall a, l_arity L = Some a -> a < length args -> o = Fail /\ h = held).
Proof.
  intros dev check L args held o h C. unfold call in C.
  destruct (arity_ok L (length args)) eqn:A; cbn [negb] in C.
  - assert (A1 : length args < l_min L -> False).
    { intros Q. unfold arity_ok in A. apply Nat.ltb_lt in Q. rewrite Q in A. discriminate. }
    assert (A2 : forall a, l_arity L = Some a -> a < length args -> False).
    { intros a E Q. unfold arity_ok in A. rewrite E in A. apply Nat.ltb_lt in Q. rewrite Q in A.
      destruct (length args <? l_min L); discriminate. }
    refine (conj _ (conj _ (conj (fun q => False_ind _ (A1 q)) (fun a q1 q2 => False_ind _ (A2 a q1 q2))))).
    + intros S1. rewrite S1 in C. cbn [andb] in C.
      destruct (setup dev check L args); inversion C; split; congruence.
    + intros S1 env ->. rewrite S1 in C. destruct held; cbn [andb] in C; [discriminate|].
      destruct (setup dev check L args); inversion C; auto.
  - inversion C; subst. repeat split; try reflexivity; congruence.
Qed.
Print Assumptions C125_lock_partial.

Example C125_lock_case :
  exists L, make_lambda Some (write_params ex_params None) (listof ex_body) true = Ok L /\
   snd (call Some ex_check L [Num 0; Num 1] false) = false /\
   call Some ex_check L [Num 0] true = (Fail, true).
Proof. eexists. repeat split. Qed.

(** A required parameter after an optional one need not be given: the body of
    (lambda ((x 1) y) ...) runs when called without arguments, with y void. *)
Theorem C125_optional_first_refuted :
  exists fs L env, make_lambda Some (write_params fs None) Nil false = Ok L /\
    length (filter required fs) = 1 /\
    call Some (fun _ _ => true) L [] false = (Runs env, false) /\
    exists f, In f fs /\ required f = true /\ find (f_name f) env = Some Void.
Proof.
  exists [ {| f_name := 10; f_kind := KOpt (Num 1); f_type := None |};
           {| f_name := 11; f_kind := KReq; f_type := None |} ].
  do 2 eexists. split; [reflexivity|]. split; [reflexivity|]. split; [reflexivity|].
  eexists. split; [right; left; reflexivity|]. split; reflexivity.
Qed.
Print Assumptions C125_optional_first_refuted.

(** A synchronized lambda called with an argument of the wrong type leaves its
    lock held: every later call with enough arguments waits for ever. *)
Theorem C125_lock_refuted :
  exists L args, call Some ex_check L args false = (Fail, true) /\
    (exists env, call Some ex_check L [Num 1] false = (Runs env, false)) /\
    call Some ex_check L [Num 1] true = (Wait, true) /\
    make_lambda Some (write_params [ {| f_name := 10; f_kind := KReq; f_type := Some (Sym 20) |} ] None)
      Nil true = Ok L.
Proof.
  eexists. exists [Str 0]. refine (conj _ (conj _ (conj _ eq_refl))); try reflexivity.
  eexists; reflexivity.
Qed.
Print Assumptions C125_lock_refuted.

(** So does one whose default expression fails. *)
Theorem C125_lock_default_refuted :
  exists L, make_lambda Some
      (write_params [ {| f_name := 10; f_kind := KOpt (Sym 99); f_type := None |} ] None) Nil true = Ok L /\
    call (fun _ => None) ex_check L [] false = (Fail, true) /\
    call (fun _ => None) ex_check L [Num 1] true = (Wait, true).
Proof. eexists. repeat split. Qed.
Print Assumptions C125_lock_default_refuted.

(** A quoted choice among the arguments for the rest parameter stays quoted,
    where one for a parameter is taken out of its quotes. *)
Theorem C125_rest_quoted_refuted :
  exists L env, make_lambda Some
      (write_params [ {| f_name := 10; f_kind := KReq; f_type := None |} ] (Some 11)) Nil false = Ok L /\
    call Some ex_check L [QCh (Num 1); QCh (Num 1)] false = (Runs env, false) /\
    find 10 env = Some (Num 1) /\ find 11 env = Some (listof [QCh (Num 1)]).
Proof. do 2 eexists. repeat split. Qed.
Print Assumptions C125_rest_quoted_refuted.

(** A body with the form (local a) makes the scan of the body read the rest of
    the empty list. *)
Theorem C125_local_crash_refuted : forall tev n rest sync,
  make_lambda tev Nil (Pair (listof [s_local; Sym n]) (Pair (Num 1) rest)) sync = Crash.
Proof. reflexivity. Qed.
Print Assumptions C125_local_crash_refuted.

(** (local a b c d) makes a and c local, but not b and d. *)
Theorem C125_local_skips_refuted :
  exists L, make_lambda Some Nil
      (listof [listof [s_local; Sym 10; Sym 11; Sym 12; Sym 13]; Num 1]) false = Ok L /\
    l_vars L = [Sym 10; Sym 12].
Proof. eexists. split; reflexivity. Qed.
Print Assumptions C125_local_skips_refuted.

(** A definition is not made local in a body which starts with an attribute
    table, in one with a form which is not a pair before it, or in a body of
    its own. *)
Theorem C125_define_refuted :
  let def := listof [s_define; Sym 10; Num 1] in
  Forall (fun body => exists L, make_lambda Some Nil (listof body) false = Ok L /\ l_vars L = [])
    [ [Map false; def; Sym 10]; [Num 0; def; Sym 10]; [def] ] /\
  exists L, make_lambda Some Nil (listof [def; Sym 10]) false = Ok L /\ l_vars L = [Sym 10].
Proof.
  intros def. split; [|eexists; split; reflexivity].
  repeat constructor; eexists; split; reflexivity.
Qed.
Print Assumptions C125_define_refuted.

(** A parameter's name need not be a symbol if it is written as a list, and
    two parameters may have the same name; the second cannot be referred to. *)
Theorem C125_names_refuted :
  (exists L, make_lambda Some (listof [listof [Num 5; Num 1]]) Nil false = Ok L /\ l_vars L = [Num 5]) /\
  exists L env, make_lambda Some (listof [Sym 10; Sym 10]) Nil false = Ok L /\
    call Some ex_check L [Num 1; Num 2] false = (Runs env, false) /\ find 10 env = Some (Num 1).
Proof. split; [eexists; split; reflexivity|]. do 2 eexists. repeat split. Qed.
Print Assumptions C125_names_refuted.
