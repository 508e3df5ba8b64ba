(* Lemmas for LambdaProps.v *)

From Coq Require Import List Arith Bool ZArith Lia.
Import ListNotations.
From Verif Require Import LambdaModel LambdaSpec.

Section Proofs.
  Variable tev : lisp -> option lisp.
  Variable dev : lisp -> option lisp.
  Variable check : lisp -> lisp -> bool.

  Definition initof (f : formal) : lisp :=
    match f_kind f with KOpt e => e | _ => Void end.
  Definition typeof (f : formal) : lisp :=
    match f_type f with
    | None => Fals
    | Some t => match tev t with Some tv => tv | None => Fals end
    end.
  Definition typed (f : formal) : Prop :=
    match f_type f with Some t => tev t <> None | None => True end.

  Fixpoint firstopt (fs : list formal) (i : nat) (fo : option nat) : option nat :=
    match fs with
    | [] => fo
    | f :: r =>
        firstopt r (S i)
          (if required f then fo else match fo with None => Some i | _ => fo end)
    end.

  Definition ext (vs : vars) (a i t : list lisp) : vars :=
    {| v_args := v_args vs ++ a; v_inits := v_inits vs ++ i; v_types := v_types vs ++ t |}.

  Lemma ext_nil : forall vs, ext vs [] [] [] = vs.
  Proof. intros [a i t]; unfold ext; cbn; now rewrite !app_nil_r. Qed.

  Lemma push_ext : forall vs a i t l1 l2 l3,
    ext (push vs a i t) l1 l2 l3 = ext vs (a :: l1) (i :: l2) (t :: l3).
  Proof. intros; unfold ext, push; cbn; now rewrite <- !app_assoc. Qed.

  Lemma scan_args_write : forall fs r i fo vs,
    Forall plain_formal fs -> Forall typed fs ->
    scan_args tev (write_params fs r) i fo vs =
    Ok (write_rest r, i + length fs, firstopt fs i fo,
        ext vs (map (fun f => Sym (f_name f)) fs) (map initof fs) (map typeof fs)).
  Proof.
    induction fs as [|f fs IH]; intros r i fo vs P T.
    - cbn. rewrite ext_nil, Nat.add_0_r. destruct r; reflexivity.
    - inversion P as [|? ? P1 P2]; inversion T as [|? ? T1 T2]; subst.
      change (write_params (f :: fs) r) with (Pair (write_formal f) (write_params fs r)).
      cbn [length]. rewrite Nat.add_succ_r, <- Nat.add_succ_l.
      destruct f as [n k ty]; unfold typed in T1; cbn in T1.
      destruct P1 as [K1 K2]; cbn in K1, K2.
      destruct ty as [t|].
      + destruct K2 as (n1 & n2 & n3).
        assert (NT : no_type t = false) by (destruct t; try reflexivity; congruence).
        destruct (tev t) as [tv|] eqn:E; [|congruence].
        assert (X : forall k', typeof {| f_name := n; f_kind := k'; f_type := Some t |} = tv)
          by (intros; unfold typeof; cbn; now rewrite E).
        destruct k as [|e|]; cbn -[ext]; rewrite NT, E, ?X, IH by assumption;
          rewrite push_ext; try reflexivity.
        assert (R : is_req e = false) by (destruct K1 as (? & ? & ?); destruct e; try reflexivity; congruence).
        rewrite R. reflexivity.
      + destruct k as [|e|]; cbn -[ext]; rewrite IH by assumption;
          rewrite push_ext; try reflexivity.
        assert (R : is_req e = false) by (destruct K1 as (? & ? & ?); destruct e; try reflexivity; congruence).
        rewrite R. reflexivity.
  Qed.

  Lemma scan_args_untyped : forall fs r i fo vs,
    Forall plain_formal fs -> ~ Forall typed fs ->
    scan_args tev (write_params fs r) i fo vs = Err.
  Proof.
    induction fs as [|f fs IH]; intros r i fo vs P T.
    - exfalso; apply T; constructor.
    - inversion P as [|? ? P1 P2]; subst.
      change (write_params (f :: fs) r) with (Pair (write_formal f) (write_params fs r)).
      destruct f as [n k ty]. destruct P1 as [K1 K2]; cbn in K1, K2.
      destruct ty as [t|].
      + destruct K2 as (n1 & n2 & n3).
        assert (NT : no_type t = false) by (destruct t; try reflexivity; congruence).
        destruct (tev t) as [tv|] eqn:E.
        * assert (T' : ~ Forall typed fs).
          { intro A; apply T; constructor; [|exact A]. unfold typed; cbn; congruence. }
          destruct k as [|e|]; cbn; rewrite NT, E; apply IH; assumption.
        * destruct k as [|e|]; cbn; rewrite NT, E; reflexivity.
      + assert (T' : ~ Forall typed fs).
        { intro A; apply T; constructor; [|exact A]. exact I. }
        destruct k as [|e|]; cbn; apply IH; assumption.
  Qed.

  Lemma firstopt_some : forall fs i x, firstopt fs i (Some x) = Some x.
  Proof.
    induction fs as [|f fs IH]; intros i x; cbn; [reflexivity|].
    destruct (required f); apply IH.
  Qed.

  Lemma firstopt_split : forall a b i,
    Forall (fun f => required f = true) a ->
    Forall (fun f => required f = false) b ->
    match firstopt (a ++ b) i None with Some x => x | None => i + length (a ++ b) end
    = i + length a.
  Proof.
    induction a as [|f a IH]; intros b i A B.
    - cbn [app]. destruct b as [|g b]; [reflexivity|].
      inversion B; subst. cbn. rewrite H1, firstopt_some. lia.
    - inversion A; subst. cbn [app firstopt length]. rewrite H1.
      specialize (IH b (S i) H2 B). cbn [length] in *.
      destruct (firstopt (a ++ b) (S i) None); lia.
  Qed.

  (* Locals *)
  Lemma local_vars_ext : forall l vs vs',
    local_vars l vs = Ok vs' ->
    exists ls ts, length ts = length ls /\
      vs' = ext vs (map Sym ls) (repeat Void (length ls)) ts.
  Proof.
    fix IH 1. intros l vs vs' E.
    destruct l as [| | | |head rest| | | | | | | | | |]; cbn in E;
      try (inversion E; subst; exists [], []; split; [reflexivity|]; now rewrite ext_nil).
    destruct head as [n| | | |a d| | | | | | | | | |]; try discriminate.
    - destruct rest as [| | | |h2 rest2| | | | | | | | | |]; try discriminate.
      destruct (IH _ _ _ E) as (ls & ts & L & X).
      exists (n :: ls), (Fals :: ts). split; [cbn; lia|].
      rewrite X. cbn [map length repeat]. now rewrite push_ext.
    - destruct a as [n| | | | | | | | | | | | | |]; try discriminate.
      destruct (IH _ _ _ E) as (ls & ts & L & X).
      eexists (n :: ls), (_ :: ts). split; [cbn; lia|].
      rewrite X. cbn [map length repeat]. now rewrite push_ext.
  Qed.

  Lemma ext_one : forall vs a i t, push vs a i t = ext vs [a] [i] [t].
  Proof. reflexivity. Qed.

  Lemma form_vars_ext : forall l vs vs',
    form_vars l vs = Ok vs' ->
    exists ls ts, length ts = length ls /\
      vs' = ext vs (map Sym ls) (repeat Void (length ls)) ts.
  Proof.
    intros l vs vs' E.
    assert (D : forall vs1, Ok vs = Ok vs1 -> exists ls ts, length ts = length ls /\
      vs1 = ext vs (map Sym ls) (repeat Void (length ls)) ts).
    { intros vs1 Q; inversion Q; subst. exists [], []; split; [reflexivity|]. now rewrite ext_nil. }
    destruct l as [| | | |a d| | | | | | | | | |]; try exact (D _ E).
    destruct a as [n| | | | | | | | | | | | | |]; try exact (D _ E).
    destruct n as [|[|[|n]]]; try exact (D _ E);
      try (exact (local_vars_ext _ _ _ E)).
    cbn [form_vars] in E. unfold define_var in E.
    destruct (get_arg (Pair (Sym 2) d) 1) as [n| | | |a1 d1| | | | | | | | | |] eqn:G;
      try discriminate.
    - inversion E; subst. exists [n], [Fals]; split; reflexivity.
    - destruct a1 as [n| | | | | | | | | | | | | |]; try discriminate.
      inversion E; subst. exists [n], [Fals]; split; reflexivity.
  Qed.

  Lemma ext_ext : forall vs a i t a2 i2 t2,
    ext (ext vs a i t) a2 i2 t2 = ext vs (a ++ a2) (i ++ i2) (t ++ t2).
  Proof. intros; unfold ext; cbn; now rewrite <- !app_assoc. Qed.

  Lemma scan_defs_ext : forall l vs vs',
    scan_defs l vs = Ok vs' ->
    exists ls ts, length ts = length ls /\
      vs' = ext vs (map Sym ls) (repeat Void (length ls)) ts.
  Proof.
    induction l as [| | | |def _ rest IH| | | | | | | | | |]; intros vs vs' E; try discriminate.
    assert (D : forall vs1, Ok vs = Ok vs1 -> exists ls ts, length ts = length ls /\
      vs1 = ext vs (map Sym ls) (repeat Void (length ls)) ts).
    { intros vs1 Q; inversion Q; subst. exists [], []; split; [reflexivity|]. now rewrite ext_nil. }
    destruct def as [| | | |a d| | | | | | | | | |]; try exact (D _ E).
    cbn [scan_defs] in E.
    destruct (form_vars (Pair a d) vs) as [vs1| |] eqn:F; try discriminate.
    cbn [bind] in E.
    destruct (form_vars_ext _ _ _ F) as (ls & ts & L & X).
    assert (R : rest = Nil \/ scan_defs rest vs1 = Ok vs')
      by (destruct rest; auto).
    destruct R as [-> | R].
    - inversion E; subst. exists ls, ts; auto.
    - destruct (IH _ _ R) as (ls2 & ts2 & L2 & X2).
      exists (ls ++ ls2), (ts ++ ts2). split; [rewrite !app_length; lia|].
      rewrite X2, X, ext_ext, map_app, app_length, repeat_app. reflexivity.
  Qed.

  Lemma scan_body_ext : forall body vs e vs' s,
    scan_body body vs = Ok (e, vs', s) ->
    exists ls ts, length ts = length ls /\
      vs' = ext vs (map Sym ls) (repeat Void (length ls)) ts.
  Proof.
    intros body vs e vs' s E.
    assert (D : vs = vs' -> exists ls ts, length ts = length ls /\
      vs' = ext vs (map Sym ls) (repeat Void (length ls)) ts).
    { intros <-. exists [], []; split; [reflexivity|]. now rewrite ext_nil. }
    unfold scan_body in E.
    destruct body as [| | | |a d| | | | | | | | | |]; try discriminate;
      try (apply D; congruence).
    destruct (skip_docs (Pair a d)) as [| | | |h r| | | | | | | | | |]; try discriminate.
    destruct (is_nil r); [apply D; congruence|].
    destruct (scan_defs (Pair h r) vs) as [vs1| |] eqn:F; try discriminate.
    cbn [bind] in E. inversion E; subst.
    exact (scan_defs_ext _ _ _ F).
  Qed.

  (* Arrays *)
  Lemma forallb_nth : forall (p : lisp -> bool) l i d,
    forallb p l = true -> p d = true -> p (nth i l d) = true.
  Proof.
    induction l as [|x l IH]; intros i d F P; destruct i; cbn in *; try assumption;
      apply andb_true_iff in F; destruct F; auto.
  Qed.

  Definition unqvoid (x : lisp) := match x with QVoid => Void | _ => x end.
  Definition unvoidt (x : lisp) := match x with Void => Fals | _ => x end.

  Lemma use_inits_nth : forall l i,
    match use_inits l with Some l' => nth i l' Void | None => Void end
    = unqvoid (nth i l Void).
  Proof.
    intros l i. unfold use_inits.
    destruct (forallb no_init l) eqn:F.
    - pose proof (forallb_nth _ _ i Void F eq_refl) as X.
      destruct (nth i l Void); try discriminate X; reflexivity.
    - exact (map_nth unqvoid l Void i).
  Qed.

  Lemma use_types_nth : forall l i,
    match use_types l with Some l' => nth i l' Fals | None => Fals end
    = unvoidt (nth i l Fals).
  Proof.
    intros l i. unfold use_types.
    destruct (forallb _ l) eqn:F.
    - pose proof (forallb_nth _ _ i Fals F eq_refl) as X.
      destruct (nth i l Fals); try discriminate X; reflexivity.
    - exact (map_nth unvoidt l Fals i).
  Qed.

  (* What a lambda made from parameters looks like. *)
  Record made (fs : list formal) (r : option nat) (ls : list nat) (L : lam) : Prop := {
    m_vars : l_vars L = map Sym (names fs r ++ ls);
    m_inits : forall i f, nth_error fs i = Some f ->
      match l_inits L with Some l' => nth i l' Void | None => Void end = initof f;
    m_types : forall i f, nth_error fs i = Some f ->
      match l_types L with Some l' => nth i l' Fals | None => Fals end = unvoidt (typeof f);
    m_arity : l_arity L = match r with None => Some (length fs) | Some _ => None end;
    m_info : l_arginfo L = length (names fs r);
    m_nvars : l_nvars L = length (names fs r ++ ls);
    m_nlocals : l_nlocals L = length ls;
    m_min : l_min L = match firstopt fs 0 None with Some x => x | None => length fs end }.

  Lemma names_length : forall fs r,
    length (names fs r) = length fs + match r with Some _ => 1 | None => 0 end.
  Proof. intros fs [n|]; unfold names; rewrite app_length, map_length; reflexivity. Qed.

  Lemma nth_of_error : forall (A : Type) (l : list A) i x d, nth_error l i = Some x -> nth i l d = x.
  Proof. intros; now apply nth_error_nth. Qed.

  Definition typed_dec : forall f, {typed f} + {~ typed f}.
  Proof.
    intros f. unfold typed. destruct (f_type f) as [t|]; [|left; exact I].
    destruct (tev t); [left; discriminate | right; intro H; now apply H].
  Defined.

  Lemma make_made : forall fs r body sync L,
    Forall plain_formal fs -> make_lambda tev (write_params fs r) body sync = Ok L ->
    Forall typed fs /\ exists ls, made fs r ls L.
  Proof.
    intros fs r body sync L P M.
    assert (T : Forall typed fs).
    { destruct (Forall_dec typed typed_dec fs) as [T|T]; [exact T|].
      unfold make_lambda in M. rewrite scan_args_untyped in M by assumption. discriminate. }
    split; [exact T|].
    unfold make_lambda in M. rewrite scan_args_write in M by assumption.
    cbn [bind] in M. rewrite Nat.add_0_l in M.
    assert (E : exists vs0 info ar,
      vs0 = ext novars (map Sym (names fs r))
              (map initof fs ++ match r with Some _ => [Nil] | None => [] end)
              (map typeof fs ++ match r with Some _ => [Fals] | None => [] end) /\
      info = length (names fs r) /\
      ar = match r with None => Some (length fs) | Some _ => None end /\
      bind (scan_body body vs0) (fun b =>
          let '(entry, vs', bsync) := b in
          let n := length (v_args vs') in
          Ok {| l_vars := v_args vs';
                l_inits := use_inits (v_inits vs');
                l_types := use_types (v_types vs');
                l_arity := ar;
                l_min := match firstopt fs 0 None with Some f => f | None => length fs end;
                l_arginfo := info;
                l_nvars := n;
                l_nlocals := n - info;
                l_entry := entry;
                l_sync := sync || bsync |}) = Ok L).
    { destruct r as [n|]; cbn [write_rest] in M.
      - do 3 eexists. split; [|split; [|split; [|exact M]]].
        + rewrite ext_one, ext_ext. unfold names. rewrite map_app, map_map. reflexivity.
        + rewrite names_length. lia.
        + reflexivity.
      - do 3 eexists. split; [|split; [|split; [|exact M]]].
        + unfold names. rewrite !app_nil_r, map_map. reflexivity.
        + rewrite names_length. lia.
        + reflexivity. }
    destruct E as (vs0 & info & ar & -> & -> & -> & E). clear M.
    destruct (scan_body _ _) as [[[entry vs'] bs]| |] eqn:B; try discriminate.
    cbn [bind] in E.
    destruct (scan_body_ext _ _ _ _ _ B) as (ls & ts & LT & X).
    exists ls. inversion E as [E']; clear E. subst vs'. unfold ext; cbn.
    constructor; cbn.
    - now rewrite map_app.
    - intros i f H. pose proof (proj1 (nth_error_Some fs i)) as LI.
      assert (LI' : i < length fs) by (apply LI; congruence).
      rewrite use_inits_nth, <- app_assoc, app_nth1 by (rewrite map_length; lia).
      rewrite (nth_of_error _ _ _ (initof f)) by (now apply map_nth_error).
      rewrite Forall_forall in P. destruct (P f (nth_error_In _ _ H)) as [K _].
      unfold initof. destruct (f_kind f); try reflexivity.
      destruct K as (? & ? & ?). destruct e; try reflexivity; congruence.
    - intros i f H. assert (LI' : i < length fs) by (apply nth_error_Some; congruence).
      rewrite use_types_nth, <- app_assoc, app_nth1 by (rewrite map_length; lia).
      rewrite (nth_of_error _ _ _ (typeof f)) by (now apply map_nth_error).
      reflexivity.
    - reflexivity.
    - reflexivity.
    - rewrite !app_length, !map_length. reflexivity.
    - rewrite !app_length, !map_length. lia.
    - reflexivity.
  Qed.

  Section Made.
    Variables (fs : list formal) (r : option nat) (ls : list nat) (L : lam).
    Hypothesis P : Forall plain_formal fs.
    Hypothesis T : Forall typed fs.
    Hypothesis M : made fs r ls L.

    Lemma arg_value_iff : forall given i f v,
      nth_error fs i = Some f ->
      (arg_value dev L given i = Ok v <-> value_of dev f (nth_error given i) v).
    Proof.
      intros given i f v H.
      unfold arg_value. rewrite (m_inits _ _ _ _ M i f H).
      rewrite Forall_forall in P. pose proof (P f (nth_error_In _ _ H)) as [K _].
      assert (DV : forall arg, (arg = Void \/ arg = Dflt) ->
        (forall w, (if is_void (initof f) then Ok arg
         else match eval_arg dev (initof f) with
              | None => Err | Some Abort => Err | Some w => Ok w end) = Ok w <->
         ((forall e, f_kind f <> KOpt e) /\ w = arg) \/
         (exists e, f_kind f = KOpt e /\ dev e = Some w /\ w <> Void /\ w <> Abort))).
      { intros arg _ w. unfold initof, eval_arg.
        destruct (f_kind f) as [|e|] eqn:FK; cbn [is_void].
        - split; [intros Q; left; split; [discriminate|congruence]|].
          intros [[_ ->]|(e & Q & _)]; [reflexivity|discriminate].
        - destruct K as (k1 & k2 & k3).
          assert (IV : is_void e = false) by (destruct e; try reflexivity; congruence). rewrite IV.
          split.
          + intros Q. right. exists e. split; [reflexivity|].
            destruct (dev e) as [d|] eqn:DE; [|discriminate].
            destruct d; inversion Q; subst; repeat split; congruence.
          + intros [[Q _]|(e' & Q & D & v1 & v2)]; [now elim (Q e)|].
            inversion Q; subst e'. rewrite D. destruct w; congruence.
        - split; [intros Q; left; split; [discriminate|congruence]|].
          intros [[_ ->]|(e & Q & _)]; [reflexivity|discriminate]. }
      destruct (nth_error given i) as [a|] eqn:N1.
      - rewrite (nth_of_error _ _ _ a) by assumption.
        destruct a;
          try (split; [intros Q; inversion Q; subst; constructor; congruence
                      |intros Q; inversion Q; subst; try reflexivity; try congruence;
                       match goal with H : _ \/ _ |- _ => destruct H; discriminate end]).
        + rewrite DV by auto. split.
          * intros [[A ->]|(e & A & B & C & D)].
            -- apply none_given; auto.
            -- eapply default_void; eauto.
          * intros Q; inversion Q; subst; try congruence; [right; eauto 8 | left; auto].
        + rewrite DV by auto. split.
          * intros [[A ->]|(e & A & B & C & D)].
            -- apply none_given; auto.
            -- eapply default_given; eauto.
          * intros Q; inversion Q; subst; try congruence; [right; eauto 8 | left; auto].
      - rewrite nth_overflow by (now apply nth_error_None).
        rewrite DV by auto. split.
        + intros [[A ->]|(e & A & B & C & D)].
          * apply none_missing; auto.
          * eapply default_missing; eauto.
        + intros Q; inversion Q; subst; [right; eauto 8 | left; auto].
    Qed.

    Lemma type_ok_iff : forall i f v,
      nth_error fs i = Some f ->
      (type_ok check L i v = true <-> fits tev check f v).
    Proof.
      intros i f v H.
      assert (LI : i < length fs) by (apply nth_error_Some; congruence).
      assert (LA : (i <? l_arginfo L) = true).
      { rewrite (m_info _ _ _ _ M), names_length. apply Nat.ltb_lt. lia. }
      pose proof (m_types _ _ _ _ M i f H) as MT.
      rewrite Forall_forall in T. pose proof (T f (nth_error_In _ _ H)) as TF.
      assert (C : (match l_types L with
         | None => true
         | Some l => if i <? l_arginfo L then
              (let t := nth i l Fals in if is_fals t then true else check v t) else true end) = true
         <-> match f_type f with
             | None => True
             | Some t => exists tv, tev t = Some tv /\ (tv = Fals \/ tv = Void \/ check v tv = true)
             end).
      { rewrite LA. unfold typeof, typed in *.
        destruct (f_type f) as [t|].
        - destruct (tev t) as [tv|]; [|congruence].
          destruct (l_types L) as [l|].
          + cbv zeta. rewrite MT. split.
            * intros Q. exists tv. split; [reflexivity|]. destruct tv; cbn in Q; auto.
            * intros (tv' & Q & O). inversion Q; subst tv'.
              destruct O as [-> | [-> | O]]; try reflexivity. destruct tv; cbn; auto.
          + split; [intros _|reflexivity]. exists tv. split; [reflexivity|].
            destruct tv; cbn in MT; try discriminate; auto.
        - destruct (l_types L) as [l|]; [|tauto].
          cbv zeta. rewrite MT. cbn. tauto. }
      unfold type_ok, fits.
      destruct v; rewrite ?C; try tauto;
        (split; [intros Q; auto | intros [Q|[Q|[Q|Q]]]; try discriminate; exact Q]).
    Qed.

    Lemma positional_iff : forall gs pre given l,
      fs = pre ++ gs ->
      (positional dev check L given (length gs) (length pre) = Ok l <->
       binds tev dev check gs (skipn (length pre) given) l).
    Proof.
      induction gs as [|g gs IH]; intros pre given l E.
      - cbn. split.
        + intros Q; inversion Q; constructor.
        + intros Q; inversion Q; reflexivity.
      - assert (H : nth_error fs (length pre) = Some g).
        { rewrite E, nth_error_app2, Nat.sub_diag by lia. reflexivity. }
        assert (E2 : fs = (pre ++ [g]) ++ gs) by (rewrite <- app_assoc; exact E).
        assert (L2 : length (pre ++ [g]) = S (length pre)) by (rewrite app_length; cbn; lia).
        assert (SK : match nth_error given (length pre) with
                     | Some a => skipn (length pre) given = a :: skipn (S (length pre)) given
                     | None => skipn (length pre) given = [] /\ skipn (S (length pre)) given = []
                     end).
        { clear. generalize (length pre) as k. revert given.
          induction given as [|x given IHg]; intros k; destruct k; cbn; auto.
          exact (IHg k). }
        cbn [length positional]. split.
        + intros Q.
          destruct (arg_value dev L given (length pre)) as [v| |] eqn:AV; try discriminate.
          cbn [bind] in Q.
          destruct (type_ok check L (length pre) v) eqn:TY; try discriminate.
          rewrite <- L2 in Q.
          destruct (positional _ _ _ _ _ _) as [l2| |] eqn:PO; try discriminate.
          cbn [bind] in Q. inversion Q; subst l.
          apply (IH _ _ _ E2) in PO. rewrite L2 in PO.
          apply (arg_value_iff given _ g v H) in AV.
          apply (type_ok_iff _ g v H) in TY.
          destruct (nth_error given (length pre)) as [a|].
          * rewrite SK. constructor; assumption.
          * destruct SK as [S1 S2]. rewrite S1, S2 in *. constructor; assumption.
        + intros B.
          assert (X : exists v l2, l = v :: l2 /\ value_of dev g (nth_error given (length pre)) v /\
                      fits tev check g v /\ binds tev dev check gs (skipn (S (length pre)) given) l2).
          { destruct (nth_error given (length pre)) as [a|].
            - rewrite SK in B. inversion B; subst. eauto 8.
            - destruct SK as [S1 S2]. rewrite S1 in B. rewrite S2. inversion B; subst. eauto 8. }
          destruct X as (v & l2 & -> & V & F & B2).
          apply (arg_value_iff given _ g v H) in V. rewrite V. cbn [bind].
          apply (type_ok_iff _ g v H) in F. rewrite F.
          rewrite <- L2 in B2. apply (IH _ _ _ E2) in B2. rewrite L2 in B2. rewrite B2.
          reflexivity.
    Qed.

    Lemma binds_length : forall gs given l, binds tev dev check gs given l -> length l = length gs.
    Proof. intros gs given l B; induction B; cbn; congruence. Qed.

    Definition rest_values (given : list lisp) : list lisp :=
      match r with Some _ => [listof (skipn (length fs) given)] | None => [] end.

    Lemma setup_iff : forall given vals,
      setup dev check L given = Ok vals <->
      exists l, binds tev dev check fs given l /\
        vals = l ++ rest_values given ++ repeat Unbound (length ls).
    Proof.
      intros given vals. unfold setup.
      assert (MX : match l_arity L with
             | None => l_nvars L - 1 - l_nlocals L
             | Some a => a end = length fs).
      { rewrite (m_arity _ _ _ _ M), (m_nvars _ _ _ _ M), (m_nlocals _ _ _ _ M).
        rewrite app_length, names_length. destruct r; lia. }
      rewrite MX.
      pose proof (fun l => positional_iff fs [] given l eq_refl) as PI. cbn [length skipn] in PI.
      assert (V : forall l, length l = length fs ->
        (let l2 := match l_arity L with
                | None => l ++ [rest_arg (skipn (length fs) given)]
                | Some _ => l
                end in l2 ++ repeat Unbound (l_nvars L - length l2)) =
        l ++ rest_values given ++ repeat Unbound (length ls)).
      { intros l LL. rewrite (m_arity _ _ _ _ M), (m_nvars _ _ _ _ M).
        rewrite app_length, names_length. unfold rest_values.
        destruct r; cbv zeta.
        - rewrite <- app_assoc, app_length. cbn [length app].
          do 2 f_equal. f_equal. f_equal. lia.
        - cbn [app]. do 2 f_equal. lia. }
      split.
      - intros Q. destruct (positional _ _ _ _ _ _) as [l| |] eqn:PO; try discriminate.
        exists l. pose proof (proj1 (PI l) eq_refl) as B. split; [exact B|].
        rewrite <- V by (now apply binds_length with given). cbn [bind] in Q. congruence.
      - intros (l & B & ->). pose proof (proj2 (PI l) B) as PO. rewrite PO. cbn [bind].
        rewrite V by (now apply binds_length with given). reflexivity.
    Qed.
  End Made.

  (* Finding *)
  Lemma find_app_l : forall ns vs ns2 vs2 i n v,
    length ns = length vs -> NoDup ns ->
    nth_error ns i = Some n -> nth_error vs i = Some v ->
    find n (combine (map Sym (ns ++ ns2)) (vs ++ vs2)) = Some v.
  Proof.
    induction ns as [|m ns IH]; intros vs ns2 vs2 i n v LE ND A B; [destruct i; discriminate|].
    destruct vs as [|w vs]; [discriminate|].
    inversion ND; subst. cbn. destruct i as [|i]; cbn in A, B.
    - inversion A; inversion B; subst. now rewrite Nat.eqb_refl.
    - destruct (Nat.eqb_spec n m) as [-> |_].
      + elim H1. eapply nth_error_In; eassumption.
      + eapply IH; eauto.
  Qed.

  Lemma find_app_r : forall ns vs ns2 vs2 n,
    length ns = length vs -> ~ In n ns ->
    find n (combine (map Sym (ns ++ ns2)) (vs ++ vs2)) = find n (combine (map Sym ns2) vs2).
  Proof.
    induction ns as [|m ns IH]; intros vs ns2 vs2 n LE NI;
      destruct vs as [|w vs]; try discriminate; [reflexivity|].
    cbn. destruct (Nat.eqb_spec n m) as [-> |_]; [elim NI; now left|].
    apply IH; [cbn in LE; lia|]. intro; apply NI; now right.
  Qed.

  Lemma find_unbound : forall ns n,
    find n (combine (map Sym ns) (repeat Unbound (length ns))) =
    if in_dec Nat.eq_dec n ns then Some Unbound else None.
  Proof.
    induction ns as [|m ns IH]; intros n; [reflexivity|].
    cbn [length repeat map combine find]. rewrite IH.
    destruct (Nat.eqb_spec n m) as [-> |NE].
    - destruct (in_dec _ m (m :: ns)) as [_|X]; [reflexivity|]. elim X; now left.
    - destruct (in_dec Nat.eq_dec n ns) as [I1|I1]; destruct (in_dec Nat.eq_dec n (m :: ns)) as [I2|I2]; auto.
      + elim I2; now right.
      + destruct I2; congruence.
  Qed.
End Proofs.
