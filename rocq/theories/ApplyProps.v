(** * Property C40: applying functions to choices. *)
From Verif Require Import BytesModel ValueModel ValueProofs SortModel ChoicesModel ChoicesProofs ChoicesProofs2 ChoicesProofs3 ChoicesProps ApplyModel.

(** ** Specification *)
(** The elements an argument stands for; a quoted choice is one argument, unquoted. *)
Definition arg_elts (a : arg) : list arg :=
  match a with
  | AS (SVal v) => [AS (SVal v)]
  | AS (SChoice _ l) => map (fun v => AS (SVal v)) l
  | AQ s => [AS s]
  | AP p => [AP p]
  end.
(** All combinations, the last argument varying fastest. *)
Fixpoint combos (l : list (list arg)) : list (list arg) :=
  match l with
  | [] => [[]]
  | c :: r => flat_map (fun x => map (cons x) (combos r)) c
  end.
(** The arguments are acceptable: no void, no abort code, types as declared. *)
Definition passes (f : fn) (a : list arg) : Prop :=
  (forall x, In x a -> x <> AS (SVal KVOID) /\ forall v, x = AS (SVal v) -> abort_val v = false) /\
  forall t i x p, fn_types f = Some t -> nth_error a i = Some x -> nth_error t i = Some (Some p) -> x <> AS (SVal KEMPTY) -> p x = true.
(** What the body gets: the arguments and the defaults of the missing ones. *)
Definition defaults (f : fn) : list arg := match fn_defaults f with Some d => d | None => [] end.
Definition received (f : fn) (a : list arg) : list slot :=
  map SArg (if fn_cprim f then a ++ skipn (length a) (defaults f) else a).
(** One call: the log and the value. *)
Definition one (f : fn) (L : log) (a : list arg) (L1 : log) (s : simple) : Prop :=
  (passes f a /\ L1 = L ++ [(fn_id f, received f a)] /\
     canonical s (fun x => In x (lelts (fn_body f L (received f a))))) \/
  (~ passes f a /\ L1 = L /\ s = SVal (VAtom 61)).
(** A sequence of calls up to the first abort: the log, the union of the results, the abort. *)
Inductive runs : log -> list (fn * list arg) -> log -> (val -> Prop) -> option val -> Prop :=
| runs_done L : runs L [] L (fun _ => False) None
| runs_step L f a L1 s rest L2 P ab : one f L a L1 s -> abortp s = false -> runs L1 rest L2 P ab ->
    runs L ((f, a) :: rest) L2 (fun x => In x (selts s) \/ P x) ab
| runs_abort L f a L1 v rest : one f L a L1 (SVal v) -> abort_val v = true ->
    runs L ((f, a) :: rest) L1 (fun _ => False) (Some v).
(** Functions: results are proper values (not VOID); not traced; C primitives declare a
    default for every argument or take any number. *)
Record fn_ok (f : fn) : Prop := {
  fo_body : forall L s, lv_ok (fn_body f L s);
  fo_trace : fn_trace f = false;
  fo_defaults : fn_cprim f = true -> Z.of_nat (length (defaults f)) = fn_call_width f \/ ((fn_call_width f < 0)%Z /\ defaults f = []) }.
Definition accepts (f : fn) (n : nat) : Prop :=
  (fn_min_arity f <= Z.of_nat n)%Z /\ ((fn_arity f < 0)%Z \/ (Z.of_nat n <= fn_arity f)%Z).
Definition iterates (f : fn) : Prop := fn_xiter f = false /\ fn_xprune f = false.
Definition arg_ok (a : arg) : Prop :=
  match a with AS (SVal v) => v <> KEMPTY | AS (SChoice _ l) => l <> [] | AQ _ => True | AP _ => False end.
Definition funs (h : handler) : list fn := match h with HFun f => [f] | HChoice l => l | _ => [] end.

(** ** Proofs *)
Lemma emptyp_true v : emptyp v = true -> v = KEMPTY.
Proof. destruct v; simpl; try discriminate. intro H. apply N.eqb_eq in H. now subst. Qed.
Lemma voidp_iff v : voidp v = true <-> v = KVOID.
Proof.
  split; [|intros ->; reflexivity]. destruct v; simpl; try discriminate. intro H. apply N.eqb_eq in H. now subst.
Qed.
Lemma bad_arg_iff x : bad_arg x = false <-> x <> AS (SVal KVOID) /\ forall v, x = AS (SVal v) -> abort_val v = false.
Proof.
  split.
  - intro H. split; [intros ->; discriminate|]. intros v ->. simpl in H. now apply orb_false_iff in H.
  - intros [A B]. destruct x as [[v|]| |]; try reflexivity. simpl. rewrite (B v eq_refl), orb_false_r.
    destruct (voidp v) eqn:E; [|reflexivity]. apply voidp_iff in E. subst. contradiction.
Qed.
Lemma arg_empty_iff x : arg_empty x = true <-> x = AS (SVal KEMPTY).
Proof.
  split; [|intros ->; reflexivity]. destruct x as [[v|]| |]; simpl; try discriminate. intro H. apply emptyp_true in H. now subst.
Qed.
Lemma check_iff f a : check f a = true <-> passes f a.
Proof.
  unfold check, passes. destruct (fn_types f) as [t|].
  - revert t. induction a as [|x a IH]; intro t.
    + simpl. split; [|reflexivity]. intros _. split; [intros x []|]. intros t' i x p _ H. destruct i; discriminate.
    + cbn [check_argtypes]. split.
      * intro H. destruct (bad_arg x) eqn:B; [discriminate|].
        destruct (arg_empty x || match match t with [] => None | t0 :: _ => t0 end with Some p => p x | None => true end) eqn:T; [|discriminate].
        apply IH in H. destruct H as [H1 H2]. split.
        -- intros y [<-|Hy]; [now apply bad_arg_iff|now apply H1].
        -- intros t' i y p Et Hi Ht Hy. injection Et as <-. destruct i as [|i].
           ++ injection Hi as ->. destruct t as [|t0 t]; [discriminate|]. injection Ht as ->.
              apply orb_true_iff in T. destruct T as [T|T]; [apply arg_empty_iff in T; contradiction|assumption].
           ++ apply (H2 (tl t) i y p); auto. destruct t; [destruct i; discriminate|assumption].
      * intros [H1 H2]. destruct (bad_arg x) eqn:B; [exfalso; apply (proj2 (bad_arg_iff x)) in H1; [congruence|now left]|].
        assert (T : arg_empty x || match match t with [] => None | t0 :: _ => t0 end with Some p => p x | None => true end = true).
        { destruct (arg_empty x) eqn:E; [reflexivity|]. simpl. destruct t as [|[p|] t]; auto.
          apply (H2 _ 0 x p eq_refl); auto. intros ->. discriminate. }
        rewrite T. apply IH. split; [intros y Hy; apply H1; now right|].
        intros t' i y p Et Hi Ht Hy. injection Et as <-. apply (H2 _ (S i) y p eq_refl); auto. destruct t; [destruct i; discriminate|assumption].
  - rewrite forallb_forall. split.
    + intro H. split; [|discriminate]. intros x Hx. apply bad_arg_iff. specialize (H x Hx). now destruct (bad_arg x).
    + intros [H _] x Hx. apply H in Hx. apply bad_arg_iff in Hx. now rewrite Hx.
Qed.
Lemma fill_ok f a : fn_ok f -> fn_cprim f = true -> fill f a = Some (received f a).
Proof.
  intros O C. unfold fill, received. rewrite C. destruct (fo_defaults f O C) as [D|[D1 D2]].
  - destruct (Z.ltb_spec (fn_call_width f) 0) as [W|W]; [lia|]. rewrite <- D, Nat2Z.id. fold (defaults f).
    destruct (Nat.ltb_spec (length a) (length (defaults f))) as [L|L].
    + assert (S : length (skipn (length a) (defaults f)) = length (defaults f) - length a) by apply skipn_length.
      assert (E : match fn_defaults f with Some d => skipn (length a) d | None => [] end = skipn (length a) (defaults f)).
      { unfold defaults. destruct (fn_defaults f); [reflexivity|]. now destruct (length a). }
      rewrite E, S. destruct (Nat.ltb_spec (length (defaults f)) (length a + (length (defaults f) - length a))); [lia|].
      replace (length (defaults f) - (length a + (length (defaults f) - length a))) with 0 by lia. reflexivity.
    + now rewrite skipn_all2, app_nil_r.
  - destruct (Z.ltb_spec (fn_call_width f) 0) as [W|W]; [|lia]. rewrite Nat.ltb_irrefl, D2. destruct (length a); now rewrite app_nil_r.
Qed.
Lemma arity_ok_iff f n : accepts f n -> arity_ok f n = true.
Proof. unfold accepts, arity_ok. intros [A B]. destruct (0 <? fn_min_arity f)%Z eqn:?, (0 <=? fn_arity f)%Z eqn:?; simpl; lia. Qed.
Lemma elt_ok_error : elt_ok (VAtom 61).
Proof. apply elt_ok_b; try discriminate; reflexivity. Qed.

Section Proofs.
Variable cf : config.
Hypothesis Hcf : 0 < block_size cf.

Lemma dcall_spec f L a : fn_ok f -> accepts f (length a) ->
  exists L1 s, dcall cf f L a = Some (L1, s) /\ one f L a L1 s /\ simple_ok s.
Proof.
  intros O A. unfold dcall. rewrite (arity_ok_iff f _ A). unfold core_call. rewrite (fo_trace f O). cbn beta iota. unfold invoke.
  destruct (check f a) eqn:C.
  - assert (E : (if fn_cprim f then fill f a else Some (map SArg a)) = Some (received f a)).
    { destruct (fn_cprim f) eqn:P; [now apply fill_ok|]. unfold received. now rewrite P. }
    rewrite E. cbn beta iota. cbn [fst snd].
    destruct (simplify_spec cf (fn_body f L (received f a)) Hcf (fo_body f O _ _)) as (s & -> & R).
    exists (L ++ [(fn_id f, received f a)]), s. split; [reflexivity|]. split; [|apply R].
    left. split; [now apply check_iff|]. split; [reflexivity|]. now apply represents_canonical.
  - cbn beta iota. cbn [fst snd simplify]. exists L, KNO_ERROR. split; [reflexivity|]. split.
    + right. split; [intro P; apply check_iff in P; congruence|]. auto.
    + right. apply elt_ok_error.
Qed.

(** The two kinds of loops at once. *)
Section Gen.
Variable add : lv -> simple -> option lv.
Hypothesis add_ok : forall to s, lv_ok to -> lv_big to -> simple_ok s ->
  exists r, add to s = Some r /\ lv_ok r /\ lv_big r /\ (forall v, In v (lelts r) <-> In v (lelts to) \/ In v (selts s)).
Fixpoint gen (f : fn) (l : log) (results : lv) (chosen : list arg) (rest : list (list arg)) : option (log * (lv + simple)) :=
  match rest with
  | [] =>
    do r <- dcall cf f l (rev chosen);
    if abortp (snd r) then Some (fst r, inr (snd r))
    else do res <- add results (snd r); Some (fst r, inl res)
  | choices :: rest' =>
    (fix loop (cs : list arg) (l : log) (results : lv) : option (log * (lv + simple)) :=
       match cs with
       | [] => Some (l, inl results)
       | c :: cs' =>
         do r <- gen f l results (c :: chosen) rest';
         match snd r with
         | inl res => loop cs' (fst r) res
         | inr a => Some (fst r, inr a)
         end
       end) choices l results
  end.
Lemma runs_app L s1 L1 P1 s2 L2 P2 ab : runs L s1 L1 P1 None -> runs L1 s2 L2 P2 ab ->
  exists P, runs L (s1 ++ s2) L2 P ab /\ (ab = None -> forall x, P x <-> P1 x \/ P2 x).
Proof.
  intro R. remember None as ab1 eqn:E. induction R as [L|L f a L1 s rest L3 P ab1 O A R IH|]; intro R2; [| |discriminate].
  - exists P2. split; [exact R2|]. intros _ x. tauto.
  - destruct (IH E R2) as (P' & H1 & H2). eexists. split; [simpl; eapply runs_step; eassumption|].
    intros Hab x. cbn beta. rewrite (H2 Hab x). tauto.
Qed.
Lemma runs_app_abort L s1 L1 P1 v s2 : runs L s1 L1 P1 (Some v) -> exists P, runs L (s1 ++ s2) L1 P (Some v).
Proof.
  intro R. remember (Some v) as ab1 eqn:E. induction R as [L|L f a L1 s rest L3 P ab1 O A R IH|L f a L1 w rest O A]; [discriminate| |].
  - destruct (IH E) as (P' & H1). eexists. simpl. eapply runs_step; eassumption.
  - injection E as ->. eexists. simpl. eapply runs_abort; eassumption.
Qed.
Definition out_ok (results : lv) (P : val -> Prop) (ab : option val) (out : lv + simple) : Prop :=
  match ab with
  | Some v => out = inr (SVal v)
  | None => exists res, out = inl res /\ lv_ok res /\ lv_big res /\ forall v, In v (lelts res) <-> In v (lelts results) \/ P v
  end.
Lemma combos_length l c : In c (combos l) -> length c = length l.
Proof.
  revert c. induction l as [|x l IH]; intros c H; simpl in H; [destruct H as [<-|[]]; reflexivity|].
  apply in_flat_map in H. destruct H as (y & _ & H). apply in_map_iff in H. destruct H as (d & <- & H). simpl. f_equal. now apply IH.
Qed.
Lemma gen_spec f : fn_ok f -> forall rest L results chosen, accepts f (length chosen + length rest) -> lv_ok results -> lv_big results ->
  exists L1 out P ab, gen f L results chosen rest = Some (L1, out) /\
    runs L (map (fun c => (f, rev chosen ++ c)) (combos rest)) L1 P ab /\ out_ok results P ab out.
Proof.
  intro O. induction rest as [|choices rest IH]; intros L results chosen A R1 R2.
  - cbn [gen combos map]. rewrite app_nil_r. destruct (dcall_spec f L (rev chosen) O) as (L1 & s & -> & H1 & H2).
    { rewrite rev_length. simpl in A. now rewrite Nat.add_0_r in A. }
    cbn beta iota. cbn [fst snd]. destruct (abortp s) eqn:E.
    + destruct s as [v|]; [|discriminate]. exists L1, (inr (SVal v)), (fun _ => False), (Some v).
      split; [reflexivity|]. split; [eapply runs_abort; eassumption|]. reflexivity.
    + destruct (add_ok results s R1 R2 H2) as (r & -> & K1 & K2 & K3). exists L1, (inl r), (fun x => In x (selts s) \/ False), None.
      split; [reflexivity|]. split; [eapply runs_step; [eassumption|assumption|constructor]|].
      exists r. split; [reflexivity|]. split; [assumption|]. split; [assumption|]. intro v. rewrite K3. tauto.
  - cbn [gen combos]. revert L results R1 R2. induction choices as [|c cs IHc]; intros L results R1 R2.
    + exists L, (inl results), (fun _ => False), None. split; [reflexivity|]. split; [constructor|].
      exists results. split; [reflexivity|]. split; [assumption|]. split; [assumption|]. intro v. tauto.
    + destruct (IH L results (c :: chosen)) as (L1 & out & P & ab & E & R & H); [simpl in *; now rewrite Nat.add_succ_r in A|assumption|assumption|].
      rewrite E. cbn beta iota. cbn [snd fst flat_map]. rewrite map_app, map_map.
      assert (M : map (fun x : list arg => (f, rev chosen ++ c :: x)) (combos rest) = map (fun d => (f, rev (c :: chosen) ++ d)) (combos rest)).
      { apply map_ext. intro d. simpl. now rewrite <- app_assoc. }
      rewrite M. destruct ab as [v|]; simpl in H.
      * subst out. destruct (runs_app_abort _ _ _ _ _ (map (fun d => (f, rev chosen ++ d)) (flat_map (fun x => map (cons x) (combos rest)) cs)) R) as (P' & R').
        exists L1, (inr (SVal v)), P', (Some v). split; [reflexivity|]. split; [exact R'|reflexivity].
      * destruct H as (res & -> & K1 & K2 & K3). destruct (IHc A L1 res K1 K2) as (L2 & out & P2 & ab & E2 & R' & H2).
        destruct (runs_app _ _ _ _ _ _ _ _ R R') as (P3 & R3 & H3). exists L2, out, P3, ab. split; [exact E2|]. split; [exact R3|].
        destruct ab as [v|]; simpl in *; [exact H2|]. destruct H2 as (res2 & -> & J1 & J2 & J3). exists res2.
        split; [reflexivity|]. split; [assumption|]. split; [assumption|]. intro v. rewrite J3, K3, (H3 eq_refl). tauto.
Qed.
End Gen.
Arguments out_ok : clear implicits.

Lemma add_to_choice_ok to s : lv_ok to -> lv_big to -> simple_ok s ->
  exists r, add_to_choice cf false to (Simple s) = Some r /\ lv_ok r /\ lv_big r /\ (forall v, In v (lelts r) <-> In v (lelts to) \/ In v (selts s)).
Proof. intros H1 H2 H3. apply (add_to_choice_spec cf false to (Simple s) Hcf H1 H2 H3 I). Qed.
Lemma add_result_ok to s : lv_ok to -> lv_big to -> simple_ok s ->
  exists r, add_result cf to s = Some r /\ lv_ok r /\ lv_big r /\ (forall v, In v (lelts r) <-> In v (lelts to) \/ In v (selts s)).
Proof.
  intros H1 H2 H3. unfold add_result. destruct to as [t|p]; [|now apply add_to_choice_ok].
  destruct (is_empty t) eqn:E; [|now apply add_to_choice_ok]. exists (Simple s). split; [reflexivity|]. split; [exact H3|]. split; [exact I|].
  intro v. apply is_empty_selts in E; [|exact H1]. simpl. rewrite E. simpl. tauto.
Qed.
Lemma ndapply_gen f : forall rest l results chosen, ndapply cf f l results chosen rest = gen (add_result cf) f l results chosen rest.
Proof.
  induction rest as [|c rest IH]; intros l results chosen; [reflexivity|]. cbn [ndapply gen]. revert l results.
  induction c as [|x c IHc]; intros l results; [reflexivity|]. rewrite IH. destruct (gen _ _ _ _ _ _) as [[l1 [res|a]]|]; cbn; auto.
Qed.
Lemma ndcall_loop_gen f : forall args l results chosen, Forall arg_ok args ->
  ndcall_loop cf f l results chosen args = gen (fun to s => add_to_choice cf false to (Simple s)) f l results chosen (map arg_elts args).
Proof.
  induction args as [|a args IH]; intros l results chosen H; [reflexivity|]. inversion H as [|? ? Ha Hr]; subst.
  assert (ONCE : forall x, gen (fun to s => add_to_choice cf false to (Simple s)) f l results (x :: chosen) (map arg_elts args) =
    gen (fun to s => add_to_choice cf false to (Simple s)) f l results chosen ([x] :: map arg_elts args)).
  { intro x. cbn [gen]. destruct (gen _ f l results (x :: chosen) (map arg_elts args)) as [[l1 [res|a1]]|]; reflexivity. }
  cbn [ndcall_loop map]. destruct a as [[v|b vs]|s|p]; [| | |contradiction].
  - rewrite IH by assumption. apply ONCE.
  - cbn [gen arg_elts iter_choices]. clear Ha H ONCE. revert l results. induction (map (fun v : val => AS (SVal v)) vs) as [|c cs IHc]; intros l results; [reflexivity|].
    rewrite IH by assumption. destruct (gen _ f l results (c :: chosen) (map arg_elts args)) as [[l1 [res|a1]]|]; cbn; auto.
  - rewrite IH by assumption. apply ONCE.
Qed.
Lemma iter_elts args : Forall arg_ok args -> map iter_choices args = map arg_elts args.
Proof.
  intro H. apply map_ext_in. intros a Ha. rewrite Forall_forall in H. specialize (H a Ha). destruct a as [[v|]| |]; try reflexivity.
  simpl in *. destruct (emptyp v) eqn:E; [apply emptyp_true in E; contradiction|reflexivity].
Qed.
Lemma scan_ok args : Forall arg_ok args -> scan_args args = Some (negb (existsb choice_arg args)).
Proof.
  induction 1 as [|a args Ha _ IH]; [reflexivity|]. cbn [scan_args existsb].
  assert (E : arg_empty a = false).
  { destruct (arg_empty a) eqn:E; [|reflexivity]. apply arg_empty_iff in E. subst. now elim Ha. }
  rewrite E. destruct (choice_arg a); [reflexivity|assumption].
Qed.
Lemma single_combo args : existsb choice_arg args = false -> combos (map arg_elts args) = [map unwrap args].
Proof.
  induction args as [|a args IH]; [reflexivity|]. cbn [existsb map combos]. intro H. apply orb_false_iff in H. destruct H as [H1 H2].
  rewrite (IH H2). destruct a as [[v|]| |]; try discriminate; reflexivity.
Qed.
Definition no_quote (args : list arg) : Prop := forall s, ~ In (AQ s) args.
Lemma unwrap_id args : no_quote args -> map unwrap args = args.
Proof.
  intro H. rewrite <- (map_id args) at 2. apply map_ext_in. intros a Ha. destruct a as [|s|]; try reflexivity. now elim (H s).
Qed.

(** Result of a sequence of calls as a simple value. *)
Definition result_ok (P : val -> Prop) (ab : option val) (s : simple) : Prop :=
  match ab with Some v => s = SVal v /\ abort_val v = true | None => simple_ok s /\ forall v, In v (selts s) <-> P v end.
Lemma runs_abort_val L q L1 P v : runs L q L1 P (Some v) -> abort_val v = true.
Proof. intro R. remember (Some v) as ab eqn:E. induction R; auto; congruence. Qed.
Lemma dcall_runs f L a : fn_ok f -> accepts f (length a) ->
  exists L1 s P ab, dcall cf f L a = Some (L1, s) /\ runs L [(f, a)] L1 P ab /\ result_ok P ab s /\ (ab = None -> abortp s = false).
Proof.
  intros O A. destruct (dcall_spec f L a O A) as (L1 & s & E & H1 & H2). destruct (abortp s) eqn:B.
  - destruct s as [v|]; [|discriminate]. exists L1, (SVal v), (fun _ => False), (Some v). split; [assumption|].
    split; [eapply runs_abort; eassumption|]. split; [split; [reflexivity|exact B]|discriminate].
  - exists L1, s, (fun x => In x (selts s) \/ False), None. split; [assumption|]. split; [eapply runs_step; [eassumption|assumption|constructor]|].
    split; [|intros _; exact B]. split; [assumption|]. intro v. tauto.
Qed.
Lemma elts_not_abort : forall L q L1 P, runs L q L1 P None -> forall v, (forall w, P w <-> w = v) -> abort_val v = true -> False.
Proof.
  intros L q L1 P R. remember None as ab eqn:E. induction R as [L|L f a L1 s rest L3 P ab O A R IH|]; [| |discriminate]; subst; intros v H V.
  - now apply (H v).
  - destruct s as [w|b l].
    + cbn [selts] in H. destruct (emptyp w) eqn:Ew.
      * apply (IH eq_refl v); [|assumption]. intro x. rewrite <- H. simpl. tauto.
      * assert (w = v) by (apply H; left; now left). subst. simpl in A. congruence.
    + assert (L2 : 2 <= length l /\ NoDup l).
      { destruct O as [(_ & _ & C)|(_ & _ & C)]; [|discriminate]. destruct C as (C1 & _ & C2 & _). auto. }
      destruct L2 as [L2 ND]. destruct l as [|x [|y l]]; simpl in L2; [lia|lia|].
      assert (x = v) by (apply H; left; now left). assert (y = v) by (apply H; left; right; now left). subst.
      inversion ND as [|? ? N _]; subst. apply N. now left.
Qed.
Lemma result_not_abort L q L1 P s : runs L q L1 P None -> result_ok P None s -> abortp s = false.
Proof.
  intros R [S1 S2]. destruct s as [v|]; [|reflexivity]. destruct (abortp (SVal v)) eqn:E; [|reflexivity]. exfalso.
  apply (elts_not_abort _ _ _ _ R v); [|exact E]. intro w. rewrite <- S2.
  assert (N : emptyp v = false) by (destruct (emptyp v) eqn:X; [apply emptyp_true in X; subst; discriminate|reflexivity]).
  simpl. rewrite N. simpl. intuition.
Qed.
Lemma ndcall_runs f L args : fn_ok f -> iterates f -> accepts f (length args) -> Forall arg_ok args ->
  no_quote args \/ existsb choice_arg args = true ->
  exists L1 s P ab, ndcall cf f L args = Some (L1, s) /\ runs L (map (fun c => (f, c)) (combos (map arg_elts args))) L1 P ab /\ result_ok P ab s.
Proof.
  intros O [I1 I2] A F Q. unfold ndcall, ndcall_bits. rewrite I1, I2. rewrite orb_false_l, orb_false_r.
  destruct (fn_arity f =? 0)%Z eqn:Z0.
  - assert (length args = 0) by (destruct A as [_ [A|A]]; lia). destruct args; [|discriminate].
    destruct (dcall_runs f L [] O A) as (L1 & s & P & ab & H1 & H2 & H3 & _). exists L1, s, P, ab. auto.
  - assert (G : (if (fn_arity f <? 0)%Z then (fn_min_arity f <=? Z.of_nat (length args))%Z
      else (Z.of_nat (length args) <=? fn_arity f)%Z && (fn_min_arity f <=? Z.of_nat (length args))%Z) = true).
    { destruct A as [A1 A2]. destruct (fn_arity f <? 0)%Z eqn:?; lia. }
    rewrite G, (scan_ok args F). destruct (existsb choice_arg args) eqn:C; simpl negb; cbn iota.
    + set (r := if length args <=? 4 then _ else _).
      assert (X : exists add, (forall to s, lv_ok to -> lv_big to -> simple_ok s ->
         exists r, add to s = Some r /\ lv_ok r /\ lv_big r /\ (forall v, In v (lelts r) <-> In v (lelts to) \/ In v (selts s))) /\
         r = gen add f L (Simple (SVal KEMPTY)) [] (map arg_elts args)).
      { subst r. destruct (length args <=? 4).
        - exists (add_result cf). split; [apply add_result_ok|]. now rewrite ndapply_gen, iter_elts.
        - eexists. split; [|now apply ndcall_loop_gen]. apply add_to_choice_ok. }
      destruct X as (add & X1 & X2). rewrite X2.
      destruct (gen_spec add X1 f O (map arg_elts args) L (Simple (SVal KEMPTY)) []) as (L1 & out & P & ab & E & R & H);
        [simpl; now rewrite map_length|left; reflexivity|exact I|]. rewrite E. cbn beta iota. cbn [fst snd]. simpl rev in R. simpl app in R.
      destruct ab as [v|]; simpl in H.
      * subst out. exists L1, (SVal v), P, (Some v). split; [reflexivity|]. split; [exact R|]. split; [reflexivity|]. now apply runs_abort_val in R.
      * destruct H as (res & -> & K1 & K2 & K3). destruct (simplify_spec cf res Hcf K1) as (s & -> & S1 & S2).
        exists L1, s, P, None. split; [reflexivity|]. split; [exact R|]. split; [exact S1|]. intro v. rewrite S2, K3. simpl. tauto.
    + destruct Q as [Q|Q]; [|discriminate]. rewrite (single_combo args C), (unwrap_id args Q).
      destruct (dcall_runs f L args O A) as (L1 & s & P & ab & H1 & H2 & H3 & _). exists L1, s, P, ab. auto.
Qed.
End Proofs.

(** ** Theorems *)
(** A call of a function, or of a choice of functions, on arguments that may be choices:
    every function is called on every combination of elements, in order, once, until a
    call aborts; the value is the abort code, or the choice of all values returned. *)
Definition calls_of (h : handler) (args : list arg) : list (fn * list arg) :=
  flat_map (fun f => map (fun c => (f, c)) (combos (map arg_elts args))) (funs h).
Theorem C40_apply_partial : forall cf h L args, 0 < block_size cf ->
  match h with HFun _ => True | HChoice fs => fs <> [] /\ (no_quote args \/ existsb choice_arg args = true) | _ => False end ->
  Forall (fun f => fn_ok f /\ iterates f /\ accepts f (length args)) (funs h) -> Forall arg_ok args ->
  exists L' s P ab, kno_call cf h L args = Some (L', s) /\ runs L (calls_of h args) L' P ab /\
    match ab with Some v => s = SVal v | None => canonical s P end.
Proof.
  intros cf h L args Hcf Hh HF Fa.
  assert (R : exists L' s P ab, kno_call cf h L args = Some (L', s) /\ runs L (calls_of h args) L' P ab /\ result_ok P ab s).
  2:{ destruct R as (L' & s & P & ab & E & R & H). exists L', s, P, ab. split; [exact E|]. split; [exact R|].
      destruct ab as [v|]; [apply H|]. now apply represents_canonical. }
  assert (NE : existsb arg_empty args = false).
  { destruct (existsb arg_empty args) eqn:E; [|reflexivity]. apply existsb_exists in E. destruct E as (a & Ha & E).
    apply arg_empty_iff in E. subst. rewrite Forall_forall in Fa. now elim (Fa _ Ha). }
  unfold kno_call. destruct h as [f|fs| |]; [| |contradiction|contradiction].
  - cbn [funs] in HF. inversion HF as [|? ? (O & I & A) _]; subst. destruct I as [I1 I2]. unfold ndcall_bits. rewrite NE, andb_false_r.
    rewrite I1, I2. simpl negb. cbn iota. rewrite orb_false_l, andb_true_l. unfold calls_of. simpl flat_map. rewrite app_nil_r.
    destruct (existsb (fun a => match a with AS (SChoice _ _) => true | _ => false end) args) eqn:C.
    + rewrite (arity_ok_iff f _ A). apply ndcall_runs; auto; [now split|]. right. apply existsb_exists in C. destruct C as (a & Ha & C).
      apply existsb_exists. exists a. split; [exact Ha|]. now destruct a as [[|]| |].
    + assert (C' : existsb choice_arg args = false).
      { destruct (existsb choice_arg args) eqn:D; [|reflexivity]. apply existsb_exists in D. destruct D as (a & Ha & D).
        rewrite <- C. symmetry. apply existsb_exists. exists a. split; [exact Ha|]. rewrite Forall_forall in Fa. specialize (Fa a Ha).
        destruct a as [[|]| |]; try discriminate; try reflexivity. contradiction. }
      rewrite (single_combo args C'). simpl map.
      assert (U : (if existsb (fun a => match a with AQ _ => true | _ => false end) args then map unwrap args else args) = map unwrap args).
      { destruct (existsb (fun a => match a with AQ _ => true | _ => false end) args) eqn:Q; [reflexivity|]. symmetry. apply unwrap_id. intros s Hs.
        assert (X : existsb (fun a => match a with AQ _ => true | _ => false end) args = true) by (apply existsb_exists; exists (AQ s); auto). congruence. }
      rewrite U. destruct (dcall_runs cf Hcf f L (map unwrap args) O) as (L1 & s & P & ab & H1 & H2 & H3 & _); [now rewrite map_length|]. exists L1, s, P, ab. auto.
  - destruct Hh as [Hne Q]. cbn [funs] in HF. rewrite NE, andb_false_r. simpl andb. cbn iota. unfold calls_of. cbn [funs].
    assert (G : forall results, lv_ok results -> lv_big results -> exists L' s P ab, call_each cf fs L args results = Some (L', s) /\
       runs L (flat_map (fun f => map (fun c => (f, c)) (combos (map arg_elts args))) fs) L' P ab /\
       match ab with Some v => s = SVal v /\ abort_val v = true | None => simple_ok s /\ forall v, In v (selts s) <-> In v (lelts results) \/ P v end).
    { clear Hne. revert L. induction fs as [|f fs IH]; intros L results R1 R2.
      - simpl. destruct (simplify_spec cf results Hcf R1) as (s & -> & S1 & S2). exists L, s, (fun _ => False), None.
        split; [reflexivity|]. split; [constructor|]. split; [assumption|]. intro v. rewrite S2. tauto.
      - inversion HF as [|? ? (O & I & A) HF']; subst. cbn [call_each].
        destruct (ndcall_runs cf Hcf f L args O I A Fa Q) as (L1 & s & P & ab & -> & K1 & K2). cbn beta iota. cbn [fst snd].
        cbn [flat_map]. destruct ab as [v|].
        + destruct K2 as [-> K2]. simpl abortp. rewrite K2. destruct (runs_app_abort _ _ _ _ _ (flat_map (fun f => map (fun c => (f, c)) (combos (map arg_elts args))) fs) K1) as (P' & R').
          exists L1, (SVal v), P', (Some v). split; [reflexivity|]. split; [exact R'|]. auto.
        + rewrite (result_not_abort cf Hcf _ _ _ _ _ K1 K2). destruct K2 as [S1 S2].
          destruct (add_to_choice_ok cf Hcf results s R1 R2 S1) as (r & -> & J1 & J2 & J3).
          destruct (IH HF' L1 r J1 J2) as (L2 & s2 & P2 & ab & E2 & R' & H2). destruct (runs_app _ _ _ _ _ _ _ _ K1 R') as (P3 & R3 & H3).
          exists L2, s2, P3, ab. split; [exact E2|]. split; [exact R3|]. destruct ab as [v|]; [exact H2|]. destruct H2 as [T1 T2].
          split; [exact T1|]. intro v. rewrite T2, J3, S2, (H3 eq_refl). tauto. }
    destruct (G (Simple (SVal KEMPTY))) as (L' & s & P & ab & E & R & H); [now left|exact I|]. exists L', s, P, ab.
    split; [exact E|]. split; [exact R|]. destruct ab as [v|]; [exact H|]. destruct H as [H1 H2]. split; [exact H1|]. intro v. rewrite H2. simpl. tauto.
Qed.
(** Every combination once: nothing missing, nothing twice. *)
Lemma combos_complete : forall l c, In c (combos l) <-> Forall2 (fun x cs => In x cs) c l.
Proof.
  induction l as [|cs l IH]; intro c; simpl.
  - split; [intros [<-|[]]; constructor|]. intro H. inversion H. now left.
  - rewrite in_flat_map. split.
    + intros (x & Hx & H). apply in_map_iff in H. destruct H as (d & <- & H). constructor; [assumption|]. now apply IH.
    + intro H. inversion H as [|x d ? ? H1 H2]; subst. exists x. split; [assumption|]. apply in_map. now apply IH.
Qed.
Theorem C40_combinations : forall h args f c, In (f, c) (calls_of h args) <->
  In f (funs h) /\ Forall2 (fun x a => In x (arg_elts a)) c args.
Proof.
  intros h args f c. unfold calls_of. rewrite in_flat_map. split.
  - intros (g & Hg & H). apply in_map_iff in H. destruct H as (d & E & H). injection E as -> ->. split; [assumption|].
    apply combos_complete in H. clear -H. remember (map arg_elts args) as l eqn:E. revert args E. induction H; intros [|a args] E; try discriminate; constructor.
    + injection E as -> ->. assumption.
    + injection E as -> E. now apply IHForall2.
  - intros [H1 H2]. exists f. split; [assumption|]. apply in_map_iff. exists c. split; [reflexivity|]. apply combos_complete.
    clear -H2. induction H2; simpl; constructor; auto.
Qed.
Theorem C40_once : forall args, Forall (fun a => match a with AS (SChoice _ l) => NoDup l | _ => True end) args ->
  NoDup (combos (map arg_elts args)).
Proof.
  induction args as [|a args IH]; intro H; simpl; [constructor; [intros []|constructor]|].
  inversion H as [|? ? Ha Hr]; subst. specialize (IH Hr).
  assert (D : NoDup (arg_elts a)).
  { destruct a as [[v|b l]| |]; simpl; try (constructor; [intros []|constructor]). clear -Ha. induction Ha as [|x l N _ IH]; simpl; constructor; auto.
    intro C. apply in_map_iff in C. destruct C as (y & E & C). injection E as ->. contradiction. }
  induction D as [|x cs N D IHD]; simpl; [constructor|].
  assert (X : forall l m : list (list arg), NoDup l -> NoDup m -> (forall y, In y l -> In y m -> False) -> NoDup (l ++ m)).
  { induction 1 as [|y l Ny _ IHl]; intros Hm Hd; simpl; [assumption|]. constructor.
    - intro C. apply in_app_or in C. destruct C as [C|C]; [contradiction|]. apply (Hd y); [now left|assumption].
    - apply IHl; [assumption|]. intros z Hz. apply Hd. now right. }
  apply X; [|assumption|].
  - clear -IH. induction IH as [|d ds N _ IHd]; simpl; constructor; auto. intro C. apply in_map_iff in C. destruct C as (e & E & C). injection E as ->. contradiction.
  - intros d H1 H2. apply in_map_iff in H1. destruct H1 as (e & <- & _). apply in_flat_map in H2. destruct H2 as (y & Hy & H2).
    apply in_map_iff in H2. destruct H2 as (e' & E & _). injection E as -> _. contradiction.
Qed.
(** If nothing aborts and all arguments are acceptable the log grows by exactly these calls. *)
Theorem C40_log : forall L q L' P, runs L q L' P None -> Forall (fun fa => passes (fst fa) (snd fa)) q ->
  L' = L ++ map (fun fa => (fn_id (fst fa), received (fst fa) (snd fa))) q.
Proof.
  intros L q L' P R. remember None as ab eqn:E. induction R as [L|L f a L1 s rest L3 P ab O A R IH|]; intro F; [simpl; now rewrite app_nil_r| |discriminate].
  inversion F as [|? ? F1 F2]; subst. rewrite (IH eq_refl F2). destruct O as [(_ & -> & _)|(N & _ & _)]; [|contradiction].
  simpl. now rewrite <- app_assoc.
Qed.
(** An empty argument: nothing is called and the result is empty, unless the function asked
    for such calls. *)
Theorem C40_empty : forall cf h L args, In (AS (SVal KEMPTY)) args ->
  match h with HFun f => fn_xprune f = false | _ => True end -> kno_call cf h L args = Some (L, SVal KEMPTY).
Proof.
  intros cf h L args H X. unfold kno_call. assert (E : existsb arg_empty args = true) by (apply existsb_exists; exists (AS (SVal KEMPTY)); auto).
  destruct h as [f| | |]; try rewrite X; rewrite ?E; reflexivity.
Qed.
(** A non-deterministic function gets the choices themselves, in one call. *)
Theorem C40_nondeterministic : forall cf f L args, 0 < block_size cf -> fn_ok f -> fn_xiter f = true -> accepts f (length args) ->
  (fn_xprune f = false -> ~ In (AS (SVal KEMPTY)) args) ->
  exists L' s, kno_call cf (HFun f) L args = Some (L', s) /\ one f L (map unwrap args) L' s.
Proof.
  intros cf f L args Hcf O X A NE. unfold kno_call, ndcall_bits. rewrite X. simpl negb. cbn iota. rewrite andb_false_l.
  assert (E : negb (fn_xprune f) && existsb arg_empty args = false).
  { destruct (fn_xprune f) eqn:P; [reflexivity|]. simpl. destruct (existsb arg_empty args) eqn:E; [|reflexivity].
    apply existsb_exists in E. destruct E as (a & Ha & E). apply arg_empty_iff in E. subst. now elim (NE eq_refl). }
  rewrite E.
  assert (U : (if existsb (fun a => match a with AQ _ => true | _ => false end) args then map unwrap args else args) = map unwrap args).
  { destruct (existsb (fun a => match a with AQ _ => true | _ => false end) args) eqn:Q; [reflexivity|]. symmetry. apply unwrap_id. intros s Hs.
    assert (Y : existsb (fun a => match a with AQ _ => true | _ => false end) args = true) by (apply existsb_exists; exists (AQ s); auto). congruence. }
  rewrite U. destruct (dcall_spec cf Hcf f L (map unwrap args) O) as (L1 & s & H1 & H2 & _); [now rewrite map_length|]. eauto.
Qed.

(** ** Examples *)
Definition fx (n : N) : val := VAtom (4 * n + 2).   (* the fixnum n *)
(** Answers the sum of fixnum arguments, once more on the second call. *)
Definition sum_body (l : log) (s : list slot) : lv :=
  let t := fold_right (fun x a => match x with SArg (AS (SVal (VAtom w))) => w / 4 + a | _ => a end)%N 0%N s in
  Simple (SVal (fx (t + N.of_nat (length l)))).
Lemma fx_ok n : elt_ok (fx n).
Proof.
  unfold fx. split; [split; reflexivity|]. split; [unfold KEMPTY; intro H; assert (E : (4 * n + 2 = 13)%N) by congruence; lia|].
  split; [unfold KVOID; intro H; assert (E : (4 * n + 2 = 1)%N) by congruence; lia|]. split; [unfold NEVERSEEN; intro H; assert (E : (4 * n + 2 = 81)%N) by congruence; lia|discriminate].
Qed.
Definition sum_fn : fn := {| fn_id := 7; fn_arity := -1; fn_min_arity := 1; fn_call_width := -1; fn_xiter := false; fn_xprune := false;
  fn_trace := false; fn_cprim := false; fn_types := None; fn_defaults := None; fn_body := sum_body |}.
Lemma sum_fn_ok : fn_ok sum_fn.
Proof. constructor; [intros L s; right; apply fx_ok|reflexivity|discriminate]. Qed.
Example C40_met :
  let args := [AS (SChoice true [fx 1; fx 2]); AS (SVal (fx 10)); AS (SChoice true [fx 100; fx 200])] in
  Forall (fun f => fn_ok f /\ iterates f /\ accepts f (length args)) (funs (HFun sum_fn)) /\ Forall arg_ok args /\
  length (calls_of (HFun sum_fn) args) = 4 /\
  exists L, kno_call cf0 (HFun sum_fn) [] args = Some (L, SChoice true [fx 111; fx 114; fx 212; fx 215]) /\ length L = 4.
Proof.
  split; [constructor; [split; [exact sum_fn_ok|split; [split; reflexivity|split; simpl; lia]]|constructor]|].
  split; [repeat constructor; try discriminate|]. split; [reflexivity|]. eexists. split; vm_compute; reflexivity.
Qed.
Example C40_met_five :
  exists L, kno_call cf0 (HChoice [sum_fn; sum_fn]) []
    [AS (SChoice true [fx 1; fx 2]); AS (SVal (fx 10)); AS (SVal (fx 10)); AQ (SChoice true [fx 3; fx 4]); AS (SVal (fx 10))]
  = Some (L, SChoice true [fx 31; fx 33; fx 35]) /\ length L = 4.
Proof. eexists. split; vm_compute; reflexivity. Qed.

(** ** Where it fails *)
(** A traced function is called twice for every combination (core_call lacks an else). *)
Definition traced_fn : fn := {| fn_id := 7; fn_arity := 1; fn_min_arity := 1; fn_call_width := -1; fn_xiter := false; fn_xprune := false;
  fn_trace := true; fn_cprim := false; fn_types := None; fn_defaults := None; fn_body := sum_body |}.
Theorem C40_traced_refuted : exists L, kno_call cf0 (HFun traced_fn) [] [AS (SVal (fx 1))] = Some (L, SVal (fx 2)) /\
  L = [(7, [SArg (AS (SVal (fx 1)))]); (7, [SArg (AS (SVal (fx 1)))])].
Proof. eexists. split; vm_compute; reflexivity. Qed.
(** An accumulated choice (prechoice) as an argument is not iterated: the function gets it
    as one argument. *)
Lemma init_prechoice_ok n : 0 < n -> pre_ok (init_prechoice n).
Proof. intro H. constructor; simpl; auto; try lia; try discriminate; try constructor. Qed.
Theorem C40_accumulator_refuted : exists p L s, acc [fx 1; fx 2] = Some p /\ kno_call cf0 (HFun sum_fn) [] [AP p] = Some (L, s) /\
  lv_ok (Pre p) /\ (forall x, In x (pelts p) <-> x = fx 1 \/ x = fx 2) /\ L = [(7, [SArg (AP p)])].
Proof.
  destruct (prechoice_add_spec cf0 (init_prechoice 4) (Simple (SVal (fx 1)))) as (p1 & E1 & O1 & M1);
    [unfold cfg_ok; simpl; lia|apply init_prechoice_ok; lia|right; apply fx_ok|].
  destruct (prechoice_add_spec cf0 p1 (Simple (SVal (fx 2)))) as (p2 & E2 & O2 & M2); [unfold cfg_ok; simpl; lia|assumption|right; apply fx_ok|].
  exists p2. eexists. eexists. split; [unfold acc; cbn [fold_left]; rewrite E1, E2; reflexivity|].
  split; [cbn -[simplify]; reflexivity|]. split; [exact O2|]. split; [|reflexivity].
  intro x. rewrite M2, M1. cbn [lelts]. rewrite !selts_elt by apply fx_ok. simpl. intuition.
Qed.
(** A void result of the first call is taken into the result, a later one is not (fewer
    than five arguments). *)
Definition void_fn (c : N) : fn := {| fn_id := 7; fn_arity := 1; fn_min_arity := 1; fn_call_width := -1; fn_xiter := false; fn_xprune := false;
  fn_trace := false; fn_cprim := false; fn_types := None; fn_defaults := None;
  fn_body := fun _ s => match s with [SArg (AS (SVal (VAtom w)))] => if (w / 4 =? c)%N then Simple (SVal KVOID) else Simple (SVal (VAtom w)) | _ => Simple (SVal KVOID) end |}.
Theorem C40_void_refuted : let arg := AS (SChoice true [fx 1; fx 2]) in
  (exists L, kno_call cf0 (HFun (void_fn 1)) [] [arg] = Some (L, SChoice true [KVOID; fx 2])) /\
  (exists L, kno_call cf0 (HFun (void_fn 2)) [] [arg] = Some (L, SVal (fx 1))).
Proof. split; eexists; vm_compute; reflexivity. Qed.
(** A quoted choice given to a choice of functions, without other choices, stays quoted. *)
Theorem C40_quoted_refuted : let q := AQ (SChoice true [fx 1; fx 2]) in
  (exists L s, kno_call cf0 (HChoice [sum_fn; sum_fn]) [] [q] = Some (L, s) /\ map snd L = [[SArg q]; [SArg q]]) /\
  (exists L s, kno_call cf0 (HFun sum_fn) [] [q] = Some (L, s) /\ map snd L = [[SArg (AS (SChoice true [fx 1; fx 2]))]]).
Proof. split; eexists; eexists; (split; [vm_compute; reflexivity|reflexivity]). Qed.
(** An accumulated choice of functions cannot be called. *)
Theorem C40_accumulated_functions_refuted : forall cf L args, existsb arg_empty args = false -> kno_call cf HPre L args = Some (L, KNO_ERROR).
Proof. intros cf L args H. unfold kno_call. now rewrite H. Qed.

(** * Property C45: optional arguments of C primitives. *)
(** With a default for every argument, a call with fewer arguments gives the body the
    arguments followed by the defaults of the missing ones. *)
Theorem C45_defaults_partial : forall f L given d, fn_cprim f = true -> fn_defaults f = Some d -> fn_call_width f = Z.of_nat (length d) ->
  length given <= length d -> passes f given ->
  invoke f L given = Some (L ++ [(fn_id f, map SArg (given ++ skipn (length given) d))], fn_body f L (map SArg (given ++ skipn (length given) d))).
Proof.
  intros f L given d C D W Hl P. unfold invoke. rewrite (proj2 (check_iff f given) P), C. unfold fill. rewrite W, D.
  destruct (Z.ltb_spec (Z.of_nat (length d)) 0); [lia|]. rewrite Nat2Z.id. destruct (Nat.ltb_spec (length given) (length d)) as [H1|H1].
  - rewrite skipn_length. destruct (Nat.ltb_spec (length d) (length given + (length d - length given))); [lia|].
    replace (length d - (length given + (length d - length given))) with 0 by lia. reflexivity.
  - rewrite skipn_all2 by lia. now rewrite app_nil_r.
Qed.
(** Without declared defaults (kno_cons_cprim2 and following) and k missing arguments: one is
    fine by luck (the number 1 is the void object); two give the fixnum 0 and an uninitialised
    word; four crash. *)
Definition bare_fn (width : Z) : fn := {| fn_id := 7; fn_arity := width; fn_min_arity := 0; fn_call_width := width; fn_xiter := false; fn_xprune := false;
  fn_trace := false; fn_cprim := true; fn_types := None; fn_defaults := None; fn_body := sum_body |}.
Theorem C45_one_missing_partial : forall f given, fn_defaults f = None -> fn_call_width f = (Z.of_nat (length given) + 1)%Z ->
  fill f given = Some (map SArg given ++ [SWord 1]) /\ VAtom 1 = KVOID.
Proof.
  intros f given D W. split; [|reflexivity]. unfold fill. rewrite D, W. destruct (Z.ltb_spec (Z.of_nat (length given) + 1) 0); [lia|].
  replace (Z.to_nat (Z.of_nat (length given) + 1)) with (S (length given)) by lia.
  destruct (Nat.ltb_spec (length given) (S (length given))); [|lia]. simpl length. rewrite Nat.add_0_r.
  destruct (Nat.ltb_spec (S (length given)) (length given)); [lia|]. replace (S (length given) - length given) with 1 by lia.
  simpl. now rewrite app_nil_r.
Qed.
Theorem C45_no_defaults_refuted : fill (bare_fn 2) [] = Some [SWord 2; SUninit] /\ VAtom 2 = fx 0 /\ fill (bare_fn 4) [] = None.
Proof. repeat split. Qed.
Example C45_met : exists d, passes {| fn_id := 7; fn_arity := 3; fn_min_arity := 1; fn_call_width := 3; fn_xiter := false; fn_xprune := false;
  fn_trace := false; fn_cprim := true; fn_types := Some [None; Some (fun _ => true)]; fn_defaults := Some d; fn_body := sum_body |} [AS (SVal (fx 1))] /\ length d = 3.
Proof.
  exists [AS (SVal KVOID); AS (SVal (fx 3)); AS (SVal KVOID)]. split; [|reflexivity]. apply check_iff. reflexivity.
Qed.

Print Assumptions C40_apply_partial.
Print Assumptions C40_combinations.
Print Assumptions C40_once.
Print Assumptions C40_log.
Print Assumptions C40_empty.
Print Assumptions C40_nondeterministic.
Print Assumptions C40_traced_refuted.
Print Assumptions C40_accumulator_refuted.
Print Assumptions C40_void_refuted.
Print Assumptions C40_quoted_refuted.
Print Assumptions C40_accumulated_functions_refuted.
Print Assumptions C45_defaults_partial.
Print Assumptions C45_one_missing_partial.
Print Assumptions C45_no_defaults_refuted.
