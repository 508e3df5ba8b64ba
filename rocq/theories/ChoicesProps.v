(** * C07-C12: choices behave as finite sets.

    The specification is the set semantics [den] of programs over the choice API; the
    model is run by [run].  Elements are values satisfying [elt_ok]: not the empty
    choice, not a choice, not one of the constants #VOID and NEVERSEEN, and covered by
    the ordering theorems (C13). *)
From Coq Require Import Lia Permutation Sorting.Sorted List.
From Verif Require Import ValueModel ValueProofs SortModel SortProofs ChoicesModel ChoicesProofs ChoicesProofs2 ChoicesProofs3.

(** ** Programs *)
Inductive prog :=
| PEmpty                                   (* KNO_EMPTY *)
| PVal (v : val)                           (* a value *)
| PAdd (shared : bool) (a b : prog)        (* CHOICE_ADD / KNO_ADD_TO_CHOICE *)
| PTouch (a : prog)                        (* kno_normalize_choice(a), result dropped (it is cached in a) *)
| PSimplify (a : prog)                     (* kno_simplify_choice *)
| PUnion (l : list prog)                   (* kno_union *)
| PInter (a : prog) (l : list prog)        (* kno_intersection *)
| PDiff (a b : prog).                      (* kno_difference *)

Fixpoint den (e : prog) (x : val) : Prop :=
  match e with
  | PEmpty => False
  | PVal v => x = v
  | PAdd _ a b => den a x \/ den b x
  | PTouch a | PSimplify a => den a x
  | PUnion l => (fix any l := match l with [] => False | a :: l => den a x \/ any l end) l
  | PInter a l => den a x /\ (fix all l := match l with [] => True | a :: l => den a x /\ all l end) l
  | PDiff a b => den a x /\ ~ den b x
  end.

Fixpoint wf (e : prog) : Prop :=
  match e with
  | PEmpty => True
  | PVal v => elt_ok v
  | PAdd _ a b | PDiff a b => wf a /\ wf b
  | PTouch a | PSimplify a => wf a
  | PUnion l => (fix all l := match l with [] => True | a :: l => wf a /\ all l end) l
  | PInter a l => wf a /\ (fix all l := match l with [] => True | a :: l => wf a /\ all l end) l
  end.

Fixpoint run (cf : config) (e : prog) : option lv :=
  let runs := fix runs l := match l with
                            | [] => Some []
                            | a :: l => do x <- run cf a; do r <- runs l; Some (x :: r)
                            end in
  match e with
  | PEmpty => Some (Simple (SVal KEMPTY))
  | PVal v => Some (Simple (SVal v))
  | PAdd sh a b => do x <- run cf a; do y <- run cf b; add_to_choice cf sh x y
  | PTouch a =>
    do x <- run cf a;
    match x with
    | Simple _ => Some x
    | Pre p => do sp <- normalize cf p; let (_, p') := (sp : simple * pre) in Some (Pre p')
    end
  | PSimplify a => do x <- run cf a; do s <- simplify cf x; Some (Simple s)
  | PUnion l => do xs <- runs l; do s <- kno_union cf xs; Some (Simple s)
  | PInter a l => do x <- run cf a; do xs <- runs l; kno_intersection cf (x :: xs)
  | PDiff a b => do x <- run cf a; do y <- run cf b; kno_difference cf x y
  end.

Section Ind.
Variable P : prog -> Prop.
Hypothesis HE : P PEmpty.
Hypothesis HV : forall v, P (PVal v).
Hypothesis HA : forall s a b, P a -> P b -> P (PAdd s a b).
Hypothesis HT : forall a, P a -> P (PTouch a).
Hypothesis HS : forall a, P a -> P (PSimplify a).
Hypothesis HU : forall l, Forall P l -> P (PUnion l).
Hypothesis HI : forall a l, P a -> Forall P l -> P (PInter a l).
Hypothesis HD : forall a b, P a -> P b -> P (PDiff a b).
Fixpoint prog_ind' (e : prog) : P e :=
  let go := fix go l : Forall P l :=
    match l with [] => Forall_nil _ | a :: l => Forall_cons _ (prog_ind' a) (go l) end in
  match e with
  | PEmpty => HE | PVal v => HV v
  | PAdd s a b => HA s a b (prog_ind' a) (prog_ind' b)
  | PTouch a => HT a (prog_ind' a) | PSimplify a => HS a (prog_ind' a)
  | PUnion l => HU l (go l)
  | PInter a l => HI a l (prog_ind' a) (go l)
  | PDiff a b => HD a b (prog_ind' a) (prog_ind' b)
  end.
End Ind.

Definition runs cf := fix runs l := match l with
                            | [] => Some []
                            | a :: l => do x <- run cf a; do r <- runs l; Some (x :: r)
                            end.
Definition good cf e : Prop := wf e ->
  exists r, run cf e = Some r /\ lv_ok r /\ lv_big r /\ forall x, In x (lelts r) <-> den e x.

Lemma runs_spec cf l : Forall (good cf) l ->
  (fix all l := match l with [] => True | a :: l => wf a /\ all l end) l ->
  exists xs, runs cf l = Some xs /\ Forall (fun x => lv_ok x /\ lv_big x) xs /\
    (forall z, (exists a, In a xs /\ In z (lelts a)) <->
       (fix any l := match l with [] => False | a :: l => den a z \/ any l end) l) /\
    (forall z, (forall a, In a xs -> In z (lelts a)) <->
       (fix all l := match l with [] => True | a :: l => den a z /\ all l end) l).
Proof.
  induction 1 as [|e l He Hl IH]; intros Hw.
  - exists []. split; auto. split; auto. split; intros z; simpl; [|tauto]. split; [|tauto]. intros (a & [] & _).
  - destruct Hw as [Hw1 Hw2]. destruct (He Hw1) as (x & E & X1 & X2 & X3).
    destruct (IH Hw2) as (xs & E' & F & M1 & M2). exists (x :: xs).
    cbn [runs]. rewrite E, E'. split; auto. split; auto. split; intros z.
    + rewrite <- M1, <- X3. split.
      * intros (a & [<-|] & ?); eauto.
      * intros [|(a & ? & ?)]; [exists x|exists a]; simpl; auto.
    + rewrite <- M2, <- X3. split.
      * intros H. split; [|intros]; apply H; simpl; auto.
      * intros [? ?] a [<-|]; auto.
Qed.

Lemma run_good cf e : cfg_ok cf -> good cf e.
Proof.
  intros Hcf. induction e using prog_ind'; unfold good; intros Hw.
  - exists (Simple (SVal KEMPTY)). split; auto. split; [now left|]. split; [exact I|]. simpl. tauto.
  - exists (Simple (SVal v)). split; auto. split; [now right|]. split; [exact I|].
    intros x. cbn [lelts den]. rewrite selts_elt by exact Hw. simpl. intuition.
  - destruct Hw as [W1 W2]. destruct (IHe1 W1) as (x & E1 & X1 & X2 & X3).
    destruct (IHe2 W2) as (y & E2 & Y1 & Y2 & Y3). simpl. rewrite E1, E2.
    destruct (add_to_choice_spec cf s x y) as (r & -> & R1 & R2 & R3); auto.
    exists r. split; auto. split; auto. split; auto. intros z. now rewrite R3, X3, Y3.
  - destruct (IHe Hw) as (x & E & X1 & X2 & X3). simpl. rewrite E. destruct x as [s|p]; [exists (Simple s); auto|].
    destruct (normalize_spec cf p Hcf X1) as (s & p' & -> & _ & P1 & P2).
    exists (Pre p'). split; auto. split; auto. simpl in *. split.
    + apply (two_distinct_incl (pelts p)); auto. intros z. apply P2.
    + intros z. now rewrite P2.
  - destruct (IHe Hw) as (x & E & X1 & X2 & X3). simpl. rewrite E.
    destruct (simplify_spec cf x Hcf X1) as (s & -> & S1 & S2).
    exists (Simple s). split; auto. split; auto. split; [exact I|]. intros z. simpl lelts. now rewrite S2, X3.
  - destruct (runs_spec cf l H Hw) as (xs & E & F & M1 & _). cbn [run]. fold (runs cf). rewrite E.
    destruct (union_spec cf xs Hcf F) as (s & -> & S1 & S2).
    exists (Simple s). split; auto. split; auto. split; [exact I|]. intros z. simpl lelts. rewrite S2. apply M1.
  - destruct Hw as [W1 W2]. destruct (IHe W1) as (x & E1 & X1 & X2 & X3).
    destruct (runs_spec cf l H W2) as (xs & E & F & _ & M2). cbn [run]. fold (runs cf). rewrite E1, E.
    destruct (intersection_spec cf (x :: xs) Hcf) as (r & -> & R1 & R2 & R3); auto; [discriminate|].
    exists r. split; auto. split; auto. split; auto. intros z. cbn [den]. rewrite R3, <- X3, <- M2. split.
    + intros HH. split; [|intros]; apply HH; simpl; auto.
    + intros [? ?] a [<-|]; auto.
  - destruct Hw as [W1 W2]. destruct (IHe1 W1) as (x & E1 & X1 & X2 & X3).
    destruct (IHe2 W2) as (y & E2 & Y1 & Y2 & Y3). simpl. rewrite E1, E2.
    destruct (difference_spec cf x y) as (r & -> & R1 & R2 & R3); auto.
    exists r. split; auto. split; auto. split; auto. intros z. now rewrite R3, X3, Y3.
Qed.

(** The list of elements in a simplified value, stated without the model's helpers. *)
Definition canonical (s : simple) (P : val -> Prop) : Prop :=
  match s with
  | SVal v => (v = KEMPTY /\ forall x, ~ P x) \/ (elt_ok v /\ forall x, P x <-> x = v)
  | SChoice _ l => 2 <= length l /\ StronglySorted (fun x y => cons_compare x y = Lt) l /\ NoDup l
                   /\ forall x, In x l <-> P x
  end.
Lemma ssorted_nodup l : Forall elt_ok l -> ssorted l -> NoDup l.
Proof.
  intros F S. induction S as [|a l S IH G]; constructor; inversion F; subst; auto.
  apply below_not_in; auto.
Qed.
Lemma represents_canonical s P : represents s P -> canonical s P.
Proof.
  intros [H M]. destruct s as [v|a l]; simpl.
  - destruct H as [->|H].
    + left. split; auto. intros x Hx. apply M in Hx. exact Hx.
    + right. split; auto. intros x. rewrite <- M, selts_elt by auto. simpl. intuition.
  - destruct H as (F & S & L & _). split; auto. split; auto. split; auto. now apply ssorted_nodup.
Qed.

(** ** C07: whatever was added, in whatever order and grouping, with normalisations and
    set operations in between, the simplified result is the canonical form of the set. *)
Theorem C07_accumulated_set_partial : forall cf e, 0 < block_size cf -> wf e ->
  exists s, run cf (PSimplify e) = Some (Simple s) /\ canonical s (den e).
Proof.
  intros cf e Hcf Hw. destruct (run_good cf e Hcf Hw) as (r & E & R1 & R2 & R3).
  simpl. rewrite E. destruct (simplify_spec cf r Hcf R1) as (s & -> & S1 & S2).
  exists s. split; auto. apply represents_canonical. split; auto. intros x. now rewrite S2, R3.
Qed.
(** Equal sets give equal values, whatever the programs and the thresholds. *)
Theorem C07_order_independent_partial : forall cf cf' e e', 0 < block_size cf -> 0 < block_size cf' ->
  wf e -> wf e' -> (forall x, den e x <-> den e' x) ->
  exists s s', run cf (PSimplify e) = Some (Simple s) /\ run cf' (PSimplify e') = Some (Simple s') /\
    toval s = toval s'.
Proof.
  intros cf cf' e e' Hcf Hcf' Hw Hw' Hd.
  destruct (run_good cf (PSimplify e) Hcf Hw) as (r & E & R1 & R2 & R3).
  destruct (run_good cf' (PSimplify e') Hcf' Hw') as (r' & E' & R1' & R2' & R3').
  assert (HS : exists s, r = Simple s).
  { clear -E. simpl in E. destruct (run cf e); [|discriminate]. destruct (simplify cf l); [|discriminate].
    injection E as <-. eauto. }
  assert (HS' : exists s, r' = Simple s).
  { clear -E'. simpl in E'. destruct (run cf' e'); [|discriminate]. destruct (simplify cf' l); [|discriminate].
    injection E' as <-. eauto. }
  destruct HS as [s ->], HS' as [s' ->]. exists s, s'. split; auto. split; auto.
  apply (represents_unique s s' (den e)).
  - split; auto.
  - split; auto. intros x. simpl lelts in R3'. rewrite R3'. symmetry. exact (Hd x).
Qed.

(** Accumulators created with kno_init_prechoice (fileindex.c, tables.c) of non-zero
    capacity: any history of additions and normalisations. *)
Inductive step := SAdd (e : prog) | SNorm.
Fixpoint run_steps (cf : config) (p : pre) (l : list step) : option (pre * list simple) :=
  match l with
  | [] => Some (p, [])
  | SAdd e :: l => do x <- run cf e; do p' <- prechoice_add cf p x; run_steps cf p' l
  | SNorm :: l => do sp <- normalize cf p;
                  do r <- run_steps cf (snd (sp : simple * pre)) l;
                  Some (fst (r : pre * list simple), fst sp :: snd r)
  end.
(** The set accumulated before each SNorm. *)
Fixpoint den_steps (P : val -> Prop) (l : list step) : list (val -> Prop) :=
  match l with
  | [] => []
  | SAdd e :: l => den_steps (fun x => P x \/ den e x) l
  | SNorm :: l => P :: den_steps P l
  end.
Definition wf_step s := match s with SAdd e => wf e | SNorm => True end.
Lemma canonical_iff s (P Q : val -> Prop) : canonical s P -> (forall x, P x <-> Q x) -> canonical s Q.
Proof.
  destruct s as [v|a l]; simpl.
  - intros [[-> H]|[H1 H2]] E; [left|right]; split; auto.
    + intros x Hx. apply E in Hx. now apply (H x).
    + intros x. rewrite <- E. apply H2.
  - intros (H1 & H2 & H3 & H4) E. repeat split; auto; intros; [apply E, H4|apply H4, E]; auto.
Qed.
Theorem C07_prechoice_history_partial : forall cf lim l, 0 < block_size cf -> 0 < lim -> Forall wf_step l ->
  exists p outs, run_steps cf (init_prechoice lim) l = Some (p, outs) /\
    Forall2 canonical outs (den_steps (fun _ => False) l).
Proof.
  intros cf lim l Hcf Hlim Hw.
  assert (G : forall l, Forall wf_step l -> forall p (P : val -> Prop), pre_ok p -> (forall x, In x (pelts p) <-> P x) ->
     exists p' outs, run_steps cf p l = Some (p', outs) /\ Forall2 canonical outs (den_steps P l)).
  { clear -Hcf. induction 1 as [|s l Hs _ IH]; intros p P Hp HP.
    - exists p, []. split; auto. constructor.
    - destruct s as [e|]; simpl.
      + destruct (run_good cf e Hcf Hs) as (r & -> & R1 & R2 & R3).
        destruct (prechoice_add_spec cf p r Hcf Hp R1) as (p' & -> & P1 & P2).
        apply IH; auto. intros x. now rewrite P2, HP, R3.
      + destruct (normalize_spec cf p Hcf Hp) as (s & p' & -> & R & P1 & P2).
        destruct (IH p' P P1) as (p'' & outs & E & F); [intros x; rewrite P2; apply HP|].
        simpl. rewrite E. exists p'', (s :: outs). split; auto. constructor; auto.
        apply (canonical_iff s (fun x => In x (pelts p))); auto. now apply represents_canonical. }
  apply G; auto; [|simpl; tauto].
  constructor; simpl; auto; try discriminate.
  - split; [lia|exact Hlim].
  - constructor.
  - intros _ _. constructor.
Qed.

(** ** C08 *)
Theorem C08_membership_partial : forall cf e key, 0 < block_size cf -> wf e ->
  vok key = true -> plain key = true -> key <> KEMPTY ->
  exists x b, run cf e = Some x /\ kno_choice_containsp cf key x = Some b /\
    (b = true <-> den e key).
Proof.
  intros cf e key Hcf Hw Hk Hk' Nk. destruct (run_good cf e Hcf Hw) as (x & E & X1 & _ & X3).
  destruct (kno_choice_containsp_spec cf key x Hcf X1 (conj Hk Hk') Nk) as (b & Eb & M).
  exists x, b. split; auto. split; auto. now rewrite M, X3.
Qed.
(** The binary search itself, on any strictly sorted vector (also empty). *)
Theorem C08_binary_search_partial : forall v x, Forall (fun y => vok y = true /\ plain y = true) v ->
  StronglySorted (fun a b => cons_compare a b = Lt) v -> vok x = true -> plain x = true ->
  exists b, choice_containsp x v = Some b /\ (b = true <-> In x v).
Proof. intros. apply containsp_spec; auto. split; auto. Qed.

(** ** C09 *)
Theorem C09_union_partial : forall cf l, 0 < block_size cf -> wf (PUnion l) ->
  exists s, run cf (PUnion l) = Some (Simple s) /\ canonical s (fun x => exists e, In e l /\ den e x).
Proof.
  intros cf l Hcf Hw. destruct (run_good cf (PUnion l) Hcf Hw) as (r & E & R1 & R2 & R3).
  assert (exists s, r = Simple s) as [s ->].
  { clear -E. cbn [run] in E. match type of E with (do _ <- ?t; _) = _ => destruct t; [|discriminate] end.
    destruct (kno_union cf l0); [|discriminate]. injection E as <-. eauto. }
  exists s. split; auto. apply represents_canonical. split; auto. intros x. simpl lelts in R3. rewrite R3.
  clear. cbn [den]. induction l as [|a l IH].
  - split; [tauto|]. intros (e & [] & _).
  - rewrite IH. split; [intros [|(e & ? & ?)]; [exists a|exists e]; simpl; auto|].
    intros (e & [<-|] & ?); eauto.
Qed.
(** The scanner merge (merge_choices), for any number of choice objects of any size. *)
Theorem C09_merge_choices_partial : forall cf l, 0 < block_size cf ->
  Forall (fun c => Forall elt_ok (snd c) /\ StronglySorted (fun a b => cons_compare a b = Lt) (snd c)
            /\ snd c <> [] /\ (fst c = true -> forall x, In x (snd c) -> atomicp x = true)) l ->
  exists s, merge_choices cf l = Some s /\ canonical s (fun x => exists c, In c l /\ In x (snd c)).
Proof.
  intros cf l Hcf H. destruct (merge_choices_spec cf l Hcf) as (s & E & R).
  - eapply Forall_impl; [|exact H]. cbn beta. intros c (H1 & H2 & H3 & H4). repeat split; auto.
    apply Forall_forall. intros x Hx Ha. auto.
  - exists s. split; auto. now apply represents_canonical.
Qed.

(** ** C10 *)
Theorem C10_intersection_partial : forall cf a l, 0 < block_size cf -> wf (PInter a l) ->
  exists s, run cf (PSimplify (PInter a l)) = Some (Simple s) /\
    canonical s (fun x => forall e, In e (a :: l) -> den e x).
Proof.
  intros cf a l Hcf Hw. destruct (C07_accumulated_set_partial cf (PInter a l) Hcf Hw) as (s & E & C).
  exists s. split; auto. eapply canonical_iff; [exact C|]. clear. intros x. cbn [den].
  assert (H : (fix all l := match l with [] => True | a :: l => den a x /\ all l end) l <-> forall e, In e l -> den e x).
  { induction l as [|b l IH]; [simpl; tauto|]. rewrite IH. split.
    - intros [? ?] e [<-|]; auto. - intros H. split; [|intros]; apply H; simpl; auto. }
  rewrite H. split.
  - intros [? ?] e [<-|]; auto. - intros H'. split; [|intros]; apply H'; simpl; auto.
Qed.

(** ** C11 *)
Theorem C11_difference_partial : forall cf a b, 0 < block_size cf -> wf a -> wf b ->
  exists s, run cf (PSimplify (PDiff a b)) = Some (Simple s) /\
    canonical s (fun x => den a x /\ ~ den b x).
Proof. intros cf a b Hcf Ha Hb. exact (C07_accumulated_set_partial cf (PDiff a b) Hcf (conj Ha Hb)). Qed.

(** ** C12 *)
Theorem C12_overlap_partial : forall cf a b, 0 < block_size cf -> wf a -> wf b ->
  exists x y r, run cf a = Some x /\ run cf b = Some y /\ kno_overlapp cf x y = Some r /\
    (r = true <-> exists v, den a v /\ den b v).
Proof.
  intros cf a b Hcf Ha Hb.
  destruct (run_good cf a Hcf Ha) as (x & Ex & X1 & X2 & X3).
  destruct (run_good cf b Hcf Hb) as (y & Ey & Y1 & Y2 & Y3).
  destruct (overlapp_spec cf x y) as (r & E & M); auto.
  { destruct x as [s|p]; [right; right; eauto|]. left. simpl. destruct X2 as (u & _ & Hu & _).
    intros E. rewrite E in Hu. destruct Hu. }
  exists x, y, r. split; auto. split; auto. split; auto. rewrite M.
  split; intros (v & ? & ?); exists v; split; try apply X3; try apply Y3; auto.
Qed.
Theorem C12_containment_partial : forall cf a b, 0 < block_size cf -> wf a -> wf b -> (exists v, den a v) ->
  exists x y r, run cf a = Some x /\ run cf b = Some y /\ kno_containsp cf x y = Some r /\
    (r = true <-> forall v, den a v -> den b v).
Proof.
  intros cf a b Hcf Ha Hb (v & Hv).
  destruct (run_good cf a Hcf Ha) as (x & Ex & X1 & X2 & X3).
  destruct (run_good cf b Hcf Hb) as (y & Ey & Y1 & Y2 & Y3).
  destruct (kno_containsp_spec cf x y) as (r & E & M); auto.
  { intros E. apply X3 in Hv. rewrite E in Hv. destruct Hv. }
  exists x, y, r. split; auto. split; auto. split; auto. rewrite M.
  split; intros H w Hw; apply Y3; apply H; apply X3; auto.
Qed.

(** ** Concrete cases meeting the hypotheses *)
Definition cf0 := {| small_threshold := 2; big_threshold := 4; block_size := 3 |}.
Definition ex_a : prog := (* adds, nested choices, muddled order, normalisation between *)
  PAdd false (PTouch (PAdd false (PAdd true (PAdd false (PVal (VAtom 30)) (PVal (VStr [97%N]))) (PVal (VAtom 14)))
     (PVal (VAtom 30)))) (PAdd false (PVal (VAtom 22)) (PVal (VAtom 6))).
Definition ex_b : prog := PUnion [PVal (VAtom 6); PVal (VAtom 14); PAdd false (PVal (VStr [97%N])) (PVal (VStr [98%N]))].
Lemma elt_ok_b v : vok v && plain v = true -> v <> KEMPTY -> v <> KVOID -> v <> NEVERSEEN ->
  (match v with VChoice _ => false | _ => true end = true) -> elt_ok v.
Proof.
  intros H ? ? ? H'. apply andb_true_iff in H. destruct H. split; [split; auto|].
  split; auto. split; auto. split; auto. intros l ->. discriminate.
Qed.
Ltac elts := repeat split; (apply elt_ok_b || idtac); try reflexivity; try discriminate.
Example ex_a_wf : wf ex_a. Proof. cbn; repeat split; try reflexivity; discriminate. Qed.
Example ex_b_wf : wf ex_b. Proof. cbn; repeat split; try reflexivity; discriminate. Qed.
Example C07_ex : run cf0 (PSimplify ex_a) =
  Some (Simple (SChoice false [VAtom 6; VAtom 14; VAtom 22; VAtom 30; VStr [97%N]])).
Proof. vm_compute. reflexivity. Qed.
Example C09_ex : run cf0 (PUnion [ex_a; ex_b]) =
  Some (Simple (SChoice false [VAtom 6; VAtom 14; VAtom 22; VAtom 30; VStr [97%N]; VStr [98%N]])).
Proof. vm_compute. reflexivity. Qed.
Example C10_ex : run cf0 (PInter ex_a [ex_b; ex_a]) = Some (Simple (SChoice false [VAtom 6; VAtom 14; VStr [97%N]])).
Proof. vm_compute. reflexivity. Qed.
Example C11_ex : run cf0 (PDiff ex_a ex_b) = Some (Simple (SChoice true [VAtom 22; VAtom 30])).
Proof. vm_compute. reflexivity. Qed.
Example C12_ex :
  (do x <- run cf0 ex_a; do y <- run cf0 ex_b; kno_overlapp cf0 x y) = Some true /\
  (do x <- run cf0 (PVal (VAtom 14)); do y <- run cf0 ex_b; kno_containsp cf0 x y) = Some true /\
  (do x <- run cf0 ex_a; do y <- run cf0 ex_b; kno_containsp cf0 x y) = Some false.
Proof. vm_compute. auto. Qed.
Example C07_hist_ex : option_map snd (run_steps cf0 (init_prechoice 1)
   [SNorm; SAdd (PVal (VAtom 9)); SNorm; SAdd (PVal (VAtom 9)); SAdd ex_b; SNorm]) =
   Some [SVal KEMPTY; SVal (VAtom 9); SChoice false [VAtom 6; VAtom 9; VAtom 14; VStr [97%N]; VStr [98%N]]].
Proof. vm_compute. reflexivity. Qed.

(** ** Findings: where the code is not set-like *)

(** An empty accumulator (kno_init_prechoice and nothing added).  Adding it to a single
    value gives a one-element choice object instead of the value. *)
Definition acc (l : list val) : option pre :=
  fold_left (fun p v => do p <- p; prechoice_add cf0 p (Simple (SVal v))) l (Some (init_prechoice 4)).
Theorem C07_empty_accumulator_refuted : exists p s,
  acc [] = Some p /\ (do r <- add_to_choice cf0 false (Simple (SVal (VAtom 6))) (Pre p); simplify cf0 r) = Some s /\
  s = SChoice true [VAtom 6].
Proof. eexists. eexists. split; [vm_compute; reflexivity|]. split; vm_compute; reflexivity. Qed.
(** ... and adding it to a choice aborts. *)
Theorem C07_empty_accumulator_abort_refuted : exists p c,
  acc [] = Some p /\ simple_ok c /\
  (do r <- add_to_choice cf0 false (Simple c) (Pre p); simplify cf0 r) = None.
Proof.
  eexists. exists (SChoice true [VAtom 6; VAtom 10]). split; [vm_compute; reflexivity|].
  split; [|vm_compute; reflexivity].
  repeat split; repeat constructor; try discriminate.
Qed.
(** An accumulator holding just the value it is added to. *)
Theorem C07_singleton_accumulator_refuted : exists p s,
  acc [VAtom 6] = Some p /\ (do r <- add_to_choice cf0 false (Simple (SVal (VAtom 6))) (Pre p); simplify cf0 r) = Some s /\
  s = SChoice true [VAtom 6].
Proof. eexists. eexists. split; [vm_compute; reflexivity|]. split; vm_compute; reflexivity. Qed.
(** An accumulator of capacity 0 (kno_init_prechoice(..,0) is reachable from
    kno_hashtable key listings, tables.c:3184): the first addition writes out of bounds. *)
Theorem C07_zero_capacity_refuted : forall cf v, elt_ok v ->
  prechoice_add cf (init_prechoice 0) (Simple (SVal v)) = None.
Proof.
  intros cf v Hv. unfold prechoice_add. cbn [simplify]. cbn [is_empty]. rewrite elt_nonempty by auto. reflexivity.
Qed.
(** The internal constant NEVERSEEN as smallest element is lost by a merge. *)
Theorem C09_neverseen_refuted : exists s,
  merge_choices cf0 [(true, [NEVERSEEN; VAtom 86]); (true, [NEVERSEEN; VAtom 90])] = Some s /\
  ~ In NEVERSEEN (selts s).
Proof. eexists. split; [vm_compute; reflexivity|]. vm_compute. intros [|[|[]]]; discriminate. Qed.
(** Intersection with an empty accumulator is not empty. *)
Theorem C10_empty_accumulator_refuted : exists p c r,
  acc [] = Some p /\ simple_ok c /\ pelts p = [] /\
  kno_intersection cf0 [Simple c; Pre p] = Some r /\ lelts r <> [].
Proof.
  eexists. exists (SChoice true [VAtom 6; VAtom 10]). eexists.
  split; [vm_compute; reflexivity|]. split; [repeat split; repeat constructor; try discriminate|].
  split; [reflexivity|]. split; [vm_compute; reflexivity|]. vm_compute. discriminate.
Qed.
(** Two accumulators that hold the same single value: the argument after them is skipped. *)
Theorem C10_skipped_argument_refuted : exists p c r,
  acc [VAtom 6] = Some p /\ simple_ok c /\ ~ In (VAtom 6) (selts c) /\
  kno_intersection cf0 [Pre p; Pre p; Simple c] = Some r /\ In (VAtom 6) (lelts r).
Proof.
  eexists. exists (SChoice true [VAtom 10; VAtom 14]). eexists.
  split; [vm_compute; reflexivity|]. split; [repeat split; repeat constructor; try discriminate|].
  split; [simpl; intros [|[|[]]]; discriminate|].
  split; [vm_compute; reflexivity|]. vm_compute. auto.
Qed.
(** The empty choice is not considered contained in anything. *)
Theorem C12_empty_containment_refuted : forall cf y, kno_containsp cf (Simple (SVal KEMPTY)) y = Some false.
Proof. reflexivity. Qed.
(** Two empty accumulators overlap. *)
Theorem C12_empty_overlap_refuted : exists p, acc [] = Some p /\ pelts p = [] /\
  kno_overlapp cf0 (Pre p) (Pre p) = Some true.
Proof. eexists. split; [vm_compute; reflexivity|]. split; vm_compute; reflexivity. Qed.

Print Assumptions C07_accumulated_set_partial.
Print Assumptions C07_order_independent_partial.
Print Assumptions C07_prechoice_history_partial.
Print Assumptions C08_membership_partial.
Print Assumptions C09_union_partial.
Print Assumptions C09_merge_choices_partial.
Print Assumptions C10_intersection_partial.
Print Assumptions C11_difference_partial.
Print Assumptions C12_overlap_partial.
Print Assumptions C12_containment_partial.
Print Assumptions C08_binary_search_partial.
Print Assumptions C07_empty_accumulator_refuted.
Print Assumptions C07_empty_accumulator_abort_refuted.
Print Assumptions C07_singleton_accumulator_refuted.
Print Assumptions C07_zero_capacity_refuted.
Print Assumptions C09_neverseen_refuted.
Print Assumptions C10_empty_accumulator_refuted.
Print Assumptions C10_skipped_argument_refuted.
Print Assumptions C12_empty_containment_refuted.
Print Assumptions C12_empty_overlap_refuted.
