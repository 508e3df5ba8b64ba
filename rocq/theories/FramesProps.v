(** * C97, C98: cached values of computed slots.

    The model is FramesModel. *)

From Coq Require Import List Bool Arith Lia.
From Verif Require Import FramesModel FramesProofs.
Import ListNotations.

Section Props.

Variable V : Type.
Variable veq : V -> V -> bool.
Hypothesis veq_ok : forall a b, veq a b = true <-> a = b.

(** ** C98: what kno_decache clears *)

(** The factoids that depend on a factoid, directly or through others. *)
Inductive depends_on (l : list (fact V * list (fact V))) (a : fact V) : fact V -> Prop :=
| d_self : depends_on l a a
| d_more b c : depends_on l a b -> In c (lookup V veq l b) -> depends_on l a c.

Lemma depends_chain l a b : depends_on l a b <-> chain V veq l a b.
Proof.
  split.
  - induction 1 as [|b c D IH I]; [constructor|].
    clear D. induction IH as [|a b d I2 C IH]; econstructor 2; eauto. constructor.
  - intros C.
    assert (G : forall x, depends_on l x a -> depends_on l x b).
    { induction C as [|a b c I C IH]; auto. intros x D. apply IH. econstructor 2; eauto. }
    apply G. constructor.
Qed.

(** After kno_decache(f,s), for any recorded dependencies (cyclic ones too), the caches have
    nothing for any slot of a frame whose value depends on f's s, and no dependencies on
    those are left; all else in the caches, the dependencies and the stored values is as it
    was. *)
Theorem C98_decache (st : state V) (f s : V) :
  let st' := decache V veq f s st in
  (forall g t, depends_on (impl st) (FGet f s) (FGet g t) ->
     scache st' g t = None /\ tcache st' g t = ([], [])) /\
  (forall a, depends_on (impl st) (FGet f s) a -> lookup V veq (impl st') a = []) /\
  (forall g t, ~ depends_on (impl st) (FGet f s) (FGet g t) ->
     scache st' g t = scache st g t /\ tcache st' g t = tcache st g t) /\
  (forall a, ~ depends_on (impl st) (FGet f s) a -> lookup V veq (impl st') a = lookup V veq (impl st) a) /\
  store st' = store st.
Proof.
  cbv zeta.
  destruct (dec_ok V veq veq_ok (S (length (impl st))) (FGet f s) st) as [_ [_ [_ [K M]]]]; [lia|].
  split; [|split; [|split; [|split]]].
  - intros g t D. apply depends_chain in D.
    destruct (decache_chain V veq veq_ok f s st _ D) as [C _]. exact C.
  - intros a D. apply depends_chain in D. apply (decache_chain V veq veq_ok f s st _ D).
  - intros g t D. apply K. now rewrite <- depends_chain.
  - intros a D. apply M. now rewrite <- depends_chain.
  - apply (s_store _ _ _ _ (shrunk_decache V veq veq_ok f s st)).
Qed.

(** ** C97: what get and test give after any history *)

Section System.
Variable oidslot : V -> bool.
Variable gm cm : V -> option (list (V -> prog V)).
Variable tm : V -> option (list (V -> V -> prog V)).
Variable truev : V.

(** A method looks only at slots that are symbols, and at all of their values. *)
Inductive simple : prog V -> Prop :=
| sm_ret vs : simple (Ret vs)
| sm_get f s k : oidslot s = false -> (forall vs, simple (k vs)) -> simple (PGet f s k).

(** What such a method gives when the stored values are [sto]. *)
Inductive gives (sto : V -> V -> list V) : prog V -> list V -> Prop :=
| gv_ret vs : gives sto (Ret vs) vs
| gv_get f s k r : gives sto (k (sto f s)) r -> gives sto (PGet f s k) r.

(** The values of a slot when the stored values are [sto], as the slot's methods define them. *)
Definition by_methods (sto : V -> V -> list V) (ms : list (V -> prog V)) (f v : V) : Prop :=
  exists m r, In m ms /\ gives sto (m f) r /\ In v r.
Definition has (sto : V -> V -> list V) (f s v : V) : Prop :=
  if oidslot s then
    match gm s with
    | None => False
    | Some [] =>
      In v (sto f s) \/
      (sto f s = [] /\ match cm s with Some ms => by_methods sto ms f v | None => False end)
    | Some ms => by_methods sto ms f v
    end
  else In v (sto f s).

(** What is stored after a history. *)
Fixpoint holds (cs : list (cmd V)) (P : V -> V -> V -> Prop) : V -> V -> V -> Prop :=
  match cs with
  | [] => P
  | CAdd f s v :: r => holds r (fun g t w => P g t w \/ (g, t, w) = (f, s, v))
  | CDrop f s v :: r => holds r (fun g t w => P g t w /\ (g, t, w) <> (f, s, v))
  | _ :: r => holds r P
  end.

Definition start (sto : V -> V -> list V) : state V :=
  St sto (fun _ _ => None) (fun _ _ => ([], [])) [].

Lemma simple_flat p : simple p -> flat V oidslot p.
Proof. induction 1; constructor; auto. Qed.
Lemma gives_res sto p : flat V oidslot p -> forall r, gives sto p r <-> r = res V veq sto p.
Proof.
  induction 1 as [vs|f s k O F IH]; intros r; simpl.
  - split; [now inversion 1 | intros ->; constructor].
  - rewrite <- IH. split; [now inversion 1 | intros; now constructor].
Qed.

Lemma holds_ext : forall cs P Q, (forall f s v, P f s v <-> Q f s v) ->
  forall f s v, holds cs P f s v <-> holds cs Q f s v.
Proof.
  induction cs as [|c cs IH]; simpl; intros P Q E; auto.
  destruct c; simpl; apply IH; auto; intros g t w; rewrite E; tauto.
Qed.
Lemma holds_ok : forall cs sto f s v,
  In v (fold_left (fun sto c => stored V veq c sto) cs sto f s) <-> holds cs (fun f s v => In v (sto f s)) f s v.
Proof.
  induction cs as [|c cs IH]; intros sto f s v; [reflexivity|].
  destruct c as [g t|g t w|g t w|g t w| |t]; cbn [fold_left holds stored]; rewrite IH; try reflexivity;
    apply holds_ext; intros f' s' v';
    destruct (pair_dec V veq veq_ok g t f' s') as [[= <- <-] | NE];
    first [rewrite upd_eq by auto | rewrite upd_neq by auto].
  - rewrite (in_union V veq veq_ok). simpl. split; [intros [H | [<- | []]]; auto | intros [H | [= <-]]; auto].
  - split; [auto|]. intros [H | [= -> -> ->]]; congruence.
  - rewrite filter_In, negb_true_iff. split.
    + intros [H E]. split; auto. intros [= ->]. rewrite (proj2 (veq_ok _ _) eq_refl) in E. discriminate.
    + intros [H NE]. split; auto. destruct (veq v' w) eqn:E; auto. apply veq_ok in E. congruence.
  - split; [|tauto]. intros H. split; auto. congruence.
Qed.

Hypothesis gm_simple : forall s l m f, gm s = Some l -> In m l -> simple (m f).
Hypothesis cm_simple : forall s l m f, cm s = Some l -> In m l -> simple (m f).
Hypothesis tm_none : forall s, oidslot s = true -> tm s = Some [] \/ (tm s = None /\ gm s = None).

Lemma gm_flat s l m f : gm s = Some l -> In m l -> flat V oidslot (m f).
Proof. intros A B. eapply simple_flat, gm_simple; eauto. Qed.
Lemma cm_flat s l m f : cm s = Some l -> In m l -> flat V oidslot (m f).
Proof. intros A B. eapply simple_flat, cm_simple; eauto. Qed.

Lemma by_ok sto ms f v : (forall m, In m ms -> flat V oidslot (m f)) ->
  (In v (fold_left (fun a m => union V veq a (res V veq sto (m f))) ms []) <-> by_methods sto ms f v).
Proof.
  intros F. rewrite (in_fold V veq veq_ok). unfold by_methods. split.
  - intros [[] | [m [I H]]]. exists m, (res V veq sto (m f)). split; auto. split; auto.
    apply gives_res; auto.
  - intros [m [r [I [G H]]]]. right. exists m. split; auto. apply gives_res in G; auto. congruence.
Qed.
Lemma has_ok sto f s v : oidslot s = true -> (has sto f s v <-> In v (val V veq gm cm sto f s)).
Proof.
  intros O. unfold has, val, computed, used. rewrite O. destruct (gm s) as [[|m l]|] eqn:G.
  - destruct (sto f s) as [|x xs] eqn:E.
    + destruct (cm s) as [l|] eqn:C.
      * rewrite by_ok by (intros m I; eapply cm_flat; eauto). simpl. tauto.
      * simpl. tauto.
    + split; [intros [H | [H _]]; [auto | discriminate] | auto].
  - symmetry. apply by_ok. intros m0 I. eapply gm_flat; eauto.
  - simpl. tauto.
Qed.

(** For slots whose get and compute methods look only at symbol slots and at all of their
    values, without test methods: after any history of get, test, assert!, retract! and
    clear-slotcache!, what is stored is what was asserted and not retracted since, and get
    and test give what the methods give on that, never an older value. *)
Theorem C97_fresh_partial (fuel : nat) (cs : list (cmd V)) (sto : V -> V -> list V) :
  3 <= fuel ->
  exists st, exec_all V veq oidslot gm cm tm truev fuel cs (start sto) = Some st /\
    (forall f s v, In v (store st f s) <-> holds cs (fun f s v => In v (sto f s)) f s v) /\
    (forall f s, exists vs d st', frame_get V veq oidslot gm cm tm truev fuel [] f s st = Some (vs, d, st') /\
       forall v, In v vs <-> has (store st) f s v) /\
    (forall f s v, exists b d st', frame_test V veq oidslot gm cm tm truev fuel [] f s v st = Some (b, d, st') /\
       (b = true <-> has (store st) f s v)).
Proof.
  intros L. destruct fuel as [|[|[|k]]]; try lia.
  destruct (exec_all_ok V veq veq_ok oidslot gm cm tm truev gm_flat cm_flat tm_none k cs (start sto) ltac:(eapply inv_start; eassumption)) as [st [E [I S1]]].
  exists st. split; [exact E|]. split; [|split].
  - intros f s v. rewrite S1. apply holds_ok.
  - intros f s. destruct (oidslot s) eqn:O.
    + destruct (get_ok V veq veq_ok oidslot gm cm tm truev gm_flat cm_flat (S k) f s st I O) as [d [st' [G _]]].
      exists (val V veq gm cm (store st) f s), d, st'. split; [exact G|]. intros v. now rewrite has_ok.
    + exists (store st f s), [FGet f s], st. cbn [frame_get]. rewrite O. split; [reflexivity|].
      intros v. unfold has. rewrite O. reflexivity.
  - intros f s v. destruct (oidslot s) eqn:O.
    + destruct (test_ok V veq veq_ok oidslot gm cm tm truev gm_flat cm_flat tm_none k f s v st I O) as [b [d [st' [T [_ [_ B]]]]]].
      exists b, d, st'. split; [exact T|]. rewrite B. now rewrite has_ok.
    + exists (mem V veq v (store st f s)), [FTest f s v], st. cbn [frame_test]. rewrite O. split; [reflexivity|].
      unfold has. rewrite O. apply mem_in. exact veq_ok.
Qed.

End System.
End Props.

Print Assumptions C98_decache.
Print Assumptions C97_fresh_partial.

(** ** Cases *)

(** Frames and slots as numbers: slots from 10 are OIDs. *)
Definition oid (s : nat) : bool := 10 <=? s.

(** Two slots that depend on each other. *)
Example C98_case :
  let st := St (fun _ _ => [7]) (fun f s => if s <? 20 then Some [f] else None) (fun _ _ => ([1], [2]))
               [(FGet 1 2, [FGet 1 10]); (FGet 1 10, [FGet 1 11]); (FGet 1 11, [FGet 1 10; FTest 1 12 3])] in
  depends_on nat Nat.eqb (impl st) (FGet 1 2) (FGet 1 11) /\
  scache (decache nat Nat.eqb 1 2 st) 1 11 = None /\ scache (decache nat Nat.eqb 1 2 st) 1 12 = Some [1] /\
  impl (decache nat Nat.eqb 1 2 st) = [].
Proof.
  simpl. split; [|repeat split; reflexivity].
  apply d_more with (FGet 1 10); [|simpl; auto]. apply d_more with (FGet 1 2); [constructor | simpl; auto].
Qed.

(** A slot (10) that puts together two others, and one (11) with a compute method. *)
Definition gm1 (s : nat) : option (list (nat -> prog nat)) :=
  if s =? 10 then Some [fun f => PGet f 1 (fun vs => Ret vs); fun f => PGet f 2 (fun vs => PGet 9 3 (fun ws => Ret (vs ++ ws)))]
  else if s =? 11 then Some [] else None.
Definition cm1 (s : nat) : option (list (nat -> prog nat)) :=
  if s =? 11 then Some [fun f => PGet f 1 (fun vs => Ret (map S vs))] else Some [].
Definition tm1 (s : nat) : option (list (nat -> nat -> prog nat)) :=
  if (s =? 10) || (s =? 11) then Some [] else None.
(** What a get or a test gives after a history that starts with nothing stored. *)
Definition get_after gm cm tm (cs : list (cmd nat)) (f s : nat) : option (list nat) :=
  match exec_all nat Nat.eqb oid gm cm tm 1 5 cs (start nat (fun _ _ => [])) with
  | Some st => option_map (fun x => fst (fst x)) (frame_get nat Nat.eqb oid gm cm tm 1 5 [] f s st)
  | None => None
  end.
Definition test_after gm cm tm (cs : list (cmd nat)) (f s v : nat) : option bool :=
  match exec_all nat Nat.eqb oid gm cm tm 1 5 cs (start nat (fun _ _ => [])) with
  | Some st => option_map (fun x => fst (fst x)) (frame_test nat Nat.eqb oid gm cm tm 1 5 [] f s v st)
  | None => None
  end.
Example C97_case :
  (forall s l m f, gm1 s = Some l -> In m l -> simple nat oid (m f)) /\
  (forall s l m f, cm1 s = Some l -> In m l -> simple nat oid (m f)) /\
  (forall s, oid s = true -> tm1 s = Some [] \/ (tm1 s = None /\ gm1 s = None)) /\
  let cs := [CAdd 4 1 5; CGet 4 10; CGet 4 11; CTest 4 11 8; CAdd 9 3 6; CDrop 4 1 5; CAdd 4 1 7] in
  get_after gm1 cm1 tm1 (firstn 2 cs) 4 10 = Some [5] /\ get_after gm1 cm1 tm1 cs 4 10 = Some [7; 6] /\
  test_after gm1 cm1 tm1 (firstn 4 cs) 4 11 8 = Some false /\ test_after gm1 cm1 tm1 cs 4 11 8 = Some true.
Proof.
  split; [|split; [|split]].
  - intros s l m f. unfold gm1. destruct (s =? 10); [|destruct (s =? 11)]; intros [= <-]; simpl.
    + intros [<- | [<- | []]]; repeat (constructor; intros).
    + tauto.
  - intros s l m f. unfold cm1. destruct (s =? 11); intros [= <-]; simpl.
    + intros [<- | []]; repeat (constructor; intros).
    + tauto.
  - intros s _. unfold tm1, gm1. destruct (s =? 10); simpl; auto. destruct (s =? 11); auto.
  - vm_compute. repeat split; reflexivity.
Qed.

(** ** Where older values are given *)

(** What a get gives with the caches as they are, and after clear-slotcache!. *)
Definition now_and_fresh gm cm tm (cs : list (cmd nat)) (f s : nat) (a b : list nat) : Prop :=
  get_after gm cm tm cs f s = Some a /\ get_after gm cm tm (cs ++ [CClear]) f s = Some b.
Definition nogm (s : nat) : option (list (nat -> prog nat)) := Some [].
Definition notm (s : nat) : option (list (nat -> nat -> prog nat)) := Some [].

(** A method that looks at a slot whose value is cached: that isn't noted as a dependency.
    Here slot 11 is an OID without methods and 10 has its values; after someone has looked
    at the empty slot 11, an assertion on it doesn't reach 10. *)
Theorem C97_hit_refuted :
  exists gm, (forall s, s <> 10 -> gm s = Some []) /\
  now_and_fresh gm nogm notm [CGet 1 11; CGet 1 10; CAdd 1 11 5] 1 10 [] [5].
Proof.
  exists (fun s => if s =? 10 then Some [fun f => PGet f 11 (fun vs => Ret vs)] else Some []). split.
  - intros s H. apply Nat.eqb_neq in H. now rewrite H.
  - vm_compute. split; reflexivity.
Qed.

(** A method that tests a symbol slot for a value: the dependency is noted under a key that
    kno_decache doesn't look at. *)
Theorem C97_test_refuted :
  exists gm, now_and_fresh gm nogm notm [CGet 1 10; CAdd 1 2 5] 1 10 [0] [1].
Proof.
  exists (fun s => if s =? 10 then Some [fun f => PTest f 2 5 (fun b : bool => Ret [if b then 1 else 0])] else Some []).
  vm_compute. split; reflexivity.
Qed.

(** Two slots defined through each other: what is computed for one while the other is in
    progress is incomplete, and is cached.  Nothing needs to change for that. *)
Theorem C97_progress_refuted :
  exists gm, now_and_fresh gm nogm notm [CAdd 1 2 5; CAdd 1 3 6; CGet 1 10] 1 11 [6] [6; 5] /\
             now_and_fresh gm nogm notm [CAdd 1 2 5; CAdd 1 3 6; CGet 1 11] 1 11 [6; 5] [6; 5].
Proof.
  exists (fun s => if s =? 10 then Some [fun f => PGet f 2 (fun vs => PGet f 11 (fun ws => Ret (vs ++ ws)))]
            else if s =? 11 then Some [fun f => PGet f 3 (fun vs => PGet f 10 (fun ws => Ret (vs ++ ws)))] else Some []).
  vm_compute. repeat split; reflexivity.
Qed.

(** A test method that looks at a symbol slot: what depends on it is the test, and a test is
    never taken out of the cache. *)
Theorem C97_testmethod_refuted :
  exists tm, let cs := [CTest 1 10 5; CAdd 1 2 5] in
  test_after nogm nogm tm cs 1 10 5 = Some false /\ test_after nogm nogm tm (cs ++ [CClear]) 1 10 5 = Some true.
Proof.
  exists (fun s => if s =? 10 then Some [fun f v => PGet f 2 (fun vs => Ret [if existsb (Nat.eqb v) vs then 1 else 0])] else Some []).
  vm_compute. split; reflexivity.
Qed.

Print Assumptions C97_hit_refuted.
Print Assumptions C97_test_refuted.
Print Assumptions C97_progress_refuted.
Print Assumptions C97_testmethod_refuted.
