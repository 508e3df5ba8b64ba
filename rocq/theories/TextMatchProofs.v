(** Lemmas about the text matcher: the matcher computes exactly the ends that
    TextMatchSpec describes, the searcher the first place. *)
From Coq Require Import List Bool Arith NArith Lia ZArith ZifyBool ZifyN ZifyNat
     Relations Operators_Properties.
From Verif Require Import TextMatchModel TextMatchSpec.
Import ListNotations.

(** Induction over patterns, with the lists of patterns. *)
Section PatInd.
Variable P : pat -> Prop.
Hypothesis Hstr : forall s, P (PStr s).
Hypothesis Hchr : forall c, P (PChr c).
Hypothesis Halt : forall l, Forall P l -> P (PAlt l).
Hypothesis Hvec : forall l, Forall P l -> P (PVec l).
Hypothesis Hsym : forall x, P (PSym x).
Hypothesis Hstar : forall p, P p -> P (PStar p).
Hypothesis Hany : P PStarAny.
Hypothesis Hplus : forall p, P p -> P (PPlus p).
Hypothesis Hopt : forall p, P p -> P (POpt p).
Hypothesis Hnot : forall p, P p -> P (PNot p).
Hypothesis Hnotgt : forall p, P p -> P (PNotGt p).
Hypothesis Hand : forall p q, P p -> P q -> P (PAnd p q).
Hypothesis Hchoice : forall l, Forall P l -> P (PChoiceOp l).
Hypothesis Hpref : forall l, Forall P l -> P (PPref l).
Hypothesis Hlabel : forall p, P p -> P (PLabel p).
Hypothesis Hgreedy : forall p, P p -> P (PGreedy p).
Hypothesis Hexp : forall p, P p -> P (PExpansive p).
Hypothesis Hlong : forall p, P p -> P (PLongest p).
Hypothesis Hic : forall p, P p -> P (PIgnoreCase p).
Hypothesis Hmc : forall p, P p -> P (PMatchCase p).
Hypothesis Hbol : P PBol.
Hypothesis Heol : P PEol.
Hypothesis Hbos : P PBos.
Hypothesis Heos : P PEos.
Hypothesis Hrest : P PRest.
Hypothesis Hrange : forall a b, P (PRange a b).
Hypothesis Hchars : forall n s l, P (PChars n s l).
Hypothesis Hclass : forall f, P (PClass f).
Hypothesis Hclassp : forall f, P (PClassPlus f).

Fixpoint pat_ind' (p : pat) : P p :=
  let all := fix all (l : list pat) : Forall P l :=
    match l with
    | [] => Forall_nil P
    | q :: r => Forall_cons q (pat_ind' q) (all r)
    end in
  match p with
  | PStr s => Hstr s
  | PChr c => Hchr c
  | PAlt l => Halt l (all l)
  | PVec l => Hvec l (all l)
  | PSym x => Hsym x
  | PStar p => Hstar p (pat_ind' p)
  | PStarAny => Hany
  | PPlus p => Hplus p (pat_ind' p)
  | POpt p => Hopt p (pat_ind' p)
  | PNot p => Hnot p (pat_ind' p)
  | PNotGt p => Hnotgt p (pat_ind' p)
  | PAnd p q => Hand p q (pat_ind' p) (pat_ind' q)
  | PChoiceOp l => Hchoice l (all l)
  | PPref l => Hpref l (all l)
  | PLabel p => Hlabel p (pat_ind' p)
  | PGreedy p => Hgreedy p (pat_ind' p)
  | PExpansive p => Hexp p (pat_ind' p)
  | PLongest p => Hlong p (pat_ind' p)
  | PIgnoreCase p => Hic p (pat_ind' p)
  | PMatchCase p => Hmc p (pat_ind' p)
  | PBol => Hbol | PEol => Heol | PBos => Hbos | PEos => Heos | PRest => Hrest
  | PRange a b => Hrange a b
  | PChars n s l => Hchars n s l
  | PClass f => Hclass f
  | PClassPlus f => Hclassp f
  end.
End PatInd.

Lemma munion_in : forall a b x, In x (munion a b) <-> In x a \/ In x b.
Proof.
  intros a b x. unfold munion. rewrite nodup_In, in_app_iff. tauto.
Qed.

Lemma inb_in : forall n l, inb n l = true <-> In n l.
Proof.
  intros n l. unfold inb. rewrite existsb_exists. split.
  - intros (x & H & E). apply Nat.eqb_eq in E. subst. exact H.
  - intro H. exists n. split; [exact H | apply Nat.eqb_refl].
Qed.

Lemma inb_nin : forall n l, inb n l = false <-> ~ In n l.
Proof.
  intros n l. rewrite <- inb_in. destruct (inb n l); split; intro H; congruence.
Qed.

Lemma list_max_in : forall l, l <> [] -> In (list_max l) l.
Proof.
  induction l as [|x l IH]; intro H; [congruence|].
  cbn [list_max fold_right]. change (fold_right Nat.max 0 l) with (list_max l).
  destruct l as [|y l].
  - left. cbn. lia.
  - destruct (Nat.max_spec x (list_max (y :: l))) as [[_ E] | [_ E]].
    + right. rewrite E. apply IH. discriminate.
    + left. symmetry. exact E.
Qed.

Lemma list_max_ge : forall l x, In x l -> x <= list_max l.
Proof.
  intros l x H. pose proof (proj1 (list_max_le l (list_max l)) (le_n _)) as F.
  rewrite Forall_forall in F. auto.
Qed.

Lemma get_longest_in : forall l j,
  In j (get_longest l) <-> In j l /\ forall k, In k l -> k <= j.
Proof.
  intros l j. destruct l as [|x [|y l]].
  - cbn. tauto.
  - cbn. split.
    + intros [-> | []]. split; [auto|]. intros k [-> | []]. lia.
    + tauto.
  - change (get_longest (x :: y :: l)) with [list_max (x :: y :: l)].
    set (L := x :: y :: l).
    assert (HM : In (list_max L) L) by (apply list_max_in; discriminate).
    split.
    + intros [<- | []]. split; [exact HM|]. intros k Hk. apply list_max_ge, Hk.
    + intros [H1 H2]. left. pose proof (list_max_ge _ _ H1). specialize (H2 _ HM). lia.
Qed.

Lemma first_at_spec : forall test n a,
  match first_at test a n with
  | Some k => a <= k < a + n /\ test k = true /\
              forall k', a <= k' < k -> test k' = false
  | None => forall k', a <= k' < a + n -> test k' = false
  end.
Proof.
  intros test. induction n as [|n IH]; intro a; cbn.
  - intros k' Hk. lia.
  - destruct (test a) eqn:E.
    + split; [lia|]. split; [exact E|]. intros; lia.
    + specialize (IH (S a)). destruct (first_at test (S a) n) as [k|].
      * destruct IH as (H1 & H2 & H3). split; [lia|]. split; [exact H2|].
        intros k' Hk. destruct (Nat.eq_dec k' a) as [-> | Hn]; [exact E|].
        apply H3. lia.
      * intros k' Hk. destruct (Nat.eq_dec k' a) as [-> | Hn]; [exact E|].
        apply IH. lia.
Qed.

(** Collecting over positions and over patterns. *)
Lemma mall_ok : forall (f : nat -> mres) (R : nat -> nat -> Prop) st,
  (forall i, In i st -> exists l, f i = MOk l /\ forall j, In j l <-> R i j) ->
  exists l, mall f st = MOk l /\ forall j, In j l <-> exists i, In i st /\ R i j.
Proof.
  intros f R. induction st as [|i st IH]; intro H; cbn.
  - exists []. split; [reflexivity|]. intro j. split; [intros [] | intros (i & [] & _)].
  - destruct (H i (or_introl eq_refl)) as (a & Ea & Ia).
    destruct IH as (b & Eb & Ib). { intros i' Hi. apply H. right. exact Hi. }
    rewrite Ea, Eb. exists (munion a b). split; [reflexivity|].
    intro j. rewrite munion_in, Ia, Ib. split.
    + intros [Hr | (i' & H1 & H2)]; [exists i | exists i']; auto.
    + intros (i' & [-> | H1] & H2); [left; exact H2 | right; exists i'; auto].
Qed.

Lemma malt_ok : forall (f : pat -> mres) (R : pat -> nat -> Prop) l,
  (forall p, In p l -> exists e, f p = MOk e /\ forall j, In j e <-> R p j) ->
  exists e, malt f l = MOk e /\ forall j, In j e <-> exists p, In p l /\ R p j.
Proof.
  intros f R. induction l as [|p l IH]; intro H; cbn.
  - exists []. split; [reflexivity|]. intro j. split; [intros [] | intros (i & [] & _)].
  - destruct (H p (or_introl eq_refl)) as (a & Ea & Ia).
    destruct IH as (b & Eb & Ib). { intros i' Hi. apply H. right. exact Hi. }
    rewrite Ea, Eb. exists (munion a b). split; [reflexivity|].
    intro j. rewrite munion_in, Ia, Ib. split.
    + intros [Hr | (i' & H1 & H2)]; [exists p | exists i']; auto.
    + intros (i' & [-> | H1] & H2); [left; exact H2 | right; exists i'; auto].
Qed.

(** The repetition loop. *)
Section Rep.
Variable L : nat.
Variable R : nat -> nat -> Prop.
Variable f : nat -> mres.
Hypothesis Rle : forall i j, i <= L -> R i j -> i <= j <= L.
Hypothesis Hf : forall i, i <= L -> exists l, f i = MOk l /\ forall j, In j l <-> R i j.
Variable off : nat.
Hypothesis Hoff : off <= L.
Variable z : bool.

Definition seen (mp : list nat) (x : nat) : Prop := In x mp \/ x = off.

Lemma mrep_ok : forall b m (first : bool) mp st,
  st <> [] ->
  (forall x, In x st -> m <= x <= L) ->
  off <= m -> L + 1 < b + m ->
  (forall x, In x st -> seen mp x) ->
  (forall x, In x mp -> clos_refl_trans nat R off x) ->
  (forall x y, seen mp x -> ~ In x st -> R x y -> seen mp y) ->
  (if first then m = off /\ st = [off] /\ (forall x, In x mp -> x = off)
   else off < m) ->
  (In off mp <-> z = true) ->
  exists l, mrep f false z b first mp st = MOk l /\
    forall j, In j l <->
      ((z = true /\ j = off) \/ (clos_refl_trans nat R off j /\ j <> off)).
Proof.
  induction b as [|b IH]; intros m first mp st Hne Hst Hm Hb Hseen Hreach Hclos Hfirst Hz.
  { exfalso. destruct st as [|x st]; [congruence|]. specialize (Hst x (or_introl eq_refl)). lia. }
  cbn [mrep].
  destruct (mall_ok f R st) as (l & El & Il).
  { intros i Hi. apply Hf. apply Hst in Hi. lia. }
  rewrite El. cbv zeta.
  set (next := filter (fun n => negb (inb n st)) l).
  assert (Inext : forall n, In n next <-> (exists i, In i st /\ R i n) /\ ~ In n st).
  { intro n. unfold next. rewrite filter_In, Il, negb_true_iff, inb_nin. tauto. }
  assert (Rst : forall x, In x st -> clos_refl_trans nat R off x).
  { intros x Hx. destruct (Hseen x Hx) as [H | ->]; [auto | apply rt_refl]. }
  destruct next as [|n0 next'] eqn:En.
  - assert (Hcl : forall x y, seen mp x -> R x y -> seen mp y).
    { intros x y Hx Hr. destruct (in_dec Nat.eq_dec x st) as [Hi | Hi].
      - apply Hseen. destruct (in_dec Nat.eq_dec y st) as [Hy | Hy]; [exact Hy|].
        exfalso. destruct (proj2 (Inext y)). split; [exists x; auto | exact Hy].
      - eapply Hclos; eauto. }
    assert (Hall : forall y, clos_refl_trans nat R off y -> seen mp y).
    { intros y Hy. apply clos_rt_rtn1 in Hy. induction Hy as [|y w Hr Hy IHy].
      - right. reflexivity.
      - eapply Hcl; eauto. }
    assert (Hmp : forall j, In j mp <->
      ((z = true /\ j = off) \/ (clos_refl_trans nat R off j /\ j <> off))).
    { intro j. split.
      - intro H. destruct (Nat.eq_dec j off) as [-> | Hn].
        + left. split; [apply Hz, H | reflexivity].
        + right. split; [auto | exact Hn].
      - intros [[Hz' ->] | [Hr Hn]]; [apply Hz, Hz'|].
        destruct (Hall j Hr) as [H | H]; [exact H | congruence]. }
    destruct first.
    + destruct Hfirst as (-> & Est & Hmp1).
      destruct z eqn:Ez.
      * exists st. split; [reflexivity|]. intro j. rewrite <- Hmp. subst st. split.
        -- intros [<- | []]. apply Hz. reflexivity.
        -- intro H. left. symmetry. auto.
      * exists []. split; [reflexivity|]. intro j. rewrite <- Hmp. split; [intros [] |].
        intro H. assert (j = off) by auto. subst j. apply Hz in H. discriminate.
    + exists mp. split; [reflexivity | exact Hmp].
  - rewrite <- En in *. assert (Ht : exists q r, next = q :: r) by (rewrite En; eauto).
    clear En n0 next'. destruct Ht as (q0 & r0 & Eq).
    assert (Hgo : exists l0,
      mrep f false z b false (munion mp next) next = MOk l0 /\
      forall j, In j l0 <->
        ((z = true /\ j = off) \/ (clos_refl_trans nat R off j /\ j <> off))).
    { apply (IH (S m)).
      - rewrite Eq. discriminate.
      - intros x Hx. apply Inext in Hx. destruct Hx as ((i & Hi & Hr) & Hn).
        pose proof (Hst i Hi) as Hi'. pose proof (Rle i x (proj2 Hi') Hr) as Hx.
        split; [|lia]. destruct (Nat.eq_dec x m) as [-> | Hd]; [|lia].
        exfalso. apply Hn. replace m with i by lia. exact Hi.
      - lia.
      - lia.
      - intros x Hx. left. apply munion_in. right. exact Hx.
      - intros x Hx. apply munion_in in Hx. destruct Hx as [Hx | Hx]; [auto|].
        apply Inext in Hx. destruct Hx as ((i & Hi & Hr) & _).
        eapply rt_trans; [apply Rst, Hi | apply rt_step, Hr].
      - intros x y Hx Hn Hr. unfold seen. rewrite munion_in.
        destruct (in_dec Nat.eq_dec x st) as [Hi | Hi].
        + destruct (in_dec Nat.eq_dec y st) as [Hy | Hy].
          * destruct (Hseen y Hy); tauto.
          * left. right. apply Inext. split; [exists x; auto | exact Hy].
        + assert (Hs : seen mp x).
          { destruct Hx as [Hx | Hx]; [|right; exact Hx].
            apply munion_in in Hx. destruct Hx as [Hx | Hx]; [left; exact Hx | contradiction]. }
          destruct (Hclos x y Hs Hi Hr); tauto.
      - lia.
      - rewrite munion_in. rewrite <- Hz. split; [|auto].
        intros [H | H]; [exact H|]. exfalso. apply Inext in H.
        destruct H as ((i & Hi & Hr) & Hn). pose proof (Hst i Hi) as Hi'.
        pose proof (Rle i off (proj2 Hi') Hr) as Hx. apply Hn.
        replace off with i by lia. exact Hi. }
    rewrite Eq in Hgo |- *. exact Hgo.
Qed.

Lemma match_repeatedly_ok : forall b, L + 2 <= b ->
  exists l, match_repeatedly f false z b off = MOk l /\
    forall j, In j l <->
      ((z = true /\ j = off) \/ (clos_refl_trans nat R off j /\ j <> off)).
Proof.
  intros b Hb. unfold match_repeatedly.
  apply (mrep_ok b off).
  - discriminate.
  - intros x [<- | []]. lia.
  - lia.
  - lia.
  - intros x [<- | []]. right. reflexivity.
  - intros x Hx. destruct z; [destruct Hx as [<- | []]; apply rt_refl | destruct Hx].
  - intros x y Hx Hn Hr. exfalso. apply Hn. destruct Hx as [Hx | ->]; [|left; reflexivity].
    destruct z; [destruct Hx as [<- | []]; left; reflexivity | destruct Hx].
  - split; [reflexivity|]. split; [reflexivity|]. intros x Hx.
    destruct z; [destruct Hx as [<- | []]; reflexivity | destruct Hx].
  - destruct z; cbn; split; intro H; auto; discriminate || destruct H.
Qed.
End Rep.

(** Sequences. *)
Fixpoint seq_rel (E : pat -> nat -> nat -> Prop) (l : list pat) (i j : nat) : Prop :=
  match l with
  | [] => i = j
  | q :: r => exists k, E q i k /\ seq_rel E r k j
  end.

Lemma mseq_ok : forall L (E : pat -> nat -> nat -> Prop) dm l nx st,
  (forall p, In p l -> forall nx i, i <= L ->
     exists e, dm p nx i = MOk e /\ forall j, In j e <-> E p i j) ->
  (forall p i j, In p l -> i <= L -> E p i j -> j <= L) ->
  (forall i, In i st -> i <= L) ->
  exists e, mseq dm l nx st = MOk e /\
    forall j, In j e <-> exists i, In i st /\ seq_rel E l i j.
Proof.
  intros L E dm. induction l as [|p l IH]; intros nx st Hd Hle Hst; cbn [mseq seq_rel].
  - exists st. split; [reflexivity|]. intro j. split.
    + intro H. exists j. auto.
    + intros (i & H & ->). exact H.
  - destruct (mall_ok (dm p (match l with [] => nx | q :: _ => Some q end)) (E p) st)
      as (a & Ea & Ia).
    { intros i Hi. apply Hd; [left; reflexivity | auto]. }
    rewrite Ea. destruct a as [|x a'] eqn:Eqa.
    + exists []. split; [reflexivity|]. intro j. split; [intros []|].
      intros (i & Hi & k & Hk & _). apply (proj2 (Ia k)). exists i. auto.
    + rewrite <- Eqa in *. clear Eqa x a'.
      destruct (IH nx a) as (e & Ee & Ie).
      * intros q Hq. apply Hd. right. exact Hq.
      * intros q i j Hq. apply Hle. right. exact Hq.
      * intros k Hk. apply Ia in Hk. destruct Hk as (i & Hi & Hr).
        eapply Hle; [left; reflexivity | apply Hst, Hi | exact Hr].
      * exists e. split; [exact Ee|]. intro j. rewrite Ie. split.
        -- intros (k & Hk & Hs). apply Ia in Hk. destruct Hk as (i & Hi & Hr).
           exists i. split; [exact Hi|]. exists k. auto.
        -- intros (i & Hi & k & Hk & Hs). exists k. split; [apply Ia; exists i; auto | exact Hs].
Qed.

Section Text.
Variable t : list N.
Variable lower : N -> N.
Variable env : N -> option pat.
Notation L := (length t).
Notation ends := (ends t lower).
Notation good := (good t lower).

Lemma ends_any : forall ic l i j,
  (ends ic (PAlt l) i j <-> exists q, In q l /\ ends ic q i j).
Proof.
  intros ic l i j. cbn [TextMatchSpec.ends]. induction l as [|q l IH].
  - split; [intros [] | intros (q & [] & _)].
  - rewrite IH. split.
    + intros [H | (q' & H1 & H2)]; [exists q | exists q']; split; auto; [left | right]; auto.
    + intros (q' & [-> | H1] & H2); [left; exact H2 | right; exists q'; auto].
Qed.

Lemma ends_vec : forall ic l i j,
  ends ic (PVec l) i j <-> seq_rel (ends ic) l i j.
Proof.
  intros ic l i j. cbn [TextMatchSpec.ends]. revert i.
  induction l as [|q l IH]; intro i; cbn [seq_rel]; [tauto|].
  split; intros (k & H1 & H2); exists k; (split; [exact H1 | apply IH, H2]).
Qed.

Lemma good_all : forall ic l, good ic (PAlt l) <-> (forall q, In q l -> good ic q).
Proof.
  intros ic l. cbn [TextMatchSpec.good]. induction l as [|q l IH].
  - split; [intros _ q [] | auto].
  - rewrite IH. split.
    + intros [H1 H2] q' [<- | H]; auto.
    + intro H. split; [apply H; left; auto | intros q' Hq; apply H; right; exact Hq].
Qed.

Lemma findable_all : forall ic l,
  findable ic (PAlt l) <-> (forall q, In q l -> findable ic q).
Proof.
  intros ic l. cbn [findable]. induction l as [|q l IH].
  - split; [intros _ q [] | auto].
  - rewrite IH. split.
    + intros [H1 H2] q' [<- | H]; auto.
    + intro H. split; [apply H; left; auto | intros q' Hq; apply H; right; exact Hq].
Qed.

Lemma seq_range : forall (E : pat -> nat -> nat -> Prop) l,
  (forall p i j, In p l -> i <= L -> E p i j -> i <= j <= L) ->
  forall i j, i <= L -> seq_rel E l i j -> i <= j <= L.
Proof.
  intros E. induction l as [|q l IH]; intros H i j Hi Hs; cbn [seq_rel] in Hs.
  - lia.
  - destruct Hs as (k & H1 & H2). pose proof (H q i k (or_introl eq_refl) Hi H1).
    assert (k <= j <= L); [|lia]. apply IH; auto; [|lia].
    intros p a b Hp. apply H. right. exact Hp.
Qed.

Lemma nth_lt : forall i c, nth_error t i = Some c -> i < L.
Proof. intros i c H. apply nth_error_Some. congruence. Qed.

Lemma ends_range : forall p ic i j, i <= L -> ends ic p i j -> i <= j <= L.
Proof.
  intro p. induction p using pat_ind'; intros ic i j Hi He;
    try (cbn [TextMatchSpec.ends] in He; contradiction).
  - cbn in He. destruct He as (_ & -> & H).
    destruct s as [|c s]; [cbn; lia|].
    destruct (nth_error (c :: s) (length s)) as [d|] eqn:E.
    + destruct (H _ _ E) as (e & He & _). apply nth_lt in He. cbn [length]. lia.
    + apply nth_error_None in E. cbn [length] in E. lia.
  - cbn in He. destruct He as [H ->]. apply nth_lt in H. lia.
  - apply ends_any in He. destruct He as (q & Hq & He).
    rewrite Forall_forall in H. eapply H; eauto.
  - apply ends_vec in He. rewrite Forall_forall in H.
    eapply seq_range; [| exact Hi | exact He]. intros p a b Hp Ha. apply H; auto.
  - cbn in He. apply clos_rt_rt1n in He. induction He as [|i k j H1 H2 IH2]; [lia|].
    assert (i <= k <= L) by (apply IHp with ic; auto). assert (k <= j <= L) by (apply IH2; lia). lia.
  - cbn in He. apply clos_trans_t1n in He. induction He as [i k H1 | i k j H1 H2 IH2].
    + eapply IHp; eauto.
    + assert (i <= k <= L) by (apply IHp with ic; auto). assert (k <= j <= L) by (apply IH2; lia). lia.
  - cbn in He. destruct He as [He | [-> _]]; [eapply IHp; eauto | lia].
  - cbn in He. destruct He as [[He _] | [-> ->]]; lia.
  - cbn in He. tauto.
  - cbn in He. destruct He as [He _]. eapply IHp1; eauto.
  - assert (He' : ends ic (PAlt l) i j) by exact He. apply ends_any in He'.
    destruct He' as (q & Hq & He'). rewrite Forall_forall in H. eapply H; eauto.
  - cbn [TextMatchSpec.ends] in He. rewrite Forall_forall in H.
    induction l as [|q l IH]; [contradiction|].
    destruct He as [He | [_ He]].
    + eapply H; [left; reflexivity | exact Hi | exact He].
    + apply IH; [|exact He]. intros x Hx. apply H. right. exact Hx.
  - cbn in He. eapply IHp; eauto.
  - cbn in He. eapply IHp; eauto.
  - cbn in He. destruct He as [He _]. eapply IHp; eauto.
  - cbn in He. eapply IHp; eauto.
  - cbn in He. eapply IHp; eauto.
  - cbn in He. lia.
  - cbn in He. destruct He as [[-> ->] | [-> (c & Hc & _)]]; [lia|]. apply nth_lt in Hc. lia.
  - cbn in He. lia.
  - cbn in He. lia.
  - cbn in He. lia.
  - cbn in He. destruct He as (c & Hc & _ & ->). apply nth_lt in Hc. lia.
  - cbn in He. lia.
  - cbn in He. destruct He as (c & Hc & _ & ->). apply nth_lt in Hc. lia.
  - cbn in He. lia.
Qed.

Lemma ch_nth : forall i, i < L -> nth_error t i = Some (ch t i).
Proof. intros i H. unfold ch. apply nth_error_nth'. exact H. Qed.

Lemma ch_end : forall i, L <= i -> ch t i = 0%N.
Proof. intros i H. unfold ch. apply nth_overflow. exact H. Qed.

Lemma fwd_lt : forall i, i < L -> fwd t i = S i.
Proof. intros i H. unfold fwd, len. apply Nat.ltb_lt in H. rewrite H. reflexivity. Qed.

Lemma fwd_end : fwd t L = L.
Proof. unfold fwd, len. rewrite Nat.ltb_irrefl. reflexivity. Qed.

(** Strings. *)
Lemma eqs_eq : forall a b, eqs a b = true <-> a = b.
Proof.
  induction a as [|x a IH]; destruct b as [|y b]; cbn; split; intro H; try congruence; auto.
  - apply andb_true_iff in H. destruct H as [H1 H2]. apply N.eqb_eq in H1. apply IH in H2. congruence.
  - injection H as <- <-. rewrite N.eqb_refl. cbn. apply IH. reflexivity.
Qed.

Lemma nth_skipn : forall (l : list N) a k, nth_error (skipn a l) k = nth_error l (a + k).
Proof.
  induction l as [|x l IH]; intros [|a] k; cbn; auto. destruct k; reflexivity.
Qed.

Lemma firstn_eq_iff : forall (s l : list N),
  firstn (length s) l = s <-> (forall k c, nth_error s k = Some c -> nth_error l k = Some c).
Proof.
  induction s as [|x s IH]; intros l; cbn.
  - split; [intros _ [|k] c H; discriminate | auto].
  - destruct l as [|y l].
    + split; [discriminate|]. intro H. specialize (H 0 x eq_refl). discriminate.
    + split.
      * intros H [|k] c Hk; cbn in *; injection H as <- H.
        -- exact Hk.
        -- apply (proj1 (IH l) H). exact Hk.
      * intro H. pose proof (H 0 x eq_refl) as H0. cbn in H0. injection H0 as ->.
        f_equal. apply IH. intros k c Hk. apply (H (S k)). exact Hk.
Qed.

Lemma prefix_at_ok : forall s i, prefix_at t s i = true <->
  forall k c, nth_error s k = Some c -> exists d, nth_error t (i + k) = Some d /\ c = d.
Proof.
  intros s i. unfold prefix_at. rewrite eqs_eq, firstn_eq_iff. split.
  - intros H k c Hk. exists c. rewrite <- nth_skipn. auto.
  - intros H k c Hk. rewrite nth_skipn. destruct (H k c Hk) as (d & Hd & ->). exact Hd.
Qed.

Lemma ic_match_ok : forall s i,
  match ic_match t lower s i L with
  | Some e => e = i + length s /\
     forall k c, nth_error s k = Some c ->
       exists d, nth_error t (i + k) = Some d /\ lower c = lower d
  | None => ~ (forall k c, nth_error s k = Some c ->
       exists d, nth_error t (i + k) = Some d /\ lower c = lower d)
  end.
Proof.
  induction s as [|c s IH]; intro i; cbn [ic_match].
  - split; [cbn; lia|]. intros [|k] c Hk; discriminate.
  - unfold len. destruct ((i <? L) && (i <? L) && (lower c =? lower (ch t i))%N) eqn:E.
    + apply andb_true_iff in E. destruct E as [E E2]. apply andb_true_iff in E.
      destruct E as [E1 _]. apply Nat.ltb_lt in E1. apply N.eqb_eq in E2.
      specialize (IH (S i)). destruct (ic_match t lower s (S i) L) as [e|].
      * destruct IH as [-> IH]. split; [cbn [length]; lia|].
        intros [|k] d Hk; cbn in Hk.
        -- injection Hk as <-. rewrite Nat.add_0_r. exists (ch t i). split; [apply ch_nth, E1 | exact E2].
        -- replace (i + S k) with (S i + k) by lia. apply IH, Hk.
      * intro H. apply IH. intros k d Hk. replace (S i + k) with (i + S k) by lia.
        apply (H (S k)). exact Hk.
    + intro H. destruct (H 0 c eq_refl) as (d & Hd & He). rewrite Nat.add_0_r in Hd.
      pose proof (nth_lt _ _ Hd) as Hl. rewrite (ch_nth i Hl) in Hd. injection Hd as <-.
      apply Nat.ltb_lt in Hl. rewrite Hl in E. cbn in E. apply N.eqb_neq in E. contradiction.
Qed.

Lemma strmatcher_ok : forall ic s i, i <= L ->
  forall j, strmatcher t lower (Flags ic false) s i L = Some j <-> ends ic (PStr s) i j.
Proof.
  intros ic s i Hi j. unfold strmatcher. cbn [f_ic TextMatchSpec.ends]. unfold same.
  destruct ic.
  - pose proof (ic_match_ok s i) as H. destruct (ic_match t lower s i L) as [e|].
    + destruct H as [-> H]. split.
      * intro E. injection E as <-. auto.
      * intros (_ & -> & _). reflexivity.
    + split; [discriminate|]. intros (_ & _ & H'). contradiction.
  - destruct (prefix_at t s i) eqn:E.
    + pose proof (proj1 (prefix_at_ok s i) E) as E'. split.
      * intro H. injection H as <-. auto.
      * intros (_ & -> & _). reflexivity.
    + split; [discriminate|]. intros (_ & _ & H). rewrite (proj2 (prefix_at_ok s i) H) in E. discriminate.
Qed.

(** Runs of characters. *)
Lemma run_end_ok : forall test n i,
  let e := run_end t test n i in
  i <= e <= i + n /\ (forall k, i <= k < e -> test (ch t k) = true) /\
  (e < i + n -> test (ch t e) = false).
Proof.
  intros test. induction n as [|n IH]; intro i; cbn.
  - split; [lia|]. split; intros; lia.
  - destruct (test (ch t i)) eqn:E.
    + destruct (IH (S i)) as (H1 & H2 & H3). cbv zeta in *. split; [lia|]. split.
      * intros k Hk. destruct (Nat.eq_dec k i) as [-> | Hn]; [exact E | apply H2; lia].
      * intro H. apply H3. lia.
    + split; [lia|]. split; [intros; lia | auto].
Qed.

Lemma run_ends_ok : forall test n i j,
  In j (run_ends t test n i) <->
  i < j <= i + n /\ forall k, i <= k < j -> test (ch t k) = true.
Proof.
  intros test. induction n as [|n IH]; intros i j; cbn.
  - split; [intros [] | intros [H _]; lia].
  - destruct (test (ch t i)) eqn:E.
    + cbn [In]. rewrite IH. split.
      * intros [<- | [H1 H2]].
        -- split; [lia|]. intros k Hk. replace k with i by lia. exact E.
        -- split; [lia|]. intros k Hk. destruct (Nat.eq_dec k i) as [-> | Hn]; [exact E | apply H2; lia].
      * intros [H1 H2]. destruct (Nat.eq_dec (S i) j) as [<- | Hn]; [left; reflexivity | right].
        split; [lia|]. intros k Hk. apply H2. lia.
    + split; [intros [] |]. intros [H1 H2]. rewrite H2 in E by lia. discriminate.
Qed.

Lemma among_ok : forall ic s d,
  existsb (fun x => (reduce lower ic x =? reduce lower ic d)%N) s = true <-> among lower ic s d.
Proof.
  intros ic s d. rewrite existsb_exists. unfold among, same, reduce. split.
  - intros (x & H & E). apply N.eqb_eq in E. exists x. destruct ic; auto.
  - intros (x & H & E). exists x. split; [exact H|]. apply N.eqb_eq. destruct ic; congruence.
Qed.

Lemma chars_test_ok : forall ic g neg s d,
  chars_test lower (Flags ic g) neg s d = true <->
  (if neg then ~ among lower ic s d else among lower ic s d).
Proof.
  intros ic g neg s d. unfold chars_test. cbn [f_ic].
  destruct neg; rewrite <- among_ok.
  - destruct (existsb _ s); cbn; split; intro H; congruence.
  - reflexivity.
Qed.

Lemma match_chars_ok : forall ic neg star s i j, i <= L ->
  In j (match_chars t lower neg star s i L (Flags ic false)) <->
  ends ic (PChars neg star s) i j.
Proof.
  intros ic neg star s i j Hi. unfold match_chars. cbv zeta.
  pose proof (run_end_ok (chars_test lower (Flags ic false) neg s) (L - i) i) as H.
  cbv zeta in H. set (e := run_end t _ _ _) in *. destruct H as (H1 & H2 & H3).
  cbn [TextMatchSpec.ends]. cbv zeta.
  assert (HU : forall j, i <= j <= L ->
    (forall k d, i <= k < j -> nth_error t k = Some d ->
       if neg then ~ among lower ic s d else among lower ic s d) ->
    (forall d, nth_error t j = Some d ->
       ~ (if neg then ~ among lower ic s d else among lower ic s d)) -> j = e).
  { intros j' Hj Ha Hb. destruct (lt_eq_lt_dec j' e) as [[Hlt | ->] | Hgt]; auto; exfalso.
    - assert (Hlj : j' < L) by lia. apply (Hb _ (ch_nth j' Hlj)).
      apply chars_test_ok with false. apply H2. lia.
    - assert (He : e < i + (L - i)) by lia. specialize (H3 He).
      assert (Hle : e < L) by lia. specialize (Ha e _ (conj (proj1 H1) Hgt) (ch_nth e Hle)).
      apply chars_test_ok with (g := false) in Ha. congruence. }
  assert (HA : forall k d, i <= k < e -> nth_error t k = Some d ->
       if neg then ~ among lower ic s d else among lower ic s d).
  { intros k d Hk Hd. apply chars_test_ok with false.
    assert (Hkl : k < L) by lia. rewrite (ch_nth k Hkl) in Hd. injection Hd as <-. auto. }
  assert (HB : forall d, nth_error t e = Some d ->
       ~ (if neg then ~ among lower ic s d else among lower ic s d)).
  { intros d Hd Hc. pose proof (nth_lt _ _ Hd) as Hl. rewrite (ch_nth e Hl) in Hd.
    injection Hd as <-. apply chars_test_ok with (g := false) in Hc.
    rewrite H3 in Hc by lia. discriminate. }
  destruct (e <? L) eqn:El.
  - apply Nat.ltb_lt in El. destruct (e =? i) eqn:Ei.
    + apply Nat.eqb_eq in Ei. destruct star.
      * cbn [In]. split.
        -- intros [<- | []]. rewrite <- Ei. repeat split; auto; lia.
        -- intros (Hj & Ha & Hb & _). left. rewrite (HU j Hj Ha Hb). auto.
      * split; [intros []|]. intros (Hj & Ha & Hb & Hc). rewrite (HU j Hj Ha Hb) in Hc.
        destruct Hc as [Hc | [Hc | Hc]]; [discriminate | lia | lia].
    + apply Nat.eqb_neq in Ei. cbn [In]. split.
      * intros [<- | []]. repeat split; auto; try lia.
      * intros (Hj & Ha & Hb & _). left. symmetry. auto.
  - apply Nat.ltb_ge in El. assert (Ee : e = L) by lia. cbn [In]. split.
    + intros [<- | []]. rewrite <- Ee. repeat split; auto; try lia.
    + intros (Hj & Ha & Hb & _). left. rewrite <- Ee. symmetry. auto.
Qed.

Lemma not_ends_ok : forall n i last j, i <= last -> last <= i + n ->
  In j (not_ends n i last) <-> i <= j <= last.
Proof.
  induction n as [|n IH]; intros i last j H1 H2; cbn [not_ends].
  - cbn [In]. lia.
  - destruct (i <? last) eqn:E.
    + apply Nat.ltb_lt in E. cbn [In]. rewrite IH by lia. lia.
    + apply Nat.ltb_ge in E. cbn [In]. lia.
Qed.

(** Fuel: the functions at one step more of fuel. *)
Notation dm := (domatch t lower env).
Notation ts := (tsearch t lower env).
Notation fl ic := (Flags ic false).

Lemma dm_S : forall f, dm (S f) = match_step t lower env (dm f) (ts f) f.
Proof. reflexivity. Qed.

Lemma ts_S : forall f, ts (S f) = search_step t lower env (dm f) (ts f) f.
Proof. reflexivity. Qed.

Definition matches_ok (f : nat) (ic : bool) (p : pat) : Prop :=
  forall nx off, off <= L ->
  exists l, dm f p nx off L (fl ic) = MOk l /\ forall j, In j l <-> ends ic p off j.

Definition sres_ok (ic : bool) (p : pat) (off : nat) (r : sres) : Prop :=
  match r with
  | SAt k =>
    off <= k <= L /\ (strict p -> k < L) /\ (exists j, ends ic p k j) /\
    (forall k' j, off <= k' < k -> ~ ends ic p k' j)
  | SNone => forall k' j, off <= k' < L -> ~ ends ic p k' j
  | _ => False
  end.

Definition searches_ok (f : nat) (ic : bool) (p : pat) : Prop :=
  forall off, off <= L -> sres_ok ic p off (ts f p off L (fl ic)).

Definition claim (ic : bool) (p : pat) : Prop :=
  exists f0, forall f, f0 <= f ->
    matches_ok f ic p /\ (findable ic p -> searches_ok f ic p).

Lemma claims_all : forall ic l, (forall q, In q l -> claim ic q) ->
  exists f0, forall f, f0 <= f -> forall q, In q l ->
    matches_ok f ic q /\ (findable ic q -> searches_ok f ic q).
Proof.
  intros ic. induction l as [|q l IH]; intro H.
  - exists 0. intros f _ q [].
  - destruct (H q (or_introl eq_refl)) as (f1 & H1).
    destruct IH as (f2 & H2). { intros q' Hq. apply H. right. exact Hq. }
    exists (Nat.max f1 f2). intros f Hf q' [<- | Hq]; [apply H1 | apply H2]; auto; lia.
Qed.

Lemma lim_off : forall off, off <= L -> (L <? off) = false.
Proof. intros off H. apply Nat.ltb_ge. exact H. Qed.

Ltac step_dm H := rewrite dm_S; unfold match_step; rewrite (lim_off _ H).
Ltac step_ts H := rewrite ts_S; unfold search_step; rewrite (lim_off _ H).

(** An operator of which only the matcher has to be looked at. *)
Lemma claim_match : forall ic p,
  ~ findable ic p ->
  (exists f0, forall f, f0 <= f -> matches_ok f ic p) -> claim ic p.
Proof.
  intros ic p Hn (f0 & H). exists f0. intros f Hf. split; [auto|]. intro. contradiction.
Qed.

Lemma claim_str : forall ic s, claim ic (PStr s).
Proof.
  intros ic s. exists 1. intros f Hf. destruct f as [|f]; [lia|]. split.
  - intros nx off Ho. step_dm Ho. destruct (off =? L) eqn:E.
    + apply Nat.eqb_eq in E. subst off. exists (match s with [] => [L] | _ => [] end).
      split; [destruct s; reflexivity|]. intro j. cbn [TextMatchSpec.ends]. destruct s as [|c s]; cbn.
      * split.
        -- intros [<- | []]. split; [lia|]. split; [lia|]. intros [|k] c H; discriminate.
        -- intros (_ & -> & _). lia.
      * split; [intros []|]. intros (_ & _ & H). destruct (H 0 c eq_refl) as (d & Hd & _).
        apply nth_lt in Hd. lia.
    + pose proof (strmatcher_ok ic s off Ho) as H.
      destruct (strmatcher t lower (fl ic) s off L) as [e|].
      * exists [e]. split; [reflexivity|]. intro j. rewrite <- H. cbn. split.
        -- intros [<- | []]. reflexivity.
        -- intro E'. injection E' as ->. auto.
      * exists []. split; [reflexivity|]. intro j. rewrite <- H. cbn. split; [intros [] | discriminate].
  - cbn [findable]. intros ->. intros off Ho. step_ts Ho. cbn [f_ic].
    assert (HP : forall k, k <= L -> (prefix_at t s k = true <-> exists j, ends false (PStr s) k j)).
    { intros k Hk. pose proof (strmatcher_ok false s k Hk) as H. unfold strmatcher in H. cbn [f_ic] in H.
      destruct (prefix_at t s k).
      - split; [|auto]. intros _. exists (k + length s). apply H. reflexivity.
      - split; [discriminate|]. intros (j & Hj). apply H in Hj. discriminate. }
    pose proof (first_at_spec (prefix_at t s) (S (len t) - off) off) as H. unfold len in H |- *.
    destruct (first_at (prefix_at t s) off (S L - off)) as [k|].
    + destruct H as (H1 & H2 & H3). destruct (k <? L) eqn:E; cbn [sres_ok].
      * apply Nat.ltb_lt in E. split; [lia|]. split; [auto|]. split; [apply HP; [lia | exact H2]|].
        intros k' j Hk He. assert (X : prefix_at t s k' = true) by (apply HP; [lia | exists j; exact He]).
        rewrite H3 in X by lia. discriminate.
      * apply Nat.ltb_ge in E. intros k' j Hk He.
        assert (X : prefix_at t s k' = true) by (apply HP; [lia | exists j; exact He]).
        rewrite H3 in X by lia. discriminate.
    + intros k' j Hk He. assert (X : prefix_at t s k' = true) by (apply HP; [lia | exists j; exact He]).
      rewrite H in X by lia. discriminate.
Qed.

Lemma opt_res_ok : forall ic p off test,
  off <= L ->
  (forall k, k < L -> (test k = true <-> exists j, ends ic p k j)) ->
  sres_ok ic p off (opt_res (first_at test off (L - off))).
Proof.
  intros ic p off test Ho Ht. pose proof (first_at_spec test (L - off) off) as H.
  destruct (first_at test off (L - off)) as [k|]; cbn [opt_res sres_ok].
  - destruct H as (H1 & H2 & H3). split; [lia|]. split; [lia|]. split; [apply Ht; [lia | exact H2]|].
    intros k' j Hk He. assert (X : test k' = true) by (apply Ht; [lia | exists j; exact He]).
    rewrite H3 in X by lia. discriminate.
  - intros k' j Hk He. assert (X : test k' = true) by (apply Ht; [lia | exists j; exact He]).
    rewrite H in X by lia. discriminate.
Qed.

Lemma claim_chr : forall ic c, claim ic (PChr c).
Proof.
  intros ic c. exists 1. intros f Hf. destruct f as [|f]; [lia|]. split.
  - intros nx off Ho. step_dm Ho. cbn [TextMatchSpec.ends]. destruct (off =? L) eqn:E.
    + apply Nat.eqb_eq in E. exists []. split; [reflexivity|]. intro j. split; [intros []|].
      intros [H _]. apply nth_lt in H. lia.
    + apply Nat.eqb_neq in E. assert (Hl : off < L) by lia. rewrite (ch_nth off Hl).
      destruct (c =? ch t off)%N eqn:Ec.
      * apply N.eqb_eq in Ec. exists [fwd t off]. split; [reflexivity|]. rewrite (fwd_lt off Hl).
        intro j. cbn. split; [intros [<- | []]; rewrite Ec; auto | intros [_ ->]; auto].
      * apply N.eqb_neq in Ec. exists []. split; [reflexivity|]. intro j. split; [intros []|].
        intros [H _]. congruence.
  - cbn [findable]. intros Hc off Ho. step_ts Ho.
    replace (c <? 128)%N with false by lia.
    apply opt_res_ok; [exact Ho|]. intros k Hk. cbn [TextMatchSpec.ends].
    rewrite (ch_nth k Hk). rewrite N.eqb_eq. split.
    + intros ->. exists (S k). auto.
    + intros (j & H & _). congruence.
Qed.

Lemma salt_ok : forall ic off (f : pat -> sres) l nlim loc,
  (forall q, In q l -> sres_ok ic q off (f q)) ->
  (loc = None -> nlim = L) ->
  (forall k, loc = Some k -> k = nlim /\ k < L /\ off <= k) ->
  match salt f l nlim loc with
  | SAt k =>
    off <= k <= nlim /\ k < L /\
    (loc = Some k \/ exists q j, In q l /\ ends ic q k j) /\
    (forall q k' j, In q l -> off <= k' < k -> ~ ends ic q k' j)
  | SNone => loc = None /\ forall q k' j, In q l -> off <= k' < L -> ~ ends ic q k' j
  | _ => False
  end.
Proof.
  intros ic off f. induction l as [|p l IH]; intros nlim loc Hl Hn Hs; cbn [salt].
  - destruct loc as [k|].
    + destruct (Hs k eq_refl) as (-> & H1 & H2). split; [lia|]. split; [exact H1|].
      split; [auto|]. intros q k' j [].
    + split; [reflexivity|]. intros q k' j [].
  - pose proof (Hl p (or_introl eq_refl)) as Hp.
    assert (Hl' : forall q, In q l -> sres_ok ic q off (f q)) by (intros q Hq; apply Hl; right; exact Hq).
    assert (HnL : nlim <= L).
    { destruct loc as [k|]; [destruct (Hs k eq_refl); lia | rewrite Hn; auto]. }
    destruct (f p) as [k| | | |]; cbn [sres_ok] in Hp; try contradiction.
    + destruct Hp as (Hk & _ & He & Hno). destruct (k <? nlim) eqn:E.
      * apply Nat.ltb_lt in E. specialize (IH k (Some k) Hl').
        assert (H1 : Some k = None -> k = L) by discriminate.
        assert (H2 : forall k0, Some k = Some k0 -> k0 = k /\ k0 < L /\ off <= k0).
        { intros k0 X. injection X as <-. lia. }
        specialize (IH H1 H2). destruct (salt f l k (Some k)) as [k1| | | |]; try contradiction.
        -- destruct IH as (G1 & G2 & G3 & G4). split; [lia|]. split; [lia|]. split.
           ++ right. destruct G3 as [G3 | (q & j & Hq & Hj)].
              ** injection G3 as <-. destruct He as (j & Hj). exists p, j. split; [left; reflexivity | exact Hj].
              ** exists q, j. split; [right; exact Hq | exact Hj].
           ++ intros q k' j [<- | Hq] Hk'; [apply Hno; lia | apply G4; auto].
        -- destruct IH; discriminate.
      * apply Nat.ltb_ge in E. specialize (IH nlim loc Hl' Hn Hs).
        destruct (salt f l nlim loc) as [k1| | | |]; try contradiction.
        -- destruct IH as (G1 & G2 & G3 & G4). split; [lia|]. split; [lia|]. split.
           ++ destruct G3 as [G3 | (q & j & Hq & Hj)]; [left; exact G3 | right].
              exists q, j. split; [right; exact Hq | exact Hj].
           ++ intros q k' j [<- | Hq] Hk'; [apply Hno; lia | apply G4; auto].
        -- destruct IH as (G1 & G2). split; [exact G1|]. rewrite (Hn G1) in E.
           intros q k' j [<- | Hq] Hk'; [apply Hno; lia | apply G2; auto].
    + specialize (IH nlim loc Hl' Hn Hs).
      destruct (salt f l nlim loc) as [k1| | | |]; try contradiction.
      * destruct IH as (G1 & G2 & G3 & G4). split; [lia|]. split; [lia|]. split.
        -- destruct G3 as [G3 | (q & j & Hq & Hj)]; [left; exact G3 | right].
           exists q, j. split; [right; exact Hq | exact Hj].
        -- intros q k' j [<- | Hq] Hk'; [apply Hp; lia | apply G4; auto].
      * destruct IH as (G1 & G2). split; [exact G1|].
        intros q k' j [<- | Hq] Hk'; [apply Hp; lia | apply G2; auto].
Qed.

Lemma claim_alt : forall ic l, (forall q, In q l -> claim ic q) -> claim ic (PAlt l).
Proof.
  intros ic l H. destruct (claims_all ic l H) as (f0 & H0). exists (S f0).
  intros f Hf. destruct f as [|f]; [lia|]. assert (Hf' : f0 <= f) by lia. split.
  - intros nx off Ho. step_dm Ho.
    destruct (malt_ok (fun q => dm f q nx off L (fl ic)) (fun q j => ends ic q off j) l) as (e & Ee & Ie).
    { intros q Hq. apply (proj1 (H0 f Hf' q Hq)). exact Ho. }
    rewrite Ee. cbn [f_greedy]. exists e. split; [reflexivity|]. intro j. rewrite Ie, ends_any. reflexivity.
  - intro Hfind. rewrite findable_all in Hfind. intros off Ho. step_ts Ho.
    pose proof (salt_ok ic off (fun q => ts f q off L (fl ic)) l L None) as Hs.
    cbv beta in Hs.
    assert (Hq : forall q, In q l -> sres_ok ic q off (ts f q off L (fl ic))).
    { intros q Hq. apply (proj2 (H0 f Hf' q Hq)); auto. }
    specialize (Hs Hq (fun _ => eq_refl)).
    assert (HX : forall k : nat, None = Some k -> k = L /\ k < L /\ off <= k) by discriminate.
    specialize (Hs HX). clear HX.
    destruct (salt _ l L None) as [k| | | |]; try contradiction; cbn [sres_ok].
    + destruct Hs as (G1 & G2 & G3 & G4). split; [lia|]. split; [auto|]. split.
      * destruct G3 as [G3 | (q & j & Hj1 & Hj2)]; [discriminate|]. exists j. apply ends_any. eauto.
      * intros k' j Hk He. apply ends_any in He. destruct He as (q & Hq1 & Hq2). eapply G4; eauto.
    + destruct Hs as (_ & G). intros k' j Hk He. apply ends_any in He.
      destruct He as (q & Hq1 & Hq2). eapply G; eauto.
Qed.

Lemma svec_ok : forall ic f e l b off r,
  searches_ok f ic e ->
  (forall k, k <= L -> exists x, dm f (PVec (e :: l)) None k L (fl ic) = MOk x /\
     forall j, In j x <-> ends ic (PVec (e :: l)) k j) ->
  off <= L -> L - off < b -> sres_ok ic e off r ->
  sres_ok ic (PVec (e :: l)) off
    (svec (fun k => ts f e k L (fl ic)) (fun k => dm f (PVec (e :: l)) None k L (fl ic))
          (fwd t) L b r).
Proof.
  intros ic f e l b. induction b as [|b IH]; intros off r Hs Hm Ho Hb Hr; [lia|].
  assert (Hhead : forall k j, ends ic (PVec (e :: l)) k j -> exists m, ends ic e k m).
  { intros k j He. apply ends_vec in He. destruct He as (m & Hm1 & _). exists m. exact Hm1. }
  cbn [svec]. destruct r as [k| | | |]; cbn [sres_ok] in Hr; try contradiction.
  - destruct Hr as (Hk & _ & _ & Hno). destruct (k <? L) eqn:E.
    + apply Nat.ltb_lt in E. destruct (Hm k) as (x & Ex & Ix); [lia|]. rewrite Ex.
      destruct x as [|y x].
      * rewrite (fwd_lt k E). specialize (IH (S k) (ts f e (S k) L (fl ic)) Hs Hm).
        assert (H1 : S k <= L) by lia. assert (H2 : L - S k < b) by lia.
        specialize (IH H1 H2 (Hs (S k) H1)).
        assert (Hbefore : forall k' j, off <= k' < S k -> ~ ends ic (PVec (e :: l)) k' j).
        { intros k' j Hk' He. destruct (Nat.eq_dec k' k) as [-> | Hn].
          - apply Ix in He. destruct He.
          - destruct (Hhead _ _ He) as (m & Hm'). apply (Hno k' m); [lia | exact Hm']. }
        destruct (svec _ _ _ _ _ _) as [k2| | | |]; cbn [sres_ok] in *; try contradiction.
        -- destruct IH as (G1 & G2 & G3 & G4). split; [lia|]. split; [exact G2|]. split; [exact G3|].
           intros k' j Hk'. destruct (le_lt_dec (S k) k'); [apply G4; lia | apply Hbefore; lia].
        -- intros k' j Hk'. destruct (le_lt_dec (S k) k'); [apply IH; lia | apply Hbefore; lia].
      * cbn [sres_ok]. split; [lia|]. split; [auto|]. split.
        -- exists y. apply Ix. left. reflexivity.
        -- intros k' j Hk' He. destruct (Hhead _ _ He) as (m & Hm'). apply (Hno k' m); [lia | exact Hm'].
    + apply Nat.ltb_ge in E. cbn [sres_ok]. intros k' j Hk' He.
      destruct (Hhead _ _ He) as (m & Hm'). apply (Hno k' m); [lia | exact Hm'].
  - cbn [sres_ok]. intros k' j Hk' He. destruct (Hhead _ _ He) as (m & Hm'). apply (Hr k' m); [lia | exact Hm'].
Qed.

Lemma claim_vec : forall ic l, (forall q, In q l -> claim ic q) -> claim ic (PVec l).
Proof.
  intros ic l H. destruct (claims_all ic l H) as (f0 & H0). exists (S (S (f0 + L))).
  assert (HM : forall f, f0 <= f -> matches_ok (S f) ic (PVec l)).
  { intros f Hf nx off Ho. step_dm Ho.
    destruct (mseq_ok L (ends ic) (fun e n i => dm f e n i L (fl ic)) l nx [off]) as (e & Ee & Ie).
    - intros q Hq n i Hi. apply (proj1 (H0 f Hf q Hq)). exact Hi.
    - intros q i j _ Hi He. apply (ends_range q ic i j Hi He).
    - intros i [<- | []]. exact Ho.
    - exists e. split; [exact Ee|]. intro j. rewrite Ie, ends_vec. split.
      + intros (i & [<- | []] & Hs). exact Hs.
      + intro Hs. exists off. split; [left; reflexivity | exact Hs]. }
  intros f Hf. destruct f as [|f]; [lia|]. split; [apply HM; lia|].
  destruct l as [|e l]; [intros []|].
  intros Hfe off Ho. cbn [findable] in Hfe. step_ts Ho.
  assert (Hse : searches_ok f ic e).
  { apply (proj2 (H0 f ltac:(lia) e (or_introl eq_refl))). exact Hfe. }
  apply svec_ok; auto; [|lia]. intros k Hk.
  destruct f as [|f]; [lia|]. apply HM; [lia | exact Hk].
Qed.

(** Patterns which pass everything on to one pattern. *)
Lemma claim_pass : forall ic ic' p q,
  claim ic' q ->
  (forall i j, ends ic p i j <-> ends ic' q i j) ->
  (strict p -> strict q) ->
  (findable ic p -> findable ic' q) ->
  (forall f nx off, off <= L -> exists nx',
     dm (S f) p nx off L (fl ic) = dm f q nx' off L (fl ic')) ->
  (forall f off, off <= L -> ts (S f) p off L (fl ic) = ts f q off L (fl ic')) ->
  claim ic p.
Proof.
  intros ic ic' p q (f0 & H0) He Hstr Hfi Hd Ht. exists (S f0).
  intros f Hf. destruct f as [|f]; [lia|]. destruct (H0 f ltac:(lia)) as [HM HS]. split.
  - intros nx off Ho. destruct (Hd f nx off Ho) as (nx' & E). rewrite E.
    destruct (HM nx' off Ho) as (l & El & Il). exists l. split; [exact El|].
    intro j. rewrite Il, He. reflexivity.
  - intros Hf2 off Ho. rewrite Ht by exact Ho. specialize (HS (Hfi Hf2) off Ho).
    destruct (ts f q off L (fl ic')) as [k| | | |]; cbn [sres_ok] in *; try contradiction.
    + destruct HS as (G1 & G2 & (j & G3) & G4). split; [exact G1|]. split; [auto|]. split.
      * exists j. apply He, G3.
      * intros k' j' Hk E. apply He in E. eapply G4; eauto.
    + intros k' j Hk E. apply He in E. eapply HS; eauto.
Qed.

Lemma after_op_ng : forall ic r, after_op (fl ic) r = r.
Proof. intros ic [l| | |]; reflexivity. Qed.

Lemma claim_choice : forall ic l, (forall q, In q l -> claim ic q) -> claim ic (PChoiceOp l).
Proof.
  intros ic l H. destruct l as [|q [|q' l]].
  - exists 1. intros f Hf. destruct f as [|f]; [lia|]. split.
    + intros nx off Ho. step_dm Ho. exists []. split; [reflexivity|]. intro j. cbn. tauto.
    + intros _ off Ho. step_ts Ho. cbn. auto.
  - apply claim_pass with ic q.
    + apply H. left. reflexivity.
    + intros i j. cbn [TextMatchSpec.ends]. tauto.
    + cbn. auto.
    + cbn [findable]. tauto.
    + intros f nx off Ho. exists nx. step_dm Ho. cbn [match_op]. apply after_op_ng.
    + intros f off Ho. step_ts Ho. reflexivity.
  - apply claim_pass with ic (PAlt (q :: q' :: l)).
    + apply claim_alt, H.
    + intros i j. reflexivity.
    + cbn. auto.
    + auto.
    + intros f nx off Ho. exists None. step_dm Ho. cbn [match_op]. apply after_op_ng.
    + intros f off Ho. step_ts Ho. reflexivity.
Qed.

Lemma rep_claim : forall ic q z f nx off,
  matches_ok f ic q -> L + 2 <= f -> off <= L ->
  exists l, match_repeatedly (fun i => dm f q nx i L (fl ic)) false z f off = MOk l /\
    forall j, In j l <->
      ((z = true /\ j = off) \/ (clos_refl_trans nat (ends ic q) off j /\ j <> off)).
Proof.
  intros ic q z f nx off HM Hf Ho.
  apply (match_repeatedly_ok L (ends ic q) (fun i => dm f q nx i L (fl ic))); auto.
  intros i j Hi He. apply (ends_range q ic i j Hi He).
Qed.

Lemma claim_star : forall ic q, claim ic q -> claim ic (PStar q).
Proof.
  intros ic q (f0 & H0). exists (S (f0 + L + 2)).
  assert (HM : forall f, f0 + L + 2 <= f -> matches_ok (S f) ic (PStar q)).
  { intros f Hf nx off Ho. step_dm Ho. cbn [match_op]. rewrite after_op_ng. cbn [f_greedy].
    destruct (rep_claim ic q true f nx off) as (l & El & Il); [apply H0; lia | lia | exact Ho|].
    exists l. split; [exact El|]. intro j. rewrite Il. cbn [TextMatchSpec.ends]. split.
    - intros [[_ ->] | [H _]]; [apply rt_refl | exact H].
    - intro H. destruct (Nat.eq_dec j off) as [-> | Hn]; auto. }
  intros f Hf. destruct f as [|f]; [lia|]. split; [apply HM; lia|].
  intros _ off Ho. step_ts Ho. cbn [search_op sres_ok]. split; [lia|]. split; [intros []|]. split.
  - exists off. cbn [TextMatchSpec.ends]. apply rt_refl.
  - intros; lia.
Qed.

Lemma trans_first : forall (R : nat -> nat -> Prop) i j, clos_trans nat R i j -> exists k, R i k.
Proof.
  intros R i j H. apply clos_trans_t1n in H. destruct H as [k H | k j H _]; eauto.
Qed.

Lemma step_rt : forall (R : nat -> nat -> Prop) i k j,
  R i k -> clos_refl_trans nat R k j -> clos_trans nat R i j.
Proof.
  intros R i k j H H2. apply clos_rt_rtn1 in H2. induction H2 as [|y w Hr _ IH].
  - apply t_step, H.
  - eapply t_trans; [exact IH | apply t_step, Hr].
Qed.

Lemma trans_rt : forall (R : nat -> nat -> Prop) i j,
  clos_trans nat R i j -> clos_refl_trans nat R i j.
Proof.
  intros R i j H. induction H as [a b H | a c b H1 IH1 H2 IH2].
  - apply rt_step, H.
  - eapply rt_trans; eauto.
Qed.

Lemma claim_plus : forall ic q, claim ic q -> (forall i, ~ ends ic q i i) -> claim ic (PPlus q).
Proof.
  intros ic q (f0 & H0) Hnn. exists (S (f0 + L + 2)). intros f Hf. destruct f as [|f]; [lia|]. split.
  - intros nx off Ho. step_dm Ho. cbn [match_op]. rewrite after_op_ng. cbn [f_greedy].
    destruct (rep_claim ic q false f nx off) as (l & El & Il); [apply H0; lia | lia | exact Ho|].
    exists l. split; [exact El|]. intro j. rewrite Il. cbn [TextMatchSpec.ends].
    assert (Hlt : forall a b, clos_trans nat (ends ic q) a b -> a <= L -> a < b <= L).
    { intros a b H. apply clos_trans_t1n in H. induction H as [a b H | a c b H1 H2 IH]; intro Ha.
      - pose proof (ends_range q ic a b Ha H). destruct (Nat.eq_dec a b) as [-> | Hn]; [|lia].
        exfalso. apply (Hnn b H).
      - pose proof (ends_range q ic a c Ha H1). specialize (IH ltac:(lia)). lia. }
    split.
    + intros [[Hx _] | [H Hn]]; [discriminate|]. apply clos_rt_rt1n in H.
      destruct H as [| k j H1 H2]; [congruence|]. apply clos_rt1n_rt in H2.
      eapply step_rt; eauto.
    + intro H. right. split; [|specialize (Hlt _ _ H Ho); lia].
      apply trans_rt, H.
  - cbn [findable]. intros Hfi off Ho. step_ts Ho. cbn [search_op].
    pose proof (proj2 (H0 f ltac:(lia)) Hfi off Ho) as HS.
    destruct (ts f q off L (fl ic)) as [k| | | |]; cbn [sres_ok] in *; try contradiction.
    + destruct HS as (G1 & G2 & (j & G3) & G4). split; [exact G1|]. split; [exact G2|]. split.
      * exists j. apply t_step. exact G3.
      * intros k' j' Hk E. apply trans_first in E. destruct E as (m & E). eapply G4; eauto.
    + intros k' j Hk E. apply trans_first in E. destruct E as (m & E). eapply HS; eauto.
Qed.

Lemma claim_opt : forall ic q, claim ic q -> claim ic (POpt q).
Proof.
  intros ic q (f0 & H0). exists (S f0). intros f Hf. destruct f as [|f]; [lia|].
  destruct (H0 f ltac:(lia)) as [HM _].
  assert (HX : matches_ok (S f) ic (POpt q)).
  { intros nx off Ho. step_dm Ho. cbn [match_op]. rewrite after_op_ng.
    destruct (HM nx off Ho) as (l & El & Il). rewrite El. cbn [TextMatchSpec.ends].
    destruct l as [|x l].
    - exists [off]. split; [reflexivity|]. intro j. split.
      + intros [<- | []]. right. split; [reflexivity|]. intros k Hk. apply Il in Hk. destruct Hk.
      + intros [H | [-> _]]; [apply Il in H; destruct H | left; reflexivity].
    - exists (x :: l). split; [reflexivity|]. intro j. rewrite Il. split; [auto|].
      intros [H | [_ H]]; [exact H|]. exfalso. apply (H x). apply Il. left. reflexivity. }
  split; [exact HX|]. intros _ off Ho. step_ts Ho. cbn [search_op sres_ok].
  split; [lia|]. split; [intros []|]. split; [|intros; lia].
  destruct (HM None off Ho) as (l & El & Il). cbn [TextMatchSpec.ends]. destruct l as [|x l].
  - exists off. right. split; [reflexivity|]. intros k Hk. apply Il in Hk. destruct Hk.
  - exists x. left. apply Il. left. reflexivity.
Qed.

Lemma claim_not : forall ic q, claim ic q -> findable ic q -> strict q -> claim ic (PNot q).
Proof.
  intros ic q (f0 & H0) Hfi Hst. apply claim_match; [cbn; auto|].
  exists (S f0). intros f Hf. destruct f as [|f]; [lia|].
  pose proof (proj2 (H0 f ltac:(lia)) Hfi) as HS.
  intros nx off Ho. step_dm Ho. cbn [match_op]. rewrite after_op_ng.
  specialize (HS off Ho). cbn [TextMatchSpec.ends].
  destruct (ts f q off L (fl ic)) as [k| | | |]; cbn [sres_ok] in HS; try contradiction.
  - destruct HS as (G1 & G2 & (m & G3) & G4). specialize (G2 Hst).
    destruct (k =? off) eqn:E.
    + apply Nat.eqb_eq in E. subst k. exists []. split; [reflexivity|]. intro j. split; [intros []|].
      intros [[H1 H2] | [H1 H2]]; [|lia]. apply (H2 off m); [lia | exact G3].
    + apply Nat.eqb_neq in E. replace (k <? L) with true by lia. replace (off <? k) with true by lia.
      cbn [andb]. cbv zeta. rewrite (fwd_lt off) by lia. eexists. split; [reflexivity|].
      intro j. rewrite not_ends_ok by lia. split.
      * intro Hj. left. split; [lia|]. intros k' m' Hk'. apply G4. lia.
      * intros [[H1 H2] | [H1 H2]]; [|lia]. split; [lia|].
        destruct (le_lt_dec j k) as [Hle | Hgt]; [exact Hle|].
        exfalso. apply (H2 k m); [lia | exact G3].
  - destruct (Nat.eq_dec off L) as [-> | Hn].
    + rewrite fwd_end. eexists. split; [reflexivity|]. intro j. rewrite not_ends_ok by lia. split.
      * intro Hj. right. lia.
      * intros [[H1 H2] | [H1 H2]]; lia.
    + rewrite (fwd_lt off) by lia. eexists. split; [reflexivity|].
      intro j. rewrite not_ends_ok by lia. split.
      * intro Hj. left. split; [lia|]. intros k' m' Hk'. apply HS. lia.
      * intros [[H1 H2] | [H1 H2]]; lia.
Qed.

Lemma claim_notgt : forall ic q, claim ic q -> findable ic q -> claim ic (PNotGt q).
Proof.
  intros ic q (f0 & H0) Hfi. apply claim_match; [cbn; auto|].
  exists (S f0). intros f Hf. destruct f as [|f]; [lia|].
  pose proof (proj2 (H0 f ltac:(lia)) Hfi) as HS.
  intros nx off Ho. step_dm Ho. cbn [match_op]. rewrite after_op_ng.
  specialize (HS off Ho). cbn [TextMatchSpec.ends].
  destruct (ts f q off L (fl ic)) as [k| | | |]; cbn [sres_ok] in HS; try contradiction.
  - destruct HS as (G1 & _ & (m & G3) & G4). destruct (L <=? k) eqn:E.
    + apply Nat.leb_le in E. exists [L]. split; [reflexivity|]. intro j. cbn [In]. split.
      * intros [<- | []]. split; [lia|]. split; [|left; reflexivity]. intros k' m' Hk'. apply G4. lia.
      * intros (H1 & H2 & [-> | (m' & H3)]); [auto|]. left.
        destruct (Nat.eq_dec j L) as [-> | Hn]; [reflexivity|]. exfalso. apply (G4 j m'); [lia | exact H3].
    + apply Nat.leb_gt in E. exists [k]. split; [reflexivity|]. intro j. cbn [In]. split.
      * intros [<- | []]. split; [lia|]. split; [exact G4|]. right. exists m. exact G3.
      * intros (H1 & H2 & H3). left. destruct (lt_eq_lt_dec j k) as [[Hl | ->] | Hg]; [|reflexivity|].
        -- exfalso. destruct H3 as [-> | (m' & H3)]; [lia|]. apply (G4 j m'); [lia | exact H3].
        -- exfalso. apply (H2 k m); [lia | exact G3].
  - exists [L]. split; [reflexivity|]. intro j. cbn [In]. split.
    + intros [<- | []]. split; [lia|]. split; [|left; reflexivity]. intros k' m' Hk'. apply HS. lia.
    + intros (H1 & H2 & [-> | (m' & H3)]); [auto|]. left.
      destruct (Nat.eq_dec j L) as [-> | Hn]; [reflexivity|]. exfalso. apply (HS j m'); [lia | exact H3].
Qed.

Lemma match_and_ok : forall ic f p q nx off,
  matches_ok f ic p -> matches_ok f ic q -> off <= L ->
  exists l, match_and (dm f) p q nx off L (fl ic) = MOk l /\ forall j, In j l <-> ends ic (PAnd p q) off j.
Proof.
  intros ic f p q nx off HP HQ Ho. unfold match_and. cbn [f_ic f_greedy]. cbv zeta.
  destruct (HP nx off Ho) as (a & Ea & Ia). destruct (HQ nx off Ho) as (b & Eb & Ib).
  rewrite Ea, Eb. cbn [TextMatchSpec.ends]. destruct a as [|x a].
  - exists []. split; [reflexivity|]. intro j. split; [intros []|]. intros [H _]. apply Ia in H. destruct H.
  - eexists. split; [reflexivity|]. intro j. rewrite filter_In, inb_in, Ia, Ib. reflexivity.
Qed.

Lemma claim_and : forall ic p q, claim ic p -> claim ic q -> claim ic (PAnd p q).
Proof.
  intros ic p q (f1 & H1) (f2 & H2). exists (S (f1 + f2 + L + 3)). intros f Hf. split.
  - destruct f as [|f]; [lia|]. intros nx off Ho. step_dm Ho. cbn [match_op]. rewrite after_op_ng.
    apply match_and_ok; [apply H1; lia | apply H2; lia | exact Ho].
  - intros [Hfi Hst].
    assert (HI : forall n off f, off <= L -> L - off <= n -> f1 + f2 + n + 4 <= f ->
              sres_ok ic (PAnd p q) off (ts f (PAnd p q) off L (fl ic))).
    { clear f Hf. induction n as [n IH] using (well_founded_induction lt_wf).
      intros off f Ho Hn Hf. destruct f as [|f]; [lia|]. step_ts Ho. cbn [search_op].
      pose proof (proj2 (H1 f ltac:(lia)) Hfi off Ho) as HS.
      destruct f as [|f]; [lia|]. cbn [sand].
      destruct (ts (S f) p off L (fl ic)) as [k| | | |]; cbn [sres_ok] in HS; try contradiction.
      - destruct HS as (G1 & G2 & _ & G4). specialize (G2 Hst).
        destruct (match_and_ok ic (S f) p q None k) as (l & El & Il);
          [apply H1; lia | apply H2; lia | lia |].
        rewrite El. destruct l as [|x l].
        + rewrite (fwd_lt k G2).
          assert (Hbefore : forall k' j, off <= k' < S k -> ~ ends ic (PAnd p q) k' j).
          { intros k' j Hk' He. destruct (Nat.eq_dec k' k) as [-> | Hne].
            - apply Il in He. destruct He.
            - destruct He as [He _]. apply (G4 k' j); [lia | exact He]. }
          assert (HR : sres_ok ic (PAnd p q) (S k) (ts (S f) (PAnd p q) (S k) L (fl ic))).
          { destruct n as [|n]; [lia|]. apply (IH n); lia. }
          destruct f as [|f]; [lia|]. cbn [sand].
          destruct (ts (S (S f)) (PAnd p q) (S k) L (fl ic)) as [k2| | | |];
            cbn [sres_ok] in HR; try contradiction.
          * destruct HR as (R1 & R2 & (m & R3) & R4).
            destruct (match_and_ok ic (S (S f)) p q None k2) as (l2 & El2 & Il2);
              [apply H1; lia | apply H2; lia | lia |].
            rewrite El2. destruct l2 as [|y l2]; [apply Il2 in R3; destruct R3|].
            cbn [sres_ok]. split; [lia|]. split; [exact R2|]. split; [exists m; exact R3|].
            intros k' j Hk'. destruct (le_lt_dec (S k) k'); [apply R4; lia | apply Hbefore; lia].
          * cbn [sres_ok]. intros k' j Hk'. destruct (le_lt_dec (S k) k'); [apply HR; lia | apply Hbefore; lia].
        + cbn [sres_ok]. split; [lia|]. split; [auto|]. split.
          * exists x. apply Il. left. reflexivity.
          * intros k' j Hk' [He _]. apply (G4 k' j); [lia | exact He].
      - cbn [sres_ok]. intros k' j Hk' [He _]. apply (HS k' j); [lia | exact He]. }
    intros off Ho. apply (HI L); lia.
Qed.

Lemma claim_pref : forall ic l, (forall q, In q l -> claim ic q) -> claim ic (PPref l).
Proof.
  intros ic l H. apply claim_match; [cbn; auto|].
  destruct (claims_all ic l H) as (f0 & H0). exists (S f0). intros f Hf. destruct f as [|f]; [lia|].
  intros nx off Ho. step_dm Ho. cbn [match_op]. rewrite after_op_ng. cbn [TextMatchSpec.ends].
  assert (HQ : forall q, In q l -> matches_ok f ic q).
  { intros q Hq. apply (H0 f ltac:(lia) q Hq). }
  clear H H0. induction l as [|q l IH]; cbn [mpref].
  - exists []. split; [reflexivity|]. intro j. cbn. tauto.
  - destruct (HQ q (or_introl eq_refl) nx off Ho) as (e & Ee & Ie). rewrite Ee.
    destruct e as [|x e].
    + destruct IH as (e & Ee' & Ie'). { intros q' Hq. apply HQ. right. exact Hq. }
      exists e. split; [exact Ee'|]. intro j. rewrite Ie'. split.
      * intro Hj. right. split; [|exact Hj]. intros k Hk. apply Ie in Hk. destruct Hk.
      * intros [Hj | [_ Hj]]; [apply Ie in Hj; destruct Hj | exact Hj].
    + exists (x :: e). split; [reflexivity|]. intro j. rewrite Ie. split; [auto|].
      intros [Hj | [Hno _]]; [exact Hj|]. exfalso. apply (Hno x). apply Ie. left. reflexivity.
Qed.

Lemma claim_longest : forall ic q, claim ic q -> claim ic (PLongest q).
Proof.
  intros ic q (f0 & H0). exists (S f0). intros f Hf. destruct f as [|f]; [lia|].
  destruct (H0 f ltac:(lia)) as [HM HS]. split.
  - intros nx off Ho. step_dm Ho. cbn [match_op]. rewrite after_op_ng.
    destruct (HM None off Ho) as (l & El & Il). rewrite El. eexists. split; [reflexivity|].
    intro j. rewrite get_longest_in. cbn [TextMatchSpec.ends]. split; intros [G1 G2]; split.
    + apply Il, G1.
    + intros k Hk. apply G2, Il, Hk.
    + apply Il, G1.
    + intros k Hk. apply G2, Il, Hk.
  - cbn [findable]. intros Hfi off Ho. step_ts Ho. cbn [search_op]. specialize (HS Hfi off Ho).
    destruct (ts f q off L (fl ic)) as [k| | | |]; cbn [sres_ok] in *; try contradiction.
    + destruct HS as (G1 & G2 & (j & G3) & G4). split; [exact G1|]. split; [exact G2|]. split.
      * destruct (HM None k ltac:(lia)) as (l & El & Il). exists (list_max l). cbn [TextMatchSpec.ends].
        split.
        -- apply Il. apply list_max_in. intros ->. apply Il in G3. destruct G3.
        -- intros k' Hk. apply list_max_ge, Il, Hk.
      * intros k' j' Hk [E _]. eapply G4; eauto.
    + intros k' j Hk [E _]. eapply HS; eauto.
Qed.

Lemma newline_ok : forall c, newline c = true <-> (c = 10 \/ c = 13)%N.
Proof. intro c. unfold newline. lia. Qed.

(** Operators without patterns in them which match where they look. *)
Lemma claim_bol : forall ic, claim ic PBol.
Proof.
  intro ic. apply claim_match; [cbn; auto|]. exists 1. intros f Hf. destruct f as [|f]; [lia|].
  intros nx off Ho. step_dm Ho. cbn [match_op]. rewrite after_op_ng. cbn [TextMatchSpec.ends].
  destruct (off =? 0) eqn:E.
  - apply Nat.eqb_eq in E. exists [0]. split; [reflexivity|]. intro j. cbn. lia.
  - apply Nat.eqb_neq in E. assert (Hl : off - 1 < L) by lia. rewrite (ch_nth _ Hl).
    destruct (newline (ch t (off - 1))) eqn:En.
    + apply newline_ok in En. exists [off]. split; [reflexivity|]. intro j. cbn. split.
      * intros [<- | []]. split; [reflexivity|]. split; [lia|]. right. eauto.
      * intros (-> & _). auto.
    + exists []. split; [reflexivity|]. intro j. split; [intros []|].
      intros (_ & _ & [H | (c & Hc & H)]); [lia|]. injection Hc as <-. apply newline_ok in H. congruence.
Qed.

Lemma claim_eol : forall ic, claim ic PEol.
Proof.
  intro ic. apply claim_match; [cbn; auto|]. exists 1. intros f Hf. destruct f as [|f]; [lia|].
  intros nx off Ho. step_dm Ho. cbn [match_op]. rewrite after_op_ng. cbn [TextMatchSpec.ends].
  destruct (off =? L) eqn:E.
  - apply Nat.eqb_eq in E. exists [off]. split; [reflexivity|]. intro j. cbn. split.
    + intros [<- | []]. auto.
    + intros [[_ ->] | [_ (c & Hc & _)]]; [auto|]. apply nth_lt in Hc. lia.
  - apply Nat.eqb_neq in E. assert (Hl : off < L) by lia. rewrite (ch_nth _ Hl).
    destruct (newline (ch t off)) eqn:En.
    + apply newline_ok in En. exists [S off]. split; [reflexivity|]. intro j. cbn. split.
      * intros [<- | []]. right. eauto.
      * intros [[H _] | [-> _]]; [lia | auto].
    + exists []. split; [reflexivity|]. intro j. split; [intros []|].
      intros [[H _] | [_ (c & Hc & H)]]; [lia|]. injection Hc as <-. apply newline_ok in H. congruence.
Qed.

Lemma claim_bos : forall ic, claim ic PBos.
Proof.
  intro ic. exists 1. intros f Hf. destruct f as [|f]; [lia|]. split.
  - intros nx off Ho. step_dm Ho. cbn [match_op]. rewrite after_op_ng. cbn [TextMatchSpec.ends].
    destruct (off =? 0) eqn:E.
    + apply Nat.eqb_eq in E. exists [off]. split; [reflexivity|]. intro j. cbn. lia.
    + apply Nat.eqb_neq in E. exists []. split; [reflexivity|]. intro j. cbn. lia.
  - intros _ off Ho. step_ts Ho. cbn [search_op]. destruct (off =? 0) eqn:E; cbn [sres_ok].
    + apply Nat.eqb_eq in E. split; [lia|]. split; [intros []|]. split; [exists 0; cbn; lia | intros; lia].
    + apply Nat.eqb_neq in E. intros k' j Hk [-> _]. lia.
Qed.

Lemma claim_eos : forall ic, claim ic PEos.
Proof.
  intro ic. apply claim_match; [cbn; auto|]. exists 1. intros f Hf. destruct f as [|f]; [lia|].
  intros nx off Ho. step_dm Ho. cbn [match_op]. rewrite after_op_ng. cbn [TextMatchSpec.ends].
  destruct (off =? L) eqn:E.
  - apply Nat.eqb_eq in E. exists [off]. split; [reflexivity|]. intro j. cbn. lia.
  - apply Nat.eqb_neq in E. exists []. split; [reflexivity|]. intro j. cbn. lia.
Qed.

Lemma claim_rest : forall ic, claim ic PRest.
Proof.
  intro ic. exists 1. intros f Hf. destruct f as [|f]; [lia|]. split.
  - intros nx off Ho. step_dm Ho. cbn [match_op]. rewrite after_op_ng. cbn [TextMatchSpec.ends].
    exists [L]. split; [reflexivity|]. intro j. cbn. lia.
  - intros _ off Ho. step_ts Ho. cbn [search_op sres_ok]. split; [lia|]. split; [intros []|].
    split; [exists L; cbn; lia | intros; lia].
Qed.

Lemma sslow_ok : forall ic f p,
  matches_ok f ic p -> forall n off, off + n = L ->
  sres_ok ic p off (sslow (fun k => dm f p None k L (fl ic)) n off).
Proof.
  intros ic f p HM. induction n as [|n IH]; intros off Hn; cbn [sslow].
  - intros k' j Hk. lia.
  - destruct (HM None off ltac:(lia)) as (l & El & Il). rewrite El. destruct l as [|x l].
    + specialize (IH (S off) ltac:(lia)).
      assert (Hno : forall j, ~ ends ic p off j) by (intros j Hj; apply Il in Hj; destruct Hj).
      destruct (sslow _ n (S off)) as [k| | | |]; cbn [sres_ok] in *; try contradiction.
      * destruct IH as (G1 & G2 & G3 & G4). split; [lia|]. split; [exact G2|]. split; [exact G3|].
        intros k' j Hk. destruct (Nat.eq_dec k' off) as [-> | Hd]; [apply Hno | apply G4; lia].
      * intros k' j Hk. destruct (Nat.eq_dec k' off) as [-> | Hd]; [apply Hno | apply IH; lia].
    + cbn [sres_ok]. split; [lia|]. split; [lia|]. split; [|intros; lia].
      exists x. apply Il. left. reflexivity.
Qed.

Lemma claim_range : forall a b, (0 < a)%N -> claim false (PRange a b).
Proof.
  intros a b Ha.
  assert (HM : forall f, matches_ok (S f) false (PRange a b)).
  { intros f nx off Ho. step_dm Ho. cbn [match_op]. rewrite after_op_ng. unfold match_range.
    cbn [f_ic TextMatchSpec.ends]. cbv zeta. destruct (Nat.eq_dec off L) as [-> | Hn].
    - rewrite (ch_end L) by lia. replace (a <=? 0)%N with false by lia. cbn [andb].
      exists []. split; [reflexivity|]. intro j. split; [intros []|].
      intros (c & Hc & _). apply nth_lt in Hc. lia.
    - assert (Hl : off < L) by lia. rewrite (ch_nth off Hl). unfold len.
      replace (off <? L) with true by lia.
      destruct ((a <=? ch t off)%N && (ch t off <=? b)%N) eqn:E.
      + exists [S off]. split; [reflexivity|]. intro j. cbn. split.
        * intros [<- | []]. exists (ch t off). split; [reflexivity|]. split; [lia | reflexivity].
        * intros (c & _ & _ & ->). auto.
      + exists []. split; [reflexivity|]. intro j. split; [intros []|].
        intros (c & Hc & Hr & _). injection Hc as <-. lia. }
  exists 2. intros f Hf. destruct f as [|[|f]]; try lia. split; [apply HM|].
  intros _ off Ho. step_ts Ho. cbn [search_op]. apply sslow_ok; [apply HM | lia].
Qed.

Lemma claim_chars : forall ic neg star s, claim ic (PChars neg star s).
Proof.
  intros ic neg star s.
  assert (HM : forall f, matches_ok (S f) ic (PChars neg star s)).
  { intros f nx off Ho. step_dm Ho. cbn [match_op]. rewrite after_op_ng. eexists. split; [reflexivity|].
    intro j. apply match_chars_ok, Ho. }
  exists 2. intros f Hf. destruct f as [|[|f]]; try lia. split; [apply HM|].
  intros _ off Ho. step_ts Ho. cbn [search_op]. apply sslow_ok; [apply HM | lia].
Qed.

Lemma claim_class : forall ic g, g 0%N = false -> claim ic (PClass g).
Proof.
  intros ic g Hg. exists 1. intros f Hf. destruct f as [|f]; [lia|]. split.
  - intros nx off Ho. step_dm Ho. cbn [match_op]. rewrite after_op_ng. cbn [TextMatchSpec.ends].
    destruct (g (ch t off)) eqn:E.
    + destruct (Nat.eq_dec off L) as [-> | Hn]; [rewrite ch_end in E by lia; congruence|].
      assert (Hl : off < L) by lia. rewrite (ch_nth off Hl), (fwd_lt off Hl).
      exists [S off]. split; [reflexivity|]. intro j. cbn. split.
      * intros [<- | []]. eauto.
      * intros (c & _ & _ & ->). auto.
    + exists []. split; [reflexivity|]. intro j. split; [intros []|].
      intros (c & Hc & Hr & _). pose proof (nth_lt _ _ Hc) as Hl. rewrite (ch_nth off Hl) in Hc. congruence.
  - intros _ off Ho. step_ts Ho. cbn [search_op]. apply opt_res_ok; [exact Ho|].
    intros k Hk. cbn [TextMatchSpec.ends]. rewrite (ch_nth k Hk). split.
    + intro H. eauto.
    + intros (j & c & Hc & H & _). congruence.
Qed.

Lemma claim_classp : forall ic g, g 0%N = false -> claim ic (PClassPlus g).
Proof.
  intros ic g Hg. exists 1. intros f Hf. destruct f as [|f]; [lia|]. split.
  - intros nx off Ho. step_dm Ho. cbn [match_op f_greedy]. rewrite after_op_ng. cbn [TextMatchSpec.ends].
    unfold len. eexists. split; [reflexivity|]. intro j. rewrite run_ends_ok. split.
    + intros [G1 G2]. split; [lia|]. intros k Hk. exists (ch t k). split; [apply ch_nth; lia | apply G2; lia].
    + intros [G1 G2]. split; [lia|]. intros k Hk. destruct (G2 k Hk) as (c & Hc & Hgc).
      pose proof (nth_lt _ _ Hc) as Hl. rewrite (ch_nth k Hl) in Hc. congruence.
  - intros _ off Ho. step_ts Ho. cbn [search_op]. apply opt_res_ok; [exact Ho|].
    intros k Hk. cbn [TextMatchSpec.ends]. split.
    + intro H. exists (S k). split; [lia|]. intros k' Hk'. replace k' with k by lia.
      rewrite (ch_nth k Hk). eauto.
    + intros (j & G1 & G2). destruct (G2 k ltac:(lia)) as (c & Hc & Hgc).
      rewrite (ch_nth k Hk) in Hc. congruence.
Qed.

Ltac pass q ic' :=
  apply claim_pass with ic' q; auto;
  [ intros; reflexivity
  | intros f nx off Ho; exists None; step_dm Ho; cbn [match_op]; apply after_op_ng
  | intros f off Ho; step_ts Ho; reflexivity ].

(** The matcher and the searcher are right for all good patterns. *)
Theorem claim_good : forall p ic, good ic p -> claim ic p.
Proof.
  intro p. induction p using pat_ind'; intros ic Hg.
  - apply claim_str.
  - apply claim_chr.
  - apply claim_alt. rewrite Forall_forall in H. intros q Hq. apply H; auto.
    apply (proj1 (good_all ic l) Hg q Hq).
  - apply claim_vec. rewrite Forall_forall in H. intros q Hq. apply H; auto.
    apply (proj1 (good_all ic l) Hg q Hq).
  - destruct Hg.
  - apply claim_star. auto.
  - destruct Hg.
  - destruct Hg as [Hg Hn]. apply claim_plus; auto.
  - apply claim_opt. auto.
  - destruct Hg as (Hg & Hf & Hs). apply claim_not; auto.
  - destruct Hg as (Hg & Hf). apply claim_notgt; auto.
  - destruct Hg as (Hg1 & Hg2). apply claim_and; auto.
  - apply claim_choice. rewrite Forall_forall in H. intros q Hq. apply H; auto.
    apply (proj1 (good_all ic l) Hg q Hq).
  - apply claim_pref. rewrite Forall_forall in H. intros q Hq. apply H; auto.
    apply (proj1 (good_all ic l) Hg q Hq).
  - apply claim_pass with ic p; auto.
    + intros; reflexivity.
    + intros f nx off Ho. exists nx. step_dm Ho. cbn [match_op]. apply after_op_ng.
    + intros f off Ho. step_ts Ho. reflexivity.
  - destruct Hg.
  - pass p ic.
  - apply claim_longest. auto.
  - pass p true.
  - pass p false.
  - apply claim_bol.
  - apply claim_eol.
  - apply claim_bos.
  - apply claim_eos.
  - apply claim_rest.
  - destruct Hg as [-> Ha]. apply claim_range, Ha.
  - apply claim_chars.
  - apply claim_class, Hg.
  - apply claim_classp, Hg.
Qed.
End Text.
