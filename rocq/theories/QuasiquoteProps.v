(** * Quasiquote: properties. *)
From Coq Require Import NArith List Bool Arith Lia.
From Verif Require Import QuasiquoteModel QuasiquoteProofs.
Import ListNotations.

(** ** Templates

    What one writes: constants; lists and vectors of items, lists with something behind the
    point; [,e] (evaluated); [`t] inside, and in it [,t] which is not evaluated unless enough
    quasiquotes are undone.  An item is a template or [,@e], or [,@t] inside of an inner
    quasiquote. *)
Inductive tm :=
| TConst (v : val)
| TList (l : items) (tail : tm)
| TVec (l : items)
| TUnq (e : val)
| TNest (t : tm)
| TQuasi (t : tm)
with items :=
| INil
| IElt (t : tm) (r : items)
| ISplice (e : val) (r : items)
| INest (t : tm) (r : items).

(** How a template is written: the value that the reader gives. *)
Fixpoint code (t : tm) : val :=
  match t with
  | TConst v => v
  | TList l tail => fold_right Pair (code tail) (codes l)
  | TVec l => Vec (codes l)
  | TUnq e => list2 unq e
  | TNest t => list2 unq (code t)
  | TQuasi t => list2 quasi (code t)
  end
with codes (l : items) : list val :=
  match l with
  | INil => []
  | IElt t r => code t :: codes r
  | ISplice e r => list2 unqs e :: codes r
  | INest t r => list2 unqs (code t) :: codes r
  end.

Section Spec.
Variable St : Type.
Variable eval : val -> St -> option val * St.
Variable veq : val -> val -> bool.

(** What an expression gives: VOID is as much of an error as an abort. *)
Definition gives (e : val) (s : St) : option val * St :=
  match eval e s with
  | (Some v, s') => (match v with Void | Err => None | _ => Some v end, s')
  | (None, s') => (None, s')
  end.
(** One thing after the other; the first error ends it. *)
Definition andthen {A B} (x : option A * St) (f : A -> St -> option B * St) : option B * St :=
  match x with (Some a, s) => f a s | (None, s) => (None, s) end.
Definition ret {A} (a : A) (s : St) : option A * St := (Some a, s).

(** The elements of a list or vector that is spliced in. *)
Fixpoint proper (v : val) : option (list val) :=
  match v with
  | Nil => Some []
  | Pair a d => match proper d with Some l => Some (a :: l) | None => None end
  | _ => None
  end.
Definition elements (v : val) : option (list val) := match v with Vec l => Some l | _ => proper v end.

(** What a template stands for: [,e] for the value of [e], [,@e] for the elements of the value,
    from left to right, each expression evaluated once; the parts which belong to inner
    quasiquotes for themselves. *)
Fixpoint mean (t : tm) (s : St) : option val * St :=
  match t with
  | TConst v => ret v s
  | TList l tail =>
    andthen (means l s) (fun vs s1 => andthen (mean tail s1) (fun v => ret (fold_right Pair v vs)))
  | TVec l => andthen (means l s) (fun vs => ret (Vec vs))
  | TUnq e => gives e s
  | TNest t => andthen (mean t s) (fun v => ret (list2 unq v))
  | TQuasi t => andthen (mean t s) (fun v => ret (list2 quasi v))
  end
with means (l : items) (s : St) : option (list val) * St :=
  match l with
  | INil => ret [] s
  | IElt t r => andthen (mean t s) (fun v s1 => andthen (means r s1) (fun vs => ret (v :: vs)))
  | ISplice e r =>
    andthen (gives e s) (fun v s1 =>
      match elements v with
      | None => (None, s1)
      | Some us => andthen (means r s1) (fun vs => ret (us ++ vs))
      end)
  | INest t r => andthen (mean t s) (fun v s1 => andthen (means r s1) (fun vs => ret (list2 unqs v :: vs)))
  end.

(** A constant has no parts and is not VOID or an error. *)
Definition constant (v : val) : Prop :=
  match v with Void | Err | Pair _ _ | Vec _ | Choice _ | Map _ => False | _ => True end.
Definition special (v : val) : bool := is_sym 0 v || is_sym 1 v || is_sym 2 v.
(** Well-formed at a level: expressions to be evaluated are at level 1.  The three symbols are not
    elements of lists.  Behind a point is a constant, a vector or, at level 1, an unquote; a
    vector has no splices at higher levels (see the refutations below). *)
Fixpoint wf (lv : nat) (t : tm) : Prop :=
  match t with
  | TConst v => constant v
  | TList l tail => l <> INil /\ wfs true lv l /\ wf lv tail /\
      match tail with TConst _ | TVec _ | TUnq _ => True | _ => False end
  | TVec l => wfs false lv l
  | TUnq _ => lv = 1
  | TNest t => 2 <= lv /\ wf (lv - 1) t
  | TQuasi t => wf (S lv) t
  end
with wfs (in_list : bool) (lv : nat) (l : items) : Prop :=
  match l with
  | INil => True
  | IElt t r => wf lv t /\ (in_list = true -> match t with TConst v => special v = false | _ => True end) /\ wfs in_list lv r
  | ISplice _ r => lv = 1 /\ wfs in_list lv r
  | INest t r => in_list = true /\ 2 <= lv /\ wf (lv - 1) t /\ wfs in_list lv r
  end.

Notation quasiquote := (quasiquote St eval veq).
Notation qq := (qq St eval veq).
Notation qq_list := (qq_list St eval veq).
Notation qq_elts := (qq_elts St eval veq).
Notation value_of := (value_of St eval).

Definition give (x : option val * St) : res * St :=
  match x with (Some v, s) => (Ok v, s) | (None, s) => (Abort, s) end.

Lemma value_of_gives e s : value_of e s = give (gives e s).
Proof. unfold QuasiquoteModel.value_of, gives. destruct (eval e s) as [[[]|] s']; reflexivity. Qed.

Lemma elements_eq v : splice_elts v = elements v.
Proof.
  assert (H : forall x, list_elts x = proper x) by (induction x; cbn; try reflexivity; rewrite IHx2; reflexivity).
  destruct v; cbn [splice_elts elements]; try apply H; reflexivity.
Qed.

Lemma gives_void e s v s' : gives e s = (Some v, s') -> v <> Void.
Proof. unfold gives. destruct (eval e s) as [[[]|] s1]; intros X; inversion X; discriminate. Qed.

Scheme tm_mut := Induction for tm Sort Prop with items_mut := Induction for items Sort Prop.
Combined Scheme tm_both from tm_mut, items_mut.

Lemma mean_void : forall t lv s v s', wf lv t -> mean t s = (Some v, s') -> v <> Void.
Proof.
  intros [v|l t|l|e|t|t] lv s w s' W E.
  - cbn in E. inversion E; subst. intros ->. exact W.
  - cbn [mean] in E. destruct W as [Hn [Hw Ht]]. destruct (means l s) as [[vs|] s1] eqn:El; [|discriminate]. cbn [andthen] in E.
    destruct (mean t s1) as [[u|] s2] eqn:Et; [|discriminate]. cbn in E. inversion E; subst.
    destruct vs as [|x vs]; [|discriminate]. cbn. revert Et. clear -Ht.
    destruct Ht as [Ht T]. destruct t as [c|?|l|e|?|?]; try contradiction.
    + cbn. intros X. inversion X; subst. intros ->. exact Ht.
    + cbn. destruct (means l s1) as [[vs|] s3]; [|discriminate]. intros X. inversion X. discriminate.
    + intros X. eapply gives_void. exact X.
  - cbn in E. destruct (means l s) as [[vs|] s1]; [|discriminate]. inversion E. discriminate.
  - eapply gives_void. exact E.
  - cbn in E. destruct (mean t s) as [[u|] s1]; [|discriminate]. inversion E. discriminate.
  - cbn in E. destruct (mean t s) as [[u|] s1]; [|discriminate]. inversion E. discriminate.
Qed.

Lemma wf_head l lv : l <> INil -> wfs true lv l -> exists x r, codes l = x :: r /\ special x = false.
Proof.
  destruct l as [|t r|e r|t r]; [congruence| | |]; intros _ W; cbn [codes]; (eexists; eexists; split; [reflexivity|]); [|reflexivity|reflexivity].
  destruct W as [W [S _]]. specialize (S eq_refl). destruct t as [v|l tl|l|e|t|t]; try reflexivity; [exact S|].
  destruct W as [Hn _]. destruct l; [congruence| | |]; reflexivity.
Qed.

Lemma bad_special x d : special x = false -> bad_unquote x d = false /\ is_sym 0 x = false /\ is_sym 1 x = false /\ is_sym 2 x = false.
Proof.
  unfold special, bad_unquote. intros H. apply orb_false_iff in H. destruct H as [H H2]. apply orb_false_iff in H. destruct H as [H0 H1].
  rewrite H0, H1, H2. repeat split.
Qed.

Definition tailed (l : items) (f : St -> option val * St) (s : St) : option val * St :=
  andthen (means l s) (fun vs s1 => andthen (f s1) (fun v => ret (fold_right Pair v vs))).

Lemma templates :
  (forall t lv, wf lv t -> forall f s, 2 * vsize (code t) + 1 <= f -> qq f lv (code t) s = give (mean t s)) /\
  (forall l lv,
    (wfs true lv l -> forall T mT,
       (forall f s, lbound T <= f -> qq_list f lv T s = give (mT s)) ->
       forall f s, lbound (fold_right Pair T (codes l)) <= f ->
       qq_list f lv (fold_right Pair T (codes l)) s = give (tailed l mT s)) /\
    (wfs false lv l -> forall f s, 2 * lsize (codes l) + 1 <= f ->
       qq_elts f lv (codes l) s = (Some (fst (means l s)), snd (means l s)))).
Proof.
  apply tm_both.
  - (* constant *) intros v lv W f s Hf. destruct f as [|k]; [lia|]. rewrite qq_S. cbn [code]. destruct v; try contradiction; reflexivity.
  - (* list *) intros l IHl t IHt lv [Hn [Wl [Wt Sh]]] f s Hf. cbn [code] in *.
    destruct f as [|k]; [lia|]. destruct (wf_head l lv Hn Wl) as [x [r [Ec Sx]]].
    rewrite Ec in *. cbn [fold_right] in *. rewrite qq_S. destruct (bad_special x (fold_right Pair (code t) r) Sx) as [-> [-> [-> ->]]].
    destruct (IHl lv) as [IH _]. specialize (IH Wl (code t) (mean t)). cbn [fold_right] in IH.
    rewrite IH; [reflexivity| |cbn [lbound vsize] in *; lia].
    intros f s1 Hb. destruct f as [|k']; [pose proof (vsize_pos (code t)); destruct (code t); cbn [lbound] in *; lia|].
    rewrite qq_list_S. destruct t as [c|?|lv2|e|?|?]; try contradiction.
    + cbn [code] in *. destruct c; try contradiction; try reflexivity; (rewrite (IHt lv Wt); [reflexivity|cbn [lbound vsize] in *; lia]).
    + cbn [code] in *. rewrite (IHt lv Wt); [reflexivity|cbn [lbound] in *; lia].
    + cbn [wf] in Wt. subst lv. cbn [code list2 unq is_sym N.eqb]. cbn [one_elt Nat.eqb]. apply value_of_gives.
  - (* vector *) intros l IHl lv W f s Hf. destruct f as [|k]; [lia|]. cbn [code] in *. rewrite vsize_vec in Hf. rewrite qq_S.
    destruct (IHl lv) as [_ IH]. specialize (IH W k s ltac:(lia)). cbn [mean].
    destruct (codes l) as [|x r] eqn:Ec; [destruct l; try discriminate Ec; reflexivity|].
    rewrite IH. destruct (means l s) as [[vs|] s1]; reflexivity.
  - (* unquote *) intros e lv W f s Hf. cbn in W. subst lv. destruct f as [|k]; [lia|]. rewrite qq_S. cbn [code list2 mean]. apply value_of_gives.
  - (* nested unquote *) intros t IH lv [Hl W] f s Hf. destruct f as [|k]; [lia|]. rewrite qq_S. cbn [code list2 vsize mean] in *.
    cbn [bad_unquote unq is_sym N.eqb orb andb one_elt]. change (N.eqb 1 0) with false. change (N.eqb 1 1) with true. cbn iota.
    destruct (Nat.eqb_spec lv 1) as [->|_]; [lia|]. rewrite (IH _ W) by lia. destruct (mean t s) as [[v|] s1]; reflexivity.
  - (* inner quasiquote *) intros t IH lv W f s Hf. destruct f as [|k]; [lia|]. rewrite qq_S. cbn [code list2 vsize mean] in *.
    cbn [bad_unquote quasi is_sym N.eqb orb andb one_elt]. rewrite (IH _ W) by lia. destruct (mean t s) as [[v|] s1]; reflexivity.
  - (* no items *) intros lv. split.
    + intros _ T mT HT f s Hf. cbn [codes fold_right] in *. rewrite HT by exact Hf. unfold tailed. cbn. destruct (mT s) as [[v|] s1]; reflexivity.
    + intros _ f s Hf. destruct f as [|k]; [lia|]. rewrite qq_elts_S. reflexivity.
  - (* an element *) intros t IHt r IHr lv. split.
    + intros [Wt [Sp Wr]] T mT HT f s Hf. specialize (Sp eq_refl). cbn [codes fold_right] in *.
      set (rest := fold_right Pair T (codes r)) in *. cbn [lbound vsize] in Hf. pose proof (vsize_pos (code t)). pose proof (vsize_pos rest).
      destruct f as [|k]; [lia|]. rewrite qq_list_S.
      assert (HR : forall s1, qq_list k lv rest s1 = give (tailed r mT s1)).
      { intros s1. destruct (IHr lv) as [IH _]. apply (IH Wr T mT HT). pose proof (lbound_le rest). fold rest. lia. }
      set (push := fun q : res * St => match q with (Ok v, s1) => match qq_list k lv rest s1 with (Ok u, s2) => (Ok (Pair v u), s2) | o => o end | o => o end).
      assert (HP : push (give (mean t s)) = give (tailed (IElt t r) mT s)).
      { unfold tailed. cbn [means]. destruct (mean t s) as [[v|] s1]; [|reflexivity]. cbn [give push andthen]. rewrite HR. unfold tailed.
        destruct (means r s1) as [[vs|] s2]; [|reflexivity]. cbn [andthen ret]. destruct (mT s2) as [[u|] s3]; reflexivity. }
      assert (HQ : push (qq k lv (code t) s) = give (tailed (IElt t r) mT s)) by (rewrite (IHt lv Wt) by lia; exact HP).
      assert (HQ' : push (qq (S k) lv (code t) s) = give (tailed (IElt t r) mT s)) by (rewrite (IHt lv Wt) by lia; exact HP).
      destruct t as [v|l tl|l|e|t|t].
      * cbn [code] in *. destruct v; try contradiction; try exact HP; try exact HQ.
        change (is_sym 1 (Sym n)) with (N.eqb n 1). destruct (N.eqb_spec n 1) as [->|]; [discriminate|]. exact HP.
      * destruct Wt as [Hn [Wl _]]. destruct (wf_head l lv Hn Wl) as [x [r' [Ec Sx]]]. cbn [code] in *. rewrite Ec in *. cbn [fold_right] in *.
        destruct (bad_special x (fold_right Pair (code tl) r') Sx) as [-> [_ [-> ->]]]. exact HQ.
      * exact HQ.
      * cbn [wf] in Wt. subst lv. cbn [code list2 unq]. cbn [bad_unquote is_sym N.eqb orb andb one_elt Nat.eqb].
        change (N.eqb 1 1) with true. cbn [orb andb]. cbn iota. rewrite value_of_gives. exact HP.
      * destruct Wt as [Hl Wt]. rewrite qq_S in HQ'. revert HQ'. cbn [code list2 unq].
        cbn [bad_unquote is_sym N.eqb orb andb one_elt]. change (N.eqb 1 0) with false. change (N.eqb 1 1) with true. cbn [orb andb]. cbn iota.
        destruct (Nat.eqb_spec lv 1) as [->|_]; [lia|]. destruct (qq k (lv - 1) (code t) s) as [[| |v] s1]; exact (fun x => x).
      * cbn [code list2 quasi] in *. exact HQ.
    + intros [Wt [_ Wr]] f s Hf. cbn [codes] in *. change (lsize (code t :: codes r)) with (S (vsize (code t) + lsize (codes r))) in Hf.
      destruct f as [|k]; [lia|]. rewrite qq_elts_S.
      set (one := fun q : res * St => match q with (Ok Void, s1) => (Some None, s1) | (Ok v, s1) => match qq_elts k lv (codes r) s1 with (Some (Some vs), s2) => (Some (Some (v :: vs)), s2) | o => o end
                              | (Abort, s1) => (Some None, s1) | (Stuck, s1) => (None, s1) end).
      assert (HQ : one (qq k lv (code t) s) = (Some (fst (means (IElt t r) s)), snd (means (IElt t r) s))).
      { rewrite (IHt lv Wt) by lia. cbn [means]. pose proof (mean_void t lv s) as Hv. destruct (mean t s) as [[v|] s1]; [|reflexivity].
        specialize (Hv v s1 Wt eq_refl). cbn [give one andthen]. destruct (IHr lv) as [_ IH]. rewrite (IH Wr k s1) by lia.
        destruct (means r s1) as [[vs|] s2]; destruct v; try contradiction; reflexivity. }
      destruct (code t) as [| | | | | | |a d| | |] eqn:Ec; try exact HQ. destruct d as [| | | | | | |x d| | |]; try exact HQ.
      assert (is_sym 2 a = false) as ->; [|exact HQ].
      destruct t as [v|l tl|l|e|t|t]; cbn [code list2] in Ec.
      * subst v. contradiction.
      * destruct Wt as [Hn [Wl _]]. destruct (wf_head l lv Hn Wl) as [y [r' [Ey Sx]]]. rewrite Ey in Ec. injection Ec as -> _.
        apply (bad_special a Nil Sx).
      * discriminate.
      * injection Ec as <- _ _. reflexivity.
      * injection Ec as <- _ _. reflexivity.
      * injection Ec as <- _ _. reflexivity.
  - (* a splice *) intros e r IHr lv. split.
    + intros [-> Wr] T mT HT f s Hf. cbn [codes fold_right] in *. set (rest := fold_right Pair T (codes r)) in *.
      cbn [lbound list2 vsize] in Hf. pose proof (vsize_pos rest). destruct f as [|k]; [lia|]. rewrite qq_list_S. cbn [list2 unqs].
      cbn [bad_unquote is_sym N.eqb orb andb one_elt Nat.eqb]. change (N.eqb 2 1) with false. change (N.eqb 2 2) with true. cbn [orb andb]. cbn iota.
      rewrite value_of_gives. unfold tailed. cbn [means]. destruct (gives e s) as [[v|] s1]; [|reflexivity]. cbn [give andthen]. rewrite elements_eq.
      destruct (elements v) as [us|]; [|reflexivity]. destruct (IHr 1) as [IH _].
      rewrite (IH Wr T mT HT) by (pose proof (lbound_le rest); fold rest; lia). unfold tailed.
      destruct (means r s1) as [[vs|] s2]; [|reflexivity]. cbn [andthen ret]. destruct (mT s2) as [[u|] s3]; [|reflexivity].
      cbn [andthen ret give]. rewrite fold_right_app. reflexivity.
    + intros [-> Wr] f s Hf. cbn [codes] in *. change (lsize (list2 unqs e :: codes r)) with (S (vsize (list2 unqs e) + lsize (codes r))) in Hf.
      destruct f as [|k]; [lia|]. rewrite qq_elts_S. cbn [list2 unqs is_sym]. change (N.eqb 2 2) with true. cbn [Nat.eqb].
      rewrite value_of_gives. cbn [means]. destruct (gives e s) as [[v|] s1]; [|reflexivity]. cbn [give andthen]. rewrite elements_eq.
      destruct (elements v) as [us|]; [|reflexivity]. destruct (IHr 1) as [_ IH]. rewrite (IH Wr k s1) by lia.
      destruct (means r s1) as [[vs|] s2]; reflexivity.
  - (* an inner splice *) intros t IHt r IHr lv. split.
    + intros [_ [Hl [Wt Wr]]] T mT HT f s Hf. cbn [codes fold_right] in *. set (rest := fold_right Pair T (codes r)) in *.
      cbn [lbound list2 vsize] in Hf. pose proof (vsize_pos rest). destruct f as [|k]; [lia|]. rewrite qq_list_S. cbn [list2 unqs].
      cbn [bad_unquote is_sym N.eqb orb andb one_elt Nat.eqb]. change (N.eqb 2 1) with false. change (N.eqb 2 2) with true. cbn [orb andb]. cbn iota.
      destruct (Nat.eqb_spec lv 1) as [->|_]; [lia|]. rewrite (IHt _ Wt) by lia. unfold tailed. cbn [means].
      destruct (mean t s) as [[v|] s1]; [|reflexivity]. cbn [give andthen]. destruct (IHr lv) as [IH _].
      rewrite (IH Wr T mT HT) by (pose proof (lbound_le rest); fold rest; lia). unfold tailed.
      destruct (means r s1) as [[vs|] s2]; [|reflexivity]. cbn [andthen ret]. destruct (mT s2) as [[u|] s3]; reflexivity.
    + intros [X _]. discriminate X.
Qed.

(** ** C102 *)

(** No quasiquotes inside. *)
Fixpoint single (t : tm) : Prop :=
  match t with
  | TConst _ | TUnq _ => True
  | TList l tail => singles l /\ single tail
  | TVec l => singles l
  | TNest _ | TQuasi _ => False
  end
with singles (l : items) : Prop :=
  match l with
  | INil => True
  | IElt t r => single t /\ singles r
  | ISplice _ r => singles r
  | INest _ _ => False
  end.

(** A template without inner quasiquotes gives what it stands for: the value, the error and
    the effects of evaluating (from left to right, each expression once, up to the first error). *)
Theorem C102_template t s : single t -> wf 1 t -> quasiquote 1 (code t) s = give (mean t s).
Proof. intros _ W. apply (proj1 templates t 1 W). unfold enough. lia. Qed.

(** Quasiquote always comes to an end by itself. *)
Theorem C102_ends lv v s : fst (quasiquote lv v s) <> Stuck.
Proof. apply ends. unfold enough. lia. Qed.

(** ** C103 *)

(** The same with inner quasiquotes.  (Partial: behind a point only constants, vectors and, at
    level 1, unquotes; no splices into vectors of inner quasiquotes; no slotmaps and choices.
    See the refutations below.) *)
Theorem C103_nested_partial t s : wf 1 t -> quasiquote 1 (code t) s = give (mean t s).
Proof. intros W. apply (proj1 templates t 1 W). unfold enough. lia. Qed.

(** ** C104 *)

(** A value in which none of the three symbols occurs is given as it is, and nothing is evaluated,
    whatever the level.  (The limits of [inert] for choices and slotmaps are those that choices
    and slotmaps meet anyway.) *)
Theorem C104_constants lv v s : inert veq v -> quasiquote lv v s = (Ok v, s).
Proof. intros H. apply inert_same; [exact H|unfold enough; lia]. Qed.

(** If VOID does not occur in the value, the result is not VOID.  ([eval_flat]: choices that
    evaluating gives have neither VOID nor choices as elements.) *)
Theorem C104_never_void lv v s s' :
  (forall e s v s', eval e s = (Some v, s') -> v <> Void -> flat v) ->
  novoid v -> quasiquote lv v s <> (Ok Void, s').
Proof.
  intros F Hv E. destruct (never_void St eval veq F (enough v)) as [X _]. specialize (X lv v s Hv).
  unfold QuasiquoteModel.quasiquote in E. rewrite E in X. destruct (X Void (or_introl eq_refl)) as [Y _]. exact (Y eq_refl).
Qed.

End Spec.
Print Assumptions C102_template.
Print Assumptions C102_ends.
Print Assumptions C103_nested_partial.
Print Assumptions C104_constants.
Print Assumptions C104_never_void.

(** ** Cases

    The state is the list of the expressions that were evaluated, the last first.  Symbols are variables:
    100 has the value 7, 101 the list (8 9), 102 the vector of 5, 103 VOID; others are unbound. *)
Definition ev (e : val) (s : list val) : option val * list val :=
  (match e with
   | Sym 100 => Some (Atom 7)
   | Sym 101 => Some (Pair (Atom 8) (Pair (Atom 9) Nil))
   | Sym 102 => Some (Vec [Atom 5])
   | Sym 103 => Some Void
   | Sym 104 => Some Nil
   | _ => None
   end, e :: s).
Definition eqv (a b : val) : bool := match a, b with Atom m, Atom n | Sym m, Sym n => N.eqb m n | _, _ => false end.
Notation run := (quasiquote (list val) ev eqv).

(** [`(a ,x ,@l #(,@v b) . ,x)]. *)
Definition t1 := TList (IElt (TConst (Sym 10)) (IElt (TUnq (Sym 100)) (ISplice (Sym 101)
  (IElt (TVec (ISplice (Sym 102) (IElt (TConst (Sym 11)) INil))) INil)))) (TUnq (Sym 100)).
Example C102_template_case :
  single t1 /\ wf 1 t1 /\
  run 1 (code t1) [] =
  (Ok (Pair (Sym 10) (Pair (Atom 7) (Pair (Atom 8) (Pair (Atom 9) (Pair (Vec [Atom 5; Sym 11]) (Atom 7)))))),
   [Sym 100; Sym 102; Sym 101; Sym 100]).
Proof. split; [cbn; tauto|]. split; [cbn; repeat split; discriminate|vm_compute; reflexivity]. Qed.
(** [`(,@l ,void ,x)]: VOID is an error, [x] is not evaluated. *)
Definition t2 := TList (ISplice (Sym 101) (IElt (TUnq (Sym 103)) (IElt (TUnq (Sym 100)) INil))) (TConst Nil).
Example C102_template_case2 : single t2 /\ wf 1 t2 /\ run 1 (code t2) [] = (Abort, [Sym 103; Sym 101]).
Proof. split; [cbn; tauto|]. split; [cbn; repeat split; discriminate|vm_compute; reflexivity]. Qed.
Example C102_ends_case : fst (run 1 (Pair quasi (Pair (Vec [list2 unqs Nil]) Void)) []) = Abort.
Proof. vm_compute. reflexivity. Qed.
(** [`(a `(b ,(c ,x)))]: only [x] is evaluated. *)
Definition t3 := TList (IElt (TConst (Sym 10)) (IElt (TQuasi (TList (IElt (TConst (Sym 11)) (IElt (TNest
  (TList (IElt (TConst (Sym 12)) (IElt (TUnq (Sym 100)) INil)) (TConst Nil))) INil)) (TConst Nil))) INil)) (TConst Nil).
Example C103_nested_partial_case :
  wf 1 t3 /\
  run 1 (code t3) [] =
  (Ok (list2 (Sym 10) (list2 quasi (list2 (Sym 11) (list2 unq (list2 (Sym 12) (Atom 7)))))), [Sym 100]).
Proof. split; [cbn; repeat split; try discriminate; lia|vm_compute; reflexivity]. Qed.
Definition c1 := Pair (Sym 10) (Pair (Vec [Atom 1; Map [(Sym 10, Atom 2); (Atom 3, Nil)]]) (Choice [Atom 1; Atom 2])).
Example C104_constants_case : inert eqv c1 /\ run 3 c1 [] = (Ok c1, []).
Proof.
  split; [|vm_compute; reflexivity]. cbn. repeat split; try discriminate; try lia; intros k' H; try (destruct H as [<-|[]]; reflexivity); destruct H.
Qed.
Example C104_never_void_case :
  (forall e s v s', ev e s = (Some v, s') -> v <> Void -> flat v) /\ novoid (code t2) /\ run 1 (code t2) [] = (Abort, [Sym 103; Sym 101]).
Proof.
  split; [|split; [cbn; tauto|vm_compute; reflexivity]].
  intros e s v s' E Hv. unfold ev in E. injection E as E _.
  assert (X : v = Atom 7 \/ v = Pair (Atom 8) (Pair (Atom 9) Nil) \/ v = Vec [Atom 5] \/ v = Nil).
  { destruct e as [| | | |n| | | | | |]; try discriminate.
    destruct (N.eq_dec n 100) as [->|]; [injection E as <-; tauto|]. destruct (N.eq_dec n 101) as [->|]; [injection E as <-; tauto|].
    destruct (N.eq_dec n 102) as [->|]; [injection E as <-; tauto|]. destruct (N.eq_dec n 103) as [->|]; [injection E as <-; congruence|].
    destruct (N.eq_dec n 104) as [->|]; [injection E as <-; tauto|]. exfalso.
    destruct n as [|p]; [discriminate|]. do 7 (destruct p as [p|p|]; try discriminate; try congruence). }
  destruct X as [-> | [-> | [-> | ->]]]; apply flat_one; try reflexivity; discriminate.
Qed.

(** ** What does not hold *)

(** C103 with an unquote behind a point at a higher level: false.  [`(a `(b . ,c))] gives
    [(a `(b unquote . c))]: the expression is not put into a list. *)
Definition u1 := TQuasi (TList (IElt (TConst (Sym 11)) INil) (TNest (TConst (Sym 12)))).
Theorem C103_point_refuted : exists t s v,
  mean _ ev t s = (Some v, s) /\ v = code t /\
  run 1 (code t) s = (Ok (list2 quasi (Pair (Sym 11) (Pair unq (Sym 12)))), s) /\
  v <> list2 quasi (Pair (Sym 11) (Pair unq (Sym 12))).
Proof. exists u1, [], (code u1). repeat split. discriminate. Qed.
Print Assumptions C103_point_refuted.
(** C103 with a splice into a vector at a higher level: false, an error. *)
Definition u2 := TQuasi (TVec (INest (TConst (Sym 12)) INil)).
Theorem C103_vector_refuted : exists t s, mean _ ev t s = (Some (code t), s) /\ run 1 (code t) s = (Abort, s).
Proof. exists u2, []. split; reflexivity. Qed.
Print Assumptions C103_vector_refuted.
(** C103 with a quasiquote behind a point: false.  [`(a . `(b ,x))] evaluates [x], [`(a `(b ,x))] does
    not. *)
Definition inner := TQuasi (TList (IElt (TConst (Sym 11)) (IElt (TNest (TConst (Sym 100))) INil)) (TConst Nil)).
Definition u3 := TList (IElt (TConst (Sym 10)) INil) inner.
Theorem C103_quasiquote_refuted : exists t s, mean _ ev t s = (Some (code t), s) /\
  run 1 (code t) s = (Ok (Pair (Sym 10) (list2 quasi (list2 (Sym 11) (Atom 7)))), [Sym 100]).
Proof. exists u3, []. split; vm_compute; reflexivity. Qed.
Print Assumptions C103_quasiquote_refuted.
(** C103 with slotmaps: false.  An error in evaluating a key is not reported, the entry is left
    out. *)
Theorem C103_key_refuted : exists m s s',
  m = Map [(list2 unq (Sym 99), Atom 1); (Sym 10, list2 unq (Sym 100))] /\
  fst (ev (Sym 99) s) = None /\ run 1 m s = (Ok (Map [(Sym 10, Atom 7)]), s').
Proof. eexists; exists [], [Sym 100; Sym 99]. repeat split; vm_compute; reflexivity. Qed.
Print Assumptions C103_key_refuted.
(** What is malformed is an error: false.  [(quasiquote a b)] inside a template loses [b], and so
    does [(unquote* l b)] in a vector. *)
Theorem C103_malformed_refuted :
  run 1 (list2 (Sym 10) (Pair quasi (list2 (Sym 11) (Sym 12)))) [] = (Ok (list2 (Sym 10) (list2 quasi (Sym 11))), []) /\
  run 1 (Vec [Pair unqs (list2 (Sym 101) (Sym 12))]) [] = (Ok (Vec [Atom 8; Atom 9]), [Sym 101]) /\
  run 1 (Pair (Pair unqs (list2 (Sym 101) (Sym 12))) Nil) [] = (Abort, []).
Proof. repeat split; vm_compute; reflexivity. Qed.
Print Assumptions C103_malformed_refuted.
(** C104 with VOID behind a point: false.  [(,@() . VOID)] gives VOID. *)
Theorem C104_void_refuted : exists v s s', v <> Void /\ run 1 v s = (Ok Void, s').
Proof. exists (Pair (list2 unqs (Sym 104)) Void), [], [Sym 104]. split; [discriminate|vm_compute; reflexivity]. Qed.
Print Assumptions C104_void_refuted.
