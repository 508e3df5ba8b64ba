(* C132, C133: LARGEST, SMALLEST and GETRANGE *)

From Coq Require Import List ZArith Bool Lia.
Import ListNotations.
From Verif Require Import ExtremeModel.
Open Scope Z_scope.

(* The order of scores: fixnums, OIDs, other kinds; then by value. *)
Definition kind (s : score) : Z := match s with Fix _ => 0 | Oid _ => 1 | Cons t _ => 2 + t end.
Definition value_of (s : score) : Z := match s with Fix z => z | Oid a => a | Cons _ r => r end.
Definition good (s : score) : Prop := match s with Cons t _ => 0 <= t | _ => True end.
Definition below (x y : score) : Prop :=
  kind x < kind y \/ kind x = kind y /\ value_of x < value_of y.
Definition same (x y : score) : Prop := kind x = kind y /\ value_of x = value_of y.

Lemma compare_spec : forall x y, good x -> good y ->
  (compare_lisp x y < 0 /\ below x y) \/ (compare_lisp x y = 0 /\ same x y) \/
  (compare_lisp x y > 0 /\ below y x).
Proof.
  intros x y GX GY. unfold compare_lisp, below, same.
  destruct x as [a|a|t a], y as [b|b|u b]; unfold type_of, kind, value_of, good in *;
    repeat match goal with
    | |- context [?p =? ?q] => destruct (Z.eqb_spec p q)
    | |- context [?p <? ?q] => destruct (Z.ltb_spec p q)
    | |- context [?p >? ?q] => rewrite (Z.gtb_ltb p q)
    end; lia.
Qed.

Section Loop.
Variable A : Type.
Variable key : A -> keyed.
Hypothesis keys_good : forall a s, key a = Score s -> good s.

(* The elements with scores above or below all others. *)
Definition no_above (elts : list A) (a : A) (s : score) : Prop :=
  key a = Score s /\ forall b t, In b elts -> key b = Score t -> ~ below s t.
Definition no_below (elts : list A) (a : A) (s : score) : Prop :=
  key a = Score s /\ forall b t, In b elts -> key b = Score t -> ~ below t s.

(* What holds of the elements seen. *)
Definition state_ok (rel : score -> score -> Prop) (seen top : list A) (ts : option score) : Prop :=
  match ts with
  | None => top = [] /\ forall a, In a seen -> key a = NoScore
  | Some t => good t /\
      (forall a, In a top <-> In a seen /\ exists s, key a = Score s /\ same s t) /\
      (forall a s, In a seen -> key a = Score s -> same s t \/ rel s t) /\
      top <> [] /\ (forall a, In a seen -> key a = NoScore \/ exists s, key a = Score s)
  end.

Lemma largest_inv : forall elts seen top ts l,
  state_ok below seen top ts -> largest_loop A key elts top ts = Found l ->
  exists ts', state_ok below (seen ++ elts) l ts'.
Proof.
  induction elts as [|e elts IH]; intros seen top ts l OK E; cbn in E.
  - inversion E; subst. exists ts. now rewrite app_nil_r.
  - replace (seen ++ e :: elts) with ((seen ++ [e]) ++ elts) by (now rewrite <- app_assoc).
    destruct (key e) as [s| | |x] eqn:K; try discriminate.
    + pose proof (keys_good e s K) as GS. destruct ts as [t|].
      * destruct OK as (GT & O1 & O2 & O3 & O4).
        destruct (compare_spec s t GS GT) as [[C R]|[[C R]|[C R]]].
        -- rewrite (proj2 (Z.ltb_lt _ _) C) in E. apply (IH _ _ _ _) with (2 := E).
           refine (conj GT (conj _ (conj _ (conj O3 _)))).
           ++ intros a. rewrite O1, in_app_iff. split.
              ** intros [I X]. split; [now left|exact X].
              ** intros [[I|[<-|[]]] (s1 & K1 & S1)]; [split; [exact I|now exists s1]|].
                 rewrite K in K1. inversion K1; subst. unfold below, same in *. lia.
           ++ intros a s1 I K1. rewrite in_app_iff in I. destruct I as [I|[<-|[]]]; [now apply (O2 a)|].
              rewrite K in K1. inversion K1; subst. now right.
           ++ intros a I. rewrite in_app_iff in I. destruct I as [I|[<-|[]]]; [now apply O4|]. right. now exists s.
        -- replace (compare_lisp s t <? 0) with false in E by (symmetry; apply Z.ltb_ge; lia).
           rewrite C in E. cbn in E. apply (IH _ _ _ _) with (2 := E).
           refine (conj GT (conj _ (conj _ (conj _ _)))).
           ++ intros a. rewrite !in_app_iff, O1. split.
              ** intros [[I X]|[<-|[]]]; [split; [now left|exact X]|]. split; [right; now left|]. now exists s.
              ** intros [[I|[<-|[]]] X]; [left; now split|]. right. now left.
           ++ intros a s1 I K1. rewrite in_app_iff in I. destruct I as [I|[<-|[]]]; [now apply (O2 a)|].
              rewrite K in K1. inversion K1; subst. now left.
           ++ destruct top; discriminate.
           ++ intros a I. rewrite in_app_iff in I. destruct I as [I|[<-|[]]]; [now apply O4|]. right. now exists s.
        -- replace (compare_lisp s t <? 0) with false in E by (symmetry; apply Z.ltb_ge; lia).
           replace (compare_lisp s t =? 0) with false in E by (symmetry; apply Z.eqb_neq; lia).
           apply (IH _ _ _ _) with (2 := E).
           refine (conj GS (conj _ (conj _ (conj _ _)))).
           ++ intros a. split.
              ** intros [<-|[]]. rewrite in_app_iff. split; [right; now left|]. exists s. split; [exact K|]. split; reflexivity.
              ** rewrite in_app_iff. intros [[I|[<-|[]]] (s1 & K1 & S1)]; [|now left].
                 destruct (O2 a s1 I K1) as [Q|Q]; unfold below, same in *; lia.
           ++ intros a s1 I K1. rewrite in_app_iff in I. destruct I as [I|[<-|[]]].
              ** right. destruct (O2 a s1 I K1) as [Q|Q]; unfold below, same in *; lia.
              ** rewrite K in K1. inversion K1; subst. left. split; reflexivity.
           ++ discriminate.
           ++ intros a I. rewrite in_app_iff in I. destruct I as [I|[<-|[]]]; [now apply O4|]. right. now exists s.
      * destruct OK as [-> O]. apply (IH _ _ _ _) with (2 := E).
        refine (conj GS (conj _ (conj _ (conj _ _)))).
        ++ intros a. split.
           ** intros [<-|[]]. rewrite in_app_iff. split; [right; now left|]. exists s. split; [exact K|]. split; reflexivity.
           ** rewrite in_app_iff. intros [[I|[<-|[]]] (s1 & K1 & S1)]; [|now left]. rewrite (O a I) in K1. discriminate.
        ++ intros a s1 I K1. rewrite in_app_iff in I. destruct I as [I|[<-|[]]].
           ** rewrite (O a I) in K1. discriminate.
           ** rewrite K in K1. inversion K1; subst. left. split; reflexivity.
        ++ discriminate.
        ++ intros a I. rewrite in_app_iff in I. destruct I as [I|[<-|[]]]; [left; now apply O|]. right. now exists s.
    + apply (IH _ _ _ _) with (2 := E). destruct ts as [t|].
      * destruct OK as (GT & O1 & O2 & O3 & O4). refine (conj GT (conj _ (conj _ (conj O3 _)))).
        ++ intros a. rewrite O1, in_app_iff. split; [intros [I X]; split; [now left|exact X]|].
           intros [[I|[<-|[]]] (s1 & K1 & S1)]; [split; [exact I|now exists s1]|congruence].
        ++ intros a s1 I K1. rewrite in_app_iff in I. destruct I as [I|[<-|[]]]; [now apply (O2 a)|congruence].
        ++ intros a I. rewrite in_app_iff in I. destruct I as [I|[<-|[]]]; [now apply O4|now left].
      * destruct OK as [-> O]. split; [reflexivity|]. intros a I. rewrite in_app_iff in I.
        destruct I as [I|[<-|[]]]; [now apply O|exact K].
Qed.

Lemma result_ok : forall (rel : score -> score -> Prop) elts l ts,
  (forall x y, same x y -> ~ rel x y) -> (forall x y z, same x y -> rel y z -> rel x z) ->
  (forall x y, rel x y -> ~ rel y x) ->
  (forall x y z, same z y -> rel x y -> rel x z) ->
  state_ok rel elts l ts ->
  forall a, In a l <-> In a elts /\ exists s, key a = Score s /\
    forall b t, In b elts -> key b = Score t -> ~ rel s t.
Proof.
  intros rel elts l ts R1 R2 R3 R4 OK a. destruct ts as [t|]; cbn in OK.
  - destruct OK as (GT & O1 & O2 & O3 & O4). rewrite O1. split.
    + intros [I (s & K & S1)]. split; [exact I|]. exists s. split; [exact K|].
      intros b u IB KB RB. destruct (O2 b u IB KB) as [Q|Q].
      * apply (R1 s u); [|exact RB]. unfold same in *. lia.
      * apply (R3 u t Q). apply (R2 t s u); [unfold same in *; lia|exact RB].
    + intros [I (s & K & NB)]. split; [exact I|]. exists s. split; [exact K|].
      destruct (O2 a s I K) as [Q|Q]; [exact Q|].
      destruct l as [|b l]; [congruence|]. destruct (proj1 (O1 b) (or_introl eq_refl)) as [IB (u & KB & SB)].
      elim (NB b u IB KB). apply (R4 s t u); assumption.
  - destruct OK as [-> O]. split; [intros []|]. intros [I (s & K & _)]. rewrite (O a I) in K. discriminate.
Qed.
End Loop.

(* SMALLEST is LARGEST with the order turned round. *)
Section Small.
Variable A : Type.
Variable key : A -> keyed.
Hypothesis keys_good : forall a s, key a = Score s -> good s.

Lemma smallest_inv : forall elts seen top ts l,
  state_ok A key (fun x y => below y x) seen top ts -> smallest_loop A key elts top ts = Found l ->
  exists ts', state_ok A key (fun x y => below y x) (seen ++ elts) l ts'.
Proof.
  induction elts as [|e elts IH]; intros seen top ts l OK E; cbn in E.
  - inversion E; subst. exists ts. now rewrite app_nil_r.
  - replace (seen ++ e :: elts) with ((seen ++ [e]) ++ elts) by (now rewrite <- app_assoc).
    destruct (key e) as [s| | |x] eqn:K; try discriminate.
    + pose proof (keys_good e s K) as GS. destruct ts as [t|].
      * destruct OK as (GT & O1 & O2 & O3 & O4). rewrite Z.gtb_ltb in E.
        destruct (compare_spec s t GS GT) as [[C R]|[[C R]|[C R]]].
        -- replace (0 <? compare_lisp s t) with false in E by (symmetry; apply Z.ltb_ge; lia).
           replace (compare_lisp s t =? 0) with false in E by (symmetry; apply Z.eqb_neq; lia).
           apply (IH _ _ _ _) with (2 := E).
           refine (conj GS (conj _ (conj _ (conj _ _)))).
           ++ intros a. split.
              ** intros [<-|[]]. rewrite in_app_iff. split; [right; now left|]. exists s. split; [exact K|]. split; reflexivity.
              ** rewrite in_app_iff. intros [[I|[<-|[]]] (s1 & K1 & S1)]; [|now left].
                 destruct (O2 a s1 I K1) as [Q|Q]; unfold below, same in *; lia.
           ++ intros a s1 I K1. rewrite in_app_iff in I. destruct I as [I|[<-|[]]].
              ** right. destruct (O2 a s1 I K1) as [Q|Q]; unfold below, same in *; lia.
              ** rewrite K in K1. inversion K1; subst. left. split; reflexivity.
           ++ discriminate.
           ++ intros a I. rewrite in_app_iff in I. destruct I as [I|[<-|[]]]; [now apply O4|]. right. now exists s.
        -- replace (0 <? compare_lisp s t) with false in E by (symmetry; apply Z.ltb_ge; lia).
           rewrite C in E. cbn in E. apply (IH _ _ _ _) with (2 := E).
           refine (conj GT (conj _ (conj _ (conj _ _)))).
           ++ intros a. rewrite !in_app_iff, O1. split.
              ** intros [[I X]|[<-|[]]]; [split; [now left|exact X]|]. split; [right; now left|]. now exists s.
              ** intros [[I|[<-|[]]] X]; [left; now split|]. right. now left.
           ++ intros a s1 I K1. rewrite in_app_iff in I. destruct I as [I|[<-|[]]]; [now apply (O2 a)|].
              rewrite K in K1. inversion K1; subst. now left.
           ++ destruct top; discriminate.
           ++ intros a I. rewrite in_app_iff in I. destruct I as [I|[<-|[]]]; [now apply O4|]. right. now exists s.
        -- replace (0 <? compare_lisp s t) with true in E by (symmetry; apply Z.ltb_lt; lia).
           apply (IH _ _ _ _) with (2 := E).
           refine (conj GT (conj _ (conj _ (conj O3 _)))).
           ++ intros a. rewrite O1, in_app_iff. split.
              ** intros [I X]. split; [now left|exact X].
              ** intros [[I|[<-|[]]] (s1 & K1 & S1)]; [split; [exact I|now exists s1]|].
                 rewrite K in K1. inversion K1; subst. unfold below, same in *. lia.
           ++ intros a s1 I K1. rewrite in_app_iff in I. destruct I as [I|[<-|[]]]; [now apply (O2 a)|].
              rewrite K in K1. inversion K1; subst. now right.
           ++ intros a I. rewrite in_app_iff in I. destruct I as [I|[<-|[]]]; [now apply O4|]. right. now exists s.
      * destruct OK as [-> O]. apply (IH _ _ _ _) with (2 := E).
        refine (conj GS (conj _ (conj _ (conj _ _)))).
        ++ intros a. split.
           ** intros [<-|[]]. rewrite in_app_iff. split; [right; now left|]. exists s. split; [exact K|]. split; reflexivity.
           ** rewrite in_app_iff. intros [[I|[<-|[]]] (s1 & K1 & S1)]; [|now left]. rewrite (O a I) in K1. discriminate.
        ++ intros a s1 I K1. rewrite in_app_iff in I. destruct I as [I|[<-|[]]].
           ** rewrite (O a I) in K1. discriminate.
           ** rewrite K in K1. inversion K1; subst. left. split; reflexivity.
        ++ discriminate.
        ++ intros a I. rewrite in_app_iff in I. destruct I as [I|[<-|[]]]; [left; now apply O|]. right. now exists s.
    + apply (IH _ _ _ _) with (2 := E). destruct ts as [t|].
      * destruct OK as (GT & O1 & O2 & O3 & O4). refine (conj GT (conj _ (conj _ (conj O3 _)))).
        ++ intros a. rewrite O1, in_app_iff. split; [intros [I X]; split; [now left|exact X]|].
           intros [[I|[<-|[]]] (s1 & K1 & S1)]; [split; [exact I|now exists s1]|congruence].
        ++ intros a s1 I K1. rewrite in_app_iff in I. destruct I as [I|[<-|[]]]; [now apply (O2 a)|congruence].
        ++ intros a I. rewrite in_app_iff in I. destruct I as [I|[<-|[]]]; [now apply O4|now left].
      * destruct OK as [-> O]. split; [reflexivity|]. intros a I. rewrite in_app_iff in I.
        destruct I as [I|[<-|[]]]; [now apply O|exact K].
Qed.
End Small.

(* The first element whose key aborts or is void decides. *)
Definition bad (k : keyed) : Prop := match k with Aborts _ | VoidScore => True | _ => False end.

Lemma loops_end : forall A key elts top ts,
  (forall a, In a elts -> ~ bad (key a)) ->
  (exists l, largest_loop A key elts top ts = Found l) /\ (exists l, smallest_loop A key elts top ts = Found l).
Proof.
  intros A key. induction elts as [|e elts IH]; intros top ts NB; [split; eexists; reflexivity|].
  assert (NE := NB e (or_introl eq_refl)). assert (IH' := fun top ts => IH top ts (fun a I => NB a (or_intror I))).
  cbn. destruct (key e) as [s| | |x]; try (elim NE; exact I); [|split; [apply (proj1 (IH' _ _))|apply (proj2 (IH' _ _))]].
  destruct ts as [t|]; [|split; [apply (proj1 (IH' _ _))|apply (proj2 (IH' _ _))]].
  destruct (compare_lisp s t <? 0), (compare_lisp s t >? 0), (compare_lisp s t =? 0); split;
    try apply (proj1 (IH' _ _)); apply (proj2 (IH' _ _)).
Qed.

Lemma loops_fail : forall A key pre e post top ts,
  (forall a, In a pre -> ~ bad (key a)) -> bad (key e) ->
  let r := match key e with Aborts x => KeyError x | _ => VoidKey e end in
  largest_loop A key (pre ++ e :: post) top ts = r /\ smallest_loop A key (pre ++ e :: post) top ts = r.
Proof.
  intros A key pre e post. induction pre as [|p pre IH]; intros top ts NB B r.
  - cbn [app largest_loop smallest_loop]. subst r. destruct (key e); try (elim B); split; reflexivity.
  - assert (NP := NB p (or_introl eq_refl)).
    assert (IH' := fun top ts => IH top ts (fun a I => NB a (or_intror I)) B).
    cbn [app largest_loop smallest_loop]. destruct (key p) as [s| | |x]; try (elim NP; exact I); [|split; [apply (proj1 (IH' _ _))|apply (proj2 (IH' _ _))]].
    destruct ts as [t|]; [|split; [apply (proj1 (IH' _ _))|apply (proj2 (IH' _ _))]].
    destruct (compare_lisp s t <? 0), (compare_lisp s t >? 0), (compare_lisp s t =? 0); cbn zeta; split;
      try apply (proj1 (IH' _ _)); apply (proj2 (IH' _ _)).
Qed.

(** * C132 *)

(** LARGEST returns exactly the elements with a key such that no element has a
    greater one, keys being compared by type and then by value; SMALLEST those
    such that none has a smaller one. *)
Theorem C132_extremes : forall A (key : A -> keyed) elts,
  (forall a s, key a = Score s -> match s with Cons t _ => 0 <= t | _ => True end) ->
  (forall a, In a elts -> key a = NoScore \/ exists s, key a = Score s) ->
  exists hi lo, largest_prim A key elts = Found hi /\ smallest_prim A key elts = Found lo /\
    (forall a, In a hi <-> In a elts /\ exists s, key a = Score s /\
       forall b t, In b elts -> key b = Score t -> ~ below s t) /\
    (forall a, In a lo <-> In a elts /\ exists s, key a = Score s /\
       forall b t, In b elts -> key b = Score t -> ~ below t s).
Proof.
  intros A key elts KG OK.
  assert (NB : forall a, In a elts -> ~ bad (key a)).
  { intros a I. destruct (OK a I) as [-> |[s ->]]; exact (fun H => H). }
  destruct (loops_end A key elts [] None NB) as [[hi EH] [lo EL]].
  exists hi, lo. split; [exact EH|]. split; [exact EL|].
  assert (S0 : forall rel, state_ok A key rel [] [] None) by (intros rel; split; [reflexivity|intros a []]).
  destruct (largest_inv A key KG elts [] [] None hi (S0 _) EH) as [t1 O1].
  destruct (smallest_inv A key KG elts [] [] None lo (S0 _) EL) as [t2 O2].
  split.
  - apply (result_ok A key below elts hi t1); try exact O1; unfold below, same; intros; lia.
  - apply (result_ok A key (fun x y => below y x) elts lo t2); try exact O2; unfold below, same; intros; lia.
Qed.
Print Assumptions C132_extremes.

(** If the key of an element is void or aborts, both return the error of the
    first such. *)
Theorem C132_error : forall A (key : A -> keyed) pre e post,
  (forall a, In a pre -> key a = NoScore \/ exists s, key a = Score s) ->
  (forall x, key e = Aborts x ->
     largest_prim A key (pre ++ e :: post) = KeyError x /\ smallest_prim A key (pre ++ e :: post) = KeyError x) /\
  (key e = VoidScore ->
     largest_prim A key (pre ++ e :: post) = VoidKey e /\ smallest_prim A key (pre ++ e :: post) = VoidKey e).
Proof.
  intros A key pre e post OK.
  assert (NB : forall a, In a pre -> ~ bad (key a)).
  { intros a I. destruct (OK a I) as [-> |[s ->]]; exact (fun H => H). }
  split.
  - intros x K. pose proof (loops_fail A key pre e post [] None NB) as L. rewrite K in L. exact (L I).
  - intros K. pose proof (loops_fail A key pre e post [] None NB) as L. rewrite K in L. exact (L I).
Qed.
Print Assumptions C132_error.

(** LARGEST with a choice of key functions, none of which fails, gives the
    elements which are largest by one of them. *)
Theorem C132_keys : forall A K (key : K -> A -> keyed) ks elts,
  (forall k, In k ks -> exists l, largest_prim A (key k) elts = Found l) ->
  exists r, largest_keys key ks elts [] = All r /\
    forall a, In a r <-> exists k l, In k ks /\ largest_prim A (key k) elts = Found l /\ In a l.
Proof.
  intros A K key ks elts OK.
  assert (G : forall acc, exists r, largest_keys key ks elts acc = All r /\
    forall a, In a r <-> In a acc \/ exists k l, In k ks /\ largest_prim A (key k) elts = Found l /\ In a l).
  { induction ks as [|k ks IH]; intros acc.
    - exists acc. split; [reflexivity|]. intros a. split; [now left|]. intros [I|(k & l & [] & _)]. exact I.
    - destruct (OK k (or_introl eq_refl)) as [l E].
      destruct (IH (fun k' I => OK k' (or_intror I)) (acc ++ l)) as (r & ER & MR).
      exists r. cbn. rewrite E. split; [exact ER|]. intros a. rewrite MR, in_app_iff. split.
      + intros [[I|I]|(k' & l' & I & E' & M)]; [now left| |].
        * right. exists k, l. auto.
        * right. exists k', l'. auto.
      + intros [I|(k' & l' & [<-|I] & E' & M)]; [now left; left| |].
        * left. right. congruence.
        * right. exists k', l'. auto. }
  destruct (G []) as (r & ER & MR). exists r. split; [exact ER|]. intros a. rewrite MR. split; [intros [[]|X]; exact X|now right].
Qed.
Print Assumptions C132_keys.

Example C132_case :
  let key a := match a with 9%nat => NoScore | n => Score (Fix (Z.of_nat n / 2)) end in
  largest_prim nat key [3; 6; 9; 2; 7; 1]%nat = Found [6; 7]%nat /\
  smallest_prim nat key [3; 6; 9; 2; 7; 1]%nat = Found [1]%nat /\
  largest_prim nat (fun a => match a with 2%nat => Aborts 7 | _ => key a end) [3; 6; 9; 2; 7; 1]%nat = KeyError 7 /\
  largest_keys (fun k a => Score (Fix (Z.of_nat a mod k))) [5; 3] [3; 6; 2]%nat [] = All [3; 2]%nat.
Proof. repeat split. Qed.

(** GETRANGE of two numbers is the numbers from the smaller to before the
    greater, if the first is the smaller or is an int. *)
Theorem C132_getrange : forall a b,
  a <= b \/ -2147483648 <= a < 2147483648 ->
  getrange a b = (Z.min a b, Z.max a b - Z.min a b).
Proof.
  intros a b H. unfold getrange. rewrite Z.gtb_ltb. destruct (Z.ltb_spec b a) as [L|L].
  - assert (W : wrap32 a = a) by (unfold wrap32; rewrite Z.mod_small; lia).
    rewrite ?W. f_equal; lia.
  - f_equal; lia.
Qed.
Print Assumptions C132_getrange.

Example C132_getrange_case : getrange 7 3 = (3, 4).
Proof. reflexivity. Qed.

(** * C133 *)

(** LARGEST by numbers of different kinds does not give the largest: the flonum
    1.5 (rank 15) is taken for larger than the fixnum 1000. *)
Theorem C133_mixed_refuted : exists (key : nat -> keyed) (tenths : nat -> Z),
  key 0%nat = Score (Fix (tenths 0%nat / 10)) /\ key 1%nat = Score (Cons 36 (tenths 1%nat)) /\
  tenths 0%nat > tenths 1%nat /\ largest_prim nat key [0; 1]%nat = Found [1]%nat.
Proof.
  exists (fun n => match n with O => Score (Fix 1000) | _ => Score (Cons 36 15) end),
         (fun n => match n with O => 10000 | _ => 15 end).
  repeat split.
Qed.
Print Assumptions C133_mixed_refuted.

(** With a choice of key functions, if one fails, the key function itself is
    returned as the result instead of the error. *)
Theorem C133_keys_refuted :
  exists (key : nat -> nat -> keyed) ks elts k, (exists e, largest_prim nat (key k) elts = KeyError e) /\
    largest_keys key ks elts [] = KeyItself k.
Proof.
  exists (fun k a => match k with 2%nat => Aborts 0 | _ => Score (Fix (Z.of_nat a)) end), [1; 2]%nat, [5]%nat, 2%nat.
  split; [now exists 0%nat|reflexivity].
Qed.
Print Assumptions C133_keys_refuted.

(** (getrange 4294967301 2) is the numbers 2, 3 and 4, and
    (getrange 2147483648 2) is empty: the greater number is kept in an int. *)
Theorem C133_getrange_refuted :
  getrange 4294967301 2 = (2, 3) /\ getrange 2147483648 2 = (2, 0).
Proof. split; reflexivity. Qed.
Print Assumptions C133_getrange_refuted.
