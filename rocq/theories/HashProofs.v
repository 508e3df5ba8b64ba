(** * Hash codes: lemmas *)

From Coq Require Import NArith ZArith List Bool Lia SpecFloat Permutation.
From Coq Require Import ZifyBool ZifyN ZifyNat.
From Verif Require Import ValueModel ValueProofs BytesModel HashModel.
Import ListNotations.
Local Open Scope N_scope.

(** ** The functions unfolded *)

Lemma mem_hashes ub l : (fix hashes (l : list val) : list N :=
    match l with [] => [] | a :: r => Mem.hash_lisp ub a :: hashes r end) l
  = map (Mem.hash_lisp ub) l.
Proof. induction l as [|a l IH]; [reflexivity|]. cbn [map]. now rewrite <- IH. Qed.
Definition qval {A} (z : A) (f : list A -> A) (hs : list A) : A :=
  match hs with [] => z | [h] => h | _ => f hs end.
Lemma mem_eq ub v : Mem.hash_lisp ub v =
  let hash := Mem.hash_lisp ub in
  match v with
  | VAtom w => Mem.hash_atom w
  | VNum n => Mem.hash_num ub n
  | VStr s => Mem.mult_hash_bytes 0 s
  | VPacket _ s => Mem.mult_hash_bytes 0 s
  | VPair a b => Mem.hash_mult (hash a) (hash b)
  | VVec l => Mem.hash_elts (map hash l)
  | VChoice l => Mem.hash_elts (map hash l)
  | VQChoice l => qval (Mem.hash_atom w_empty) Mem.hash_elts (map hash l)
  | VCompound tag l => Mem.hash_mult (hash tag) (Mem.hash_elts (map hash l))
  | VOther _ a => Mem.hash_mult a Mem.MULTIPLIER
  end.
Proof. destruct v; cbn [Mem.hash_lisp]; rewrite ?mem_hashes; try reflexivity.
  unfold qval. destruct (map _ l) as [|h [|h' t]]; reflexivity.
Qed.

(** The rest of a list after its first pair, for kno_hash_lisp1. *)
Definition walk1 (h : val -> N) := fix walk1 (ptr : val) (sum : N) {struct ptr} : N :=
  match ptr with
  | VPair a b => walk1 b (w32 (sum * 2 + h a) mod Dt.MAGIC)
  | VAtom w => if w =? w_nil then sum else w32 (sum + N.shiftr (flip_word (h ptr)) 8) mod Dt.MAGIC
  | _ => w32 (sum + N.shiftr (flip_word (h ptr)) 8) mod Dt.MAGIC
  end.
Lemma hashes1 p d l : (fix hashes (l : list val) : list N :=
    match l with [] => [] | a :: r => Dt.hash_lisp1 p d a :: hashes r end) l
  = map (Dt.hash_lisp1 p d) l.
Proof. induction l as [|a l IH]; [reflexivity|]. cbn [map]. now rewrite <- IH. Qed.
Lemma hash1_eq p d v : Dt.hash_lisp1 p d v =
  let hash := Dt.hash_lisp1 p d in
  match v with
  | VAtom w => Dt.hash_atom p Dt.MAGIC 17 w
  | VNum n => Dt.hash_num1 n
  | VStr s => Dt.hash_string d s
  | VPacket b s => if b then 17 else Dt.hash_packet s
  | VPair a b => walk1 hash (VPair a b) 0
  | VVec l => Dt.hash_vector1 (map hash l)
  | VChoice l => Dt.hash_choice1 (map hash l)
  | VQChoice l => qval (Dt.hash_atom p Dt.MAGIC 17 w_empty) Dt.hash_choice1 (map hash l)
  | VCompound _ _ => 17
  | VOther _ _ => 17
  end.
Proof.
  destruct v; cbn [Dt.hash_lisp1]; rewrite ?hashes1; try reflexivity.
  unfold qval. destruct (map _ l) as [|h [|h' t]]; reflexivity.
Qed.

Definition walk2 (h : val -> N) := fix walk2 (ptr : val) (prod : N) {struct ptr} : N :=
  match ptr with
  | VPair a b => walk2 b (Dt.hash_combine prod (h a))
  | VAtom w => if w =? w_nil then prod else Dt.hash_combine prod (h ptr)
  | _ => Dt.hash_combine prod (h ptr)
  end.
Lemma hashes2 p u o c l : (fix hashes (l : list val) : list N :=
    match l with [] => [] | a :: r => Dt.hash_lisp23 p u o c a :: hashes r end) l
  = map (Dt.hash_lisp23 p u o c) l.
Proof. induction l as [|a l IH]; [reflexivity|]. cbn [map]. now rewrite <- IH. Qed.
Lemma hash2_eq p u o c v : Dt.hash_lisp23 p u o c v =
  let hash := Dt.hash_lisp23 p u o c in
  match v with
  | VAtom w => Dt.hash_atom p o 19 w
  | VNum n => Dt.hash_num2 u n
  | VStr s => Dt.hash_string2 s
  | VPacket b s => Dt.hash_packet s
  | VPair a b => walk2 hash (VPair a b) 1
  | VVec l => Dt.hash_vector2 (map hash l)
  | VChoice l => Dt.hash_choice2 c (map hash l)
  | VQChoice l => qval (Dt.hash_atom p o 19 w_empty) (Dt.hash_choice2 c) (map hash l)
  | VCompound _ _ => 17
  | VOther _ _ => 17
  end.
Proof. destruct v; cbn [Dt.hash_lisp23]; rewrite ?hashes2; try reflexivity.
  unfold qval. destruct (map _ l) as [|h [|h' t]]; reflexivity.
Qed.

(** ** A relation between values that the hash functions do not tell apart *)

Inductive sim (A : N -> N -> Prop) (Nm : num -> num -> Prop) (K : bool -> bool -> Prop)
    (C : list val -> list val -> Prop) (O : N -> N -> Prop) : val -> val -> Prop :=
| sim_atom w w' : A w w' -> sim A Nm K C O (VAtom w) (VAtom w')
| sim_num n n' : Nm n n' -> sim A Nm K C O (VNum n) (VNum n')
| sim_str s : sim A Nm K C O (VStr s) (VStr s)
| sim_packet b b' s : K b b' -> sim A Nm K C O (VPacket b s) (VPacket b' s)
| sim_pair a b a' b' : sim A Nm K C O a a' -> sim A Nm K C O b b' ->
    sim A Nm K C O (VPair a b) (VPair a' b')
| sim_vec l m : Forall2 (sim A Nm K C O) l m -> sim A Nm K C O (VVec l) (VVec m)
| sim_choice l m m' : Forall2 (sim A Nm K C O) l m -> C m m' ->
    sim A Nm K C O (VChoice l) (VChoice m')
| sim_qchoice l m m' : Forall2 (sim A Nm K C O) l m -> C m m' ->
    sim A Nm K C O (VQChoice l) (VQChoice m')
| sim_compound t u l m : sim A Nm K C O t u -> Forall2 (sim A Nm K C O) l m ->
    sim A Nm K C O (VCompound t l) (VCompound u m)
| sim_other t a b : O a b -> sim A Nm K C O (VOther t a) (VOther t b).

Lemma map_f2 {B} (R : val -> val -> Prop) (f g : val -> B) l : 
  Forall (fun x => forall y, R x y -> f x = g y) l ->
  forall m, Forall2 R l m -> map f l = map g m.
Proof.
  induction l as [|a l IH]; intros F m H; inversion H; subst; [reflexivity|].
  inversion F; subst. cbn [map]. f_equal; auto.
Qed.

Lemma mem_sim ub x : forall y,
  sim eq (fun n m => Mem.hash_num ub n = Mem.hash_num ub m) (fun _ _ => True) eq eq x y ->
  Mem.hash_lisp ub x = Mem.hash_lisp ub y.
Proof.
  induction x using val_ind'; intros y HS; inversion HS; subst; rewrite !mem_eq;
    cbv zeta; try reflexivity; try assumption;
    repeat match goal with
    | [ F : Forall _ ?l, G : Forall2 _ ?l ?m |- _ ] =>
        rewrite (map_f2 _ _ _ _ F _ G); clear F G
    end; try reflexivity.
  - f_equal; auto.
  - f_equal; auto.
Qed.

(** Permutations *)
Lemma choice2_perm c l m : Permutation l m -> Dt.hash_choice2 c l = Dt.hash_choice2 c m.
Proof.
  intros HP. unfold Dt.hash_choice2. generalize 0 as s.
  induction HP; intros s; cbn [fold_left]; auto.
  - f_equal. unfold w32. rewrite !N.add_mod_idemp_l by discriminate. f_equal. lia.
  - now rewrite IHHP1.
Qed.
Lemma choice1_perm l m : Forall (fun h => h < 4278190080) l -> Permutation l m ->
  Dt.hash_choice1 l = Dt.hash_choice1 m.
Proof.
  intros F HP. unfold Dt.hash_choice1.
  assert (G : forall s, s < Dt.MAGIC ->
    fold_left (fun sum h => w32 (sum + h) mod Dt.MAGIC) l s =
    fold_left (fun sum h => w32 (sum + h) mod Dt.MAGIC) m s).
  { assert (B : forall a, a mod Dt.MAGIC < Dt.MAGIC) by (intros; now apply N.mod_lt).
    assert (W : forall a b, a < Dt.MAGIC -> b < 4278190080 -> w32 (a + b) = a + b).
    { intros a b Ha Hb. apply N.mod_small. unfold Dt.MAGIC in Ha. lia. }
    induction HP; intros s Hs; cbn [fold_left]; auto.
    - apply IHHP; [now inversion F|apply B].
    - inversion F as [|? ? Hy F']; subst. inversion F' as [|? ? Hx F'']; subst.
      rewrite (W s y), (W s x), (W _ x), (W _ y) by (auto; lia).
      rewrite !N.add_mod_idemp_l by discriminate. f_equal. f_equal. lia.
    - rewrite IHHP1 by auto. apply IHHP2; [|assumption].
      eapply Permutation_Forall; eassumption. }
  apply G. reflexivity.
Qed.

(** ** kno_hash_lisp2 and kno_hash_lisp3 *)

Definition nil_ok (A : N -> N -> Prop) : Prop := forall w w', A w w' -> (w =? w_nil) = (w' =? w_nil).
(** An empty choice is hashed as the constant it is. *)
Lemma qval_perm {B} (z : N) (f : list N -> N) (g : B -> N) (l m : list B) :
  (f (map g l) = f (map g m)) -> Permutation l m -> qval z f (map g l) = qval z f (map g m).
Proof.
  intros E HP. pose proof (Permutation_length HP) as L.
  destruct l as [|a [|b l]], m as [|a' [|b' m]]; try discriminate L; try reflexivity.
  - apply Permutation_length_1 in HP. now subst.
  - exact E.
Qed.

Lemma hash2_sim p q u u' o c (A : N -> N -> Prop) : nil_ok A ->
  (forall w w', A w w' -> Dt.hash_atom p o 19 w = Dt.hash_atom q o 19 w') ->
  forall x y,
  sim A (fun n m => Dt.hash_num2 u n = Dt.hash_num2 u' m) (fun _ _ => True)
      (@Permutation val) (fun _ _ => True) x y ->
  Dt.hash_lisp23 p u o c x = Dt.hash_lisp23 q u' o c y /\
  forall s, walk2 (Dt.hash_lisp23 p u o c) x s = walk2 (Dt.hash_lisp23 q u' o c) y s.
Proof.
  intros HN HA.
  assert (ML : forall (R : val -> val -> Prop) l, Forall (fun x => forall y, R x y ->
      Dt.hash_lisp23 p u o c x = Dt.hash_lisp23 q u' o c y /\
      forall s, walk2 (Dt.hash_lisp23 p u o c) x s = walk2 (Dt.hash_lisp23 q u' o c) y s) l ->
      forall m, Forall2 R l m -> map (Dt.hash_lisp23 p u o c) l = map (Dt.hash_lisp23 q u' o c) m).
  { intros R l F m G. apply (map_f2 R); [|assumption].
    eapply Forall_impl; [|exact F]. cbn. intros a Ha y Hy. now apply Ha. }
  assert (GEN : forall x y, (match x with VPair _ _ | VAtom _ => False | _ => True end) ->
      (match y with VPair _ _ | VAtom _ => False | _ => True end) ->
      Dt.hash_lisp23 p u o c x = Dt.hash_lisp23 q u' o c y ->
      Dt.hash_lisp23 p u o c x = Dt.hash_lisp23 q u' o c y /\
      forall s, walk2 (Dt.hash_lisp23 p u o c) x s = walk2 (Dt.hash_lisp23 q u' o c) y s).
  { intros x y Hx Hy E. split; [exact E|]. intros s.
    destruct x; try contradiction; destruct y; try contradiction;
      cbn [walk2]; now rewrite E. }
  induction x using val_ind'; intros y HS; inversion HS; subst;
    try (apply GEN; [exact I|exact I|]; rewrite !hash2_eq; cbv zeta;
         repeat match goal with
         | [ F : Forall _ ?l, G : Forall2 _ ?l ?m |- _ ] =>
             rewrite (ML _ _ F _ G); clear F G
         end; first [reflexivity | assumption | idtac]).
  - (* atom *)
    assert (E : Dt.hash_lisp23 p u o c (VAtom w) = Dt.hash_lisp23 q u' o c (VAtom w')).
    { rewrite !hash2_eq. auto. }
    split; [exact E|]. intros s. cbn [walk2]. rewrite E. now rewrite (HN w w').
  - (* pair *)
    destruct (IHx1 a') as [E1 _]; [assumption|].
    destruct (IHx2 b') as [_ W2]; [assumption|].
    assert (W : forall s, walk2 (Dt.hash_lisp23 p u o c) (VPair x1 x2) s =
                          walk2 (Dt.hash_lisp23 q u' o c) (VPair a' b') s).
    { intros s. cbn [walk2]. now rewrite E1, W2. }
    split; [|exact W]. rewrite !hash2_eq. apply W.
  - apply choice2_perm. now apply Permutation_map.
  - rewrite (qval_perm _ _ _ m m') by
      (try assumption; apply choice2_perm; now apply Permutation_map).
    unfold qval. destruct (map _ m') as [|h [|h' t]]; reflexivity.
Qed.

(** ** kno_hash_lisp1 *)

Lemma hash1_sim p q d (A : N -> N -> Prop) (C : list val -> list val -> Prop) : nil_ok A ->
  (forall w w', A w w' -> Dt.hash_atom p Dt.MAGIC 17 w = Dt.hash_atom q Dt.MAGIC 17 w') ->
  (forall l m, C l m -> Permutation l m /\
     Dt.hash_choice1 (map (Dt.hash_lisp1 q d) l) = Dt.hash_choice1 (map (Dt.hash_lisp1 q d) m)) ->
  forall x y,
  sim A (fun n m => Dt.hash_num1 n = Dt.hash_num1 m) eq C (fun _ _ => True) x y ->
  Dt.hash_lisp1 p d x = Dt.hash_lisp1 q d y /\
  forall s, walk1 (Dt.hash_lisp1 p d) x s = walk1 (Dt.hash_lisp1 q d) y s.
Proof.
  intros HN HA HC.
  assert (ML : forall (R : val -> val -> Prop) l, Forall (fun x => forall y, R x y ->
      Dt.hash_lisp1 p d x = Dt.hash_lisp1 q d y /\
      forall s, walk1 (Dt.hash_lisp1 p d) x s = walk1 (Dt.hash_lisp1 q d) y s) l ->
      forall m, Forall2 R l m -> map (Dt.hash_lisp1 p d) l = map (Dt.hash_lisp1 q d) m).
  { intros R l F m G. apply (map_f2 R); [|assumption].
    eapply Forall_impl; [|exact F]. cbn. intros a Ha y Hy. now apply Ha. }
  assert (GEN : forall x y, (match x with VPair _ _ | VAtom _ => False | _ => True end) ->
      (match y with VPair _ _ | VAtom _ => False | _ => True end) ->
      Dt.hash_lisp1 p d x = Dt.hash_lisp1 q d y ->
      Dt.hash_lisp1 p d x = Dt.hash_lisp1 q d y /\
      forall s, walk1 (Dt.hash_lisp1 p d) x s = walk1 (Dt.hash_lisp1 q d) y s).
  { intros x y Hx Hy E. split; [exact E|]. intros s.
    destruct x; try contradiction; destruct y; try contradiction;
      cbn [walk1]; now rewrite E. }
  induction x using val_ind'; intros y HS; inversion HS; subst;
    try (apply GEN; [exact I|exact I|]; rewrite !hash1_eq; cbv zeta;
         repeat match goal with
         | [ F : Forall _ ?l, G : Forall2 _ ?l ?m |- _ ] =>
             rewrite (ML _ _ F _ G); clear F G
         end; first [reflexivity | assumption | idtac]).
  - assert (E : Dt.hash_lisp1 p d (VAtom w) = Dt.hash_lisp1 q d (VAtom w')).
    { rewrite !hash1_eq. auto. }
    split; [exact E|]. intros s. cbn [walk1]. rewrite E. now rewrite (HN w w').
  - destruct (IHx1 a') as [E1 _]; [assumption|].
    destruct (IHx2 b') as [_ W2]; [assumption|].
    assert (W : forall s, walk1 (Dt.hash_lisp1 p d) (VPair x1 x2) s =
                          walk1 (Dt.hash_lisp1 q d) (VPair a' b') s).
    { intros s. cbn [walk1]. now rewrite E1, W2. }
    split; [|exact W]. rewrite !hash1_eq. apply W.
  - apply HC. assumption.
  - match goal with [ X : C ?m ?m' |- _ ] => apply HC in X; destruct X as [HP E];
      rewrite (qval_perm _ _ _ m m' E HP) end.
    unfold qval. destruct (map _ m') as [|h [|h' t]]; reflexivity.
Qed.

(** ** Equality *)

(** Values for which LISP_EQUAL means what it says: no NUL in strings, no NaN, rationals in
    lowest terms, no complex numbers.  [sec]: secrets allowed.  [nz]: a zero flonum may be
    negative. *)
Definition real_key (nz : bool) (n : num) : bool :=
  match n with
  | NReal (RInt _) => true
  | NReal (RRat n d) => (1 <? d)%Z && (Z.gcd n d =? 1)%Z
  | NReal (RFlo S754_nan) => false
  | NReal (RFlo (S754_zero s)) => nz || negb s
  | NReal (RFlo _) => true
  | NCpx _ _ => false
  end.
Fixpoint key_ok (sec nz : bool) (v : val) : bool :=
  match v with
  | VAtom _ => true
  | VNum n => real_key nz n
  | VStr s => forallb (fun b => negb (b =? 0)) s
  | VPacket b _ => sec || negb b
  | VPair a b => key_ok sec nz a && key_ok sec nz b
  | VVec l | VChoice l | VQChoice l => forallb (key_ok sec nz) l
  | VCompound t l => key_ok sec nz t && forallb (key_ok sec nz) l
  | VOther t _ => other_type_ok t
  end.

Lemma sfcompare_eq f g : SFcompare f g = Some Eq -> f = g \/
  exists s t, f = S754_zero s /\ g = S754_zero t.
Proof.
  destruct f as [s|s| |s m e], g as [t|t| |t n e']; cbn [SFcompare];
    try (destruct s; discriminate); try (destruct t; discriminate); try discriminate.
  - intros _. right. now exists s, t.
  - destruct s, t; try discriminate; auto.
  - destruct s, t; try discriminate;
    destruct (Z.compare_spec e e') as [->| |]; try discriminate; cbn [CompOpp];
    change (Pos.compare_cont Eq m n) with (Pos.compare m n);
    intros E; left; f_equal.
    + destruct (Pos.compare_spec m n); congruence || discriminate.
    + destruct (Pos.compare_spec m n); congruence || discriminate.
Qed.

(** What numcompare says of two numbers of the kind above. *)
Lemma num_same nz x y : real_key nz x = true -> real_key nz y = true -> numcompare x y = Eq ->
  x = y \/ nz = true /\ exists s t, x = NReal (RFlo (S754_zero s)) /\ y = NReal (RFlo (S754_zero t)).
Proof.
  intros Hx Hy E.
  destruct x as [[zx|nx dx|fx]|]; [| | |discriminate];
  (destruct y as [[zy|ny dy|fy]|]; [| | |discriminate]);
  try (left; apply numcompare_eq in E; [exact E| |]; cbn in *; auto; fail).
  - exfalso. revert E. cbn [numcompare isflo orb].
    destruct (sub_sign _ _); try discriminate; destruct (_ <? _); discriminate.
  - exfalso. revert E. cbn [numcompare isflo orb].
    destruct (sub_sign _ _); try discriminate; destruct (_ <? _); discriminate.
  - exfalso. revert E. cbn [numcompare isflo orb].
    destruct (sub_sign _ _); try discriminate; destruct (_ <? _); discriminate.
  - exfalso. revert E. cbn [numcompare isflo orb].
    destruct (sub_sign _ _); try discriminate; destruct (_ <? _); discriminate.
  - cbn [numcompare] in E. unfold dcompare in E.
    destruct (SFcompare fx fy) as [[]|] eqn:EC; try discriminate.
    + apply sfcompare_eq in EC. destruct EC as [->|[s [t [-> ->]]]]; [now left|].
      cbn in Hx, Hy. destruct nz; [right; split; [reflexivity|now exists s, t]|left].
      now destruct s, t.
    + exfalso. destruct fx as [|[]| |[] ? ?], fy as [|[]| |[] ? ?]; cbn in EC, Hx, Hy; discriminate.
Qed.

Lemma strncmp_same s : forall t, forallb (fun b => negb (b =? 0)) s = true ->
  strncmp s t = Eq -> s = t.
Proof.
  induction s as [|a s IH]; intros [|b t] F E; try discriminate; [reflexivity|].
  cbn in F. apply andb_true_iff in F. destruct F as [Fa Fs]. cbn [strncmp] in E.
  destruct (N.compare_spec a b) as [->| |]; try discriminate.
  destruct (b =? 0); [discriminate|]. f_equal. auto.
Qed.
Lemma memcmp_same s : forall t, memcmp s t = Eq -> s = t.
Proof.
  induction s as [|a s IH]; intros [|b t] E; try discriminate; [reflexivity|].
  cbn [memcmp] in E. destruct (N.compare_spec a b) as [->| |]; try discriminate.
  f_equal. auto.
Qed.
Lemma len_same {A B} (l : list A) (m : list B) : len_compare l m = Eq -> length l = length m.
Proof. apply Nat.compare_eq. Qed.

Section Same.
Variables sec nz : bool.
Variable Nm : num -> num -> Prop.
Hypothesis HNm : forall x y, real_key nz x = true -> real_key nz y = true ->
  numcompare x y = Eq -> Nm x y.
Variable K : bool -> bool -> Prop.
Hypothesis HK : forall b c, sec || negb b = true -> sec || negb c = true -> K b c.

Notation S := (sim eq Nm K eq eq).

Lemma lequal_list_sim l : Forall (fun x => forall y, key_ok sec nz x = true ->
    key_ok sec nz y = true -> lequal x y = true -> S x y) l ->
  forall m, forallb (key_ok sec nz) l = true -> forallb (key_ok sec nz) m = true ->
  (if Nat.eqb (length l) (length m) then
     (fix list_eq (l m : list val) {struct l} : bool :=
        match l, m with
        | a :: l', b :: m' => if lequal a b then list_eq l' m' else false
        | _, _ => true
        end) l m else false) = true ->
  Forall2 S l m.
Proof using.
  clear HNm HK.
  induction l as [|a l IH]; intros F [|b m] Hl Hm E; try discriminate; [constructor|].
  inversion F; subst. cbn in Hl, Hm. apply andb_true_iff in Hl, Hm.
  cbn [length Nat.eqb] in E.
  destruct (Nat.eqb (length l) (length m)) eqn:EL; [|discriminate].
  destruct (lequal a b) eqn:EA; [|discriminate].
  constructor; [apply H1; tauto|]. apply IH; try tauto; now rewrite ?EL.
Qed.

Lemma lequal_sim x : forall y, key_ok sec nz x = true -> key_ok sec nz y = true ->
  lequal x y = true -> S x y.
Proof using HNm HK.
  induction x using val_ind'; intros y Hx Hy E; destruct y; try discriminate E;
    cbn [key_ok] in Hx, Hy; cbn [lequal] in E.
  - apply N.eqb_eq in E. subst. now constructor.
  - constructor. apply HNm; auto. now destruct (numcompare n n0).
  - destruct (Nat.eqb _ _) eqn:EL; [|discriminate].
    destruct (strncmp s s0) eqn:EC; try discriminate.
    apply strncmp_same in EC; [|assumption]. subst. constructor.
  - destruct (Nat.eqb _ _) eqn:EL; [|discriminate].
    destruct (memcmp s s0) eqn:EC; try discriminate.
    apply memcmp_same in EC. subst. constructor. auto.
  - apply andb_true_iff in Hx, Hy. destruct (lequal x1 y1) eqn:E1; [|discriminate].
    constructor; [apply IHx1|apply IHx2]; tauto.
  - constructor. eapply lequal_list_sim; eauto.
  - econstructor; [|reflexivity]. eapply lequal_list_sim; eauto.
  - econstructor; [|reflexivity]. eapply lequal_list_sim; eauto.
  - apply andb_true_iff in E. destruct E as [E1 E2].
    apply N.eqb_eq in E1, E2. subst. now constructor.
Qed.

Lemma qcompare_list_sim l : Forall (fun x => forall y, key_ok sec nz x = true ->
    key_ok sec nz y = true -> qcompare x y = Eq -> S x y) l ->
  forall m, forallb (key_ok sec nz) l = true -> forallb (key_ok sec nz) m = true ->
  length l = length m -> qcompare_list l m = Eq -> Forall2 S l m.
Proof using.
  clear HNm HK.
  induction l as [|a l IH]; intros F [|b m] Hl Hm EL E; try discriminate; [constructor|].
  inversion F; subst. cbn in Hl, Hm. apply andb_true_iff in Hl, Hm.
  cbn [qcompare_list] in E. destruct (qcompare a b) eqn:EA; try discriminate.
  constructor; [apply H1; tauto|]. apply IH; try tauto. now inversion EL.
Qed.


Lemma qcompare_sim x : forall y, key_ok sec nz x = true -> key_ok sec nz y = true ->
  qcompare x y = Eq -> S x y.
Proof using HNm HK.
  assert (Hot : forall t, other_type_ok t = true ->
    t <> 0x84 /\ t <> 0x85 /\ t <> 0x86 /\ t <> 0x88 /\ t <> 0x8A /\ t <> 0x8C
    /\ t <> 0x8E /\ t <> 0x90).
  { intros t. unfold other_type_ok, existsb. lia. }
  induction x using val_ind'; intros y Hx Hy E; destruct y;
    cbn [qcompare typecode] in E; try discriminate E; rewrite ?inner_list in E;
    cbn [key_ok] in Hx, Hy;
    try (exfalso; destruct secret; discriminate E);
    try (exfalso; destruct b; discriminate E);
    try (exfalso; destruct secret; apply Hot in Hx;
         match type of E with match N.compare ?a ?c with _ => _ end = _ =>
           destruct (N.compare_spec a c); try discriminate E; lia end);
    try (exfalso; destruct b; apply Hot in Hy;
         match type of E with match N.compare ?a ?c with _ => _ end = _ =>
           destruct (N.compare_spec a c); try discriminate E; lia end);
    try (exfalso; first [apply Hot in Hx|apply Hot in Hy];
         match type of E with match N.compare ?a ?c with _ => _ end = _ =>
           destruct (N.compare_spec a c); try discriminate E; lia end).
  - apply N.compare_eq in E. subst. now constructor.
  - constructor. apply HNm; auto.
  - cbn in E. destruct (len_compare s s0) eqn:EL; try discriminate.
    apply strncmp_same in E; [|assumption]. subst. constructor.
  - destruct (N.compare _ _); try discriminate.
    destruct (len_compare s s0) eqn:EL; try discriminate.
    apply memcmp_same in E. subst. constructor. auto.
  - apply andb_true_iff in Hx, Hy. cbn in E. destruct (qcompare x1 y1) eqn:E1; try discriminate.
    constructor; [apply IHx1|apply IHx2]; tauto.
  - rewrite N.compare_refl in E. destruct (len_compare l l0) eqn:EL; try discriminate.
    constructor. eapply qcompare_list_sim; eauto. now apply len_same.
  - rewrite N.compare_refl in E. destruct (len_compare l l0) eqn:EL; try discriminate.
    econstructor; [|reflexivity]. eapply qcompare_list_sim; eauto. now apply len_same.
  - rewrite N.compare_refl in E. destruct (len_compare l l0) eqn:EL; try discriminate.
    econstructor; [|reflexivity]. eapply qcompare_list_sim; eauto. now apply len_same.
  - rewrite N.compare_refl in E. apply andb_true_iff in Hx, Hy.
    destruct (qcompare x y) eqn:ET; try discriminate.
    destruct (len_compare l l0) eqn:EL; try discriminate.
    constructor; [apply IHx; tauto|]. eapply qcompare_list_sim; eauto; try tauto. now apply len_same.
  - destruct (N.compare_spec t t0) as [->| |]; try discriminate.
    destruct (N.compare_spec a a0) as [->| |]; try discriminate. now constructor.
Qed.
End Same.

(** ** The relation for the three functions *)

Lemma mem_num ub x y : real_key true x = true -> real_key true y = true -> numcompare x y = Eq ->
  Mem.hash_num ub x = Mem.hash_num ub y.
Proof.
  intros Hx Hy E. destruct (num_same true x y Hx Hy E) as [->|[_ [s [t [-> ->]]]]]; reflexivity.
Qed.
Lemma dt_num2 ub x y : real_key true x = true -> real_key true y = true -> numcompare x y = Eq ->
  Dt.hash_num2 ub x = Dt.hash_num2 ub y.
Proof.
  intros Hx Hy E. destruct (num_same true x y Hx Hy E) as [->|[_ [s [t [-> ->]]]]]; reflexivity.
Qed.
Lemma dt_num1 x y : real_key false x = true -> real_key false y = true -> numcompare x y = Eq ->
  Dt.hash_num1 x = Dt.hash_num1 y.
Proof.
  intros Hx Hy E. destruct (num_same false x y Hx Hy E) as [->|[H _]]; [reflexivity|discriminate].
Qed.
Lemma sim_eq_perm Nm K (O : N -> N -> Prop) (HO : forall a b, a = b -> O a b) (C : list val -> list val -> Prop)
    (HC : forall l : list val, C l l) x : forall y,
  sim eq Nm K eq eq x y -> sim eq Nm K C O x y.
Proof.
  assert (FL : forall l, Forall (fun x => forall y, sim eq Nm K eq eq x y -> sim eq Nm K C O x y) l ->
    forall m, Forall2 (sim eq Nm K eq eq) l m -> Forall2 (sim eq Nm K C O) l m).
  { induction l as [|a l IH]; intros F m G; inversion G; subst; [constructor|].
    inversion F; subst. constructor; auto. }
  induction x using val_ind'; intros y HS; inversion HS; subst; try (constructor; auto; fail).
  - econstructor; [apply FL; eassumption|apply HC].
  - econstructor; [apply FL; eassumption|apply HC].
Qed.

(** ** Range *)

Lemma fold_mod {B} (M : N) (f : N -> B -> N) l : forall s, 0 < M -> s < M ->
  fold_left (fun sum c => f sum c mod M) l s < M.
Proof.
  induction l as [|a l IH]; intros s HM Hs; [exact Hs|].
  cbn [fold_left]. apply IH; [assumption|]. apply N.mod_lt. lia.
Qed.
Lemma symname_bound s : forall sum, sum < Dt.MAGIC -> Dt.hash_symname sum s < Dt.MAGIC.
Proof.
  assert (B : forall a, a mod Dt.MAGIC < Dt.MAGIC) by (intros; now apply N.mod_lt).
  assert (G : forall n s sum, (length s <= n)%nat -> sum < Dt.MAGIC -> Dt.hash_symname sum s < Dt.MAGIC).
  { clear s. induction n as [|n IH]; intros [|a s] sum L Hs; cbn [Dt.hash_symname]; try assumption.
    - cbn in L. lia.
    - cbn [length] in L.
      destruct (a =? 0); [assumption|]. destruct (a <? 0x80); [apply IH; [lia|apply B]|].
      destruct (a <? 0xe0).
      + destruct s as [|b s]; [apply B|]. apply IH; [cbn in L; lia|apply B].
      + destruct s as [|b [|c s]]; try apply B. apply IH; [cbn in L; lia|apply B]. }
  intros sum. now apply (G (length s)).
Qed.

(** Not a negative fixnum, nor the quoted choice of one. *)
Fixpoint small1 (v : val) : bool :=
  match v with
  | VAtom w => negb (manifest w =? 2) || (0 <=? fix2int w)%Z
  | VQChoice [x] => small1 x
  | _ => true
  end.
Lemma atom1_bound p w : negb (manifest w =? 2) || (0 <=? fix2int w)%Z = true ->
  Dt.hash_atom p Dt.MAGIC 17 w < Dt.MAGIC.
Proof.
  intros H. unfold Dt.hash_atom, Dt.hash_imm.
  destruct (manifest w =? 2).
  - cbn in H. unfold Dt.hash_fix, z32. unfold Dt.MAGIC.
    pose proof (Z.rem_bound_pos (fix2int w) 16777213). 
    rewrite Z.mod_small; lia.
  - destruct (manifest w =? 3); [now apply N.mod_lt|].
    destruct (imm_type w =? 6); [now apply symname_bound|].
    destruct (imm_type w =? 5); [now apply N.mod_lt|].
    destruct ((w =? w_nil) || (w =? w_false)); [reflexivity|]. destruct (w =? w_true); [reflexivity|].
    destruct (w =? w_empty); reflexivity.
Qed.
Lemma walk1_bound h v : forall s, s < Dt.MAGIC -> walk1 h v s < Dt.MAGIC.
Proof.
  assert (B : forall a, a mod Dt.MAGIC < Dt.MAGIC) by (intros; now apply N.mod_lt).
  induction v using val_ind'; intros s0 Hs; cbn [walk1]; try apply B; try (apply IHv2; apply B).
  destruct (w =? w_nil); [assumption|apply B].
Qed.
Lemma hash1_bound p d v : small1 v = true -> Dt.hash_lisp1 p d v < Dt.MAGIC.
Proof.
  assert (B : forall a, a mod Dt.MAGIC < Dt.MAGIC) by (intros; now apply N.mod_lt).
  induction v using val_ind'; intros HS; rewrite hash1_eq; cbv zeta.
  - now apply atom1_bound.
  - destruct n as [[z|n e|f]|re im]; cbn [Dt.hash_num1 Dt.hash_real1]; try apply B. reflexivity.
  - unfold Dt.hash_string. destruct (existsb _ s);
      [unfold Dt.hash_unicode1|unfold Dt.hash_string1]; apply fold_mod; reflexivity.
  - destruct b; [reflexivity|]. unfold Dt.hash_packet. apply fold_mod; reflexivity.
  - now apply walk1_bound.
  - unfold Dt.hash_vector1. apply fold_mod; reflexivity.
  - unfold Dt.hash_choice1. apply fold_mod; reflexivity.
  - destruct l as [|x [|y l]]; cbn [map qval].
    + now apply atom1_bound.
    + inversion H; subst. auto.
    + unfold Dt.hash_choice1. apply fold_mod; reflexivity.
  - reflexivity.
  - reflexivity.
Qed.

