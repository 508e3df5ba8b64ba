(** * Order laws of the value comparison. *)
From Verif Require Import ValueModel.
From Coq Require Import SpecFloat ZifyBool ZifyNat ZifyN Znumtheory.
Local Open Scope N_scope.

(** ** Induction over values *)
Section ValInd.
Variable P : val -> Prop.
Hypothesis Hatom : forall w, P (VAtom w).
Hypothesis Hnum : forall n, P (VNum n).
Hypothesis Hstr : forall s, P (VStr s).
Hypothesis Hpkt : forall b s, P (VPacket b s).
Hypothesis Hpair : forall a b, P a -> P b -> P (VPair a b).
Hypothesis Hvec : forall l, Forall P l -> P (VVec l).
Hypothesis Hch : forall l, Forall P l -> P (VChoice l).
Hypothesis Hqch : forall l, Forall P l -> P (VQChoice l).
Hypothesis Hcomp : forall t l, P t -> Forall P l -> P (VCompound t l).
Hypothesis Hother : forall t a, P (VOther t a).
Fixpoint val_ind' (v : val) : P v :=
  let lst := fix lst (l : list val) : Forall P l :=
    match l with [] => Forall_nil P | a :: r => Forall_cons a (val_ind' a) (lst r) end in
  match v with
  | VAtom w => Hatom w
  | VNum n => Hnum n
  | VStr s => Hstr s
  | VPacket b s => Hpkt b s
  | VPair a b => Hpair a b (val_ind' a) (val_ind' b)
  | VVec l => Hvec l (lst l)
  | VChoice l => Hch l (lst l)
  | VQChoice l => Hqch l (lst l)
  | VCompound t l => Hcomp t l (val_ind' t) (lst l)
  | VOther t a => Hother t a
  end.
End ValInd.

(** ** Well formed values *)

(** Exact heap numbers in canonical form. *)
Definition num_ok (n : num) : bool :=
  match n with
  | NReal (RInt _) => true
  | NReal (RRat n d) => (1 <? d)%Z && (Z.gcd n d =? 1)%Z
  | _ => false
  end.
(** A heap type without comparator of its own: none of the modelled codes. *)
Definition other_type_ok (t : N) : bool :=
  (0x84 <? t) &&
  negb (existsb (N.eqb t) [0x84; 0x85; 0x86; 0x88; 0x8A; 0x8B; 0x8C; 0x8E; 0x90; 0xA6; 0xA7; 0xA8]).
Fixpoint vok (v : val) : bool :=
  let all := fix all (l : list val) : bool :=
    match l with [] => true | a :: r => vok a && all r end in
  match v with
  | VAtom _ => true
  | VNum n => num_ok n
  | VStr s => forallb (fun b => negb (b =? 0)) s
  | VPacket _ _ => true
  | VPair a b => vok a && vok b
  | VVec l => all l
  | VChoice l => all l
  | VQChoice l => all l
  | VCompound t l => vok t && all l
  | VOther t _ => other_type_ok t
  end.

Lemma vok_all l : (fix all (l : list val) : bool :=
    match l with [] => true | a :: r => vok a && all r end) l = forallb vok l.
Proof. induction l as [|a l IH]; [reflexivity|]. cbn. now rewrite IH. Qed.

Lemma vok_eq v : vok v = match v with
  | VAtom _ => true
  | VNum n => num_ok n
  | VStr s => forallb (fun b => negb (b =? 0)) s
  | VPacket _ _ => true
  | VPair a b => vok a && vok b
  | VVec l => forallb vok l
  | VChoice l => forallb vok l
  | VQChoice l => forallb vok l
  | VCompound t l => vok t && forallb vok l
  | VOther t _ => other_type_ok t
  end.
Proof. destruct v; try reflexivity; cbn [vok]; now rewrite vok_all. Qed.

(** ** The comparison unfolded, by rank *)

Definition lex (c d : comparison) : comparison := match c with Eq => d | Lt => Lt | Gt => Gt end.

Definition rank (x : val) : N :=
  match x with VAtom _ => 0 | VNum _ => 1 | _ => typecode x end.

Definition same (x y : val) : comparison :=
  match x, y with
  | VAtom a, VAtom b => N.compare a b
  | VNum a, VNum b => numcompare a b
  | VPair a b, VPair c d => lex (qcompare a c) (qcompare b d)
  | VStr s, VStr t => lex (len_compare s t) (strncmp s t)
  | VPacket _ s, VPacket _ t => lex (len_compare s t) (memcmp s t)
  | VVec l, VVec m => lex (len_compare l m) (qcompare_list l m)
  | VChoice l, VChoice m => lex (len_compare l m) (qcompare_list l m)
  | VQChoice l, VQChoice m => lex (len_compare l m) (qcompare_list l m)
  | VCompound t l, VCompound u m =>
    lex (qcompare t u) (lex (len_compare l m) (qcompare_list l m))
  | VOther _ a, VOther _ b => N.compare a b
  | _, _ => Eq
  end.

Lemma inner_list l : forall m, (fix list_cmp (l m : list val) {struct l} : comparison :=
    match l, m with
    | a :: l', b :: m' => match qcompare a b with Eq => list_cmp l' m' | c => c end
    | _, _ => Eq
    end) l m = qcompare_list l m.
Proof. reflexivity. Qed.

Lemma rank_ok x : vok x = true -> 
  match x with VAtom _ => rank x = 0 | VNum _ => rank x = 1 | _ => 1 < rank x end.
Proof.
  destruct x as [w|[[z|a b|f]|re im]|s|[]|a b|l|l|l|t l|t a]; cbn; try reflexivity; try lia.
  unfold other_type_ok. lia.
Qed.

Lemma qcompare_rank x y : vok x = true -> vok y = true ->
  qcompare x y = lex (N.compare (rank x) (rank y)) (same x y).
Proof.
  intros Hx Hy. apply rank_ok in Hx. apply rank_ok in Hy.
  destruct x, y; cbn [qcompare same rank] in *; rewrite ?inner_list; unfold lex;
    try reflexivity;
    match goal with
    | |- _ = match N.compare ?a ?b with _ => _ end =>
      destruct (N.compare_spec a b); try reflexivity; exfalso; cbn in *; lia
    end.
Qed.

(** Same rank means same constructor. *)
Lemma rank_same x y : vok x = true -> vok y = true -> rank x = rank y ->
  match x, y with
  | VAtom _, VAtom _ | VNum _, VNum _ | VStr _, VStr _ | VPair _ _, VPair _ _
  | VVec _, VVec _ | VChoice _, VChoice _ | VQChoice _, VQChoice _
  | VCompound _ _, VCompound _ _ => True
  | VPacket a _, VPacket b _ => a = b
  | VOther t _, VOther u _ => t = u
  | _, _ => False
  end.
Proof.
  intros Hx Hy E.
  assert (Hot : forall t, other_type_ok t = true ->
    0x84 < t /\ t <> 0x85 /\ t <> 0x86 /\ t <> 0x88 /\ t <> 0x8A /\ t <> 0x8B /\ t <> 0x8C
    /\ t <> 0x8E /\ t <> 0x90 /\ t <> 0xA6 /\ t <> 0xA7 /\ t <> 0xA8).
  { intros t. unfold other_type_ok, existsb. lia. }
  destruct x as [w|[[z|a b|f]|re im]|s|[]|a b|l|l|l|t l|t a];
  destruct y as [w'|[[z'|a' b'|f']|re' im']|s'|[]|a' b'|l'|l'|l'|t' l'|t' a'];
  cbn [rank typecode] in E; try exact I; try discriminate E; try reflexivity; try exact E;
  cbn [vok] in Hx, Hy;
  try (specialize (Hot _ Hx)); try (specialize (Hot _ Hy)); try lia.
Qed.

(** ** Component laws *)

Lemma lex_opp c d : CompOpp (lex c d) = lex (CompOpp c) (CompOpp d).
Proof. destruct c; reflexivity. Qed.

Lemma lex_trans (c1 c2 c3 d1 d2 d3 : comparison) :
  (c1 = Eq -> c3 = c2) -> (c2 = Eq -> c3 = c1) -> (c1 = Lt -> c2 = Lt -> c3 = Lt) ->
  (c1 = Eq -> c2 = Eq -> d1 = Lt -> d2 = Lt -> d3 = Lt) ->
  lex c1 d1 = Lt -> lex c2 d2 = Lt -> lex c3 d3 = Lt.
Proof.
  intros H1 H2 H3 H4.
  destruct c1, c2; cbn [lex]; intros E1 E2; try discriminate.
  - rewrite (H1 eq_refl). cbn. auto.
  - rewrite (H1 eq_refl). reflexivity.
  - rewrite (H2 eq_refl). reflexivity.
  - rewrite (H3 eq_refl eq_refl). reflexivity.
Qed.

Lemma Ncompare_trans a b c : N.compare a b = Lt -> N.compare b c = Lt -> N.compare a c = Lt.
Proof. rewrite !N.compare_lt_iff. lia. Qed.

Lemma len_compare_opp {A} (x y : list A) : len_compare y x = CompOpp (len_compare x y).
Proof. unfold len_compare. apply Nat.compare_antisym. Qed.
Lemma len_compare_eq {A} (x y : list A) : len_compare x y = Eq <-> length x = length y.
Proof. unfold len_compare. apply Nat.compare_eq_iff. Qed.
Lemma len_compare_lt {A} (x y : list A) : len_compare x y = Lt <-> (length x < length y)%nat.
Proof. unfold len_compare. apply Nat.compare_lt_iff. Qed.

Lemma strncmp_opp x : forall y, strncmp y x = CompOpp (strncmp x y).
Proof.
  induction x as [|a x IH]; intros [|b y]; try reflexivity. cbn.
  rewrite (N.compare_antisym a b). destruct (N.compare_spec a b); cbn; try reflexivity.
  subst. destruct (b =? 0); [reflexivity|apply IH].
Qed.
Lemma memcmp_opp x : forall y, memcmp y x = CompOpp (memcmp x y).
Proof.
  induction x as [|a x IH]; intros [|b y]; try reflexivity. cbn.
  rewrite (N.compare_antisym a b). destruct (N.compare_spec a b); cbn; try reflexivity. apply IH.
Qed.
Lemma memcmp_eq x : forall y, memcmp x y = Eq <-> x = y.
Proof.
  induction x as [|a x IH]; intros [|b y]; cbn; try (split; [discriminate|discriminate]); [tauto|].
  destruct (N.compare_spec a b); [|split; [discriminate|intros E; inversion E; lia]..].
  rewrite IH. subst. split; [intros ->; reflexivity|intros E; now inversion E].
Qed.
Lemma memcmp_trans x : forall y z, memcmp x y = Lt -> memcmp y z = Lt -> memcmp x z = Lt.
Proof.
  induction x as [|a x IH]; intros [|b y] [|c z]; cbn; try discriminate; try reflexivity.
  destruct (N.compare_spec a b), (N.compare_spec b c), (N.compare_spec a c); try discriminate;
    try reflexivity; try lia. apply IH.
Qed.
Lemma strncmp_memcmp x : forallb (fun b => negb (b =? 0)) x = true ->
  forall y, strncmp x y = memcmp x y.
Proof.
  induction x as [|a x IH]; intros H [|b y]; try reflexivity. cbn in *.
  apply andb_true_iff in H. destruct H as [H1 H2].
  destruct (a =? 0); [discriminate|]. destruct (N.compare a b); try reflexivity. now apply IH.
Qed.

(** Exact numbers. *)
Definition exact (n : num) : Z * Z :=
  match n with NReal r => rat_parts r | NCpx _ _ => (0, 1)%Z end.

Lemma numcompare_exact x y : num_ok x = true -> num_ok y = true ->
  numcompare x y = Z.compare (fst (exact x) * snd (exact y)) (fst (exact y) * snd (exact x))%Z
  /\ (0 < snd (exact x))%Z.
Proof.
  destruct x as [[zx|nx dx|fx]|rx ix]; try discriminate;
  destruct y as [[zy|ny dy|fy]|ry iy]; try discriminate; intros Hx Hy;
  cbn [num_ok] in *; cbn [exact rat_parts fst snd]; (split; [|lia]);
  unfold numcompare, sub_sign, rat_parts; cbn [isflo orb];
  match goal with |- match ?a with _ => _ end = ?b =>
    let E := fresh in assert (E : a = b); [|rewrite E; destruct b; reflexivity] end.
  all: match goal with |- (?p - ?q ?= 0)%Z = _ =>
    destruct (Z.compare_spec (p - q) 0), (Z.compare_spec p q); try reflexivity; exfalso; lia end.
Qed.

Lemma exact_inj x y : num_ok x = true -> num_ok y = true ->
  (fst (exact x) * snd (exact y) = fst (exact y) * snd (exact x))%Z -> x = y.
Proof.
  destruct x as [[zx|nx dx|fx]|rx ix]; try discriminate;
  destruct y as [[zy|ny dy|fy]|ry iy]; try discriminate; intros Hx Hy;
  cbn [num_ok] in *; cbn [exact rat_parts fst snd]; intros E.
  - f_equal. f_equal. lia.
  - exfalso. apply andb_true_iff in Hy. destruct Hy as [H1 H2].
    assert (Hg : (Z.gcd ny dy = 1)%Z) by lia.
    assert (Hd : (dy | ny)%Z) by (exists zx; lia).
    apply Z.divide_gcd_iff in Hd; [|lia]. rewrite Z.gcd_comm in Hd. lia.
  - exfalso. apply andb_true_iff in Hx. destruct Hx as [H1 H2].
    assert (Hg : (Z.gcd nx dx = 1)%Z) by lia.
    assert (Hd : (dx | nx)%Z) by (exists zy; lia).
    apply Z.divide_gcd_iff in Hd; [|lia]. rewrite Z.gcd_comm in Hd. lia.
  - apply andb_true_iff in Hx. destruct Hx as [Hx1 Hx2].
    apply andb_true_iff in Hy. destruct Hy as [Hy1 Hy2].
    assert (Gx : (Z.gcd nx dx = 1)%Z) by lia. assert (Gy : (Z.gcd ny dy = 1)%Z) by lia.
    assert (D1 : (dx | dy)%Z).
    { apply Z.gauss with nx; [exists ny; lia|]. now rewrite Z.gcd_comm. }
    assert (D2 : (dy | dx)%Z).
    { apply Z.gauss with ny; [exists nx; lia|]. now rewrite Z.gcd_comm. }
    assert (dx = dy) by (apply Z.divide_antisym_nonneg; lia || assumption).
    subst dy. assert (nx = ny) by nia. now subst.
Qed.

Lemma numcompare_opp x y : num_ok x = true -> num_ok y = true ->
  numcompare y x = CompOpp (numcompare x y).
Proof.
  intros Hx Hy. destruct (numcompare_exact x y Hx Hy) as [-> _].
  destruct (numcompare_exact y x Hy Hx) as [-> _]. apply Z.compare_antisym.
Qed.
Lemma numcompare_eq x y : num_ok x = true -> num_ok y = true ->
  (numcompare x y = Eq <-> x = y).
Proof.
  intros Hx Hy. destruct (numcompare_exact x y Hx Hy) as [-> _].
  rewrite Z.compare_eq_iff. split; [now apply exact_inj|now intros ->].
Qed.
Lemma numcompare_trans x y z : num_ok x = true -> num_ok y = true -> num_ok z = true ->
  numcompare x y = Lt -> numcompare y z = Lt -> numcompare x z = Lt.
Proof.
  intros Hx Hy Hz. destruct (numcompare_exact x y Hx Hy) as [-> Px].
  destruct (numcompare_exact y z Hy Hz) as [-> Py].
  destruct (numcompare_exact x z Hx Hz) as [-> _].
  destruct (numcompare_exact z z Hz Hz) as [_ Pz].
  rewrite !Z.compare_lt_iff.
  destruct (exact x) as [xn xd], (exact y) as [yn yd], (exact z) as [zn zd]. cbn [fst snd] in *.
  intros H1 H2.
  assert (H3 : (yd * (xn * zd) < yd * (zn * xd))%Z) by nia. nia.
Qed.

(** ** The laws *)

Definition opp_at x := forall y, vok x = true -> vok y = true ->
  qcompare y x = CompOpp (qcompare x y).
Definition eq_at x := forall y, vok x = true -> vok y = true ->
  (qcompare x y = Eq <-> x = y).
Definition trans_at x := forall y z, vok x = true -> vok y = true -> vok z = true ->
  qcompare x y = Lt -> qcompare y z = Lt -> qcompare x z = Lt.

Lemma list_opp l : Forall opp_at l -> forall m, forallb vok l = true -> forallb vok m = true ->
  qcompare_list m l = CompOpp (qcompare_list l m).
Proof.
  induction 1 as [|a l Ha _ IH]; intros [|b m] Hl Hm; try reflexivity.
  cbn in *. apply andb_true_iff in Hl, Hm. destruct Hl, Hm.
  rewrite (Ha b) by assumption. destruct (qcompare a b); cbn; try reflexivity. now apply IH.
Qed.

Lemma list_eq l : Forall eq_at l -> forall m, forallb vok l = true -> forallb vok m = true ->
  length l = length m -> (qcompare_list l m = Eq <-> l = m).
Proof.
  induction 1 as [|a l Ha _ IH]; intros [|b m] Hl Hm E; try discriminate; [cbn; tauto|].
  cbn in *. apply andb_true_iff in Hl, Hm. destruct Hl, Hm. inversion E.
  specialize (Ha b). destruct (qcompare a b); cbn.
  - rewrite IH by assumption. destruct Ha as [Ha _]; try assumption. rewrite Ha by reflexivity.
    split; [now intros ->|intros E1; now inversion E1].
  - split; [discriminate|]. intros E1; inversion E1; subst. assert (Lt = Eq) by now apply Ha. discriminate.
  - split; [discriminate|]. intros E1; inversion E1; subst. assert (Gt = Eq) by now apply Ha. discriminate.
Qed.

Lemma eq_trans3 x y z : eq_at x -> eq_at y -> opp_at x -> vok x = true -> vok y = true -> vok z = true ->
  (qcompare x y = Eq -> qcompare x z = qcompare y z) /\
  (qcompare y z = Eq -> qcompare x z = qcompare x y).
Proof.
  intros Hx Hy Ho Ox Oy Oz. split; intros E.
  - apply Hx in E; [now subst|assumption..].
  - apply Hy in E; [now subst|assumption..].
Qed.

Lemma list_trans l : Forall eq_at l -> Forall trans_at l ->
  forall m n, Forall eq_at m ->
  forallb vok l = true -> forallb vok m = true -> forallb vok n = true ->
  length l = length m -> length m = length n ->
  qcompare_list l m = Lt -> qcompare_list m n = Lt -> qcompare_list l n = Lt.
Proof.
  intros He Ht. induction l as [|a l IH]; intros [|b m] [|c n] Hem Hl Hm Hn E1 E2;
    cbn; try discriminate.
  cbn in Hl, Hm, Hn. apply andb_true_iff in Hl, Hm, Hn.
  destruct Hl as [La Ll], Hm as [Lb Lm], Hn as [Lc Ln].
  inversion He as [|? ? Ha He']; subst. inversion Ht as [|? ? Ta Ht']; subst.
  inversion Hem as [|? ? Hb Hem']; subst. inversion E1. inversion E2.
  apply (lex_trans (qcompare a b) (qcompare b c) (qcompare a c)).
  - intros E. apply Ha in E; [now subst|assumption..].
  - intros E. apply Hb in E; [now subst|assumption..].
  - apply Ta; assumption.
  - intros _ _. apply IH; assumption.
Qed.

Lemma qcompare_opp x : opp_at x.
Proof.
  induction x using val_ind'; intros y Hx Hy;
  rewrite (qcompare_rank _ _ Hy Hx), (qcompare_rank _ _ Hx Hy), lex_opp;
  rewrite (N.compare_antisym (rank _) (rank y));
  match goal with |- lex ?c _ = lex ?c _ => destruct c eqn:E; try reflexivity end;
  cbn [lex]; rewrite <- N.compare_antisym in E; apply N.compare_eq_iff in E;
  pose proof (rank_same _ _ Hy Hx E) as RS;
  destruct y; try contradiction RS; cbn [same]; rewrite vok_eq in Hx, Hy;
  rewrite ?lex_opp.
  - apply N.compare_antisym.
  - apply numcompare_opp; assumption.
  - rewrite (len_compare_opp s s0), (strncmp_opp s s0). reflexivity.
  - rewrite (len_compare_opp s s0), (memcmp_opp s s0). reflexivity.
  - apply andb_true_iff in Hx, Hy. destruct Hx, Hy.
    rewrite (IHx1 y1), (IHx2 y2) by assumption. reflexivity.
  - rewrite (len_compare_opp l l0), (list_opp l H l0) by assumption. reflexivity.
  - rewrite (len_compare_opp l l0), (list_opp l H l0) by assumption. reflexivity.
  - rewrite (len_compare_opp l l0), (list_opp l H l0) by assumption. reflexivity.
  - apply andb_true_iff in Hx, Hy. destruct Hx, Hy.
    rewrite (IHx y), (len_compare_opp l l0), (list_opp l H l0) by assumption. reflexivity.
  - apply N.compare_antisym.
Qed.

Lemma lex_eq c d : lex c d = Eq <-> c = Eq /\ d = Eq.
Proof. destruct c; cbn; intuition discriminate. Qed.

Lemma len_list_eq l m : Forall eq_at l -> forallb vok l = true -> forallb vok m = true ->
  (lex (len_compare l m) (qcompare_list l m) = Eq <-> l = m).
Proof.
  intros H Hl Hm. rewrite lex_eq, len_compare_eq. split.
  - intros [E1 E2]. now apply (list_eq l H m Hl Hm E1).
  - intros ->. split; [reflexivity|]. now apply (list_eq m H m).
Qed.

Lemma qcompare_eq x : eq_at x.
Proof.
  induction x using val_ind'; intros y Hx Hy;
  rewrite (qcompare_rank _ _ Hx Hy), lex_eq, N.compare_eq_iff;
  (split; [intros [E E2]|intros <-; split; [reflexivity|]]);
  try (pose proof (rank_same _ _ Hx Hy E) as RS; destruct y; try contradiction RS);
  cbn [same] in *; rewrite vok_eq in Hx, Hy.
  - apply N.compare_eq_iff in E2. now subst.
  - apply N.compare_refl.
  - f_equal. now apply numcompare_eq.
  - now apply numcompare_eq.
  - rewrite strncmp_memcmp in E2 by assumption. apply lex_eq in E2. destruct E2 as [_ E2].
    apply memcmp_eq in E2. now subst.
  - rewrite strncmp_memcmp by assumption. apply lex_eq. now rewrite len_compare_eq, memcmp_eq.
  - subst. apply lex_eq in E2. destruct E2 as [_ E2].
    apply memcmp_eq in E2. now subst.
  - apply lex_eq. now rewrite len_compare_eq, memcmp_eq.
  - apply lex_eq in E2. destruct E2 as [E1 E2]. apply andb_true_iff in Hx, Hy. destruct Hx, Hy.
    apply IHx1 in E1; [|assumption..]. apply IHx2 in E2; [|assumption..]. now subst.
  - apply andb_true_iff in Hx. destruct Hx. apply lex_eq. split; [now apply IHx1|now apply IHx2].
  - apply len_list_eq in E2; [now subst|assumption..].
  - now apply len_list_eq.
  - apply len_list_eq in E2; [now subst|assumption..].
  - now apply len_list_eq.
  - apply len_list_eq in E2; [now subst|assumption..].
  - now apply len_list_eq.
  - apply lex_eq in E2. destruct E2 as [E1 E2]. apply andb_true_iff in Hx, Hy. destruct Hx, Hy.
    apply IHx in E1; [|assumption..]. apply len_list_eq in E2; [now subst|assumption..].
  - apply andb_true_iff in Hx. destruct Hx. apply lex_eq. split; [now apply IHx|now apply len_list_eq].
  - apply N.compare_eq_iff in E2. now subst.
  - apply N.compare_refl.
Qed.

Lemma forall_eq_at l : Forall eq_at l.
Proof. apply Forall_forall. intros x _. apply qcompare_eq. Qed.

Lemma len_list_trans l m n : Forall trans_at l ->
  forallb vok l = true -> forallb vok m = true -> forallb vok n = true ->
  lex (len_compare l m) (qcompare_list l m) = Lt ->
  lex (len_compare m n) (qcompare_list m n) = Lt ->
  lex (len_compare l n) (qcompare_list l n) = Lt.
Proof.
  intros Ht Hl Hm Hn.
  destruct (len_compare l m) eqn:C1; cbn [lex]; try discriminate;
  destruct (len_compare m n) eqn:C2; cbn [lex]; try discriminate.
  - apply len_compare_eq in C1, C2. intros E1 E2.
    assert (C3 : len_compare l n = Eq) by (apply len_compare_eq; congruence).
    rewrite C3. cbn.
    now apply (list_trans l (forall_eq_at l) Ht m n (forall_eq_at m)).
  - apply len_compare_eq in C1. apply len_compare_lt in C2. intros _ _.
    assert (C3 : len_compare l n = Lt) by (apply len_compare_lt; lia). now rewrite C3.
  - apply len_compare_eq in C2. apply len_compare_lt in C1. intros _ _.
    assert (C3 : len_compare l n = Lt) by (apply len_compare_lt; lia). now rewrite C3.
  - apply len_compare_lt in C1, C2. intros _ _.
    assert (C3 : len_compare l n = Lt) by (apply len_compare_lt; lia). now rewrite C3.
Qed.

Lemma len_mem_trans l m n :
  lex (len_compare l m) (memcmp l m) = Lt ->
  lex (len_compare m n) (memcmp m n) = Lt ->
  lex (len_compare l n) (memcmp l n) = Lt.
Proof.
  apply lex_trans.
  - intros E. apply len_compare_eq in E. unfold len_compare. now rewrite E.
  - intros E. apply len_compare_eq in E. unfold len_compare. now rewrite E.
  - rewrite !len_compare_lt. lia.
  - intros _ _. apply memcmp_trans.
Qed.

Lemma qcompare_trans x : trans_at x.
Proof.
  induction x using val_ind'; intros y z Hx Hy Hz;
  rewrite (qcompare_rank _ _ Hx Hy), (qcompare_rank _ _ Hy Hz), (qcompare_rank _ _ Hx Hz);
  (apply lex_trans;
   [intros E; apply N.compare_eq_iff in E; now rewrite E
   |intros E; apply N.compare_eq_iff in E; now rewrite E
   |apply Ncompare_trans|]);
  intros E1 E2; apply N.compare_eq_iff in E1, E2;
  pose proof (rank_same _ _ Hx Hy E1) as RS1; destruct y; try contradiction RS1;
  pose proof (rank_same _ _ Hy Hz E2) as RS2; destruct z; try contradiction RS2;
  cbn [same]; rewrite vok_eq in Hx, Hy, Hz.
  - apply Ncompare_trans.
  - now apply numcompare_trans.
  - rewrite !strncmp_memcmp by assumption. apply len_mem_trans.
  - apply len_mem_trans.
  - apply andb_true_iff in Hx, Hy, Hz. destruct Hx, Hy, Hz. apply lex_trans.
    + intros E. apply qcompare_eq in E; [now subst|assumption..].
    + intros E. apply qcompare_eq in E; [now subst|assumption..].
    + apply IHx1; assumption.
    + intros _ _. apply IHx2; assumption.
  - apply len_list_trans; assumption.
  - apply len_list_trans; assumption.
  - apply len_list_trans; assumption.
  - apply andb_true_iff in Hx, Hy, Hz. destruct Hx, Hy, Hz. apply lex_trans.
    + intros E. apply qcompare_eq in E; [now subst|assumption..].
    + intros E. apply qcompare_eq in E; [now subst|assumption..].
    + apply IHx; assumption.
    + intros _ _. apply len_list_trans; assumption.
  - apply Ncompare_trans.
Qed.

(** ** The inlined versions agree *)

Lemma sub_list_ext f g l : (forall x y, f x y = g x y) -> forall m, sub_list f l m = sub_list g l m.
Proof.
  intros H. induction l as [|a l IH]; intros [|b m]; try reflexivity. cbn.
  rewrite H, IH. reflexivity.
Qed.

Lemma sub_list_q l : forall m, sub_list qcompare l m = qcompare_list l m.
Proof. reflexivity. Qed.

Lemma base_compare_q x y : base_compare x y = qcompare x y.
Proof.
  unfold base_compare, inline_compare.
  destruct x, y; try reflexivity;
  cbn [qcompare typecode]; rewrite ?inner_list, ?sub_list_q; try reflexivity;
  match goal with |- match ?c with _ => _ end = match ?c with _ => _ end => destruct c; reflexivity end.
Qed.

Lemma cons_compare_q x y : cons_compare x y = qcompare x y.
Proof.
  rewrite <- base_compare_q. unfold cons_compare, base_compare at 2, inline_compare.
  destruct x, y; try reflexivity;
  match goal with |- match ?c with _ => _ end = match ?c with _ => _ end => destruct c; try reflexivity end.
  - rewrite !base_compare_q. reflexivity.
  - rewrite (sub_list_ext base_compare qcompare) by apply base_compare_q. reflexivity.
Qed.

(** ** lispval_equal *)

(** No secrets and no compounds, at any depth: the values on which lispval_equal
    and the comparison can be expected to agree. *)
Fixpoint plain (v : val) : bool :=
  let all := fix all (l : list val) : bool :=
    match l with [] => true | a :: r => plain a && all r end in
  match v with
  | VPacket true _ => false
  | VPair a b => plain a && plain b
  | VVec l => all l
  | VChoice l => all l
  | VQChoice l => all l
  | VCompound _ _ => false
  | _ => true
  end.
Lemma plain_all l : (fix all (l : list val) : bool :=
    match l with [] => true | a :: r => plain a && all r end) l = forallb plain l.
Proof. induction l as [|a l IH]; [reflexivity|]. cbn. now rewrite IH. Qed.

Fixpoint lequal_list (l m : list val) : bool :=
  match l, m with
  | a :: l', b :: m' => if lequal a b then lequal_list l' m' else false
  | _, _ => true
  end.

Lemma lequal_list_spec l :
  Forall (fun x => forall y, vok x = true -> vok y = true -> plain x = true -> plain y = true ->
                   (lequal x y = true <-> x = y)) l ->
  forall m, forallb vok l = true -> forallb vok m = true ->
    forallb plain l = true -> forallb plain m = true ->
    ((if Nat.eqb (length l) (length m) then lequal_list l m else false) = true <-> l = m).
Proof.
  induction 1 as [|a l Ha _ IH]; intros [|b m] Vl Vm Pl Pm; cbn in *;
    try (split; [discriminate|discriminate]); [tauto|].
  apply andb_true_iff in Vl, Vm, Pl, Pm. destruct Vl, Vm, Pl, Pm.
  specialize (IH m). destruct (Nat.eqb (length l) (length m)).
  - destruct (lequal a b) eqn:E.
    + apply Ha in E; [|assumption..]. subst. rewrite IH by assumption.
      split; [now intros ->|intros E; now inversion E].
    + split; [discriminate|]. intros E1. inversion E1; subst.
      assert (lequal b b = true) by now apply Ha. congruence.
  - split; [discriminate|]. intros E1. inversion E1; subst.
    assert (false = true) by now apply IH. discriminate.
Qed.

Lemma lequal_spec x : forall y, vok x = true -> vok y = true -> plain x = true -> plain y = true ->
  (lequal x y = true <-> x = y).
Proof.
  induction x using val_ind'; intros y Hx Hy Px Py;
  destruct y; try (split; [discriminate|discriminate]);
  rewrite vok_eq in Hx, Hy; cbn [lequal plain] in *;
  rewrite ?plain_all in *.
  - rewrite N.eqb_eq. split; [now intros ->|intros E; now inversion E].
  - pose proof (numcompare_eq n n0 Hx Hy) as E. destruct (numcompare n n0).
    + split; [|reflexivity]. intros _. f_equal. now apply E.
    + split; [discriminate|]. intros E1. inversion E1. assert (Lt = Eq) by now apply E. discriminate.
    + split; [discriminate|]. intros E1. inversion E1. assert (Gt = Eq) by now apply E. discriminate.
  - rewrite strncmp_memcmp by assumption. destruct (Nat.eqb_spec (length s) (length s0)).
    + pose proof (memcmp_eq s s0) as E. destruct (memcmp s s0).
      * split; [|reflexivity]. intros _. f_equal. now apply E.
      * split; [discriminate|]. intros E1. inversion E1. assert (Lt = Eq) by now apply E. discriminate.
      * split; [discriminate|]. intros E1. inversion E1. assert (Gt = Eq) by now apply E. discriminate.
    + split; [discriminate|]. intros E1. inversion E1. congruence.
  - destruct b, secret; try discriminate. destruct (Nat.eqb_spec (length s) (length s0)).
    + pose proof (memcmp_eq s s0) as E. destruct (memcmp s s0).
      * split; [|reflexivity]. intros _. f_equal. now apply E.
      * split; [discriminate|]. intros E1. inversion E1. assert (Lt = Eq) by now apply E. discriminate.
      * split; [discriminate|]. intros E1. inversion E1. assert (Gt = Eq) by now apply E. discriminate.
    + split; [discriminate|]. intros E1. inversion E1. congruence.
  - apply andb_true_iff in Hx, Hy, Px, Py. destruct Hx, Hy, Px, Py.
    pose proof (IHx1 y1) as E1. pose proof (IHx2 y2) as E2.
    destruct (lequal x1 y1).
    + destruct E1 as [E1 _]; [assumption..|]. rewrite (E1 eq_refl). rewrite E2 by assumption.
      split; [now intros ->|intros E; now inversion E].
    + split; [discriminate|]. intros E. inversion E; subst.
      assert (false = true) by now apply E1. discriminate.
  - pose proof (lequal_list_spec l H l0 Hx Hy Px Py) as E. 
    change ((if Nat.eqb (length l) (length l0) then lequal_list l l0 else false) = true <-> VVec l = VVec l0).
    rewrite E. split; [now intros ->|intros E1; now inversion E1].
  - pose proof (lequal_list_spec l H l0 Hx Hy Px Py) as E. 
    change ((if Nat.eqb (length l) (length l0) then lequal_list l l0 else false) = true <-> VChoice l = VChoice l0).
    rewrite E. split; [now intros ->|intros E1; now inversion E1].
  - pose proof (lequal_list_spec l H l0 Hx Hy Px Py) as E. 
    change ((if Nat.eqb (length l) (length l0) then lequal_list l l0 else false) = true <-> VQChoice l = VQChoice l0).
    rewrite E. split; [now intros ->|intros E1; now inversion E1].
  - rewrite andb_true_iff, !N.eqb_eq. split; [intros [-> ->]; reflexivity|intros E; inversion E; auto].
Qed.
