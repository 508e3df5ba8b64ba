(** Lemmas on bytes, and the relation between a buffered stream and a plain
    file. *)

From Coq Require Import List Arith ZArith NArith Bool Lia ZifyBool ZifyNat.
Import ListNotations.
From Verif Require Import StreamModel StreamSpec.

(** ** Bytes *)

Lemma nth_ext0 : forall (a b : list N),
  length a = length b -> (forall i, nth i a 0%N = nth i b 0%N) -> a = b.
Proof.
  intros a b H E. apply (nth_ext a b 0%N 0%N); auto.
Qed.

Lemma nth_firstn0 : forall (l : list N) n i,
  nth i (firstn n l) 0%N = if i <? n then nth i l 0%N else 0%N.
Proof.
  induction l as [|x l IH]; intros n i.
  - rewrite firstn_nil. destruct i, (_ <? n); reflexivity.
  - destruct n as [|n]; [destruct i; reflexivity|].
    destruct i as [|i]; simpl; [reflexivity|]. rewrite IH. reflexivity.
Qed.

Lemma nth_skipn0 : forall (l : list N) n i, nth i (skipn n l) 0%N = nth (n + i) l 0%N.
Proof.
  induction l as [|x l IH]; intros n i.
  - rewrite skipn_nil. destruct i, (n + _); reflexivity.
  - destruct n as [|n]; simpl; [reflexivity|]. apply IH.
Qed.

Lemma nth_repeat0 : forall n i, nth i (repeat 0%N n) 0%N = 0%N.
Proof. induction n; intros [|i]; simpl; auto. Qed.

Lemma nth_app0 : forall (a b : list N) i,
  nth i (a ++ b) 0%N = if i <? length a then nth i a 0%N else nth (i - length a) b 0%N.
Proof.
  intros. destruct (Nat.ltb_spec i (length a)).
  - apply app_nth1; auto.
  - apply app_nth2; auto.
Qed.

Lemma nth_map_seq0 : forall (f : nat -> N) n i,
  nth i (map f (seq 0 n)) 0%N = if i <? n then f i else 0%N.
Proof.
  intros f n i. destruct (Nat.ltb_spec i n).
  - rewrite nth_indep with (d' := f 0) by (rewrite map_length, seq_length; auto).
    rewrite map_nth, seq_nth by auto. reflexivity.
  - apply nth_overflow. rewrite map_length, seq_length. auto.
Qed.

Lemma len_splice : forall l o bs,
  length (splice l o bs)
  = match bs with [] => length l | _ => Nat.max (length l) (o + length bs) end.
Proof.
  intros l o [|b bs]; [reflexivity|]. unfold splice.
  rewrite !app_length, firstn_length, skipn_length, app_length, repeat_length.
  simpl length. lia.
Qed.

Lemma nth_splice : forall l o bs i,
  nth i (splice l o bs) 0%N
  = if (o <=? i) && (i <? o + length bs) then nth (i - o) bs 0%N else nth i l 0%N.
Proof.
  intros l o [|b bs] i.
  - simpl. destruct (Nat.leb_spec o i), (Nat.ltb_spec i (o + 0)); simpl; auto; lia.
  - unfold splice. set (w := b :: bs) in *. clearbody w.
    rewrite nth_app0, firstn_length, app_length, repeat_length.
    replace (Nat.min o (length l + (o - length l))) with o by lia.
    rewrite nth_firstn0, nth_app0, nth_repeat0, nth_app0, nth_skipn0.
    destruct (Nat.ltb_spec i o).
    + destruct (Nat.leb_spec o i); [lia|]. simpl.
      destruct (Nat.ltb_spec i (length l)); [reflexivity|].
      symmetry. apply nth_overflow. lia.
    + destruct (Nat.leb_spec o i); [|lia]. simpl.
      destruct (Nat.ltb_spec (i - o) (length w)), (Nat.ltb_spec i (o + length w)); try lia;
        try reflexivity; f_equal; lia.
Qed.

Lemma put_splice : forall l o bs, put_at l o bs = splice l o bs.
Proof.
  intros l o bs. apply nth_ext0.
  - rewrite len_splice. destruct bs as [|b bs]; [reflexivity|].
    unfold put_at. rewrite map_length, seq_length. reflexivity.
  - intros i. rewrite nth_splice. destruct bs as [|b bs].
    + simpl. destruct (Nat.leb_spec o i), (Nat.ltb_spec i (o + 0)); simpl; auto; lia.
    + unfold put_at. rewrite nth_map_seq0. set (w := b :: bs). clearbody w.
      destruct (Nat.ltb_spec i (Nat.max (length l) (o + length w))); [reflexivity|].
      destruct (Nat.ltb_spec i (o + length w)); [lia|].
      rewrite andb_false_r. symmetry. apply nth_overflow. lia.
Qed.

Lemma len_slice : forall l o n, length (slice l o n) = Nat.min n (length l - o).
Proof. intros. unfold slice. rewrite firstn_length, skipn_length. reflexivity. Qed.

Lemma nth_slice : forall l o n i,
  nth i (slice l o n) 0%N = if i <? n then nth (o + i) l 0%N else 0%N.
Proof. intros. unfold slice. rewrite nth_firstn0, nth_skipn0. reflexivity. Qed.

Lemma bytes_slice : forall l o n, o + n <= length l \/ n = 0 -> bytes_at l o n = slice l o n.
Proof.
  intros l o n H. apply nth_ext0.
  - unfold bytes_at. rewrite map_length, seq_length, len_slice. lia.
  - intros i. unfold bytes_at. rewrite nth_map_seq0, nth_slice. reflexivity.
Qed.

Lemma splice_nil : forall l o, splice l o [] = l.
Proof. reflexivity. Qed.

Lemma splice_app : forall l o a b,
  splice l o (a ++ b) = splice (splice l o a) (o + length a) b.
Proof.
  intros l o a b. apply nth_ext0.
  - rewrite !len_splice. destruct a as [|x a].
    + simpl. rewrite Nat.add_0_r. reflexivity.
    + destruct b as [|y b].
      * rewrite app_nil_r. simpl length. lia.
      * simpl. rewrite app_length. simpl. lia.
  - intros i. rewrite !nth_splice, app_length, nth_app0.
    destruct (Nat.leb_spec o i), (Nat.ltb_spec i (o + (length a + length b))),
      (Nat.leb_spec (o + length a) i), (Nat.ltb_spec i (o + length a + length b)),
      (Nat.ltb_spec i (o + length a)), (Nat.ltb_spec (i - o) (length a)); simpl; try lia; auto.
    f_equal. lia.
Qed.

Lemma slice_splice_below : forall l o bs p n,
  p + n <= o -> o <= length l -> slice (splice l o bs) p n = slice l p n.
Proof.
  intros l o bs p n H Ho. apply nth_ext0.
  - rewrite !len_slice, len_splice. destruct bs; lia.
  - intros i. rewrite !nth_slice, nth_splice.
    destruct (Nat.ltb_spec i n); [|reflexivity].
    destruct (Nat.leb_spec o (p + i)); [lia|reflexivity].
Qed.

Lemma slice_app : forall l o a b, o + a <= length l ->
  slice l o (a + b) = slice l o a ++ slice l (o + a) b.
Proof.
  intros l o a b H. apply nth_ext0.
  - rewrite app_length, !len_slice. lia.
  - intros i. rewrite nth_app0, !nth_slice, len_slice.
    destruct (Nat.ltb_spec i (a + b)), (Nat.ltb_spec i (Nat.min a (length l - o))),
      (Nat.ltb_spec i a), (Nat.ltb_spec (i - Nat.min a (length l - o)) b);
      try lia; auto. f_equal. lia.
Qed.

Lemma slice_slice : forall l o n p k, p + k <= n ->
  slice (slice l o n) p k = slice l (o + p) k.
Proof.
  intros l o n p k H. apply nth_ext0.
  - rewrite !len_slice. lia.
  - intros i. rewrite !nth_slice.
    destruct (Nat.ltb_spec i k); [|reflexivity].
    destruct (Nat.ltb_spec (p + i) n); [|lia]. f_equal. lia.
Qed.

Lemma skipn_slice : forall l o n k, skipn k (slice l o n) = slice l (o + k) (n - k).
Proof.
  intros. apply nth_ext0.
  - rewrite skipn_length, !len_slice. lia.
  - intros i. rewrite nth_skipn0, !nth_slice.
    destruct (Nat.ltb_spec (k + i) n), (Nat.ltb_spec i (n - k)); try lia; auto.
    f_equal. lia.
Qed.

(** ** The relation *)

Definition dir_ok (p : plain) (s : stream) : Prop :=
  if s.(wrt) then
    (8 <= s.(lim) <= s.(blen) /\ Z.of_nat (length s.(buf)) <= s.(lim))%Z
    /\ p.(cont) = splice s.(disk) s.(fpos) s.(buf)
    /\ p.(pos) = s.(fpos) + length s.(buf)
  else
    s.(pt) <= length s.(buf) /\ length s.(buf) <= s.(fpos)
    /\ s.(buf) = slice s.(disk) (s.(fpos) - length s.(buf)) (length s.(buf))
    /\ p.(cont) = s.(disk)
    /\ p.(pos) + (length s.(buf) - s.(pt)) = s.(fpos).

Definition mode_ok (m : mode) (s : stream) : Prop :=
  match m with
  | RClean => s.(wrt) = false /\ s.(buf) = []
  | RBuf => s.(wrt) = false
  | WClean => s.(wrt) = true /\ s.(buf) = []
  | WBuf => s.(wrt) = true
  | Unk => s.(wrt) = false -> s.(buf) = []
  end.

Record R (p : plain) (s : stream) : Prop := MkR
  { r_ro : s.(ro) = false;
    r_off : s.(off) = s.(fpos);
    r_fpos : s.(fpos) <= length s.(disk);
    r_blen : (8 <= s.(blen))%Z;
    r_stale : p.(stale) = false -> s.(maxp) = length s.(disk);
    r_dir : dir_ok p s;
    r_mode : mode_ok p.(am) s }.

Lemma R_fresh : forall d n c, (8 <= n)%Z -> R (fresh d) (open_stream d n false c).
Proof.
  intros d n c H. constructor; simpl; auto; try lia.
  unfold dir_ok; simpl. repeat split; auto; lia.
Qed.

(** The part of the relation that does not mention the mode. *)
Lemma R_goto : forall p s m, R p s -> mode_ok m s -> R (goto p p.(pos) m) s.
Proof. intros p s m [] H. constructor; auto. Qed.

Lemma R_weak : forall p s, R p s -> goto p p.(pos) p.(am) = p.
Proof. intros [] s _. reflexivity. Qed.

(** ** Flushing *)

Lemma writeall_ok : forall s bs, bs <> [] -> s.(ro) = false ->
  writeall s bs = (set_disk s (splice s.(disk) s.(off) bs) (s.(off) + length bs), true).
Proof. intros s [|b bs] H E; [congruence|]. unfold writeall. rewrite E. reflexivity. Qed.

Lemma flush_ok : forall p s m, R p s ->
  (s.(wrt) = false -> s.(buf) = []) ->
  mode_ok m (set_buf s [] 0) ->
  snd (flush s) = true
  /\ R (goto p p.(pos) m) (fst (flush s))
  /\ (fst (flush s)).(buf) = []
  /\ (fst (flush s)).(wrt) = s.(wrt)
  /\ (fst (flush s)).(disk) = p.(cont)
  /\ (fst (flush s)).(fpos) = p.(pos)
  /\ (fst (flush s)).(lim) = s.(lim)
  /\ (fst (flush s)).(blen) = s.(blen).
Proof.
  intros p s m HR Hb Hm. destruct HR. unfold flush.
  unfold dir_ok in r_dir0.
  destruct (wrt s) eqn:W; cbn [negb].
  - destruct r_dir0 as (Hl & Hc & Hp).
    destruct (buf s) as [|x b] eqn:B.
    + simpl. assert (Hcd : cont p = disk s) by (rewrite Hc; apply splice_nil).
      simpl in Hp. repeat split; auto; try lia.
      * unfold dir_ok; simpl. rewrite W, B. repeat split; try (simpl in *; lia); auto.
      * destruct m; simpl in *; try rewrite W; try rewrite B; auto;
          try (destruct Hm; congruence).
    + assert (Hn : x :: b <> []) by discriminate.
      set (w := x :: b) in *. clearbody w.
      rewrite (writeall_ok s w Hn r_ro0), r_off0. simpl.
      assert (Hln : length (splice (disk s) (fpos s) w)
                    = Nat.max (length (disk s)) (fpos s + length w)).
      { rewrite len_splice. destruct w; [congruence|reflexivity]. }
      repeat split; auto; simpl; try lia.
      unfold dir_ok; simpl. rewrite W. repeat split; simpl; auto; try lia.
  - specialize (Hb eq_refl). destruct r_dir0 as (H1 & H2 & H3 & H4 & H5).
    rewrite Hb in *. simpl in *.
    repeat split; auto; simpl; try lia.
    unfold dir_ok; simpl. rewrite W. simpl. repeat split; auto; lia.
Qed.

(** Flushing an idle reader drops the read buffer and moves to stream_filepos. *)
Lemma flush_reader : forall p s, R p s -> s.(wrt) = false ->
  flush s = (set_buf s [] 0, true) /\ R (goto p s.(fpos) RClean) (set_buf s [] 0).
Proof.
  intros p s HR W. unfold flush. rewrite W. split; [reflexivity|].
  destruct HR. unfold dir_ok in r_dir0. rewrite W in r_dir0.
  destruct r_dir0 as (H1 & H2 & H3 & H4 & H5).
  constructor; simpl; auto. unfold dir_ok; simpl. rewrite W. repeat split; simpl; auto; lia.
Qed.

(** ** Turning round *)

Lemma dir_read_ok : forall p s, R p s -> R (goto p p.(pos) (to_read p.(am))) (dir_read s).
Proof.
  intros p s HR. unfold dir_read. destruct (wrt s) eqn:W; simpl.
  - assert (Hm : mode_ok Unk (set_buf s [] 0)) by (simpl; auto).
    destruct (flush_ok p s Unk HR) as (Hok & HR1 & Hb & Hw & Hd & Hf & Hl & Hbl); auto.
    { congruence. }
    destruct (flush s) as [s1 ok]. simpl in *. subst ok.
    assert (to_read (am p) = RClean) as ->.
    { destruct HR. destruct (am p); simpl in *; auto; first [congruence | destruct r_mode0; congruence]. }
    destruct HR1. simpl in *. unfold dir_ok in r_dir0. simpl in r_dir0.
    rewrite Hw, W in r_dir0. destruct r_dir0 as (A & B & C).
    constructor; simpl; auto; try lia.
    unfold dir_ok; simpl. repeat split; auto; try lia.
  - apply R_goto; auto. destruct HR. destruct (am p); simpl in *; auto; try first [congruence | destruct r_mode0; congruence].
Qed.

Lemma dir_read_dir : forall s p, R p s -> (dir_read s).(wrt) = false.
Proof.
  intros s p HR. apply dir_read_ok in HR. destruct HR.
  simpl in r_mode0. destruct (am p); simpl in *; tauto.
Qed.

(** Turning to writing: the position becomes stream_filepos. *)
Lemma dir_write_ok : forall p s, R p s ->
  R (goto p (if s.(wrt) then p.(pos) else s.(fpos)) (to_write p.(am))) (dir_write s).
Proof.
  intros p s HR. unfold dir_write. destruct HR. rewrite r_ro0. unfold dir_ok in r_dir0.
  destruct (wrt s) eqn:W; simpl.
  - constructor; simpl; auto.
    + unfold dir_ok; simpl. rewrite W. auto.
    + destruct (am p); simpl in *; auto; try congruence; first [congruence | destruct r_mode0; congruence].
  - destruct r_dir0 as (H1 & H2 & H3 & H4 & H5).
    constructor; simpl; auto.
    + unfold dir_ok; simpl. repeat split; auto; lia.
    + destruct (am p); simpl; auto.
Qed.

Lemma dir_write_dir : forall s, s.(ro) = false -> (dir_write s).(wrt) = true.
Proof. intros s H. unfold dir_write. destruct (wrt s) eqn:W; [auto|]. rewrite H. reflexivity. Qed.

Lemma clean_pos : forall p s, R p s -> s.(wrt) = false -> s.(buf) = [] -> s.(fpos) = p.(pos).
Proof.
  intros p s HR W B. destruct HR. unfold dir_ok in r_dir0. rewrite W in r_dir0.
  destruct r_dir0 as (_ & _ & _ & _ & H). rewrite B in H. simpl in H. lia.
Qed.

(** ** Positions *)

Lemma getpos_ok : forall p s, R p s -> getpos s = Z.of_nat p.(pos).
Proof.
  intros p s []. unfold getpos, dir_ok in *.
  destruct (wrt s); [destruct r_dir0 as (_ & _ & H) | destruct r_dir0 as (H1 & H2 & _ & _ & H)]; lia.
Qed.

(** The size seen by the plain file. *)
Lemma size_ok : forall p s, R p s ->
  size p = if s.(wrt) then match s.(buf) with [] => length s.(disk)
                           | b => Nat.max (length s.(disk)) (s.(fpos) + length b) end
           else length s.(disk).
Proof.
  intros p s []. unfold size, dir_ok in *. destruct (wrt s).
  - destruct r_dir0 as (_ & H & _). rewrite H, len_splice. destruct (buf s); reflexivity.
  - destruct r_dir0 as (_ & _ & _ & H & _). rewrite H. reflexivity.
Qed.

Lemma seek_ok : forall p s n, R p s -> s.(buf) = [] -> n <= length s.(disk) ->
  R (goto p n p.(am)) (seek_to s n).
Proof.
  intros p s n HR B H. destruct HR. constructor; simpl; auto.
  - unfold dir_ok in *; simpl. destruct (wrt s).
    + destruct r_dir0 as (H1 & H2 & H3). rewrite B in *. simpl in *. auto.
    + destruct r_dir0 as (H1 & H2 & H3 & H4 & H5). rewrite B in *. simpl in *.
      repeat split; auto; lia.
Qed.

Lemma goto_am : forall p n m, am (goto p n m) = m.
Proof. reflexivity. Qed.

Lemma setpos_slow_ok : forall p s z, R p s -> (0 <= z <= Z.of_nat (size p))%Z ->
  snd (setpos_slow s z) = Some z /\ R (goto p (Z.to_nat z) p.(am)) (fst (setpos_slow s z)).
Proof.
  intros p s z HR Hz. unfold setpos_slow.
  destruct (Z.ltb_spec z 0); [lia|].
  destruct (negb (wrt s) && _ && _) eqn:C; simpl.
  - apply andb_prop in C. destruct C as [C C3]. apply andb_prop in C. destruct C as [C1 C2].
    apply negb_true_iff in C1. split; [reflexivity|].
    destruct HR. unfold dir_ok in r_dir0. rewrite C1 in r_dir0.
    destruct r_dir0 as (H1 & H2 & H3 & H4 & H5).
    constructor; simpl; auto.
    unfold dir_ok; simpl. rewrite C1. repeat split; auto; lia.
  - destruct (wrt s) eqn:W.
    + assert (Hm : mode_ok (flushed (am p)) (set_buf s [] 0)).
      { destruct HR. destruct (am p); simpl in *; auto; try tauto; try congruence. }
      destruct (flush_ok p s (flushed (am p)) HR) as (Hok & HR1 & Hb & Hw & Hd & Hf & _); auto.
      { congruence. }
      destruct (flush s) as [s1 ok]. simpl in *. subst ok. simpl. split; [reflexivity|].
      assert (Hn : Z.to_nat z <= length (disk s1)).
      { rewrite Hd. unfold size in Hz. lia. }
      pose proof (seek_ok _ _ _ HR1 Hb Hn) as HR2. destruct HR2. simpl in *.
      constructor; simpl; auto.
      destruct HR. destruct (am p); simpl in *; auto; try tauto; congruence.
    + destruct (flush_reader p s HR W) as [-> HR1]. simpl. split; [reflexivity|].
      assert (Hn : Z.to_nat z <= length (disk s)).
      { rewrite (size_ok p s HR), W in Hz. lia. }
      pose proof (seek_ok _ (set_buf s [] 0) (Z.to_nat z) HR1 eq_refl Hn) as HR2.
      destruct HR2. simpl in *. constructor; simpl; auto.
      destruct HR. destruct (am p); simpl in *; auto; try tauto; try first [congruence | destruct r_mode1; congruence]; congruence.
Qed.

Lemma setpos_ok : forall p s z, R p s -> (0 <= z <= Z.of_nat (size p))%Z ->
  snd (setpos s z) = Some z /\ R (goto p (Z.to_nat z) p.(am)) (fst (setpos s z)).
Proof.
  intros p s z HR Hz. unfold setpos.
  destruct (Z.ltb_spec z 0); [lia|].
  destruct (negb (wrt s) && _ && _) eqn:C; simpl.
  - apply andb_prop in C. destruct C as [C C3]. apply andb_prop in C. destruct C as [C1 C2].
    apply negb_true_iff in C1. split; [reflexivity|].
    destruct HR. unfold dir_ok in r_dir0. rewrite C1 in r_dir0.
    destruct r_dir0 as (H1 & H2 & H3 & H4 & H5).
    constructor; simpl; auto.
    unfold dir_ok; simpl. rewrite C1. repeat split; auto; lia.
  - rewrite (getpos_ok p s HR). destruct (Z.eqb_spec (Z.of_nat (pos p)) z).
    + simpl. split; [reflexivity|]. replace (Z.to_nat z) with (pos p) by lia.
      rewrite (R_weak p s HR). exact HR.
    + apply setpos_slow_ok; auto.
Qed.

Lemma setpos_neg : forall s z, (z < 0)%Z -> setpos s z = (s, None) /\ setpos_slow s z = (s, None).
Proof.
  intros s z H. unfold setpos, setpos_slow.
  destruct (Z.ltb_spec z 0); [auto|lia].
Qed.

(** When something must be moved, what was pending is flushed. *)
Lemma setpos_flushes : forall p s z, R p s -> s.(wrt) = true ->
  (0 <= z <= Z.of_nat (size p))%Z -> z <> Z.of_nat p.(pos) -> (fst (setpos s z)).(buf) = [].
Proof.
  intros p s z HR W Hz Hn. unfold setpos, setpos_slow. rewrite W. simpl.
  destruct (Z.ltb_spec z 0); [lia|]. rewrite (getpos_ok p s HR).
  destruct (Z.eqb_spec (Z.of_nat (pos p)) z); [congruence|].
  destruct (flush_ok p s Unk HR) as (Hok & HR1 & Hb & _); auto; try congruence.
  { simpl; auto. }
  destruct (flush s) as [s1 ok]. simpl in *. subst ok. simpl. exact Hb.
Qed.

Lemma setpos_wrt : forall p s z, R p s -> (0 <= z <= Z.of_nat (size p))%Z ->
  (fst (setpos s z)).(wrt) = s.(wrt).
Proof.
  intros p s z HR Hz.
  unfold setpos, setpos_slow. destruct (Z.ltb_spec z 0); [lia|].
  destruct (negb (wrt s) && _ && _); [reflexivity|].
  destruct (getpos s =? z)%Z; [reflexivity|].
  destruct (negb (wrt s) && _ && _); [reflexivity|].
  destruct (wrt s) eqn:W.
  - destruct (flush_ok p s Unk HR) as (Hok & _ & _ & Hw & _); try congruence.
    { simpl; auto. }
    destruct (flush s) as [s1 ok]. simpl in *. subst ok. simpl. congruence.
  - destruct (flush_reader p s HR W) as [-> _]. simpl. exact W.
Qed.

Lemma endpos_slow_ok : forall p s, R p s ->
  snd (endpos_slow s) = Z.of_nat (size p)
  /\ R (MkP p.(cont) (size p) (flushed p.(am)) false) (fst (endpos_slow s))
  /\ (fst (endpos_slow s)).(buf) = []
  /\ (fst (endpos_slow s)).(wrt) = s.(wrt).
Proof.
  intros p s HR. unfold endpos_slow.
  destruct (wrt s) eqn:W.
  - assert (Hm : mode_ok (flushed (am p)) (set_buf s [] 0)).
    { destruct HR. destruct (am p); simpl in *; auto; try tauto; try congruence. }
    destruct (flush_ok p s (flushed (am p)) HR) as (Hok & HR1 & Hb & Hw & Hd & Hf & _); auto.
    { congruence. }
    destruct (flush s) as [s1 ok]. simpl in *. unfold size. rewrite Hd.
    split; [reflexivity|]. split; [|split; [exact Hb|congruence]].
    assert (Hn : length (cont p) <= length (disk s1)) by (rewrite Hd; auto).
    pose proof (seek_ok _ _ _ HR1 Hb Hn) as HR2. destruct HR2. simpl in *.
    constructor; simpl; auto. rewrite Hd. reflexivity.
  - destruct (flush_reader p s HR W) as [-> HR1]. simpl.
    rewrite (size_ok p s HR), W. split; [reflexivity|]. split; [|split; [reflexivity|auto]].
    pose proof (seek_ok _ (set_buf s [] 0) (length (disk s)) HR1 eq_refl (le_n _)) as HR2.
    destruct HR2. simpl in *. constructor; simpl; auto.
    destruct HR. destruct (am p); simpl in *; auto; try tauto; try first [congruence | destruct r_mode1; congruence]; congruence.
Qed.

Lemma endpos_ok : forall p s, R p s -> p.(am) <> RBuf -> p.(stale) = false ->
  snd (endpos s) = Z.of_nat (size p) /\ R (goto p (size p) p.(am)) (fst (endpos s))
  /\ (fst (endpos s)).(wrt) = s.(wrt).
Proof.
  intros p s HR Hm Hs. unfold endpos.
  destruct (Nat.eqb_spec (fpos s) (maxp s)) as [E|E].
  - pose proof (size_ok p s HR) as HS. pose proof HR as HR'. destruct HR'.
    rewrite (r_stale0 Hs) in *. unfold dir_ok in r_dir0.
    destruct (wrt s) eqn:W; simpl.
    + destruct r_dir0 as (H1 & H2 & H3).
      assert (size p = pos p) by (destruct (buf s); simpl in *; lia).
      split; [lia|]. split; [|auto]. rewrite H. rewrite (R_weak p s HR). exact HR.
    + assert (B : buf s = []) by (destruct (am p); simpl in *; tauto || first [congruence | destruct r_mode0; congruence] || congruence).
      pose proof (clean_pos p s HR W B).
      split; [lia|]. split; [|auto].
      replace (size p) with (pos p) by lia. rewrite (R_weak p s HR). exact HR.
  - destruct (endpos_slow_ok p s HR) as (A & B & C & D). split; [exact A|]. split; [|exact D].
    destruct B. simpl in *. constructor; simpl; auto. 
    destruct HR. destruct (am p); simpl in *; auto; tauto.
Qed.
