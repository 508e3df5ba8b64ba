(** * Property C32: file-pool commits. *)
From Verif Require Import BytesModel BytesProofs FileModel FileProofs ChunkModel ChunkProofs PoolModel PoolProofs PoolProps FilePoolModel.
Local Open Scope N_scope.

(** ** Specification

    [value_at p f load o b]: object [o] of the file reads as [b] (its encoding starts at
    the position the table gives; encodings are self-delimiting, property C04). *)
Definition value_at (p : fpool) (f : file) (load o : N) (b : bytes) : Prop :=
  exists pos, fp_fetch p f load o = PAt pos /\ fread f pos (length b) = Some b.
Fixpoint committed (o : N) (vs : list (N * bytes)) : option bytes :=
  match vs with [] => None | (o', b) :: r => if o' =? o then Some b else committed o r end.

(** Pools whose table positions fit 32 bits. *)
Definition small_fp (p : fpool) : Prop := 24 + 4 * fp_cap p < 2^32.
Definition fhead (p : fpool) : N := 24 + 4 * fp_cap p.
Record fwf (p : fpool) (f : file) (load : N) : Prop := {
  fw_size : fhead p <= fsize f;
  fw_load : read4_at f 16 = Some load;
  fw_cap : load <= fp_cap p;
  fw_refs : forall o pos, o < fp_cap p -> read4_at f (24 + 4 * o) = Some pos -> pos = 0 \/ fhead p <= pos <= fsize f }.

(** ** Appending *)
Lemma fp_append_spec : forall p vs f load f1 offs l, fhead p <= fsize f -> Forall (fun x => snd x <> []) vs ->
  fp_append p f (fsize f) load vs = Some (f1, offs, l) ->
  extends f f1 /\ (vs <> [] -> fsize f1 <= 0xFFFFFFFF) /\ load <= l /\
  Forall2 (fun x v => fst x = fst v /\ fhead p <= snd x /\ snd x + blen (snd v) <= fsize f1 /\ fread f1 (snd x) (length (snd v)) = Some (snd v)) offs vs /\
  Forall (fun v => fst v < l) vs /\ (Forall (fun v => fst v < fp_cap p) vs -> load <= fp_cap p -> l <= fp_cap p) /\
  (fsize f1 = fold_left (fun a v => a + blen (snd v)) vs (fsize f)).
Proof.
  induction vs as [|[o b] r IH]; intros f load f1 offs l Hh Hn H; cbn [fp_append] in H.
  - injection H as <- <- <-. split; [apply extends_refl|]. split; [now intros []|]. split; [lia|]. split; [constructor|].
    split; [constructor|]. split; [auto|reflexivity].
  - apply Forall_cons_iff in Hn. destruct Hn as [Hb Hn]. cbn [snd] in Hb.
    destruct (negb (fp_adjunct p) && (load <=? o)) eqn:E1; [discriminate|].
    destruct (N.ltb_spec 0xFFFFFFFF (fsize f + blen b)) as [C|C]; [discriminate|].
    assert (SZ : fsize (fwrite f (fsize f) b) = fsize f + blen b).
    { rewrite fwrite_size by assumption. unfold blen. lia. }
    rewrite <- SZ in H. set (load1 := if fp_adjunct p && (load <=? o) then o + 1 else load) in *.
    destruct (fp_append p (fwrite f (fsize f) b) _ load1 r) as [[[g offs'] l']|] eqn:E; [|discriminate].
    injection H as <- <- <-.
    assert (Hh' : fhead p <= fsize (fwrite f (fsize f) b)) by lia.
    destruct (IH _ _ _ _ _ Hh' Hn E) as (X & Z & L & F & A & K & S).
    assert (Xw : extends f (fwrite f (fsize f) b)) by (apply extends_write; lia).
    split; [eapply extends_trans; eassumption|]. split.
    { intros _. destruct r as [|v r]; [|apply Z; discriminate]. cbn in E. injection E as <- _ _. lia. }
    assert (L1 : load <= load1) by (unfold load1; destruct (fp_adjunct p && (load <=? o)) eqn:?; lia).
    assert (O1 : o < load1) by (unfold load1; destruct (fp_adjunct p), (N.leb_spec load o); cbn in *; (discriminate || lia)).
    split; [lia|]. split.
    { constructor; [|assumption]. cbn [fst snd]. split; [reflexivity|]. split; [assumption|]. split; [destruct X; lia|].
      eapply extends_read; [exact X|]. now apply fread_fwrite_same. }
    split; [constructor; [cbn [fst]; lia|assumption]|]. split.
    { intros Hc Hl. apply Forall_cons_iff in Hc. destruct Hc as [Ho Hc]. cbn [fst] in Ho. apply K; [assumption|].
      unfold load1. destruct (fp_adjunct p && (load <=? o)); lia. }
    rewrite S. cbn [fold_left snd]. now rewrite SZ.
Qed.

(** Reading the table after a table write. *)
Lemma read4_write_other : forall f pos q bs, fsize f >= q + 4 -> (q + 4 <= pos \/ pos + blen bs <= q) ->
  read4_at (fwrite f pos bs) q = read4_at f q.
Proof.
  intros f pos q bs Hq Hd. unfold read4_at. rewrite fread_fwrite_other; [reflexivity|cbn; lia|cbn; destruct Hd; [left|right]; lia].
Qed.
Fixpoint last_off (o : N) (offs : list (N * N)) : option N :=
  match offs with [] => None | (o', pos) :: r => match last_off o r with Some x => Some x | None => if o' =? o then Some pos else None end end.
Lemma write_offs_spec : forall p offs f, small_fp p -> Forall (fun x => fst x < fp_cap p) offs -> fhead p <= fsize f ->
  fsize (fp_write_offs f offs) = fsize f /\
  (forall i, i < 24 \/ fhead p <= i -> fget (fp_write_offs f offs) i = fget f i) /\
  forall o, o < fp_cap p -> read4_at (fp_write_offs f offs) (24 + 4 * o) = match last_off o offs with Some pos => Some (u32 pos) | None => read4_at f (24 + 4 * o) end.
Proof.
  intros p offs. induction offs as [|[o pos] r IH]; intros f Hs Hc Hh; [auto|].
  apply Forall_cons_iff in Hc. destruct Hc as [Ho Hc]. cbn [fst] in Ho. unfold small_fp in Hs. unfold fhead in *.
  cbn [fp_write_offs last_off]. rewrite (u32_id (4 * o)) by lia. rewrite (u32_id (24 + 4 * o)) by lia.
  set (g := fwrite f (24 + 4 * o) (put_4bytes (u32 pos))).
  assert (Eg : fsize g = fsize f).
  { unfold g. rewrite fwrite_size by apply put4_nonnil. unfold blen. rewrite put_4bytes_len. lia. }
  destruct (IH g Hs Hc ltac:(lia)) as (A & B & C). split; [lia|]. split.
  - intros i Hi. rewrite B by assumption. unfold g. rewrite fget_fwrite_out; [reflexivity|]. unfold blen. rewrite put_4bytes_len. lia.
  - intros o' Ho'. rewrite C by assumption. destruct (last_off o' r); [reflexivity|].
    destruct (N.eqb_spec o o') as [->|Hne].
    + unfold g. now rewrite read4_written by apply u32_lt.
    + unfold g. rewrite read4_write_other; [reflexivity|lia|]. unfold blen. rewrite put_4bytes_len. lia.
Qed.
Lemma fp_load_spec : forall p f l0 load, read4_at f 16 = Some l0 -> l0 <= fp_cap p -> load < 2^32 -> 24 <= fsize f ->
  let g := fp_write_load p f load in
  fsize g = fsize f /\ read4_at g 16 = Some load /\ forall i, i < 16 \/ 20 <= i -> fget g i = fget f i.
Proof.
  intros p f l0 load H Hl Hc Hs. unfold fp_write_load. rewrite H. destruct (N.ltb_spec (fp_cap p) l0); [lia|].
  destruct (N.eqb_spec l0 load) as [->|Hne]; [auto|]. split; [rewrite fwrite_size by apply put4_nonnil; unfold blen; rewrite put_4bytes_len; lia|].
  split; [now apply read4_written|]. intros i Hi. rewrite fget_fwrite_out; [reflexivity|]. unfold blen. rewrite put_4bytes_len. lia.
Qed.
Lemma fread_same : forall f g pos n, fsize g = fsize f -> (forall i, pos <= i < pos + N.of_nat n -> fget g i = fget f i) ->
  fread g pos n = fread f pos n.
Proof.
  intros f g pos n Hs H. destruct (N.le_gt_cases (pos + N.of_nat n) (fsize f)) as [C|C].
  - rewrite !fread_eq by lia. f_equal. apply map_ext_in. intros k Hk. apply in_seq in Hk. apply H. lia.
  - rewrite !(proj2 (fread_none _ _ _)) by lia. reflexivity.
Qed.
Lemma offs_in : forall p (offs : list (N * N)) vs P, Forall2 (fun x (v : N * bytes) => fst x = fst v /\ P x v) offs vs ->
  Forall (fun v => fst v < fp_cap p) vs -> Forall (fun x => fst x < fp_cap p) offs.
Proof.
  intros p offs vs P F. induction F as [|x v offs vs [E _] F IH]; intro H; [constructor|].
  apply Forall_cons_iff in H. destruct H as [A B]. constructor; [lia|auto].
Qed.
Lemma last_off_committed : forall (P : N * N -> N * bytes -> Prop) offs vs,
  Forall2 (fun x v => fst x = fst v /\ P x v) offs vs -> NoDup (map fst vs) -> forall o,
  match committed o vs with
  | Some b => exists pos, last_off o offs = Some pos /\ P (o, pos) (o, b)
  | None => last_off o offs = None
  end.
Proof.
  intros P offs vs F. induction F as [|[o1 q] [o2 b] offs vs [E H] F IH]; intros ND o; [reflexivity|].
  cbn [fst] in E. subst o2. cbn [map fst] in ND. inversion ND as [|x l Hx Hn]; subst. specialize (IH Hn o).
  cbn [committed last_off]. destruct (N.eqb_spec o1 o) as [->|Hne].
  - assert (C : committed o vs = None).
    { clear -Hx. induction vs as [|[a b] vs IH]; [reflexivity|]. cbn [committed map fst In] in *. destruct (N.eqb_spec a o); [exfalso; auto|auto]. }
    rewrite C in IH. rewrite IH. exists q. auto.
  - destruct (committed o vs); [|now rewrite IH]. destruct IH as (pos & -> & H'). exists pos. auto.
Qed.

(** Without a cached table: every committed object reads as committed, every other object
    as before, and the file stays well formed. *)
Theorem C32_uncached_partial : forall p f load0 load vs g l, small_fp p -> fwf p f load0 -> load0 <= load <= fp_cap p ->
  NoDup (map fst vs) -> Forall (fun v => fst v < fp_cap p) vs -> Forall (fun v => snd v <> []) vs ->
  fp_storen p f None load vs = Some (g, l) ->
  fwf p g l /\
  (forall o b, committed o vs = Some b -> value_at p g l o b) /\
  (forall o b, o < load0 -> committed o vs = None -> value_at p f load0 o b -> value_at p g l o b) /\
  (forall o, o < load0 -> committed o vs = None -> fp_fetch p f load0 o = PEmpty -> fp_fetch p g l o = PEmpty).
Proof.
  intros p f load0 load vs g l Hs [W1 W2 W3 W4] Hl ND Hc Hn H. unfold fp_storen in H.
  destruct (fp_append p f (fsize f) load vs) as [[[f1 offs] l1]|] eqn:E; [|discriminate]. injection H as <- <-.
  destruct (fp_append_spec p vs f load f1 offs l1 W1 Hn E) as (X & Z & L & F & A & K & _).
  specialize (K Hc (proj2 Hl)).
  pose proof (last_off_committed _ _ _ F ND) as LC.
  pose proof (offs_in p _ _ _ F Hc) as OI.
  assert (H1 : fhead p <= fsize f1) by (destruct X; lia).
  destruct (write_offs_spec p offs f1 Hs OI H1) as (S1 & S2 & S3).
  set (f2 := fp_write_offs f1 offs) in *.
  assert (R4 : read4_at f2 16 = Some load0).
  { rewrite <- W2. unfold read4_at. unfold fhead in *. rewrite (fread_same f1 f2) by (auto; intros; apply S2; lia).
    destruct (fread f 16 4) eqn:Ef; [|apply fread_none in Ef; cbn in Ef; lia]. now rewrite (extends_read _ _ _ _ _ X Ef). }
  unfold small_fp, fhead in *.
  destruct (fp_load_spec p f2 load0 l1 R4 W3 ltac:(lia) ltac:(lia)) as (T1 & T2 & T3).
  set (g := fp_write_load p f2 l1) in *.
  assert (TB : forall o, o < fp_cap p -> read4_at g (24 + 4 * o) = match committed o vs with Some _ => match last_off o offs with Some pos => Some (u32 pos) | None => None end | None => read4_at f (24 + 4 * o) end).
  { intros o Ho. unfold read4_at at 1. rewrite (fread_same f2 g) by (auto; intros; apply T3; lia).
    fold (read4_at f2 (24 + 4 * o)). rewrite S3 by assumption. specialize (LC o). destruct (committed o vs).
    - destruct LC as (pos & -> & _). reflexivity.
    - rewrite LC. unfold read4_at. destruct (fread f (24 + 4 * o) 4) eqn:Ef; [|apply fread_none in Ef; cbn in Ef; lia].
      now rewrite (extends_read _ _ _ _ _ X Ef). }
  assert (DATA : forall pos n, 24 + 4 * fp_cap p <= pos -> fread g pos n = fread f1 pos n).
  { intros pos n Hp. rewrite (fread_same f2 g) by (auto; intros; apply T3; lia). apply fread_same; [auto|]. intros i Hi. apply S2. lia. }
  assert (U : forall o b, committed o vs = Some b -> exists pos, last_off o offs = Some pos /\ 24 + 4 * fp_cap p <= pos /\ pos + blen b <= fsize f1 /\
    fread f1 pos (length b) = Some b /\ u32 pos = pos /\ o < l1 /\ o < fp_cap p).
  { intros o b Hb. specialize (LC o). rewrite Hb in LC. destruct LC as (pos & P1 & P2 & P3 & P4). cbn [fst snd] in *. exists pos.
    do 4 (split; [assumption|]).
    assert (Hin : In (o, b) vs).
    { clear -Hb. induction vs as [|[a c] vs IH]; [discriminate|]. cbn [committed] in Hb. destruct (N.eqb_spec a o); [left; subst a; now injection Hb as ->|right; auto]. }
    split; [apply u32_id; assert (fsize f1 <= 0xFFFFFFFF) by (apply Z; intros ->; contradiction); lia|].
    rewrite Forall_forall in A, Hc. split; [apply (A _ Hin)|apply (Hc _ Hin)]. }
  split.
  { constructor; [unfold fhead; lia|assumption|assumption|].
    intros o pos Ho. rewrite TB by assumption. destruct (committed o vs) as [b|] eqn:Ec.
    - destruct (U o b Ec) as (q & -> & Q1 & Q2 & _ & -> & _). intro Hq. injection Hq as <-. right. unfold fhead. lia.
    - intro Hp. destruct (W4 o pos Ho Hp) as [->|Q]; [now left|right; destruct X; unfold fhead; lia]. }
  split.
  { intros o b Ec. destruct (U o b Ec) as (pos & P1 & P2 & P3 & P4 & P5 & P6 & P7). exists pos. split.
    - unfold fp_fetch. destruct (N.leb_spec l1 o); [lia|]. rewrite TB, Ec, P1, P5 by assumption.
      destruct (N.eqb_spec pos 0); [lia|]. destruct (N.ltb_spec pos (24 + l1 * 4)); [lia|reflexivity].
    - now rewrite DATA. }
  split.
  - intros o b Ho Ec (pos & P1 & P2). exists pos. unfold fp_fetch in *.
    destruct (N.leb_spec load0 o); [lia|]. destruct (N.leb_spec l1 o); [lia|]. rewrite TB, Ec by lia.
    destruct (read4_at f (24 + 4 * o)) as [q|] eqn:Eq; [|discriminate].
    destruct (N.eqb_spec q 0); [discriminate|]. destruct (N.ltb_spec q (24 + load0 * 4)); [discriminate|]. injection P1 as ->.
    destruct (W4 o pos ltac:(lia) Eq) as [C|C]; [contradiction|]. unfold fhead in C.
    destruct (N.ltb_spec pos (24 + l1 * 4)); [lia|]. split; [reflexivity|]. rewrite DATA by lia. eapply extends_read; eassumption.
  - intros o Ho Ec P1. unfold fp_fetch in *.
    destruct (N.leb_spec load0 o); [lia|]. destruct (N.leb_spec l1 o); [lia|]. rewrite TB, Ec by lia.
    destruct (read4_at f (24 + 4 * o)) as [q|] eqn:Eq; [|discriminate].
    destruct (N.eqb_spec q 0); [reflexivity|]. destruct (N.ltb_spec q (24 + load0 * 4)); discriminate.
Qed.

(** ** The cached table

    What holds for every commit: the file ends [4*(capacity+1)] bytes before the end of
    the data. *)
Definition data_len (vs : list (N * bytes)) : N := fold_left (fun a v => a + blen (snd v)) vs 0.
Lemma fold_len : forall vs a, fold_left (fun a (v : N * bytes) => a + blen (snd v)) vs a = a + data_len vs.
Proof.
  unfold data_len. intros vs. induction vs as [|v vs IH]; intro a; cbn [fold_left]; [lia|]. rewrite IH, (IH (0 + _)). lia.
Qed.
Lemma patch_len : forall offs tbl, length (fp_patch tbl offs) = length tbl.
Proof.
  induction offs as [|[o q] r IH]; intro tbl; [reflexivity|]. cbn [fp_patch]. rewrite IH, map_length, combine_length, seq_length. lia.
Qed.
Lemma put_words_len : forall ws, blen (put_words ws) = 4 * N.of_nat (length ws).
Proof.
  unfold put_words, blen. induction ws as [|w ws IH]; [reflexivity|]. cbn [flat_map length]. rewrite app_length, put_4bytes_len. lia.
Qed.
Theorem C32_cached_exact : forall p f load0 load t vs g l, small_fp p -> fp_cap p < 2^30 - 1 -> fwf p f load0 -> load0 <= load <= fp_cap p ->
  N.of_nat (length t) <= load -> Forall (fun v => fst v < fp_cap p) vs -> Forall (fun v => snd v <> []) vs ->
  fp_storen p f (Some t) load vs = Some (g, l) ->
  fsize g = fsize f + data_len vs - 4 * (fp_cap p + 1).
Proof.
  intros p f load0 load t vs g l Hs Hcap [W1 W2 W3 W4] Hl Ht Hc Hn H. unfold fp_storen in H.
  destruct (fp_append p f (fsize f) load vs) as [[[f1 offs] l1]|] eqn:E; [|discriminate].
  destruct (fp_append_spec p vs f load f1 offs l1 W1 Hn E) as (X & Z & L & F & A & K & S).
  specialize (K Hc (proj2 Hl)). rewrite fold_len in S.
  set (ws := fp_patch (fp_pad t l1) offs) in *.
  assert (LW : N.of_nat (length ws) = l1).
  { unfold ws. rewrite patch_len. unfold fp_pad. rewrite app_length, repeat_length. lia. }
  unfold small_fp, fhead in *.
  assert (S2 : fsize (fwrite f1 24 (put_words ws)) = fsize f1).
  { destruct (put_words ws) as [|x xs] eqn:Ew; [reflexivity|]. rewrite fwrite_size by discriminate. rewrite <- Ew.
    fold (blen (put_words ws)). rewrite put_words_len, LW. lia. }
  assert (S3 : fsize (fp_write_load p (fwrite f1 24 (put_words ws)) l1) = fsize f1).
  { revert S2. generalize (fwrite f1 24 (put_words ws)). intros f2 S2. unfold fp_write_load.
    destruct (read4_at f2 16) as [x|]; [|exact S2]. destruct (fp_cap p <? x); [exact S2|].
    destruct (x =? l1); [exact S2|]. rewrite fwrite_size by apply put4_nonnil. unfold blen. rewrite put_4bytes_len. lia. }
  rewrite (u32_id (fp_cap p + 1)) in H by lia. rewrite u32_id in H by lia. rewrite S3 in H.
  destruct (_ <? _); [discriminate|]. injection H as <- _. cbn [ftruncate fsize]. lia.
Qed.
(** So: a commit with a cached table whose data take at most [4*(capacity+1)] bytes (a
    normal commit) leaves none of it in the file: every position the new table gives for
    a committed object lies at or beyond the end of the file. *)
Theorem C32_cached_loses_all : forall p f load0 load t vs g l, small_fp p -> fp_cap p < 2^30 - 1 -> fwf p f load0 ->
  load0 <= load <= fp_cap p -> N.of_nat (length t) <= load ->
  Forall (fun v => fst v < fp_cap p) vs -> Forall (fun v => snd v <> []) vs ->
  fp_storen p f (Some t) load vs = Some (g, l) -> data_len vs <= 4 * (fp_cap p + 1) ->
  forall pos n, fsize f <= pos -> (0 < n)%nat -> fread g pos n = None.
Proof.
  intros p f load0 load t vs g l Hs Hcap W Hl Ht Hc Hn H Hd pos n Hp Hn0.
  pose proof (C32_cached_exact _ _ _ _ _ _ _ _ Hs Hcap W Hl Ht Hc Hn H) as S. apply fread_none. lia.
Qed.
(** A concrete case: the pool of four objects, freshly opened with a cached table; the
    value just committed cannot be read back, and neither can the one committed before. *)
Definition q4 : fpool := {| fp_cap := 4; fp_adjunct := false |}.
Definition g1 : file := match fp_storen q4 (make_file_pool q4 1 2 3 0) None 2 [(0, [65; 66; 67; 68])] with Some (g, _) => g | None => make_file_pool q4 1 2 3 0 end.
Theorem C32_cached_refuted : exists p f t vs g l, fwf p f 2 /\ (forall o, value_at p f 2 0 o <-> exists k, firstn k [65; 66; 67; 68] = o) /\
  fp_storen p f (Some t) 2 vs = Some (g, l) /\ vs = [(1, [77; 78])] /\
  fp_fetch p g l 1 = PAt 84 /\ fp_fetch p g l 0 = PAt 80 /\ fsize g = 66.
Proof.
  assert (HS : fwf q4 (make_file_pool q4 1 2 3 0) 0).
  { constructor; [vm_compute; discriminate|vm_compute; reflexivity|vm_compute; discriminate|].
    intros o pos Ho H. cbn in Ho. left. revert H.
    assert (Eo : o = 0 \/ o = 1 \/ o = 2 \/ o = 3) by lia. destruct Eo as [E|[E|[E|E]]]; subst o; vm_compute; congruence. }
  assert (HG : exists l, fp_storen q4 (make_file_pool q4 1 2 3 0) None 2 [(0, [65; 66; 67; 68])] = Some (g1, l) /\ l = 2).
  { unfold g1. destruct (fp_storen _ _ _ _ _) as [[g l]|] eqn:E.
    - exists l. split; [reflexivity|]. apply (f_equal (fun x => match x with Some (_, l) => l | None => 0 end)) in E. vm_compute in E. congruence.
    - exfalso. apply (f_equal (fun x => match x with Some _ => true | None => false end)) in E. vm_compute in E. discriminate. }
  destruct HG as (l & HG & ->).
  exists q4, g1, [80; 0], [(1, [77; 78])].
  destruct (fp_storen q4 g1 (Some [80; 0]) 2 [(1, [77; 78])]) as [[g l]|] eqn:E.
  - exists g, l. split.
    { refine (proj1 (C32_uncached_partial q4 _ 0 2 _ _ _ _ HS _ _ _ _ HG)); [vm_compute; reflexivity|cbn; lia| | |];
      repeat constructor; cbn; auto; discriminate. }
    split.
    { intro o. unfold value_at.  split.
      - intros (pos & P1 & P2). 
        assert (FF : match fp_fetch q4 g1 2 0 with PAt q => q | _ => 0 end = 80) by (vm_compute; reflexivity).
        rewrite P1 in FF. subst pos. exists (length o).
        assert (SZ : fsize g1 = 84) by (vm_compute; reflexivity).
        destruct (N.le_gt_cases (80 + N.of_nat (length o)) 84) as [C|C].
        + assert (Hk : (length o <= 4)%nat) by lia.
          destruct o as [|? [|? [|? [|? [|? ?]]]]]; cbn [length] in *; try lia; vm_compute in P2; try (injection P2; intros; subst); reflexivity.
        + exfalso. rewrite (proj2 (fread_none _ _ _)) in P2 by lia. discriminate.
      - intros (k & <-). exists 80. split; [vm_compute; reflexivity|].
        destruct k as [|[|[|[|k]]]]; [vm_compute; reflexivity|vm_compute; reflexivity|vm_compute; reflexivity|vm_compute; reflexivity|].
        cbn [firstn]. rewrite firstn_nil. vm_compute. reflexivity. }
    split; [reflexivity|]. split; [reflexivity|].
    assert (EE : match fp_storen q4 g1 (Some [80; 0]) 2 [(1, [77; 78])] with
                 | Some (g, l) => (fp_fetch q4 g l 1, fp_fetch q4 g l 0, fsize g) = (PAt 84, PAt 80, 66) | None => False end) by (vm_compute; reflexivity).
    rewrite E in EE. injection EE as -> -> ->. auto.
  - exfalso. apply (f_equal (fun x => match x with Some _ => true | None => false end)) in E. vm_compute in E. discriminate.
Qed.

Print Assumptions C32_uncached_partial.
Print Assumptions C32_cached_exact.
Print Assumptions C32_cached_loses_all.
Print Assumptions C32_cached_refuted.
