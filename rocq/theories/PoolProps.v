(** * Properties C29, C30 and C31: committed values, crashes, two-phase commit. *)
From Verif Require Import BytesModel BytesProofs FileModel FileProofs ChunkModel ChunkProofs PoolModel PoolProofs.
Local Open Scope N_scope.

(** ** C29: specification

    What a pool file says about an object after a commit: the committed value, or what it
    said before. *)
Definition stored (v : option bytes) : fetched := match v with Some (b :: bs) => FValue (b :: bs) | _ => FEmpty end.
Fixpoint change_of (o : N) (chs : list (N * option bytes)) : option (option bytes) :=
  match chs with [] => None | (o', v) :: r => if o' =? o then Some v else change_of o r end.
(** The load after the commit: that of the pool; an adjunct grows with what is stored. *)
Definition load_after (p : pool) (load : N) (chs : list (N * option bytes)) : N :=
  if p_adjunct p
  then fold_left N.max (map (fun x => match snd x with Some (_ :: _) => fst x + 1 | _ => 0 end) chs) load
  else load.
Definition view_after (p : pool) (old : N -> fetched) (old_load load : N) (chs : list (N * option bytes)) (o : N) : fetched :=
  if load_after p load chs <=? o then (if p_adjunct p then FEmpty else FUnallocated)
  else match change_of o chs with
       | Some v => stored v
       | None => if o <? old_load then old o else FEmpty
       end.

(** A well-formed pool file: complete table, load within the capacity, references into
    the data area, nothing above the load. *)
Record wf (p : pool) (f : file) (load : N) : Prop := {
  wf_size : head_len p <= fsize f;
  wf_load : read4_at f 16 = Some load;
  wf_cap : load <= p_cap p;
  wf_refs : forall o, o < p_cap p -> exists b off size,
    entry p f o = Some b /\ decode_ref (p_type p) b = Some (off, size) /\
    (off = 0 \/ size = 0 \/ (head_len p <= off /\ off + size <= fsize f)) /\
    (load <= o -> off = 0) }.

(** A commit the pool layer can ask for: distinct objects of the pool, allocated ones
    unless the pool is an adjunct, of a size the format can express. *)
Record valid_changes (p : pool) (load : N) (chs : list (N * option bytes)) : Prop := {
  vc_distinct : NoDup (map fst chs);
  vc_in : Forall (fun x => fst x < p_cap p) chs;
  vc_alloc : p_adjunct p = false -> Forall (fun x => fst x < load) chs;
  vc_size : forall o b, In (o, Some b) chs -> match p_type p with B32 => True | B40 => blen b < 2^24 | B64 => blen b < 2^32 end }.

(** ** C29: proofs *)

Lemma spec_load_after : forall p chs load, spec_load p load chs = load_after p load chs.
Proof.
  intros p chs. unfold spec_load, load_after. destruct (p_adjunct p).
  - induction chs as [|[o v] chs IH]; intro load; [reflexivity|]. cbn [fold_left map fst snd]. rewrite IH. f_equal.
    destruct v as [[|b bs]|]; lia.
  - induction chs as [|[o v] chs IH]; intro load; [reflexivity|]. cbn [fold_left snd]. destruct v as [[|b bs]|]; apply IH.
Qed.
Lemma load_after_ge : forall p chs load, load <= load_after p load chs.
Proof.
  intros p chs. unfold load_after. destruct (p_adjunct p); [|lia].
  induction chs as [|x chs IH]; intro load; cbn [map fold_left]; [lia|].
  etransitivity; [|apply IH]. lia.
Qed.
Lemma load_after_le : forall p chs load cap, load <= cap -> Forall (fun x => fst x < cap) chs -> load_after p load chs <= cap.
Proof.
  intros p chs load cap. unfold load_after. destruct (p_adjunct p); [|auto].
  revert load. induction chs as [|[o v] chs IH]; intros load Hl Hf; cbn [map fold_left]; [assumption|].
  apply Forall_cons_iff in Hf. destruct Hf as [Ho Hf]. cbn [fst] in Ho. apply IH; [|assumption].
  cbn [fst snd]. destruct v as [[|b bs]|]; lia.
Qed.
Lemma load_after_in : forall p chs load o b bs, p_adjunct p = true -> In (o, Some (b :: bs)) chs -> o < load_after p load chs.
Proof.
  intros p chs load o b bs Ha. unfold load_after. rewrite Ha. revert load.
  assert (M : forall l a, a <= fold_left N.max l a).
  { induction l as [|x l IH]; intro a; cbn [fold_left]; [lia|]. etransitivity; [|apply IH]. lia. }
  induction chs as [|[o' v] chs IH]; intros load H; [contradiction|]. cbn [map fold_left fst snd].
  destruct H as [E|H]; [|now apply IH]. injection E as -> ->.
  match goal with |- _ < fold_left N.max ?l ?a => specialize (M l a) end. cbn [fst snd] in M. lia.
Qed.

Lemma fetch_entry : forall p f o, small_pool p -> o < p_cap p ->
  fetch_chunk_ref f 256 (p_type p) o = match entry p f o with Some b => decode_ref (p_type p) b | None => None end.
Proof.
  intros p f o Hs Ho. unfold fetch_chunk_ref, entry. pose proof (entry_in_head p o Ho). unfold small_pool in Hs.
  rewrite u32_id by lia. destruct (fread _ _ _); reflexivity.
Qed.

Lemma forall2_assoc : forall (P : N * cref -> N * option bytes -> Prop) info chs,
  (forall x y, P x y -> fst x = fst y) -> Forall2 P info chs -> NoDup (map fst chs) -> forall o,
  match change_of o chs with
  | Some v => exists r, assoc_last o info = Some r /\ P (o, r) (o, v)
  | None => assoc_last o info = None
  end.
Proof.
  intros P info chs HP F. induction F as [|[o1 r1] [o2 v2] info chs H F IH]; intros ND o; [reflexivity|].
  pose proof (HP _ _ H) as E. cbn [fst] in E. subst o2. cbn [map fst] in ND. inversion ND as [|x l Hx Hn]; subst.
  specialize (IH Hn o). cbn [change_of assoc_last]. destruct (N.eqb_spec o1 o) as [->|Hne].
  - assert (C : change_of o chs = None).
    { clear -Hx. induction chs as [|[a b] chs IH]; [reflexivity|]. cbn [change_of map fst In] in *.
      destruct (N.eqb_spec a o); [exfalso; auto|auto]. }
    rewrite C in IH. rewrite IH. exists r1. auto.
  - destruct (change_of o chs) as [v|].
    + destruct IH as (r & E1 & E2). exists r. rewrite E1. auto.
    + rewrite IH. reflexivity.
Qed.
Lemma change_of_in : forall o chs v, change_of o chs = Some v -> In (o, v) chs.
Proof.
  induction chs as [|[o' v'] chs IH]; cbn [change_of]; intros v H; [discriminate|].
  destruct (N.eqb_spec o' o); [injection H as ->; left; congruence|right; auto].
Qed.

Lemma holds_fits : forall p g r o v, fsize g < maxpos (p_type p) -> holds g (head_len p) (o, r) v ->
  (forall b, v = Some b -> match p_type p with B32 => True | B40 => blen b < 2^24 | B64 => blen b < 2^32 end) ->
  in_range (p_type p) r.
Proof.
  intros p g r o v Hg H Hv.
  assert (Z : in_range (p_type p) (0, 0)) by (destruct (p_type p); split; reflexivity).
  destruct v as [[|b bs]|]; cbn [holds snd] in H; try (now subst r).
  destruct H as (off & -> & H1 & H2 & _). specialize (Hv _ eq_refl).
  destruct (p_type p); cbn [in_range fst snd maxpos] in *; split; lia.
Qed.

Theorem C29_commit_partial : forall p f old_load load ch c u,
  small_pool p -> wf p f old_load -> old_load <= load <= p_cap p -> valid_changes p load (ch_values ch) ->
  commit p f load ch = Ok c u ->
  let g := cm_file c in
  wf p g (load_after p load (ch_values ch)) /\
  forall o, o < p_cap p -> fetch p g o = view_after p (fetch p f) old_load load (ch_values ch) o.
Proof.
  intros p f old_load load ch c u Hs Wf Hload Vc H.
  destruct Wf as [W1 W2 W3 W4]. destruct Vc as [V1 V2 V3 V4].
  unfold commit in H. destruct (storen _ _ _ _) as [c0 u0|c0] eqn:E; [|discriminate]. injection H as <- _.
  unfold storen in E. cbn [emit_op cm_file] in E.
  destruct (store_values _ _ _ _ _) as [c1 [info l']|c1] eqn:E1; [|discriminate].
  pose proof (store_values_offs _ _ _ _ _ _ _ _ E1) as EO.
  destruct (store_values_spec p _ _ _ _ _ _ _ (eq_refl : fsize (cm_file {| cm_file := f; cm_ops := [SaveRB] |}) = fsize f) W1 E1)
    as (X & Z & F & L). cbn [cm_file] in X. rewrite spec_load_after in L. subst l'.
  assert (H1 : head_len p <= fsize (cm_file c1)) by (destruct X; lia).
  pose proof (load_after_le p (ch_values ch) load (p_cap p) (proj2 Hload) V2) as HLc.
  pose proof (load_after_ge p (ch_values ch) load) as HLg.
  assert (HL32 : load_after p load (ch_values ch) < 2^32).
  { unfold small_pool, head_len in Hs. pose proof (ref_pos (p_type p)). nia. }
  destruct (update_spec p c1 info _ ch c0 u0 Hs (info_in _ _ _ EO V2) H1 HL32 E) as (G & T & R4).
  cbn [emit_op cm_file] in *.
  assert (Hsz : fsize (cm_file c1) <= fsize (cm_file c0)) by apply G.
  (* each entry of the new table *)
  assert (ENT : forall o, o < p_cap p -> exists b off size,
    entry p (cm_file c0) o = Some b /\ decode_ref (p_type p) b = Some (off, size) /\
    match change_of o (ch_values ch) with
    | Some v => holds (cm_file c1) (head_len p) (o, (off, size)) v
    | None => entry p f o = Some b
    end).
  { intros o Ho. specialize (T o Ho). rewrite T.
    pose proof (forall2_assoc _ info (ch_values ch) (fun x y P => proj1 P) F V1 o) as A.
    destruct (change_of o (ch_values ch)) as [v|] eqn:Ec.
    - destruct A as ([off size] & A1 & _ & A2). cbn [snd] in A2. rewrite A1. exists (direct_bytes (p_type p) (off, size)), off, size.
      split; [reflexivity|]. split; [|exact A2].
      apply decode_direct. pose proof (change_of_in _ _ _ Ec) as Hin.
      eapply holds_fits; [|exact A2|].
      + destruct (ch_values ch); [contradiction|]. rewrite N.add_0_r in Z. exact Z.
      + intros b ->. eapply V4. exact Hin.
    - rewrite A. destruct (W4 o Ho) as (b & off & size & B1 & B2 & _). exists b, off, size.
      assert (EE : entry p (cm_file c1) o = Some b).
      { unfold entry in *. eapply extends_read; eassumption. }
      auto. }
  assert (DATA : forall off n b, head_len p <= off -> fread (cm_file c1) off n = Some b -> fread (cm_file c0) off n = Some b).
  { intros off n b Ho Hr. destruct G as [G1 G2].
    assert (Hn : off + N.of_nat n <= fsize (cm_file c1)) by (apply N.nlt_ge; intro C; apply fread_short in C; congruence).
    rewrite fread_eq in * by lia. rewrite <- Hr. f_equal. apply map_ext_in. intros k Hk. apply in_seq in Hk. apply G2. lia. }
  split.
  - constructor; [lia|assumption|assumption|].
    intros o Ho. destruct (ENT o Ho) as (b & off & size & B1 & B2 & B3). exists b, off, size.
    do 2 (split; [assumption|]). destruct (change_of o (ch_values ch)) as [v|] eqn:Ec.
    + pose proof (change_of_in _ _ _ Ec) as Hin.
      destruct v as [[|x xs]|]; cbn [holds snd] in B3; try (injection B3 as -> ->; auto).
      destruct B3 as (off' & E' & P1 & P2 & _). injection E' as -> ->. split; [right; right; lia|].
      intros C. exfalso. destruct (p_adjunct p) eqn:Ea.
      * pose proof (load_after_in p _ load _ _ _ Ea Hin). lia.
      * specialize (V3 eq_refl). rewrite Forall_forall in V3. specialize (V3 _ Hin). cbn [fst] in V3. lia.
    + destruct (W4 o Ho) as (b' & off' & size' & D1 & D2 & D3 & D4).
      assert (b' = b) by congruence. subst b'. assert (E' : (off', size') = (off, size)) by congruence. injection E' as -> ->.
      destruct X as [X1 _].
      split; [destruct D3 as [D3|[D3|[D3 D3']]]; [auto|auto|right; right; lia]|]. intros C. apply D4. lia.
  - intros o Ho. unfold fetch at 1, open_load. rewrite R4. rewrite N.min_l by assumption. unfold view_after.
    destruct (N.leb_spec (load_after p load (ch_values ch)) o) as [C|C]; [reflexivity|].
    rewrite fetch_entry by assumption. destruct (ENT o Ho) as (b & off & size & B1 & B2 & B3). rewrite B1, B2.
    destruct (change_of o (ch_values ch)) as [v|] eqn:Ec.
    + destruct v as [[|x xs]|]; cbn [holds snd] in B3; try (injection B3 as -> ->; reflexivity).
      destruct B3 as (off' & E' & P1 & P2 & P3). injection E' as -> ->.
      pose proof (head_ge p). destruct (N.eqb_spec off' 0); [lia|].
      destruct (N.eqb_spec (blen (x :: xs)) 0) as [C0|C0]; [unfold blen in C0; cbn [length] in C0; lia|].
      replace (N.to_nat (blen (x :: xs))) with (length (x :: xs)) by (unfold blen; lia).
      rewrite (DATA off' _ _ P1 P3). reflexivity.
    + destruct (W4 o Ho) as (b' & off' & size' & D1 & D2 & D3 & D4).
      assert (b' = b) by congruence. subst b'. assert (E' : (off', size') = (off, size)) by congruence. injection E' as -> ->.
      destruct (N.ltb_spec o old_load) as [Co|Co].
      * unfold fetch, open_load. rewrite W2. rewrite N.min_l by assumption. destruct (N.leb_spec old_load o); [lia|].
        rewrite fetch_entry by assumption. rewrite D1, D2.
        destruct (N.eqb_spec off 0); [reflexivity|]. destruct (N.eqb_spec size 0); [reflexivity|].
        destruct D3 as [D3|[D3|[D3 D3']]]; [contradiction|contradiction|].
        destruct (fread f off (N.to_nat size)) as [bs|] eqn:Er.
        { apply (extends_read _ _ _ _ _ X) in Er. rewrite (DATA _ _ _ D3 Er). reflexivity. }
        { apply fread_none in Er. rewrite N2Nat.id in Er. lia. }
      * rewrite (D4 Co). reflexivity.
Qed.

(** A new pool is well formed and has only empty objects. *)
Theorem C29_new_pool : forall p hi lo flags load, small_pool p -> load <= p_cap p ->
  let f := make_pool p hi lo flags load in
  wf p f load /\ forall o, o < p_cap p -> fetch p f o = if load <=? o then (if p_adjunct p then FEmpty else FUnallocated) else FEmpty.
Proof.
  intros p hi lo flags load Hs Hl f.
  assert (HL32 : load < 2^32).
  { unfold small_pool, head_len in Hs. pose proof (ref_pos (p_type p)). nia. }
  pose proof (head_ge p) as Hh.
  assert (R : read4_at f 16 = Some load).
  { unfold read4_at. rewrite fread_eq by (unfold f, make_pool; cbn [fsize]; lia).
    cbn [seq map]. rewrite !fget_in by (unfold f, make_pool; cbn [fsize]; lia).
    unfold f, make_pool. cbn [fbyte]. rewrite !put_4bytes_div.
    change (N.to_nat (16 + N.of_nat 0)) with 16%nat. change (N.to_nat (16 + N.of_nat 1)) with 17%nat.
    change (N.to_nat (16 + N.of_nat 2)) with 18%nat. change (N.to_nat (16 + N.of_nat 3)) with 19%nat.
    cbn [app nth]. rewrite <- put_4bytes_div. rewrite <- (app_nil_r (put_4bytes load)), read_4bytes_put.
    now rewrite N.mod_small. }
  assert (E : forall o, o < p_cap p -> entry p f o = Some (repeat 0 (N.to_nat (ref_size (p_type p))))).
  { intros o Ho. pose proof (entry_in_head p o Ho). unfold entry. rewrite fread_eq by (rewrite N2Nat.id; unfold f, make_pool; cbn [fsize]; lia).
    f_equal. assert (G : forall k, (k < N.to_nat (ref_size (p_type p)))%nat -> fget f (256 + o * ref_size (p_type p) + N.of_nat k) = 0).
    { intros k Hk. rewrite fget_in by (unfold f, make_pool; cbn [fsize]; lia). unfold f, make_pool. cbn [fbyte].
      apply nth_overflow. rewrite !app_length, !put_4bytes_len. lia. }
    generalize (N.to_nat (ref_size (p_type p))) as m, G. clear. intros m G.
    assert (M : forall j m', (j + m' <= m)%nat -> map (fun k => fget f (256 + o * ref_size (p_type p) + N.of_nat k)) (seq j m') = repeat 0 m').
    { intros j m'. revert j. induction m' as [|m' IH]; intros j Hj; [reflexivity|]. cbn [seq map repeat]. rewrite G by lia. f_equal. apply IH. lia. }
    apply M. lia. }
  assert (D : decode_ref (p_type p) (repeat 0 (N.to_nat (ref_size (p_type p)))) = Some (0, 0)) by (destruct (p_type p); reflexivity).
  split.
  - constructor; [unfold f, make_pool; cbn [fsize]; lia|assumption|assumption|].
    intros o Ho. exists (repeat 0 (N.to_nat (ref_size (p_type p)))), 0, 0. auto.
  - intros o Ho. unfold fetch, open_load. rewrite R, N.min_l by assumption. destruct (load <=? o); [reflexivity|].
    rewrite fetch_entry, E, D by assumption. reflexivity.
Qed.

(** Any history of commits on a new pool: every object reads as the abstract history
    says. *)
Inductive history (p : pool) : file -> N -> (N -> fetched) -> Prop :=
| H_new hi lo flags load : load <= p_cap p ->
    history p (make_pool p hi lo flags load) load
      (fun o => if load <=? o then (if p_adjunct p then FEmpty else FUnallocated) else FEmpty)
| H_commit f old_load view load ch c u : history p f old_load view ->
    old_load <= load <= p_cap p -> valid_changes p load (ch_values ch) -> commit p f load ch = Ok c u ->
    history p (cm_file c) (load_after p load (ch_values ch)) (view_after p view old_load load (ch_values ch)).
Theorem C29_history_partial : forall p f load view, small_pool p -> history p f load view ->
  wf p f load /\ forall o, o < p_cap p -> fetch p f o = view o.
Proof.
  intros p f load view Hs H. induction H as [hi lo flags load Hl|f old view load ch c u H [IH1 IH2] Hl Hv Hc].
  - apply C29_new_pool; assumption.
  - destruct (C29_commit_partial p f old load ch c u Hs IH1 Hl Hv Hc) as [W F]. split; [exact W|].
    intros o Ho. rewrite (F o Ho). unfold view_after. destruct (_ <=? o); [reflexivity|].
    destruct (change_of o (ch_values ch)); [reflexivity|]. destruct (o <? old); [now apply IH2|reflexivity].
Qed.

(** A concrete commit: two objects of a pool of four, then one of them again. *)
Definition p4 : pool := {| p_type := B40; p_cap := 4; p_adjunct := false |}.
Definition ch1 : changes := {| ch_values := [(0, Some [7; 8; 9]); (2, Some [5])]; ch_slotids := Some (1, [42; 43]); ch_metadata := Some [1; 2] |}.
Definition ch2 : changes := {| ch_values := [(2, Some [6; 6])]; ch_slotids := None; ch_metadata := None |}.
Definition f1 := cm_file (res_cm (commit p4 (make_pool p4 1 0 1 0) 3 ch1)).
Definition f2 := cm_file (res_cm (commit p4 f1 3 ch2)).
Example C29_met :
  valid_changes p4 3 (ch_values ch1) /\
  fetch p4 f2 0 = FValue [7; 8; 9] /\ fetch p4 f2 1 = FEmpty /\ fetch p4 f2 2 = FValue [6; 6] /\ fetch p4 f2 3 = FUnallocated.
Proof.
  split.
  - constructor; cbn.
    + repeat constructor; cbn; intuition discriminate.
    + repeat constructor.
    + repeat constructor.
    + intros o b [E|[E|[]]]; injection E as <- <-; reflexivity.
  - repeat split; vm_compute; reflexivity.
Qed.

(** ** C30: crashes

    The disk: the file as last synced, the writes since, the file as the process sees
    it, the rollback file. *)
Record disk := { d_dur : file; d_pend : list (N * bytes); d_vol : file; d_rb : option file }.
Definition exec (p : pool) (d : disk) (o : op) : disk :=
  match o with
  | W pos bs => {| d_dur := d_dur d; d_pend := (pos, bs) :: d_pend d; d_vol := fwrite (d_vol d) pos bs; d_rb := d_rb d |}
  | Sync => {| d_dur := d_vol d; d_pend := []; d_vol := d_vol d; d_rb := d_rb d |}
  | SaveRB => {| d_dur := d_dur d; d_pend := d_pend d; d_vol := d_vol d; d_rb := Some (save_head (d_vol d) (head_len p)) |}
  | DropRB => {| d_dur := d_dur d; d_pend := d_pend d; d_vol := d_vol d; d_rb := None |}
  end.
Definition clean (f : file) : disk := {| d_dur := f; d_pend := []; d_vol := f; d_rb := None |}.

(** What may be in the file after a crash: for every byte of the synced file, either that
    byte or what some pending write put there (any subset of the writes, in any order, in
    pieces); the file may have grown, with anything in the new part. *)
Definition survives (d : disk) (g : file) : Prop :=
  fsize (d_dur d) <= fsize g <= fsize (d_vol d) /\
  forall i, i < fsize (d_dur d) ->
    fget g i = fget (d_dur d) i \/
    exists pos bs, In (pos, bs) (d_pend d) /\ pos <= i < pos + blen bs /\ fget g i = nth (N.to_nat (i - pos)) bs 0.

(** Opening the pool again: kno_check_rollback, drivers.c:1176-1222, applies the rollback
    file if there is one. *)
Definition reopen (g : file) (rb : option file) : option file :=
  match rb with None => Some g | Some h => apply_head h g end.

(** The invariant while the rollback file exists. *)
Definition inv (hl : N) (f : file) (d : disk) : Prop :=
  d_rb d = Some (save_head f hl) /\ good hl f (d_dur d) /\ good hl f (d_vol d) /\
  Forall (fun w => safe_write hl f (fst w) (snd w)) (d_pend d).
Lemma inv_exec : forall p f d o, inv (head_len p) f d -> safe_op (head_len p) f o -> o <> SaveRB -> o <> DropRB ->
  inv (head_len p) f (exec p d o).
Proof.
  intros p f d o (A & B & C & D) S N1 N2. destruct o as [pos bs| | |]; try congruence; cbn [exec inv d_rb d_dur d_vol d_pend].
  - split; [assumption|]. split; [assumption|]. split; [now apply good_write|]. constructor; assumption.
  - split; [assumption|]. split; [assumption|]. split; [assumption|]. constructor.
Qed.
Lemma inv_survives : forall hl f d g, inv hl f d -> survives d g -> good hl f g.
Proof.
  intros hl f d g (A & [B1 B2] & C & D) [S1 S2]. split; [lia|]. intros i Hi.
  destruct (S2 i ltac:(lia)) as [E|(pos & bs & I1 & I2 & I3)].
  - rewrite E. now apply B2.
  - rewrite Forall_forall in D. specialize (D _ I1). cbn [fst snd] in D. destruct D; lia.
Qed.

Lemma storen_ops : forall p f load ch c u, storen p (emit_op {| cm_file := f; cm_ops := [] |} SaveRB) load ch = Ok c u ->
  exists ws, cm_ops c = ws ++ [SaveRB] /\ Forall (fun o => o <> SaveRB /\ o <> DropRB) ws.
Proof.
  intros p f load ch c u H.
  (* every step only adds writes and syncs *)
  set (P := fun c => exists ws, cm_ops c = ws ++ [SaveRB] /\ Forall (fun o => o <> SaveRB /\ o <> DropRB) ws).
  assert (PE : forall c pos bs, P c -> P (emit c pos bs)).
  { intros c0 pos bs (ws & E & F). exists (W pos bs :: ws). cbn [emit cm_ops]. rewrite E. split; [reflexivity|]. constructor; [split; discriminate|assumption]. }
  assert (PS : forall c, P c -> P (emit_op c Sync)).
  { intros c0 (ws & E & F). exists (Sync :: ws). cbn [emit_op cm_ops]. rewrite E. split; [reflexivity|]. constructor; [split; discriminate|assumption]. }
  assert (P0 : P (emit_op {| cm_file := f; cm_ops := [] |} SaveRB)) by (exists []; split; [reflexivity|constructor]).
  assert (PV : forall chs c e l, P c -> P (res_cm (store_values p c e l chs))).
  { induction chs as [|[o v] r IH]; intros c0 e l H0; [exact H0|]. cbn [store_values].
    set (bs := match v with Some b => b | None => [] end).
    assert (S1 : P (match bs with [] => c0 | _ => emit c0 e bs end)) by (destruct bs; auto).
    destruct (_ <=? _); [exact S1|].
    match goal with |- context [store_values p ?c1 ?e1 ?l1 r] =>
      specialize (IH c1 e1 l1 S1); destruct (store_values p c1 e1 l1 r) as [c2 [info l2]|c2] end; exact IH. }
  assert (PO : forall info c, P c -> P (write_offdata p c info)).
  { induction info as [|[o r] info IH]; intros c0 H0; [exact H0|]. cbn [write_offdata]. auto. }
  unfold storen in H. specialize (PV (ch_values ch) _ (fsize f) load P0). cbn [emit_op cm_file] in *.
  destruct (store_values _ _ _ _ _) as [c1 [info l']|c1]; [|discriminate]. cbn [res_cm] in PV.
  unfold update in H.
  assert (P1 : P (write_slotids c1 (ch_slotids ch))) by (destruct (ch_slotids ch) as [[n bs]|]; cbn [write_slotids]; auto 10).
  assert (P2 : P (res_cm (match info with [] => Ok (write_slotids c1 (ch_slotids ch)) tt
     | _ => bump_nblocks (write_offdata p (write_slotids c1 (ch_slotids ch)) info) (N.of_nat (length info)) end))).
  { destruct info; [assumption|]. unfold bump_nblocks. destruct (read8_at _ _); cbn [res_cm]; auto. }
  destruct (match info with [] => Ok _ tt | _ => _ end) as [c2 u2|c2]; [|discriminate]. cbn [res_cm] in P2.
  assert (P3 : P (write_metadata c2 (ch_metadata ch))) by (destruct (ch_metadata ch); cbn [write_metadata]; auto 10).
  unfold write_load in H. destruct (read4_at _ _); [|discriminate].
  change (P c). destruct (negb _); injection H as <- _; auto 10.
Qed.

Lemma exec_vol : forall p ops d, d_vol (fold_left (exec p) ops d) =
  fold_left (fun f o => match o with W pos bs => fwrite f pos bs | _ => f end) ops (d_vol d).
Proof. induction ops as [|o ops IH]; intro d; [reflexivity|]. cbn [fold_left]. rewrite IH. f_equal. destruct o; reflexivity. Qed.
(** The commit's own view of the file is what its writes produce. *)
Definition replay (ops : list op) (f : file) : file :=
  fold_left (fun f o => match o with W pos bs => fwrite f pos bs | _ => f end) ops f.
Lemma storen_replay : forall p f load ch, let c := res_cm (commit p f load ch) in cm_file c = replay (rev (cm_ops c)) f.
Proof.
  intros p f load ch.
  set (P := fun c => cm_file c = replay (rev (cm_ops c)) f).
  assert (PE : forall c pos bs, P c -> P (emit c pos bs)).
  { intros c0 pos bs H. unfold P, replay in *. cbn [emit cm_ops cm_file rev]. rewrite fold_left_app. cbn [fold_left]. now rewrite H. }
  assert (PS : forall c o, match o with W _ _ => False | _ => True end -> P c -> P (emit_op c o)).
  { intros c0 o Ho H. unfold P, replay in *. cbn [emit_op cm_ops cm_file rev]. rewrite fold_left_app. cbn [fold_left].
    destruct o; try contradiction; assumption. }
  assert (P0 : P (emit_op {| cm_file := f; cm_ops := [] |} SaveRB)) by reflexivity.
  assert (PV : forall chs c e l, P c -> P (res_cm (store_values p c e l chs))).
  { induction chs as [|[o v] r IH]; intros c0 e l H0; [exact H0|]. cbn [store_values].
    set (bs := match v with Some b => b | None => [] end).
    assert (S1 : P (match bs with [] => c0 | _ => emit c0 e bs end)) by (destruct bs; auto).
    destruct (_ <=? _); [exact S1|].
    match goal with |- context [store_values p ?c1 ?e1 ?l1 r] =>
      specialize (IH c1 e1 l1 S1); destruct (store_values p c1 e1 l1 r) as [c2 [info l2]|c2] end; exact IH. }
  assert (PO : forall info c, P c -> P (write_offdata p c info)).
  { induction info as [|[o r] info IH]; intros c0 H0; [exact H0|]. cbn [write_offdata]. auto. }
  assert (PST : P (res_cm (storen p (emit_op {| cm_file := f; cm_ops := [] |} SaveRB) load ch))).
  { unfold storen. specialize (PV (ch_values ch) _ (fsize f) load P0). cbn [emit_op cm_file] in *.
    destruct (store_values _ _ _ _ _) as [c1 [info l']|c1]; [|exact PV]. cbn [res_cm] in PV.
    unfold update.
    assert (P1 : P (write_slotids c1 (ch_slotids ch))) by (destruct (ch_slotids ch) as [[n bs]|]; cbn [write_slotids]; auto 10).
    assert (P2 : P (res_cm (match info with [] => Ok (write_slotids c1 (ch_slotids ch)) tt
       | _ => bump_nblocks (write_offdata p (write_slotids c1 (ch_slotids ch)) info) (N.of_nat (length info)) end))).
    { destruct info; [assumption|]. unfold bump_nblocks. destruct (read8_at _ _); cbn [res_cm]; auto. }
    destruct (match info with [] => Ok _ tt | _ => _ end) as [c2 u2|c2]; [|exact P2]. cbn [res_cm] in P2.
    assert (P3 : P (write_metadata c2 (ch_metadata ch))) by (destruct (ch_metadata ch); cbn [write_metadata]; auto 10).
    assert (P4 : P (emit_op (write_metadata c2 (ch_metadata ch)) Sync)) by (apply PS; [exact I|assumption]).
    unfold write_load. destruct (read4_at _ _); cbn [res_cm]; [|auto].
    destruct (negb _); cbn [res_cm]; apply PE, PS; try exact I; auto. }
  unfold commit. destruct (storen _ _ _ _) as [c u|c]; cbn [res_cm] in *; [|exact PST].
  apply PS; [exact I|]. apply PS; [exact I|]. exact PST.
Qed.

(** Crash atomicity: stop a commit after any number of its operations, let any part of
    the unsynced writes reach the disk, open the file again: it is the file before the
    commit or the file after it. *)
Theorem C30_crash_atomic_partial : forall p f load ch c u k g,
  small_pool p -> changes_in p ch -> head_len p <= fsize f -> fsize f < 2^64 ->
  commit p f load ch = Ok c u ->
  let d := fold_left (exec p) (firstn k (rev (cm_ops c))) (clean f) in
  survives d g ->
  exists r, reopen g (d_rb d) = Some r /\ (feq r f \/ feq r (cm_file c)).
Proof.
  intros p f load ch c u k g Hs Hc Hh Hz H d Sv.
  pose proof (storen_replay p f load ch) as RP. rewrite H in RP. cbn [res_cm] in RP.
  assert (HS : safe_cm (head_len p) f (emit_op {| cm_file := f; cm_ops := [] |} SaveRB)).
  { split; [lia|]. split; [apply good_refl|]. repeat constructor. }
  unfold commit in H.
  pose proof (storen_safe p (fsize f) f _ load ch Hs Hc HS) as SS.
  destruct (storen _ _ _ _) as [c0 u0|c0] eqn:E; [|discriminate]. injection H as <- _.
  cbn [res_cm] in SS. apply safe_cm_ops in SS.
  destruct (storen_ops _ _ _ _ _ _ E) as (ws & Eo & Fw).
  assert (Er : rev (cm_ops (emit_op (emit_op c0 Sync) DropRB)) = SaveRB :: rev ws ++ [Sync] ++ [DropRB]).
  { cbn [emit_op cm_ops rev]. rewrite Eo, rev_app_distr. cbn [rev app]. now rewrite <- app_assoc. }
  rewrite Er in RP. subst d. rewrite Er in *. clear Er. rewrite Eo in SS.
  cbn [emit_op cm_file] in *.
  apply Forall_app in SS. destruct SS as [SW _].
  assert (FW : Forall (fun o => safe_op (head_len p) f o /\ o <> SaveRB /\ o <> DropRB) (rev ws ++ [Sync])).
  { apply Forall_app. split; [|repeat constructor; discriminate]. apply Forall_rev.
    rewrite Forall_forall in *. intros o Ho. split; [now apply SW|now apply Fw]. }
  (* k = 0, inside, or all *)
  destruct k as [|k].
  { cbn in Sv |- *. exists g. split; [reflexivity|]. left. destruct Sv as [S1 S2]. cbn in S1, S2.
    apply feq_fget. split; [lia|]. intro i. destruct (N.lt_ge_cases i (fsize f)) as [C|C].
    - destruct (S2 i C) as [->|(? & ? & [] & _)]. reflexivity.
    - rewrite !fget_out by lia. reflexivity. }
  cbn [firstn fold_left] in *.
  set (d1 := exec p (clean f) SaveRB) in *.
  assert (I1 : inv (head_len p) f d1).
  { split; [reflexivity|]. split; [apply good_refl|]. split; [apply good_refl|constructor]. }
  assert (IN : forall ops d, Forall (fun o => safe_op (head_len p) f o /\ o <> SaveRB /\ o <> DropRB) ops ->
    inv (head_len p) f d -> inv (head_len p) f (fold_left (exec p) ops d)).
  { induction ops as [|o ops IH]; intros d0 F0 I0; [exact I0|]. cbn [fold_left].
    apply Forall_cons_iff in F0. destruct F0 as [(S1 & S2 & S3) F0]. apply IH; [assumption|]. now apply inv_exec. }
  destruct (Nat.le_gt_cases k (length (rev ws ++ [Sync]))) as [Ck|Ck].
  - assert (Ef : firstn k (rev ws ++ [Sync] ++ [DropRB]) = firstn k (rev ws ++ [Sync])).
    { rewrite app_assoc, firstn_app. replace (k - length (rev ws ++ [Sync]))%nat with 0%nat by lia. now rewrite app_nil_r. }
    rewrite Ef in *.
    assert (I2 : inv (head_len p) f (fold_left (exec p) (firstn k (rev ws ++ [Sync])) d1)).
    { apply IN; [|assumption]. rewrite Forall_forall in *. intros o Ho. apply FW.
      rewrite <- (firstn_skipn k (rev ws ++ [Sync])). apply in_or_app. now left. }
    destruct I2 as (A & B & C & D). rewrite A. cbn [reopen].
    destruct (rollback_good (head_len p) f g Hh Hz (inv_survives _ _ _ _ (conj A (conj B (conj C D))) Sv)) as (r & R1 & R2).
    exists r. auto.
  - rewrite firstn_all2 in * by (rewrite !app_length in *; cbn [length] in *; lia).
    rewrite !fold_left_app in *. cbn [fold_left] in *.
    set (d2 := fold_left (exec p) (rev ws) d1) in *. cbn [exec d_rb d_dur d_vol d_pend reopen] in *.
    exists g. split; [reflexivity|]. right.
    destruct Sv as [S1 S2]. cbn [d_dur d_vol d_pend] in *.
    assert (EV : d_vol d2 = cm_file c0).
    { unfold d2. rewrite exec_vol. rewrite RP. unfold replay. cbn [fold_left]. rewrite !fold_left_app. reflexivity. }
    rewrite EV in *. apply feq_fget. split; [lia|]. intro i. destruct (N.lt_ge_cases i (fsize (cm_file c0))) as [C|C].
    + destruct (S2 i C) as [->|(? & ? & [] & _)]. reflexivity.
    + rewrite !fget_out by lia. reflexivity.
Qed.

(** Nothing about it needs the crash: a commit that fails by itself is undone. *)
Theorem C30_failed_commit : forall p f load ch c, small_pool p -> changes_in p ch -> head_len p <= fsize f -> fsize f < 2^64 ->
  commit p f load ch = Fail c -> exists r, failed_commit p f c = Some r /\ feq r f.
Proof.
  intros p f load ch c Hs Hc Hh Hz H. unfold failed_commit. apply rollback_good; [assumption|assumption|].
  assert (HS : safe_cm (head_len p) f (emit_op {| cm_file := f; cm_ops := [] |} SaveRB)).
  { split; [lia|]. split; [apply good_refl|]. repeat constructor. }
  unfold commit in H. pose proof (storen_safe p (fsize f) f _ load ch Hs Hc HS) as SS.
  destruct (storen _ _ _ _) as [c0 u0|c0]; [discriminate|]. injection H as <-. apply SS.
Qed.

(** What readers see does not depend on more than the contents; a longer file with the
    same beginning reads the same. *)
Lemma fetch_extends : forall p f g l o, small_pool p -> wf p f l -> o < p_cap p -> extends f g -> fetch p g o = fetch p f o.
Proof.
  intros p f g l o Hs [W1 W2 W3 W4] Ho X. pose proof (head_ge p) as Hh.
  assert (R : read4_at g 16 = Some l).
  { unfold read4_at in *. destruct (fread f 16 4) as [b|] eqn:E; [|discriminate]. now rewrite (extends_read _ _ _ _ _ X E). }
  unfold fetch, open_load. rewrite R, W2. destruct (_ <=? o); [reflexivity|].
  rewrite !fetch_entry by assumption. destruct (W4 o Ho) as (b & off & size & B1 & B2 & B3 & _).
  rewrite B1. unfold entry in *. rewrite (extends_read _ _ _ _ _ X B1), B2.
  destruct (N.eqb_spec off 0); [reflexivity|]. destruct (N.eqb_spec size 0); [reflexivity|].
  destruct B3 as [B3|[B3|[B3 B3']]]; [contradiction|contradiction|].
  destruct (fread f off (N.to_nat size)) as [x|] eqn:Er.
  - now rewrite (extends_read _ _ _ _ _ X Er).
  - apply fread_none in Er. rewrite N2Nat.id in Er. lia.
Qed.
Lemma feq_extends : forall r f, feq r f -> extends f r.
Proof. intros r f H. apply feq_fget in H. destruct H as [A B]. split; [lia|]. intros i _. apply B. Qed.

(** The same as seen by readers: after the crash every object has its old value, or every
    object has its new value. *)
Theorem C30_readers_partial : forall p f old_load load ch c u k g,
  small_pool p -> wf p f old_load -> fsize f < 2^64 -> old_load <= load <= p_cap p -> valid_changes p load (ch_values ch) ->
  commit p f load ch = Ok c u ->
  let d := fold_left (exec p) (firstn k (rev (cm_ops c))) (clean f) in
  survives d g ->
  exists r, reopen g (d_rb d) = Some r /\
   ((forall o, o < p_cap p -> fetch p r o = fetch p f o) \/
    (forall o, o < p_cap p -> fetch p r o = view_after p (fetch p f) old_load load (ch_values ch) o)).
Proof.
  intros p f ol load ch c u k g Hs Wf Hz Hl Vc H d Sv.
  destruct (C30_crash_atomic_partial p f load ch c u k g Hs (vc_in _ _ _ Vc) (wf_size _ _ _ Wf) Hz H Sv) as (r & R1 & [R2|R2]);
    exists r; (split; [exact R1|]).
  - left. intros o Ho. eapply fetch_extends; [eassumption|eassumption|assumption|now apply feq_extends].
  - right. intros o Ho. destruct (C29_commit_partial _ _ _ _ _ _ _ Hs Wf Hl Vc H) as [W2 F]. rewrite <- (F o Ho).
    eapply fetch_extends; [eassumption|eassumption|assumption|now apply feq_extends].
Qed.

(** ** Crashes during the recovery

    apply_head copies the header through a memory map (any part of it may have reached the
    disk when the machine stops), calls msync, truncates the file (not synced: the
    truncation may or may not survive), then kno_check_rollback renames the rollback
    file.  The pairs reached: file, rollback file still there. *)
Inductive recovery_crash (h g : file) : file -> bool -> Prop :=
| rc_copy g' : fsize g' = fsize g ->
    (forall i, fget g' i = fget g i \/ (i < fsize h - 8 /\ fget g' i = fget h i)) -> recovery_crash h g g' true
| rc_late g' r renamed : apply_head h g = Some r -> fsize r <= fsize g' <= fsize g ->
    (forall i, i < fsize g' -> fget g' i = if i <? fsize h - 8 then fget h i else fget g i) -> recovery_crash h g g' (negb renamed).
(** Any number of interrupted recoveries, in the end a completed one or one after which
    the rollback file is gone. *)
Inductive recoveries (h : file) : file -> file -> Prop :=
| rs_done g r : apply_head h g = Some r -> recoveries h g r
| rs_gone g r : recovery_crash h g r false -> recoveries h g r
| rs_again g g' r : recovery_crash h g g' true -> recoveries h g' r -> recoveries h g r.

Lemma rc_good : forall hl f g g' b, hl <= fsize f -> fsize f < 2^64 -> good hl f g -> recovery_crash (save_head f hl) g g' b ->
  good hl f g' /\ (b = false -> extends f g').
Proof.
  intros hl f g g' b Hh Hz G R. inversion R as [g1 A B|g1 r rn A B C]; subst.
  - rewrite save_head_size in B. replace (hl + 8 - 8) with hl in B by lia. split; [|discriminate].
    destruct G as [G1 G2]. split; [lia|]. intros i Hi. destruct (B i) as [E|[E _]]; [|lia]. rewrite E. now apply G2.
  - destruct (rollback_good hl f g Hh Hz G) as (r' & E1 & E2). rewrite E1 in A. injection A as <-.
    destruct E2 as [E2 _]. rewrite save_head_size in C. replace (hl + 8 - 8) with hl in C by lia. destruct G as [G1 G2].
    assert (P : good hl f g').
    { split; [lia|]. intros i Hi. rewrite C by lia. destruct (N.ltb_spec i hl); [lia|]. now apply G2. }
    split; [exact P|]. intros _. split; [lia|]. intros i Hi. rewrite C by lia.
    destruct (N.ltb_spec i hl); [now apply save_head_get|apply G2; lia].
Qed.
(** Crash during the commit, any number of crashes during recovery: the objects read as
    before the commit. *)
Theorem C30_repeated_crashes : forall p f l g r, small_pool p -> wf p f l -> fsize f < 2^64 ->
  good (head_len p) f g -> recoveries (save_head f (head_len p)) g r ->
  extends f r /\ forall o, o < p_cap p -> fetch p r o = fetch p f o.
Proof.
  intros p f l g r Hs Wf Hz G R.
  assert (X : extends f r).
  { pose proof (wf_size _ _ _ Wf) as Hh. induction R as [g r E|g r E|g g' r E R IH].
    - destruct (rollback_good _ f g Hh Hz G) as (r' & E1 & E2). rewrite E1 in E. injection E as <-. now apply feq_extends.
    - destruct (rc_good _ _ _ _ _ Hh Hz G E) as [_ X]. auto.
    - apply IH. now destruct (rc_good _ _ _ _ _ Hh Hz G E). }
  split; [exact X|]. intros o Ho. now apply (fetch_extends p f r l).
Qed.
(** Every crash of a commit before its end leads to such a state. *)
Theorem C30_crash_state : forall p f load ch c u k g, small_pool p -> changes_in p ch -> head_len p <= fsize f ->
  commit p f load ch = Ok c u ->
  let d := fold_left (exec p) (firstn k (rev (cm_ops c))) (clean f) in
  survives d g -> (0 < k < length (cm_ops c))%nat ->
  d_rb d = Some (save_head f (head_len p)) /\ good (head_len p) f g.
Proof.
  intros p f load ch c u k g Hs Hc Hh H d Sv Hk.
  assert (HS : safe_cm (head_len p) f (emit_op {| cm_file := f; cm_ops := [] |} SaveRB)).
  { split; [lia|]. split; [apply good_refl|]. repeat constructor. }
  unfold commit in H. pose proof (storen_safe p (fsize f) f _ load ch Hs Hc HS) as SS.
  destruct (storen _ _ _ _) as [c0 u0|c0] eqn:E; [|discriminate]. injection H as <- _.
  cbn [res_cm] in SS. apply safe_cm_ops in SS. destruct (storen_ops _ _ _ _ _ _ E) as (ws & Eo & Fw).
  assert (Er : rev (cm_ops (emit_op (emit_op c0 Sync) DropRB)) = (SaveRB :: rev ws ++ [Sync]) ++ [DropRB]).
  { cbn [emit_op cm_ops rev]. rewrite Eo, rev_app_distr. reflexivity. }
  rewrite <- rev_length, Er in Hk. subst d. rewrite Er in *. rewrite Eo in SS. apply Forall_app in SS. destruct SS as [SW _].
  assert (FW : Forall (fun o => safe_op (head_len p) f o /\ o <> SaveRB /\ o <> DropRB) (rev ws ++ [Sync])).
  { apply Forall_app. split; [|repeat constructor; discriminate]. apply Forall_rev.
    rewrite Forall_forall in *. intros o Ho. split; [now apply SW|now apply Fw]. }
  rewrite app_length in Hk. cbn [length] in Hk.
  rewrite firstn_app in *. replace (k - length (SaveRB :: rev ws ++ [Sync]))%nat with 0%nat in * by (cbn [length]; lia).
  cbn [firstn] in *. rewrite app_nil_r in *. destruct k as [|k]; [lia|]. cbn [firstn fold_left] in *.
  set (d1 := exec p (clean f) SaveRB) in *.
  assert (I1 : inv (head_len p) f d1).
  { split; [reflexivity|]. split; [apply good_refl|]. split; [apply good_refl|constructor]. }
  assert (IN : forall ops d, Forall (fun o => safe_op (head_len p) f o /\ o <> SaveRB /\ o <> DropRB) ops ->
    inv (head_len p) f d -> inv (head_len p) f (fold_left (exec p) ops d)).
  { induction ops as [|o ops IH]; intros d0 F0 I0; [exact I0|]. cbn [fold_left].
    apply Forall_cons_iff in F0. destruct F0 as [(S1 & S2 & S3) F0]. apply IH; [assumption|]. now apply inv_exec. }
  assert (I2 : inv (head_len p) f (fold_left (exec p) (firstn k (rev ws ++ [Sync])) d1)).
  { apply IN; [|assumption]. rewrite Forall_forall in *. intros o Ho. apply FW.
    rewrite <- (firstn_skipn k (rev ws ++ [Sync])). apply in_or_app. now left. }
  split; [apply I2|]. eapply inv_survives; eassumption.
Qed.

(** The file as the process sees it is one of the possible survivors. *)
Lemma vol_survives : forall p ops f, survives (fold_left (exec p) ops (clean f)) (d_vol (fold_left (exec p) ops (clean f))).
Proof.
  intros p ops f.
  set (J := fun d => fsize (d_dur d) <= fsize (d_vol d) /\ forall i, i < fsize (d_dur d) ->
    fget (d_vol d) i = fget (d_dur d) i \/
    exists pos bs, In (pos, bs) (d_pend d) /\ pos <= i < pos + blen bs /\ fget (d_vol d) i = nth (N.to_nat (i - pos)) bs 0).
  assert (JJ : forall ops d, J d -> J (fold_left (exec p) ops d)).
  { induction ops0 as [|o ops0 IH]; intros d Hd; [exact Hd|]. cbn [fold_left]. apply IH. destruct Hd as [A B].
    destruct o as [pos bs| | |]; cbn [exec]; unfold J; cbn [d_dur d_vol d_pend].
    - split; [pose proof (fwrite_size_ge (d_vol d) pos bs); lia|]. intros i Hi.
      destruct (N.le_gt_cases pos i) as [C|C]; [destruct (N.lt_ge_cases i (pos + blen bs)) as [C'|C']|].
      + right. exists pos, bs. split; [now left|]. split; [lia|]. rewrite fget_fwrite.
        destruct (N.leb_spec pos i); [|lia]. destruct (N.ltb_spec i (pos + blen bs)); [reflexivity|lia].
      + rewrite fget_fwrite_out by lia. destruct (B i Hi) as [E|(q & b & I1 & I2)]; [now left|right; exists q, b; split; [now right|assumption]].
      + rewrite fget_fwrite_out by lia. destruct (B i Hi) as [E|(q & b & I1 & I2)]; [now left|right; exists q, b; split; [now right|assumption]].
    - split; [lia|]. auto.
    - auto.
    - auto. }
  destruct (JJ ops (clean f)) as [A B]; [split; [cbn; lia|now left]|]. split; [lia|exact B].
Qed.

Definition is_ok {A} (r : res A) : bool := match r with Ok _ _ => true | Fail _ => false end.
Lemma ok_eq : forall r : res unit, is_ok r = true -> r = Ok (res_cm r) tt.
Proof. intros [c []|c] H; [reflexivity|discriminate]. Qed.

Example C30_met : exists k g, let d := fold_left (exec p4) (firstn k (rev (cm_ops (res_cm (commit p4 f1 3 ch2))))) (clean f1) in
  survives d g /\ (match d_rb d with Some _ => true | None => false end) = true /\ fetch p4 g 2 = FError /\
  match reopen g (d_rb d) with Some r => fetch p4 r 2 = FValue [5] | None => False end.
Proof.
  (* the new table entry has reached the disk, the data it refers to has not *)
  set (ops := firstn 3 (rev (cm_ops (res_cm (commit p4 f1 3 ch2))))).
  exists 3%nat, {| fsize := fsize f1; fbyte := fget (d_vol (fold_left (exec p4) ops (clean f1))) |}.
  cbv zeta. fold ops. split.
  { pose proof (vol_survives p4 ops f1) as [A B].
    assert (E : d_dur (fold_left (exec p4) ops (clean f1)) = f1) by reflexivity. rewrite E in *.
    split; [rewrite E; cbn [fsize]; lia|]. intros i Hi. rewrite E in *. rewrite fget_in by (cbn [fsize]; assumption). cbn [fbyte]. now apply B. }
  split; [vm_compute; reflexivity|]. split; vm_compute; reflexivity.
Qed.

(** kno_write_rollback, drivers.c:1154-1174, returns 1 even when kno_save_head has failed
    (and the errors are not looked at); the commit then goes on without a rollback file.  A
    crash then leaves a mixture. *)
Theorem C30_save_failed_refuted : exists p f load ch c u k g,
  small_pool p /\ valid_changes p load (ch_values ch) /\ commit p f load ch = Ok c u /\
  let without := filter (fun o => match o with SaveRB => false | _ => true end) (rev (cm_ops c)) in
  let d := fold_left (exec p) (firstn k without) (clean f) in
  survives d g /\ d_rb d = None /\
  fetch p g 0 = FValue [1; 1] /\ fetch p f 0 = FValue [7; 8; 9] /\
  fetch p g 2 = fetch p f 2 /\ fetch p (cm_file c) 2 = FValue [2; 2].
Proof.
  pose (ch := {| ch_values := [(0, Some [1; 1]); (2, Some [2; 2])]; ch_slotids := None; ch_metadata := None |}).
  pose (c := res_cm (commit p4 f1 3 ch)).
  exists p4, f1, 3, ch, c, tt, 3%nat, (d_vol (fold_left (exec p4)
    (firstn 3 (filter (fun o => match o with SaveRB => false | _ => true end) (rev (cm_ops c)))) (clean f1))).
  split; [vm_compute; reflexivity|]. split.
  { constructor; cbn.
    - repeat constructor; cbn; intuition discriminate.
    - repeat constructor.
    - repeat constructor.
    - intros o b [E|[E|[]]]; injection E as <- <-; reflexivity. }
  split; [apply ok_eq; vm_compute; reflexivity|]. cbv zeta. split; [apply vol_survives|].
  split; [reflexivity|]. do 3 (split; [vm_compute; reflexivity|]). vm_compute; reflexivity.
Qed.

(** ** C29: values that are not kept *)

(** A value of 16 MB or more in the default (40-bit) format: the commit succeeds and the
    object is empty afterwards. *)
Lemma big_value : forall b bs, blen (b :: bs) = 2^24 -> forall c u,
  commit p4 (make_pool p4 1 0 1 0) 1 {| ch_values := [(0, Some (b :: bs))]; ch_slotids := None; ch_metadata := None |} = Ok c u ->
  fetch p4 (cm_file c) 0 = FEmpty.
Proof.
  intros b bs Hb c u H. pose (f := make_pool p4 1 0 1 0).
  assert (Hs : small_pool p4) by (vm_compute; reflexivity).
  unfold commit in H. destruct (storen _ _ _ _) as [c0 u0|c0] eqn:E; [|discriminate]. injection H as <- _.
  unfold storen in E. cbn [emit_op cm_file ch_values store_values] in E.
  destruct (_ <=? _) in E; [discriminate|]. rewrite Hb in E. change (2^24 =? 0) with false in E.
  change (if negb false && p_adjunct p4 && (1 <=? 0) then 0 + 1 else 1) with 1 in E.
  set (c1 := emit _ _ _) in E.
  assert (H1 : head_len p4 <= fsize (cm_file c1)).
  { unfold c1. cbn [emit cm_file]. etransitivity; [|apply fwrite_size_ge]. reflexivity. }
  destruct (update_spec p4 c1 [(0, (fsize (make_pool p4 1 0 1 0), 2^24))] 1 _ c0 u0 Hs ltac:(repeat constructor) H1 ltac:(reflexivity) E) as (_ & T & R).
  specialize (T 0 ltac:(reflexivity)). cbn [assoc_last] in T. rewrite N.eqb_refl in T.
  cbn [emit_op cm_file]. unfold fetch, open_load. rewrite R. change (N.min 1 (p_cap p4) <=? 0) with false. cbv iota.
  rewrite fetch_entry by (assumption || reflexivity). rewrite T.
  assert (D : decode_ref (p_type p4) (direct_bytes (p_type p4) (fsize (make_pool p4 1 0 1 0), 2^24)) = Some (0, 0)) by (vm_compute; reflexivity).
  rewrite D. reflexivity.
Qed.
Lemma read8_some : forall f pos, pos + 8 <= fsize f -> exists w, read8_at f pos = Some w.
Proof.
  intros f pos H. unfold read8_at. destruct (fread f pos 8) as [x|] eqn:E; [|apply fread_none in E; lia].
  pose proof (fread_len _ _ _ _ E) as L. do 8 (destruct x as [|? x]; [discriminate L|]). eexists. reflexivity.
Qed.
Lemma read4_some : forall f pos, pos + 4 <= fsize f -> exists w, read4_at f pos = Some w.
Proof.
  intros f pos H. unfold read4_at. destruct (fread f pos 4) as [x|] eqn:E; [|apply fread_none in E; lia].
  pose proof (fread_len _ _ _ _ E) as L. do 4 (destruct x as [|? x]; [discriminate L|]). eexists. reflexivity.
Qed.
Theorem C29_big_value_refuted : exists p f load ch c u v, small_pool p /\ wf p f 0 /\
  ch_values ch = [(0, Some v)] /\ v <> [] /\ commit p f load ch = Ok c u /\ fetch p (cm_file c) 0 = FEmpty.
Proof.
  assert (X : exists b bs, blen (b :: bs) = 2^24).
  { exists 0, (repeat 0 (N.to_nat (2^24 - 1))). unfold blen. cbn [length]. rewrite repeat_length. lia. }
  destruct X as (b & bs & Hb).
  pose (ch := {| ch_values := [(0, Some (b :: bs))]; ch_slotids := None; ch_metadata := None |}).
  destruct (commit p4 (make_pool p4 1 0 1 0) 1 ch) as [c u|c] eqn:E.
  - exists p4, (make_pool p4 1 0 1 0), 1, ch, c, u, (b :: bs). split; [vm_compute; reflexivity|].
    split; [apply C29_new_pool; [vm_compute; reflexivity|reflexivity || lia]|].
    split; [reflexivity|]. split; [discriminate|]. split; [exact E|]. eapply big_value; eassumption.
  - exfalso. revert E. unfold commit, storen. cbn [emit_op cm_file ch ch_values store_values]. rewrite Hb.
    destruct (N.leb_spec (maxpos (p_type p4)) (fsize (make_pool p4 1 0 1 0) + 2^24)) as [C|C]; [vm_compute in C; now elim C|].
    unfold update. cbn [ch_slotids write_slotids ch_metadata write_metadata write_offdata].
    set (c2 := emit _ _ _).
    assert (S1 : 276 <= fsize (cm_file c2)).
    { unfold c2. cbn [emit cm_file]. do 2 (etransitivity; [|apply fwrite_size_ge]). vm_compute. discriminate. }
    unfold bump_nblocks. destruct (read8_some (cm_file c2) 0x60 ltac:(lia)) as (w & Ew). rewrite Ew. cbv iota beta.
    unfold write_load.
    match goal with |- context [read4_at ?g 16] => assert (S2 : 276 <= fsize g) by
      (cbn [emit emit_op cm_file]; do 2 (etransitivity; [|apply fwrite_size_ge]); exact S1);
      destruct (read4_some g 16 ltac:(lia)) as (y & Ey); rewrite Ey end.
    destruct (negb _); discriminate.
Qed.

(** A value the encoder cannot write is stored as the empty value, the commit succeeds and
    the old value is gone. *)
Theorem C29_unencodable_refuted : exists p f load ch c u o, small_pool p /\ wf p f load /\
  fetch p f o = FValue [7; 8; 9] /\ ch_values ch = [(o, None)] /\ commit p f load ch = Ok c u /\ fetch p (cm_file c) o = FEmpty.
Proof.
  pose (ch := {| ch_values := [(0, None)]; ch_slotids := None; ch_metadata := None |}).
  assert (Hs : small_pool p4) by (vm_compute; reflexivity).
  exists p4, f1, 3, ch, (res_cm (commit p4 f1 3 ch)), tt, 0. split; [exact Hs|]. split.
  { destruct (C29_new_pool p4 1 0 1 0 Hs ltac:(cbn; lia)) as [W _].
    refine (proj1 (C29_commit_partial p4 _ 0 3 ch1 (res_cm (commit p4 (make_pool p4 1 0 1 0) 3 ch1)) tt Hs W ltac:(cbn; lia) (proj1 C29_met) _)).
    apply ok_eq. vm_compute. reflexivity. }
  split; [vm_compute; reflexivity|]. split; [reflexivity|]. split; [apply ok_eq; vm_compute; reflexivity|]. vm_compute. reflexivity.
Qed.

(** ** C31 *)

(** What applying the prepared commit file does: everything is as the commit wanted it,
    except for the eight bytes after the header, which become the old file size. *)
Theorem C31_exact : forall p f newf, head_len p + 8 <= fsize newf -> fsize newf < 2^64 ->
  exists r, apply_head (prepared p f newf) (data_only p f newf) = Some r /\ fsize r = fsize newf /\
  forall i, i < fsize newf ->
    fget r i = if (head_len p <=? i) && (i <? head_len p + 8) then nth (N.to_nat (i - head_len p)) (put_8bytes (fsize f)) 0
               else fget newf i.
Proof.
  intros p f newf Hs Hz. unfold apply_head.
  assert (SZ : fsize (prepared p f newf) = head_len p + 16).
  { unfold prepared. rewrite fwrite_size by apply put8_nonnil. cbn [fsize]. rewrite save_head_size. unfold blen. rewrite put_8bytes_len. lia. }
  rewrite SZ. replace (head_len p + 16 - 8) with (head_len p + 8) by lia.
  assert (RD : read8_at (prepared p f newf) (head_len p + 8) = Some (fsize newf)).
  { unfold prepared. cbn [fsize]. rewrite save_head_size. now apply read8_written. }
  rewrite RD. destruct (N.ltb_spec (fsize newf) (head_len p + 8)); [lia|].
  eexists. split; [reflexivity|]. split; [reflexivity|].
  intros i Hi. unfold fget at 1. cbn [ftruncate fsize fbyte]. destruct (N.ltb_spec i (fsize newf)); [|lia].
  unfold data_only at 1. unfold fget at 1. cbn [fsize fbyte].
  destruct (N.ltb_spec i (N.max (fsize newf) (head_len p + 8))); [|lia].
  destruct (N.ltb_spec i (head_len p + 8)) as [C|C].
  - unfold prepared. rewrite fget_fwrite_out by (left; cbn [fsize]; rewrite save_head_size; lia).
    rewrite fget_in by (cbn [fsize]; rewrite save_head_size; lia). cbn [fbyte].
    destruct (N.ltb_spec i (head_len p)) as [C1|C1].
    + destruct (N.leb_spec (head_len p) i); [lia|]. reflexivity.
    + destruct (N.leb_spec (head_len p) i); [|lia]. cbn [andb].
      unfold save_head. rewrite fget_fwrite. destruct (N.leb_spec (head_len p) i); [|lia].
      destruct (N.ltb_spec i (head_len p + blen (put_8bytes (fsize f)))) as [C2|C2]; [reflexivity|].
      unfold blen in C2. rewrite put_8bytes_len in C2. lia.
  - destruct (N.leb_spec (head_len p) i); [|lia]. cbn [andb]. unfold data_only. cbn [fbyte fsize]. unfold fget at 1. cbn [fsize fbyte].
    destruct (N.ltb_spec i (fsize newf)); [|lia]. destruct (N.ltb_spec i (head_len p)); [lia|reflexivity].
Qed.
(** An object stored first in the file (never touched by the commit) is lost. *)
Theorem C31_data_overwritten_refuted : exists p f load ch c u r, small_pool p /\ wf p f 3 /\ valid_changes p load (ch_values ch) /\
  commit p f load ch = Ok c u /\ apply_head (prepared p f (cm_file c)) (data_only p f (cm_file c)) = Some r /\
  fetch p f 0 = FValue [7; 8; 9] /\ fetch p (cm_file c) 0 = FValue [7; 8; 9] /\ fetch p r 0 = FValue [0; 0; 0].
Proof.
  assert (Hs : small_pool p4) by (vm_compute; reflexivity).
  pose (c := res_cm (commit p4 f1 3 ch2)).
  exists p4, f1, 3, ch2, c, tt, (match apply_head (prepared p4 f1 (cm_file c)) (data_only p4 f1 (cm_file c)) with Some r => r | None => f1 end).
  split; [exact Hs|]. split.
  { destruct (C29_new_pool p4 1 0 1 0 Hs ltac:(cbn; lia)) as [W _].
    refine (proj1 (C29_commit_partial p4 _ 0 3 ch1 (res_cm (commit p4 (make_pool p4 1 0 1 0) 3 ch1)) tt Hs W ltac:(cbn; lia) (proj1 C29_met) _)).
    apply ok_eq. vm_compute. reflexivity. }
  split.
  { constructor; cbn.
    - repeat constructor; cbn; intuition discriminate.
    - repeat constructor.
    - repeat constructor.
    - intros o b [E|[]]; injection E as <- <-; reflexivity. }
  split; [apply ok_eq; vm_compute; reflexivity|]. split.
  { destruct (C31_exact p4 f1 (cm_file c)) as (r & R1 & _); [vm_compute; discriminate|vm_compute; reflexivity|].
    rewrite R1. reflexivity. }
  do 2 (split; [vm_compute; reflexivity|]). vm_compute; reflexivity.
Qed.

Print Assumptions C29_commit_partial.
Print Assumptions C29_new_pool.
Print Assumptions C29_history_partial.
Print Assumptions C29_big_value_refuted.
Print Assumptions C29_unencodable_refuted.
Print Assumptions C30_crash_atomic_partial.
Print Assumptions C30_failed_commit.
Print Assumptions C30_readers_partial.
Print Assumptions C30_repeated_crashes.
Print Assumptions C30_crash_state.
Print Assumptions C30_save_failed_refuted.
Print Assumptions C31_exact.
Print Assumptions C31_data_overwritten_refuted.

(** Big pools below 4GB of head, with the limits of C29 and C30 as hypotheses: after any
    history of commits every object reads as the history says; a further commit that succeeds
    gives the new values and keeps the others; when the machine stops at any point of it, with any
    part of the writes since the last sync on the disk, what is found on opening the pool
    again are all the old values or all the new ones; and a commit that fails
    leaves the file as it was. *)
Theorem C83_big_pools : forall p f old_load view load ch, small_pool p -> history p f old_load view -> fsize f < 2^64 ->
  old_load <= load <= p_cap p -> valid_changes p load (ch_values ch) -> changes_in p ch ->
  (forall o, o < p_cap p -> fetch p f o = view o) /\
  (forall c u, commit p f load ch = Ok c u ->
    (forall o, o < p_cap p -> fetch p (cm_file c) o = view_after p view old_load load (ch_values ch) o) /\
    (forall k g, let d := fold_left (exec p) (firstn k (rev (cm_ops c))) (clean f) in
      survives d g -> exists r, reopen g (d_rb d) = Some r /\
       ((forall o, o < p_cap p -> fetch p r o = view o) \/
        (forall o, o < p_cap p -> fetch p r o = view_after p view old_load load (ch_values ch) o)))) /\
  (forall c, commit p f load ch = Fail c -> exists r, failed_commit p f c = Some r /\ feq r f).
Proof.
  intros p f old_load view load ch S H Z L V I. destruct (C29_history_partial p f old_load view S H) as [W F].
  split; [exact F|]. split.
  - intros c u C.
    assert (N : forall o, o < p_cap p -> fetch p (cm_file c) o = view_after p view old_load load (ch_values ch) o).
    { apply (C29_history_partial p (cm_file c) _ _ S (H_commit p f old_load view load ch c u H L V C)). }
    split; [exact N|]. intros k g d G.
    destruct (C30_readers_partial p f old_load load ch c u k g S W Z L V C G) as (r & R & [Q|Q]); exists r.
    + split; [exact R|]. left. intros o O. rewrite Q by exact O. auto.
    + split; [exact R|]. right. intros o O. rewrite Q by exact O.
      destruct (C29_commit_partial p f old_load load ch c u S W L V C) as [_ K]. rewrite <- K by exact O. auto.
  - intros c C. apply (C30_failed_commit p f load ch); try assumption. apply W.
Qed.
Example C83_history_case : history p4 f1 (load_after p4 3 (ch_values ch1)) (view_after p4
    (fun o => if 0 <=? o then (if p_adjunct p4 then FEmpty else FUnallocated) else FEmpty) 0 3 (ch_values ch1)).
Proof.
  unfold f1. apply (H_commit p4 (make_pool p4 1 0 1 0) 0 _ 3 ch1 _ tt).
  - apply H_new. vm_compute. discriminate.
  - split; vm_compute; discriminate.
  - apply C29_met.
  - apply ok_eq. vm_compute. reflexivity.
Qed.
Example C83_big_pools_case : small_pool p4 /\ fsize f1 < 2^64 /\ valid_changes p4 3 (ch_values ch2) /\ changes_in p4 ch2.
Proof.
  split; [reflexivity|]. split; [vm_compute; reflexivity|]. split.
  { constructor; cbn.
    + repeat constructor; cbn; intuition discriminate.
    + repeat constructor.
    + repeat constructor.
    + intros o b [E|[]]; injection E as <- <-; reflexivity. }
  repeat constructor.
Qed.
Example C83_commit_case : is_ok (commit p4 f1 3 ch2) = true.
Proof. vm_compute. reflexivity. Qed.
Print Assumptions C83_big_pools.
