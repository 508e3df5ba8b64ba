(** * Lemmas about big pools. *)
From Verif Require Import BytesModel BytesProofs FileModel FileProofs ChunkModel ChunkProofs PoolModel.
Local Open Scope N_scope.

(** ** The frame of a commit

    [good hl f g]: [g] is at least as long as [f] and has the same bytes from [hl] to the
    end of [f]. *)
Definition good (hl : N) (f g : file) : Prop :=
  fsize f <= fsize g /\ forall i, hl <= i < fsize f -> fget g i = fget f i.
(** A write that does not touch the old data. *)
Definition safe_write (hl : N) (f : file) (pos : N) (bs : bytes) : Prop :=
  pos + blen bs <= hl \/ fsize f <= pos.
Definition safe_op (hl : N) (f : file) (o : op) : Prop :=
  match o with W pos bs => safe_write hl f pos bs | _ => True end.

Lemma good_refl : forall hl f, good hl f f.
Proof. split; [lia|auto]. Qed.
Lemma good_write : forall hl f g pos bs, good hl f g -> safe_write hl f pos bs -> good hl f (fwrite g pos bs).
Proof.
  intros hl f g pos bs [A B] S. split.
  - pose proof (fwrite_size_ge g pos bs). lia.
  - intros i Hi. rewrite fget_fwrite_out; [auto|]. destruct S; lia.
Qed.

(** Every write of a commit is safe: the invariant on the commit's own record. *)
Definition safe2 (hl n0 : N) (f : file) (c : cm) : Prop :=
  n0 <= fsize f /\ good hl f (cm_file c) /\ Forall (safe_op hl {| fsize := n0; fbyte := fun _ => 0 |}) (cm_ops c).
Definition safe_cm (hl : N) (f : file) (c : cm) : Prop := safe2 hl (fsize f) f c.
Lemma safe_cm_ops : forall hl f c, safe_cm hl f c -> Forall (safe_op hl f) (cm_ops c).
Proof. intros hl f c (_ & _ & H). eapply Forall_impl; [|exact H]. intros [pos bs| | |] S; exact S. Qed.
Lemma safe_emit : forall hl n0 f c pos bs, safe2 hl n0 f c -> safe_write hl f pos bs -> safe2 hl n0 f (emit c pos bs).
Proof.
  intros hl n0 f c pos bs (Z & A & B) S. split; [assumption|]. split; simpl; [now apply good_write|].
  constructor; [|assumption]. destruct S as [S|S]; [now left|right; cbn [fsize]; lia].
Qed.
Lemma safe_emit_op : forall hl n0 f c o, safe2 hl n0 f c -> match o with W _ _ => False | _ => True end -> safe2 hl n0 f (emit_op c o).
Proof. intros hl n0 f c o (Z & A & B) S. split; [assumption|]. split; simpl; [assumption|]. constructor; [destruct o; easy|assumption]. Qed.

(** Entries that the 32-bit arithmetic reaches. *)
Definition small_pool (p : pool) : Prop := head_len p < 2^32.
Lemma direct_pos_small : forall p o, small_pool p -> o < p_cap p ->
  direct_pos (p_type p) o = 256 + o * ref_size (p_type p).
Proof.
  intros p o H Ho. unfold small_pool, head_len in H. unfold direct_pos.
  assert (o * ref_size (p_type p) <= ref_size (p_type p) * p_cap p) by nia.
  rewrite (u32_id (o * _)) by lia. apply u32_id. lia.
Qed.
Lemma entry_in_head : forall p o, o < p_cap p -> 256 + o * ref_size (p_type p) + ref_size (p_type p) <= head_len p.
Proof. intros. unfold head_len. nia. Qed.
Lemma ref_pos : forall t, 0 < ref_size t.
Proof. destruct t; reflexivity. Qed.

Definition res_cm {A} (r : res A) : cm := match r with Ok c _ => c | Fail c => c end.

Lemma store_values_safe : forall p n0 f chs c e l, fsize f <= e -> safe2 (head_len p) n0 f c ->
  safe2 (head_len p) n0 f (res_cm (store_values p c e l chs)).
Proof.
  induction chs as [|[o v] r IH]; intros c e l He S; [exact S|]. cbn [store_values].
  set (bs := match v with Some b => b | None => [] end).
  assert (S1 : safe2 (head_len p) n0 f (match bs with [] => c | _ => emit c e bs end)).
  { destruct bs; [assumption|]. apply safe_emit; [assumption|]. right. assumption. }
  destruct (_ <=? _); [exact S1|].
  match goal with |- context [store_values p ?c1 ?e1 ?l1 r] =>
    specialize (IH c1 e1 l1 ltac:(lia) S1); destruct (store_values p c1 e1 l1 r) as [c2 [info l2]|c2] end; exact IH.
Qed.

Lemma store_values_offs : forall p chs c e l c' info l', store_values p c e l chs = Ok c' (info, l') ->
  map fst info = map fst chs.
Proof.
  induction chs as [|[o v] r IH]; cbn [store_values]; intros c e l c' info l' H; [injection H as <- <- <-; reflexivity|].
  destruct (_ <=? _); [discriminate|].
  match type of H with context [store_values p ?c1 ?e1 ?l1 r] => destruct (store_values p c1 e1 l1 r) as [c2 [i2 l2]|c2] eqn:E end; [|discriminate].
  injection H as <- <- <-. simpl. f_equal. eapply IH. eassumption.
Qed.

Lemma write_offdata_safe : forall p n0 f info c, small_pool p -> Forall (fun x => fst x < p_cap p) info ->
  safe2 (head_len p) n0 f c -> safe2 (head_len p) n0 f (write_offdata p c info).
Proof.
  induction info as [|[o r] info IH]; intros c Hs Hi S; [exact S|]. cbn [write_offdata].
  apply Forall_cons_iff in Hi. destruct Hi as [Ho Hi]. cbn [fst] in Ho. apply IH; [assumption|assumption|].
  apply safe_emit; [assumption|]. left. rewrite direct_blen, direct_pos_small by assumption. now apply entry_in_head.
Qed.

Lemma head_ge : forall p, 256 <= head_len p.
Proof. intro p. unfold head_len. lia. Qed.
Lemma safe_header : forall p f pos bs, pos + blen bs <= 256 -> safe_write (head_len p) f pos bs.
Proof. intros p f pos bs H. left. pose proof (head_ge p). lia. Qed.

Lemma good_size : forall hl n0 f c, safe2 hl n0 f c -> fsize f <= fsize (cm_file c).
Proof. intros hl n0 f c (_ & [H _] & _). exact H. Qed.

Ltac hdr := apply safe_header; unfold blen; rewrite ?put_4bytes_len, ?put_8bytes_len; lia.

Lemma write_slotids_safe : forall p n0 f c s, safe2 (head_len p) n0 f c -> safe2 (head_len p) n0 f (write_slotids c s).
Proof.
  intros p n0 f c [[n bs]|] S; [|exact S]. cbn [write_slotids].
  repeat (apply safe_emit; [|hdr]). apply safe_emit; [assumption|]. right. eapply good_size. eassumption.
Qed.
Lemma write_metadata_safe : forall p n0 f c m, safe2 (head_len p) n0 f c -> safe2 (head_len p) n0 f (write_metadata c m).
Proof.
  intros p n0 f c [bs|] S; [|exact S]. cbn [write_metadata].
  repeat (apply safe_emit; [|hdr]). apply safe_emit; [assumption|]. right. eapply good_size. eassumption.
Qed.
Lemma bump_safe : forall p n0 f c n, safe2 (head_len p) n0 f c -> safe2 (head_len p) n0 f (res_cm (bump_nblocks c n)).
Proof. intros p n0 f c n S. unfold bump_nblocks. destruct (read8_at _ _); [apply safe_emit; [assumption|hdr]|exact S]. Qed.
Lemma write_load_safe : forall p n0 f c n, safe2 (head_len p) n0 f c -> safe2 (head_len p) n0 f (res_cm (write_load c n)).
Proof.
  intros p n0 f c n S. unfold write_load. destruct (read4_at _ _); [|exact S].
  destruct (negb _); [apply safe_emit; [assumption|hdr]|exact S].
Qed.

Definition changes_in (p : pool) (ch : changes) : Prop := Forall (fun x => fst x < p_cap p) (ch_values ch).

Lemma in_of_map : forall (A B : Type) (P : A -> Prop) (l : list (A * B)), Forall P (map fst l) <-> Forall (fun x => P (fst x)) l.
Proof.
  intros. rewrite !Forall_forall. split.
  - intros H x Hx. apply H. now apply in_map.
  - intros H a Ha. apply in_map_iff in Ha. destruct Ha as (x & <- & Hx). auto.
Qed.

Theorem update_safe : forall p n0 f c info load ch, small_pool p -> Forall (fun x => fst x < p_cap p) info ->
  safe2 (head_len p) n0 f c -> safe2 (head_len p) n0 f (res_cm (update p c info load ch)).
Proof.
  intros p n0 f c1 info load' ch Hs Hi S1. unfold update.
  assert (S2 : safe2 (head_len p) n0 f (res_cm
    (match info with [] => Ok (write_slotids c1 (ch_slotids ch)) tt
     | _ => bump_nblocks (write_offdata p (write_slotids c1 (ch_slotids ch)) info) (N.of_nat (length info)) end))).
  { destruct info as [|x info]; [now apply write_slotids_safe|]. apply bump_safe, write_offdata_safe; auto using write_slotids_safe. }
  destruct (match info with [] => Ok (write_slotids c1 (ch_slotids ch)) tt | _ => _ end) as [c2 u|c2]; [|exact S2].
  cbn [res_cm] in S2.
  match goal with |- context [write_load ?c3 load'] =>
    assert (S3 : safe2 (head_len p) n0 f (res_cm (write_load c3 load'))) end.
  { apply write_load_safe. apply safe_emit; [|hdr]. apply safe_emit_op; [|exact I]. now apply write_metadata_safe. }
  destruct (write_load _ load') as [c4 u4|c4]; [|exact S3]. cbn [res_cm] in *.
  apply safe_emit; [|hdr]. apply safe_emit_op; [assumption|exact I].
Qed.
Lemma info_in : forall p (chs : list (N * option bytes)) (info : list (N * cref)),
  map fst info = map fst chs -> Forall (fun x => fst x < p_cap p) chs -> Forall (fun x => fst x < p_cap p) info.
Proof.
  intros p chs info E H. apply (in_of_map N cref (fun o => o < p_cap p)). rewrite E.
  apply (in_of_map N (option bytes) (fun o => o < p_cap p)). exact H.
Qed.
Theorem storen_safe : forall p n0 f c load ch, small_pool p -> changes_in p ch ->
  safe2 (head_len p) n0 f c -> safe2 (head_len p) n0 f (res_cm (storen p c load ch)).
Proof.
  intros p n0 f c load ch Hs Hc S. unfold storen.
  pose proof (store_values_safe p n0 f (ch_values ch) c (fsize (cm_file c)) load (good_size _ _ _ _ S) S) as S1.
  destruct (store_values p c (fsize (cm_file c)) load (ch_values ch)) as [c1 [info load']|c1] eqn:E1; [|exact S1].
  cbn [res_cm] in S1. apply store_values_offs in E1. apply update_safe; [assumption| |assumption].
  eapply info_in; eassumption.
Qed.

(** ** Rollback *)

Lemma read8_eq : forall f pos b, fread f pos 8 = Some b -> read8_at f pos = match read_8bytes b with Some (w, _) => Some w | None => None end.
Proof. intros f pos b H. unfold read8_at. now rewrite H. Qed.

Lemma save_head_size : forall f len, fsize (save_head f len) = len + 8.
Proof.
  intros f len. unfold save_head. rewrite fwrite_size by (intro C; apply (f_equal (@length N)) in C; rewrite put_8bytes_len in C; discriminate).
  unfold blen. rewrite put_8bytes_len. cbn [fsize]. lia.
Qed.
Lemma put8_nonnil : forall w, put_8bytes w <> [].
Proof. intros w C. apply (f_equal (@length N)) in C. rewrite put_8bytes_len in C. discriminate. Qed.
Lemma put4_nonnil : forall w, put_4bytes w <> [].
Proof. intros w C. apply (f_equal (@length N)) in C. rewrite put_4bytes_len in C. discriminate. Qed.
Lemma read8_written : forall f pos w, w < 2^64 -> read8_at (fwrite f pos (put_8bytes w)) pos = Some w.
Proof.
  intros f pos w H. unfold read8_at. change 8%nat with (length (put_8bytes w)).
  rewrite fread_fwrite_same by apply put8_nonnil. rewrite <- (app_nil_r (put_8bytes w)), read_8bytes_put.
  now rewrite N.mod_small.
Qed.
Lemma read4_written : forall f pos w, w < 2^32 -> read4_at (fwrite f pos (put_4bytes w)) pos = Some w.
Proof.
  intros f pos w H. unfold read4_at. change 4%nat with (length (put_4bytes w)).
  rewrite fread_fwrite_same by apply put4_nonnil. rewrite <- (app_nil_r (put_4bytes w)), read_4bytes_put.
  now rewrite N.mod_small.
Qed.
Lemma save_head_get : forall f len i, i < len -> len <= fsize f -> fget (save_head f len) i = fget f i.
Proof.
  intros f len i Hi Hl. unfold save_head. rewrite fget_fwrite_out by (left; assumption).
  rewrite fget_in by exact Hi. reflexivity.
Qed.

(** Applying the rollback file to anything good yields the old file. *)
Theorem rollback_good : forall hl f g, hl <= fsize f -> fsize f < 2^64 -> good hl f g ->
  exists r, apply_head (save_head f hl) g = Some r /\ feq r f.
Proof.
  intros hl f g Hh Hs [A B]. unfold apply_head. rewrite save_head_size.
  replace (hl + 8 - 8) with hl by lia.
  assert (E : read8_at (save_head f hl) hl = Some (fsize f)) by (now apply read8_written).
  rewrite E. destruct (N.ltb_spec (fsize f) hl); [lia|].
  eexists. split; [reflexivity|]. split; [reflexivity|].
  intros i Hi. cbn [ftruncate fsize fbyte] in *. unfold fget at 1. cbn [fsize fbyte].
  destruct (N.ltb_spec i (N.max (fsize g) hl)); [|lia].
  destruct (N.ltb_spec i hl).
  - rewrite save_head_get by assumption. now apply fget_in.
  - rewrite B by lia. now apply fget_in.
Qed.

(** ** Reading a committed pool *)

(** [g] extends [f]: the bytes of [f] are all there. *)
Definition extends (f g : file) : Prop := fsize f <= fsize g /\ forall i, i < fsize f -> fget g i = fget f i.
Lemma extends_refl : forall f, extends f f.
Proof. split; [lia|auto]. Qed.
Lemma extends_trans : forall f g h, extends f g -> extends g h -> extends f h.
Proof. intros f g h [A B] [C D]. split; [lia|]. intros i Hi. rewrite D by lia. now apply B. Qed.
Lemma extends_write : forall f pos bs, fsize f <= pos -> extends f (fwrite f pos bs).
Proof. intros f pos bs H. split; [apply fwrite_size_ge|]. intros i Hi. apply fget_fwrite_out. lia. Qed.
Lemma extends_read : forall f g pos len b, extends f g -> fread f pos len = Some b -> fread g pos len = Some b.
Proof.
  intros f g pos len b [A B] H.
  assert (Hl : pos + N.of_nat len <= fsize f).
  { apply N.nlt_ge. intro C. apply fread_short in C. congruence. }
  rewrite fread_eq in * by lia. rewrite <- H. f_equal. apply map_ext_in. intros k Hk. apply in_seq in Hk. apply B. lia.
Qed.

(** What the save info says is in the file. *)
Definition holds (g : file) (hl : N) (x : N * cref) (v : option bytes) : Prop :=
  match v with
  | None | Some [] => snd x = (0, 0)
  | Some b => exists off, snd x = (off, blen b) /\ hl <= off /\ off + blen b <= fsize g /\ fread g off (length b) = Some b
  end.
Lemma holds_extends : forall g g' hl x v, extends g g' -> holds g hl x v -> holds g' hl x v.
Proof.
  intros g g' hl x [[|b bs]|] E H; try exact H.
  destruct H as (off & H1 & H2 & H3 & H4). exists off. do 2 (split; [assumption|]).
  split; [destruct E; lia|]. eapply extends_read; eassumption.
Qed.

Definition spec_load (p : pool) (load : N) (chs : list (N * option bytes)) : N :=
  fold_left (fun l x => match snd x with
                        | Some (_ :: _) => if p_adjunct p then N.max l (fst x + 1) else l
                        | _ => l end) chs load.

Lemma emit_app : forall c e b bs, fsize (cm_file c) = e ->
  extends (cm_file c) (cm_file (emit c e (b :: bs))) /\ fsize (cm_file (emit c e (b :: bs))) = e + blen (b :: bs).
Proof.
  intros c e b bs He. cbn [emit cm_file]. split; [apply extends_write; lia|].
  rewrite fwrite_size by discriminate. unfold blen. lia.
Qed.

Lemma store_values_spec : forall p chs c e l c' info l',
  fsize (cm_file c) = e -> head_len p <= e ->
  store_values p c e l chs = Ok c' (info, l') ->
  extends (cm_file c) (cm_file c') /\ fsize (cm_file c') < maxpos (p_type p) + (if chs then fsize (cm_file c') + 1 else 0) /\
  Forall2 (fun x ch => fst x = fst ch /\ holds (cm_file c') (head_len p) x (snd ch)) info chs /\
  l' = spec_load p l chs.
Proof.
  induction chs as [|[o v] r IH]; cbn [store_values]; intros c e l c' info l' He Hh H.
  - injection H as <- <- <-. split; [apply extends_refl|]. split; [lia|]. split; [constructor|reflexivity].
  - set (bs := match v with Some b => b | None => [] end) in *.
    set (c1 := match bs with [] => c | _ => emit c e bs end) in *.
    destruct (N.leb_spec (maxpos (p_type p)) (e + blen bs)) as [C|C]; [discriminate|].
    set (l1 := if negb (blen bs =? 0) && p_adjunct p && (l <=? o) then o + 1 else l) in *.
    destruct (store_values p c1 (e + blen bs) l1 r) as [c2 [i2 l2]|c2] eqn:E; [|discriminate].
    injection H as <- <- <-.
    assert (E1 : extends (cm_file c) (cm_file c1) /\ fsize (cm_file c1) = e + blen bs).
    { unfold c1. destruct bs as [|b bs']; [split; [apply extends_refl|unfold blen; simpl; lia]|now apply emit_app]. }
    destruct E1 as [X1 Z1].
    destruct (IH c1 (e + blen bs) l1 c2 i2 l2 Z1 ltac:(lia) E) as (X2 & Z2 & F & L).
    split; [eapply extends_trans; eassumption|].
    split.
    { destruct r; [|lia]. cbn [store_values] in E. injection E as <- _ _. lia. }
    split.
    + constructor; [|exact F]. cbn [fst snd]. split; [reflexivity|].
      destruct v as [[|b bs']|]; try reflexivity.
      cbn [holds]. exists e. cbn [snd].
      assert (Hn : blen bs =? 0 = false) by (apply N.eqb_neq; unfold bs, blen; cbn [length]; lia).
      rewrite Hn. split; [reflexivity|]. split; [assumption|].
      assert (R1 : fread (cm_file c1) e (length (b :: bs')) = Some (b :: bs')).
      { unfold c1. cbn [emit cm_file bs]. apply fread_fwrite_same. discriminate. }
      split; [destruct X2 as [X2 _]; rewrite Z1 in X2; exact X2|].
      eapply extends_read; eassumption.
    + assert (EL : l1 = match v with Some (_ :: _) => if p_adjunct p then N.max l (o + 1) else l | _ => l end).
      { unfold l1. destruct v as [[|b bs']|]; try reflexivity.
        assert (Hn : blen bs =? 0 = false) by (apply N.eqb_neq; unfold bs, blen; cbn [length]; lia).
        rewrite Hn. cbn [negb andb]. destruct (p_adjunct p); cbn [andb]; [|reflexivity].
        destruct (N.leb_spec l o); lia. }
      rewrite L, EL. reflexivity.
Qed.

(** ** The offset table through a commit *)

Definition keeps_table (p : pool) (f g : file) : Prop :=
  fsize f <= fsize g /\ forall i, 256 <= i < head_len p -> fget g i = fget f i.
Lemma kt_refl : forall p f, keeps_table p f f.
Proof. split; [lia|auto]. Qed.
Lemma kt_trans : forall p f g h, keeps_table p f g -> keeps_table p g h -> keeps_table p f h.
Proof. intros p f g h [A B] [C D]. split; [lia|]. intros i Hi. rewrite D by assumption. now apply B. Qed.
Lemma kt_write : forall p f pos bs, pos + blen bs <= 256 \/ head_len p <= pos -> keeps_table p f (fwrite f pos bs).
Proof. intros p f pos bs H. split; [apply fwrite_size_ge|]. intros i Hi. apply fget_fwrite_out. lia. Qed.

Definition entry (p : pool) (f : file) (o : N) : option bytes :=
  fread f (256 + o * ref_size (p_type p)) (N.to_nat (ref_size (p_type p))).
Lemma kt_entry : forall p f g o, head_len p <= fsize f -> o < p_cap p -> keeps_table p f g -> entry p g o = entry p f o.
Proof.
  intros p f g o Hs Ho [A B]. pose proof (entry_in_head p o Ho). unfold entry.
  rewrite !fread_eq by (rewrite N2Nat.id; lia). f_equal. apply map_ext_in. intros k Hk. apply in_seq in Hk. apply B. lia.
Qed.

Fixpoint assoc_last (o : N) (info : list (N * cref)) : option cref :=
  match info with
  | [] => None
  | (o', r) :: rest => match assoc_last o rest with Some x => Some x | None => if o' =? o then Some r else None end
  end.

Lemma write_offdata_entry : forall p info c o, small_pool p -> o < p_cap p -> Forall (fun x => fst x < p_cap p) info ->
  head_len p <= fsize (cm_file c) ->
  entry p (cm_file (write_offdata p c info)) o =
  match assoc_last o info with Some r => Some (direct_bytes (p_type p) r) | None => entry p (cm_file c) o end.
Proof.
  induction info as [|[o' r] info IH]; intros c o Hs Ho Hi Hl; [reflexivity|].
  cbn [write_offdata assoc_last]. apply Forall_cons_iff in Hi. destruct Hi as [Ho' Hi]. cbn [fst] in Ho'.
  rewrite IH; auto.
  2:{ cbn [emit cm_file]. pose proof (fwrite_size_ge (cm_file c) (direct_pos (p_type p) o') (direct_bytes (p_type p) r)). lia. }
  destruct (assoc_last o info); [reflexivity|].
  cbn [emit cm_file]. unfold entry. rewrite direct_pos_small by assumption.
  pose proof (ref_pos (p_type p)). pose proof (entry_in_head p o Ho).
  destruct (N.eqb_spec o' o) as [->|Hne].
  - rewrite <- (direct_len (p_type p) r). apply fread_fwrite_same, direct_nonnil.
  - apply fread_fwrite_other; [rewrite N2Nat.id; lia|]. rewrite direct_blen, N2Nat.id. nia.
Qed.
Lemma write_offdata_size : forall p info c, fsize (cm_file c) <= fsize (cm_file (write_offdata p c info)).
Proof.
  induction info as [|[o r] info IH]; intro c; [cbn; lia|]. cbn [write_offdata].
  etransitivity; [|apply IH]. apply fwrite_size_ge.
Qed.

Ltac ktw := apply kt_write; unfold blen; rewrite ?put_4bytes_len, ?put_8bytes_len; cbn [emit cm_file];
  try (left; lia).
Lemma slotids_kt : forall p c s, head_len p <= fsize (cm_file c) -> keeps_table p (cm_file c) (cm_file (write_slotids c s)).
Proof.
  intros p c [[n bs]|] H; [|apply kt_refl]. cbn [write_slotids emit cm_file].
  eapply kt_trans; [|ktw]. eapply kt_trans; [|ktw]. eapply kt_trans; [|ktw]. apply kt_write. right. assumption.
Qed.
Lemma metadata_kt : forall p c s, head_len p <= fsize (cm_file c) -> keeps_table p (cm_file c) (cm_file (write_metadata c s)).
Proof.
  intros p c [bs|] H; [|apply kt_refl]. cbn [write_metadata emit cm_file].
  eapply kt_trans; [|ktw]. eapply kt_trans; [|ktw]. apply kt_write. right. assumption.
Qed.
Lemma bump_kt : forall p c n c' u, bump_nblocks c n = Ok c' u -> keeps_table p (cm_file c) (cm_file c').
Proof. intros p c n c' u H. unfold bump_nblocks in H. destruct (read8_at _ _); [|discriminate]. injection H as <- _. ktw. Qed.
Lemma load_kt : forall p c l c' u, write_load c l = Ok c' u -> keeps_table p (cm_file c) (cm_file c').
Proof.
  intros p c l c' u H. unfold write_load in H. destruct (read4_at _ _); [|discriminate].
  destruct (negb _); injection H as <- _; [ktw|apply kt_refl].
Qed.
Lemma write_load_reads : forall c l c' u, l < 2^32 -> write_load c l = Ok c' u -> read4_at (cm_file c') 16 = Some l.
Proof.
  intros c l c' u Hl H. unfold write_load in H. destruct (read4_at (cm_file c) 16) as [x|] eqn:E; [|discriminate].
  destruct (N.eqb_spec l x); cbn [negb] in H; injection H as <- _.
  - congruence.
  - now apply read4_written.
Qed.
Lemma read4_other : forall f pos bs x, read4_at f 16 = Some x -> pos + blen bs <= 16 -> read4_at (fwrite f pos bs) 16 = Some x.
Proof.
  intros f pos bs x H Hp. unfold read4_at in *. destruct (fread f 16 4) as [b|] eqn:E; [|discriminate].
  rewrite fread_fwrite_other; [now rewrite E| |].
  - apply N.nlt_ge. intro C. rewrite <- fread_none in C. congruence.
  - right. assumption.
Qed.

Theorem update_spec : forall p c info load ch c' u, small_pool p -> Forall (fun x => fst x < p_cap p) info ->
  head_len p <= fsize (cm_file c) -> load < 2^32 ->
  update p c info load ch = Ok c' u ->
  good (head_len p) (cm_file c) (cm_file c') /\
  (forall o, o < p_cap p -> entry p (cm_file c') o =
     match assoc_last o info with Some r => Some (direct_bytes (p_type p) r) | None => entry p (cm_file c) o end) /\
  read4_at (cm_file c') 16 = Some load.
Proof.
  intros p c info load ch c' u Hs Hi Hh Hl H. split.
  { assert (S : safe2 (head_len p) 0 (cm_file c) c).
    { split; [lia|]. split; [apply good_refl|]. apply Forall_forall. intros [pos bs| | |] _; try exact I. right. cbn [fsize]. lia. }
    pose proof (update_safe p 0 (cm_file c) c info load ch Hs Hi S) as S'. rewrite H in S'. apply S'. }
  unfold update in H.
  set (c1 := write_slotids c (ch_slotids ch)) in *.
  pose proof (slotids_kt p c (ch_slotids ch) Hh) as K1. fold c1 in K1.
  assert (H1 : head_len p <= fsize (cm_file c1)) by (destruct K1; lia).
  destruct (match info with [] => Ok c1 tt | _ => _ end) as [c2 u2|c2] eqn:E2; [|discriminate].
  assert (K2 : head_len p <= fsize (cm_file c2) /\ forall o, o < p_cap p -> entry p (cm_file c2) o =
     match assoc_last o info with Some r => Some (direct_bytes (p_type p) r) | None => entry p (cm_file c) o end).
  { destruct info as [|x info].
    - injection E2 as <- _. split; [assumption|]. intros o Ho. cbn [assoc_last]. now apply kt_entry.
    - pose proof (bump_kt p _ _ _ _ E2) as K. pose proof (write_offdata_size p (x :: info) c1) as Z.
      split; [destruct K; lia|]. intros o Ho.
      rewrite (kt_entry p _ _ o (N.le_trans _ _ _ H1 Z) Ho K). rewrite write_offdata_entry by assumption.
      destruct (assoc_last o (x :: info)); [reflexivity|]. now apply kt_entry. }
  destruct K2 as [H2 K2].
  set (c3 := emit_op (write_metadata c2 (ch_metadata ch)) Sync) in *.
  assert (K3 : keeps_table p (cm_file c2) (cm_file c3)) by (unfold c3; cbn [emit_op cm_file]; now apply metadata_kt).
  set (c4 := emit c3 248 (put_8bytes (fsize (cm_file c3)))) in *.
  assert (K4 : keeps_table p (cm_file c3) (cm_file c4)) by (unfold c4; cbn [emit cm_file]; ktw).
  destruct (write_load c4 load) as [c5 u5|c5] eqn:E5; [|discriminate].
  pose proof (load_kt p _ _ _ _ E5) as K5. pose proof (write_load_reads _ _ _ _ Hl E5) as R5.
  injection H as <- _.
  assert (K : keeps_table p (cm_file c2) (cm_file (emit (emit_op c5 Sync) 0 (put_4bytes MAGIC)))).
  { eapply kt_trans; [exact K3|]. eapply kt_trans; [exact K4|]. eapply kt_trans; [exact K5|]. cbn [emit emit_op cm_file]. ktw. }
  split.
  - intros o Ho. rewrite (kt_entry p _ _ o H2 Ho K). now apply K2.
  - cbn [emit emit_op cm_file]. apply read4_other; [assumption|]. unfold blen. rewrite put_4bytes_len. lia.
Qed.
