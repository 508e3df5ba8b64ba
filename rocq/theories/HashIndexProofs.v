(** * Lemmas about hash indexes. *)

From Coq Require Import NArith ZArith List Bool Lia Permutation ZifyBool ZifyN ZifyNat.
From Verif Require Import BytesModel BytesProofs ChunkModel ChunkProofs HashIndexModel.
From Verif Require FileIndexModel FileIndexProofs.
Import ListNotations.
Local Open Scope N_scope.

(** ** Pieces of files *)

Lemma flen_app a b : flen (a ++ b) = flen a + flen b.
Proof. unfold flen. rewrite app_length. lia. Qed.
Lemma slice_app f g off size : off + size <= flen f -> slice (f ++ g) off size = slice f off size.
Proof.
  intros H. unfold slice, flen in *. rewrite FileIndexProofs.skip_app_le by lia.
  rewrite firstn_app, skipn_length.
  replace (N.to_nat size - (length f - N.to_nat off))%nat with O by lia.
  cbn [firstn]. apply app_nil_r.
Qed.
Lemma slice_end f b : slice (f ++ b) (flen f) (flen b) = b.
Proof.
  unfold slice, flen. rewrite !Nat2N.id. rewrite FileIndexProofs.skip_app_ge by lia.
  rewrite Nat.sub_diag. cbn [skipn]. apply firstn_all.
Qed.
Lemma slice_len f off size : off + size <= flen f -> flen (slice f off size) = size.
Proof. intros H. unfold slice, flen in *. rewrite firstn_length, skipn_length. lia. Qed.
Lemma patch_len f pos b : pos + flen b <= flen f -> flen (patch f pos b) = flen f.
Proof.
  intros H. unfold patch, flen in *. rewrite !app_length, firstn_length, skipn_length. lia.
Qed.
Lemma skipn_add {A} a b (l : list A) : skipn a (skipn b l) = skipn (b + a) l.
Proof. revert l. induction b as [|b IH]; intros l; [reflexivity|]. destruct l; [rewrite !skipn_nil; reflexivity|]. exact (IH l). Qed.
Lemma slice_patch_after f pos b off size : pos + flen b <= off -> off + size <= flen f ->
  slice (patch f pos b) off size = slice f off size.
Proof.
  intros H H'. unfold patch, slice, flen in *. f_equal.
  rewrite app_assoc. rewrite FileIndexProofs.skip_app_ge by (rewrite app_length, firstn_length; lia).
  rewrite app_length, firstn_length. rewrite skipn_add. f_equal. lia.
Qed.
Lemma slice_patch_before f pos b off size : off + size <= pos -> pos + flen b <= flen f ->
  slice (patch f pos b) off size = slice f off size.
Proof.
  intros H H'. unfold patch, slice, flen in *. rewrite !firstn_skipn_comm. f_equal.
  rewrite firstn_app, firstn_length.
  replace (N.to_nat off + N.to_nat size - _)%nat with O by lia. cbn [firstn]. rewrite app_nil_r, firstn_firstn.
  f_equal. lia.
Qed.
Lemma slice_patch_same f pos b : pos + flen b <= flen f -> slice (patch f pos b) pos (flen b) = b.
Proof.
  intros H. unfold patch, slice, flen in *.
  rewrite FileIndexProofs.skip_app_ge by (rewrite firstn_length; lia).
  rewrite firstn_length. replace (N.to_nat pos - _)%nat with O by lia. cbn [skipn].
  rewrite Nat2N.id, firstn_app, Nat.sub_diag, firstn_all. cbn [firstn]. apply app_nil_r.
Qed.

(** ** Codes *)

Definition ext (c c' : codes) : Prop :=
  match c with None => c' = None | Some l => exists l', c' = Some (l ++ l') end.
Definition small (c : codes) : Prop :=
  match c with None => True | Some l => N.of_nat (length l) < 2 ^ 62 end.

Lemma ext_refl c : ext c c.
Proof. destruct c as [l|]; [exists []; rewrite app_nil_r; reflexivity|reflexivity]. Qed.
Lemma ext_trans a b c : ext a b -> ext b c -> ext a c.
Proof.
  destruct a as [l|]; cbn [ext].
  - intros [l1 ->] [l2 ->]. exists (l1 ++ l2). rewrite app_assoc. reflexivity.
  - intros -> H. exact H.
Qed.
Lemma small_ext a b : ext a b -> small b -> small a.
Proof.
  destruct a as [l|]; [|intros; exact I]. intros [l' ->]. cbn [small]. rewrite app_length. lia.
Qed.
Lemma index_of_nth x l i : index_of x l = Some i -> nth_error l (N.to_nat i) = Some x /\ i < N.of_nat (length l).
Proof.
  revert i. induction l as [|y l IH]; intros i; [discriminate|]. cbn [index_of].
  destruct (N.eqb_spec x y) as [->|D].
  - intros [= <-]. split; [reflexivity|]. cbn [length]. lia.
  - destruct (index_of x l) as [j|]; [|discriminate]. intros [= <-]. destruct (IH j eq_refl) as [A B].
    replace (N.to_nat (j + 1)) with (S (N.to_nat j)) by lia. cbn [nth_error length]. split; [exact A|lia].
Qed.
Lemma index_of_app x l l' i : index_of x l = Some i -> index_of x (l ++ l') = Some i.
Proof.
  revert i. induction l as [|y l IH]; intros i; [discriminate|]. cbn [index_of app].
  destruct (x =? y); [exact (fun H => H)|].
  destruct (index_of x l) as [j|]; [|discriminate]. rewrite (IH j eq_refl). exact (fun H => H).
Qed.
Lemma index_of_end x l : index_of x l = None -> index_of x (l ++ [x]) = Some (N.of_nat (length l)).
Proof.
  induction l as [|y l IH]; cbn [index_of app length]; [rewrite N.eqb_refl; reflexivity|].
  destruct (x =? y); [discriminate|]. destruct (index_of x l); [discriminate|]. intros _.
  rewrite (IH eq_refl). f_equal. lia.
Qed.
Lemma code_ext c c' s i : code_of c s = Some i -> ext c c' -> code_of c' s = Some i.
Proof. destruct c as [l|]; [|discriminate]. cbn [code_of ext]. intros H [l' ->]. apply index_of_app. exact H. Qed.
Lemma code_none c c' s : code_of c s = None -> c = None -> ext c c' -> code_of c' s = None.
Proof. intros _ -> E. cbn [ext] in E. subst c'. reflexivity. Qed.
Lemma code_small c s i : code_of c s = Some i -> small c -> i < 2 ^ 62.
Proof. destruct c as [l|]; [|discriminate]. intros H Ss. apply index_of_nth in H. cbn [small] in Ss. lia. Qed.
Lemma add_code_ext c s : ext c (add_code c s).
Proof.
  destruct c as [l|]; [|reflexivity]. cbn [add_code]. destruct (index_of s l); [apply ext_refl|].
  exists [s]. reflexivity.
Qed.
Lemma add_code_has c s : c = None \/ exists i, code_of (add_code c s) s = Some i.
Proof.
  destruct c as [l|]; [right|left; reflexivity]. cbn [add_code]. destruct (index_of s l) as [i|] eqn:E.
  - exists i. exact E.
  - exists (N.of_nat (length l)). cbn [code_of]. apply index_of_end. exact E.
Qed.

Lemma beq_spec a b : beq a b = true <-> a = b.
Proof. unfold beq. destruct (list_eq_dec N.eq_dec a b); split; congruence. Qed.
Lemma beq_refl a : beq a a = true.
Proof. apply beq_spec. reflexivity. Qed.

Lemma varint_zero r : read_varint (0 :: r) = Some (0, r).
Proof. exact (read_varint_put 0 r eq_refl). Qed.
Lemma varint_pos n : n < 2 ^ 63 -> (1 <= length (put_varint n))%nat.
Proof. intros H. apply (put_varint_len n H). Qed.

Section Proofs.

Variable L : Type.
Variable leq : L -> L -> bool.
Variable enc : L -> bytes.
Variable dec : bytes -> option (L * bytes).
Variable oid_of : L -> option (N * N).
Variable mk_oid : N -> N -> L.
Variable slot_of : L -> option (N * L).
Variable mk_key : N -> L -> L.
Variable t : offtype.
Variable n : N.
Variable junk : cref.
Hypothesis leq_eq : forall a b, leq a b = true <-> a = b.
Hypothesis codec : forall x r, dec (enc x ++ r) = Some (x, r).
Hypothesis oid_ok : forall v b o, oid_of v = Some (b, o) -> mk_oid b o = v /\ o < 2 ^ 32.
Hypothesis slot_ok : forall k s r, slot_of k = Some (s, r) -> mk_key s r = k.

Notation zkey := (HashIndexModel.zkey L enc slot_of).
Notation learn := (HashIndexModel.learn L slot_of).
Notation bucket := (HashIndexModel.bucket L enc slot_of n).
Notation zvalue := (HashIndexModel.zvalue L enc oid_of).
Notation zvalues := (HashIndexModel.zvalues L enc oid_of).
Notation read_zvalue := (HashIndexModel.read_zvalue L dec mk_oid).
Notation read_zvalues := (HashIndexModel.read_zvalues L dec mk_oid).
Notation value_block := (HashIndexModel.value_block L enc oid_of).
Notation read_value_block := (HashIndexModel.read_value_block L dec mk_oid).
Notation read_values := (HashIndexModel.read_values L dec mk_oid).
Notation read_chain := (HashIndexModel.read_chain L dec mk_oid).
Notation entry := (HashIndexModel.entry L).
Notation E := (HashIndexModel.E L).
Notation e_key := (HashIndexModel.e_key L).
Notation e_n := (HashIndexModel.e_n L).
Notation e_val := (HashIndexModel.e_val L).
Notation e_ref := (HashIndexModel.e_ref L).
Notation read_entry := (HashIndexModel.read_entry L dec mk_oid junk).
Notation read_entries := (HashIndexModel.read_entries L dec mk_oid junk).
Notation read_bucket := (HashIndexModel.read_bucket L dec mk_oid junk).
Notation scan := (HashIndexModel.scan L dec mk_oid junk).
Notation write_entries := (HashIndexModel.write_entries L enc oid_of).
Notation write_bucket := (HashIndexModel.write_bucket L enc oid_of).

(** ** Values *)

Lemma zvalue_ok oc v b oc' : zvalue oc v = (b, oc') -> ext oc oc' /\ (small oc' -> (1 <= length b)%nat) /\
  forall oc'' r, ext oc' oc'' -> small oc'' -> read_zvalue oc'' (b ++ r) = Some (v, r).
Proof.
  unfold HashIndexModel.zvalue. destruct (oid_of v) as [[base o]|] eqn:Eo.
  - destruct (oid_ok _ _ _ Eo) as [Em Ho]. destruct (code_of (add_code oc base) base) as [i|] eqn:Ec.
    + intros [= <- <-]. split; [apply add_code_ext|]. split.
      * intros Ss. pose proof (code_small _ _ _ Ec Ss). rewrite app_length.
        pose proof (varint_pos (i + 1) ltac:(lia)). lia.
      * intros oc'' r X Ss. pose proof (code_ext _ _ _ _ Ec X) as Ec'. pose proof (code_small _ _ _ Ec' Ss).
        unfold HashIndexModel.read_zvalue. rewrite <- app_assoc, read_varint_put by lia.
        destruct (N.eqb_spec (i + 1) 0); [lia|]. destruct oc'' as [l|]; [|discriminate Ec'].
        replace (i + 1 - 1) with i by lia. rewrite (proj1 (index_of_nth _ _ _ Ec')).
        rewrite read_varint_put by lia. rewrite Em. reflexivity.
    + intros [= <- <-]. split; [apply ext_refl|]. split; [cbn [length]; lia|].
      intros oc'' r _ _. unfold HashIndexModel.read_zvalue. cbn [app]. rewrite varint_zero. apply codec.
  - intros [= <- <-]. split; [apply ext_refl|]. split; [cbn [length]; lia|].
    intros oc'' r _ _. unfold HashIndexModel.read_zvalue. cbn [app]. rewrite varint_zero. apply codec.
Qed.
Lemma zvalues_ok vs : forall oc b oc', zvalues oc vs = (b, oc') -> ext oc oc' /\
  (small oc' -> (length vs <= length b)%nat) /\
  forall oc'' r, ext oc' oc'' -> small oc'' -> read_zvalues oc'' (length vs) (b ++ r) = Some (vs, r).
Proof.
  induction vs as [|v vs IH]; intros oc b oc'; cbn [HashIndexModel.zvalues].
  - intros [= <- <-]. split; [apply ext_refl|]. split; [cbn [length]; lia|]. reflexivity.
  - destruct (zvalue oc v) as [b1 oc1] eqn:E1. destruct (zvalues oc1 vs) as [b2 oc2] eqn:E2.
    intros [= <- <-]. destruct (zvalue_ok _ _ _ _ E1) as [X1 [N1 R1]]. destruct (IH _ _ _ E2) as [X2 [N2 R2]].
    split; [eapply ext_trans; eassumption|]. split.
    + intros Ss. rewrite app_length. specialize (N2 Ss). specialize (N1 (small_ext _ _ X2 Ss)). cbn [length]. lia.
    + intros oc'' r X Ss. cbn [length HashIndexModel.read_zvalues].
      rewrite <- app_assoc, R1; [|eapply ext_trans; eassumption|exact Ss]. rewrite R2 by assumption. reflexivity.
Qed.
Lemma read_zvalue_ext oc oc' b x : read_zvalue oc b = Some x -> ext oc oc' -> read_zvalue oc' b = Some x.
Proof.
  unfold HashIndexModel.read_zvalue. destruct (read_varint b) as [[p r]|]; [|discriminate].
  destruct (p =? 0); [exact (fun H _ => H)|]. destruct oc as [l|]; [|discriminate].
  intros H [l' ->]. destruct (nth_error l (N.to_nat (p - 1))) as [base|] eqn:En; [|discriminate].
  rewrite nth_error_app1; [rewrite En; exact H|]. apply nth_error_Some. congruence.
Qed.
Lemma read_zvalues_ext oc oc' c : forall b x, read_zvalues oc c b = Some x -> ext oc oc' -> read_zvalues oc' c b = Some x.
Proof.
  induction c as [|c IH]; intros b x H X; cbn [HashIndexModel.read_zvalues] in *; [exact H|].
  destruct (read_zvalue oc b) as [[v r]|] eqn:E1; [|discriminate H].
  rewrite (read_zvalue_ext _ _ _ _ E1 X). destruct (read_zvalues oc c r) as [[l r']|] eqn:E2; [|discriminate H].
  rewrite (IH _ _ E2 X). exact H.
Qed.
Lemma read_zvalues_len oc c : forall b l r, read_zvalues oc c b = Some (l, r) -> length l = c.
Proof.
  induction c as [|c IH]; intros b l r H; cbn [HashIndexModel.read_zvalues] in H; [injection H as <- _; reflexivity|].
  destruct (read_zvalue oc b) as [[v r1]|]; [|discriminate H].
  destruct (read_zvalues oc c r1) as [[l1 r2]|] eqn:E2; [|discriminate H].
  injection H as <- _. cbn [length]. f_equal. eapply IH. eassumption.
Qed.

(** ** Chains of blocks *)

Definition head : N := 256 + n * ref_size t.

(** What matters of a file once it is written stays. *)
Definition agree (f f' : bytes) : Prop :=
  flen f <= flen f' /\ forall off size, head <= off -> off + size <= flen f -> slice f' off size = slice f off size.
Lemma agree_refl f : agree f f.
Proof. split; [lia|reflexivity]. Qed.
Lemma agree_trans f g h : agree f g -> agree g h -> agree f h.
Proof.
  intros [A B] [C D]. split; [lia|]. intros off size H H'. rewrite D by lia. apply B; assumption.
Qed.
Lemma agree_app f g : agree f (f ++ g).
Proof. split; [rewrite flen_app; lia|]. intros off size _ H. apply slice_app. exact H. Qed.
Lemma agree_patch f pos b : pos + flen b <= head -> head <= flen f -> agree f (patch f pos b).
Proof.
  intros H H'. split; [rewrite patch_len; lia|]. intros off size A B. apply slice_patch_after; lia.
Qed.

Inductive chain (f : bytes) (oc : codes) : cref -> list L -> Prop :=
| ch_last off size vs r r1 : head <= off -> off + size <= flen f -> vs <> [] ->
    read_varint (slice f off size) = Some (N.of_nat (length vs), r) ->
    read_zvalues oc (length vs) r = Some (vs, r1) -> read_cont r1 = Some (0, 0) ->
    N.of_nat (length vs) <= size -> chain f oc (off, size) vs
| ch_more off size vs r r1 c l : head <= off -> off + size <= flen f -> vs <> [] ->
    read_varint (slice f off size) = Some (N.of_nat (length vs), r) ->
    read_zvalues oc (length vs) r = Some (vs, r1) -> read_cont r1 = Some c -> snd c <> 0 ->
    fst c + snd c <= off -> N.of_nat (length vs) <= size -> chain f oc c l -> chain f oc (off, size) (vs ++ l).

Lemma chain_mono f f' oc oc' ref l : chain f oc ref l -> agree f f' -> ext oc oc' -> chain f' oc' ref l.
Proof.
  intros H [A B] X. induction H.
  - eapply ch_last; eauto; try lia; [rewrite B by lia; eassumption|eapply read_zvalues_ext; eassumption].
  - eapply ch_more; eauto; try lia; [rewrite B by lia; eassumption|eapply read_zvalues_ext; eassumption].
Qed.
Lemma chain_len f oc ref l : chain f oc ref l -> N.of_nat (length l) <= fst ref + snd ref /\
  (1 <= length l)%nat /\ head <= fst ref /\ fst ref + snd ref <= flen f /\ snd ref <> 0.
Proof.
  intros H. induction H; cbn [fst snd].
  - destruct vs; [contradiction|]. cbn [length] in *. lia.
  - rewrite app_length. destruct vs; [contradiction|]. cbn [length] in *. lia.
Qed.
Lemma chain_values f oc ref l : chain f oc ref l -> forall fuel, (length l <= fuel)%nat ->
  read_values fuel f oc ref (length l) = Ok l.
Proof.
  assert (Hd : 256 <= head) by (unfold head; lia).
  intros H. induction H as [off size vs r r1 H1 H2 H3 H4 H5 H6 H7|off size vs r r1 c l H1 H2 H3 H4 H5 H6 H7 H8 H9 H10 IH];
    intros fuel Hf.
  - destruct vs as [|v vs]; [contradiction|]. destruct fuel as [|fuel]; [cbn [length] in Hf; lia|].
    cbn [length HashIndexModel.read_values fst]. destruct (N.eqb_spec off 0); [lia|].
    unfold HashIndexModel.read_value_block. cbn [fst snd]. rewrite H4, Nat2N.id.
    replace (Nat.min (length (v :: vs)) (S (length vs))) with (length (v :: vs)) by (cbn [length]; lia).
    rewrite H5, H6. replace (S (length vs) - length (v :: vs))%nat with O by (cbn [length]; lia).
    destruct fuel; cbn [HashIndexModel.read_values]; rewrite app_nil_r; reflexivity.
  - destruct vs as [|v vs]; [contradiction|]. destruct fuel as [|fuel]; [cbn [length app] in Hf; lia|].
    rewrite app_length in Hf. cbn [length] in Hf.
    cbn [length app HashIndexModel.read_values fst]. destruct (N.eqb_spec off 0); [lia|].
    unfold HashIndexModel.read_value_block. cbn [fst snd]. rewrite H4, Nat2N.id.
    replace (Nat.min (length (v :: vs)) (S (length (vs ++ l)))) with (length (v :: vs))
      by (rewrite app_length; cbn [length]; lia).
    rewrite H5, H6. replace (S (length (vs ++ l)) - length (v :: vs))%nat with (length l)
      by (rewrite app_length; cbn [length]; lia).
    rewrite IH by lia. reflexivity.
Qed.
Lemma chain_chain f oc ref l : chain f oc ref l -> forall fuel, (length l <= fuel)%nat ->
  read_chain fuel f oc ref = Ok l.
Proof.
  intros H. induction H as [off size vs r r1 H1 H2 H3 H4 H5 H6 H7|off size vs r r1 c l H1 H2 H3 H4 H5 H6 H7 H8 H9 H10 IH];
    intros fuel Hf.
  - destruct vs as [|v vs]; [contradiction|]. destruct fuel as [|fuel]; [cbn [length] in Hf; lia|].
    cbn [HashIndexModel.read_chain]. unfold HashIndexModel.read_value_block. cbn [fst snd]. rewrite H4, Nat2N.id.
    rewrite Nat.min_id, H5, H6. reflexivity.
  - destruct vs as [|v vs]; [contradiction|]. destruct fuel as [|fuel]; [cbn [length app] in Hf; lia|].
    rewrite app_length in Hf. cbn [length] in Hf.
    cbn [HashIndexModel.read_chain]. unfold HashIndexModel.read_value_block. cbn [fst snd]. rewrite H4, Nat2N.id.
    rewrite Nat.min_id, H5, H6. destruct (N.eqb_spec (snd c) 0); [contradiction|]. rewrite IH by lia. reflexivity.
Qed.

(** A block that is written. *)
Lemma block_ok f oc vs cont oc' f' ref :
  append_block L enc oid_of f oc vs cont = (f', oc', ref) -> vs <> [] -> head <= flen f ->
  flen f' < 2 ^ 62 -> small oc' -> fst cont < 2 ^ 62 -> snd cont < 2 ^ 62 ->
  (exists g, f' = f ++ g) /\ ext oc oc' /\
  (snd cont = 0 -> chain f' oc' ref vs) /\
  (forall l, chain f oc cont l -> chain f' oc' ref (vs ++ l)).
Proof.
  unfold append_block, HashIndexModel.value_block. destruct (zvalues oc vs) as [b oc1] eqn:Ez.
  destruct (zvalues_ok _ _ _ _ Ez) as [X [Nb R]].
  set (bb := put_varint (N.of_nat (length vs)) ++ b ++ put_varint (snd cont) ++
             (if snd cont =? 0 then [] else put_varint (fst cont))).
  intros [= <- <- <-] Hv Hh Hf Ss H1 H2. specialize (Nb Ss).
  assert (Hlen : N.of_nat (length vs) <= flen bb).
  { unfold flen, bb. rewrite !app_length. lia. }
  rewrite flen_app in Hf.
  assert (Rb : read_varint (slice (f ++ bb) (flen f) (flen bb)) =
               Some (N.of_nat (length vs), b ++ put_varint (snd cont) ++
                 (if snd cont =? 0 then [] else put_varint (fst cont)))).
  { rewrite slice_end. unfold bb. apply read_varint_put. lia. }
  split; [exists bb; reflexivity|]. split; [exact X|]. split.
  - intros Z. eapply ch_last.
    + exact Hh.
    + rewrite flen_app. lia.
    + exact Hv.
    + exact Rb.
    + apply R; [apply ext_refl|exact Ss].
    + unfold read_cont. rewrite read_varint_put by lia. rewrite Z. reflexivity.
    + exact Hlen.
  - intros l C. destruct (chain_len _ _ _ _ C) as [_ [_ [C3 [C4 C5]]]].
    eapply (ch_more _ _ _ _ _ _ _ cont).
    + exact Hh.
    + rewrite flen_app. lia.
    + exact Hv.
    + exact Rb.
    + apply R; [apply ext_refl|exact Ss].
    + unfold read_cont. rewrite read_varint_put by lia.
      destruct (N.eqb_spec (snd cont) 0); [contradiction|].
      rewrite <- (app_nil_r (put_varint (fst cont))), read_varint_put by lia. destruct cont; reflexivity.
    + exact C5.
    + exact C4.
    + exact Hlen.
    + eapply chain_mono; [exact C|apply agree_app|exact X].
Qed.

(** ** Keys *)

Definition coded (sc : codes) (k : L) : Prop :=
  match slot_of k with Some (s, _) => sc = None \/ code_of sc s <> None | None => True end.

Lemma zkey_ext sc sc' k : coded sc k -> ext sc sc' -> zkey sc' k = zkey sc k.
Proof.
  unfold coded, HashIndexModel.zkey. destruct (slot_of k) as [[s r]|]; [|reflexivity].
  intros [-> | H] X.
  - cbn [ext] in X. subst sc'. reflexivity.
  - destruct (code_of sc s) as [i|] eqn:Ec; [|congruence]. rewrite (code_ext _ _ _ _ Ec X). reflexivity.
Qed.
Lemma coded_ext sc sc' k : coded sc k -> ext sc sc' -> coded sc' k.
Proof.
  unfold coded. destruct (slot_of k) as [[s r]|]; [|exact (fun _ _ => I)].
  intros [-> | H] X; [left; exact X|]. right. destruct (code_of sc s) as [i|] eqn:Ec; [|congruence].
  rewrite (code_ext _ _ _ _ Ec X). discriminate.
Qed.
Lemma bucket_ext sc sc' k : coded sc k -> ext sc sc' -> bucket sc' k = bucket sc k.
Proof. intros C X. unfold HashIndexModel.bucket. rewrite (zkey_ext _ _ _ C X). reflexivity. Qed.
Lemma learn_ext sc k : ext sc (learn sc k).
Proof. unfold HashIndexModel.learn. destruct (slot_of k) as [[s r]|]; [apply add_code_ext|apply ext_refl]. Qed.
Lemma learn_coded sc k : coded (learn sc k) k.
Proof.
  unfold coded, HashIndexModel.learn. destruct (slot_of k) as [[s r]|]; [|exact I].
  destruct (add_code_has sc s) as [-> | [i H]]; [left; reflexivity|right; congruence].
Qed.

Lemma enc_inj a b : enc a = enc b -> a = b.
Proof.
  intros H. pose proof (codec a []) as A. rewrite H, (codec b []) in A. congruence.
Qed.
Lemma slot_inj k k' x : slot_of k = Some x -> slot_of k' = Some x -> k = k'.
Proof. destruct x as [s r]. intros A B. apply slot_ok in A. apply slot_ok in B. congruence. Qed.
Lemma zkey_inj sc k k' : small sc -> zkey sc k = zkey sc k' -> k = k'.
Proof.
  intros Sm. unfold HashIndexModel.zkey.
  assert (Z : forall i x y, i < 2 ^ 62 -> put_varint (i + 1) ++ x = 0 :: y -> False).
  { intros i x y Hi H. pose proof (read_varint_put (i + 1) x ltac:(lia)) as R. rewrite H, varint_zero in R.
    injection R as R _. lia. }
  destruct (slot_of k) as [[s r]|] eqn:Ek; [destruct (code_of sc s) as [i|] eqn:Ec|];
    (destruct (slot_of k') as [[s' r']|] eqn:Ek'; [destruct (code_of sc s') as [i'|] eqn:Ec'|]).
  - intros H. pose proof (code_small _ _ _ Ec Sm). pose proof (code_small _ _ _ Ec' Sm).
    pose proof (read_varint_put (i + 1) (enc r) ltac:(lia)) as R.
    rewrite H, read_varint_put in R by lia. injection R as R1 R2.
    assert (i = i') by lia. subst i'. apply enc_inj in R2. subst r'.
    destruct sc as [l|]; [|discriminate]. pose proof (proj1 (index_of_nth _ _ _ Ec)) as A.
    rewrite (proj1 (index_of_nth _ _ _ Ec')) in A. injection A as ->. eapply slot_inj; eassumption.
  - intros H. destruct (Z i _ _ (code_small _ _ _ Ec Sm) H).
  - intros H. destruct (Z i _ _ (code_small _ _ _ Ec Sm) H).
  - intros H. destruct (Z i' _ _ (code_small _ _ _ Ec' Sm) (eq_sym H)).
  - intros [= H]. apply enc_inj. exact H.
  - intros [= H]. apply enc_inj. exact H.
  - intros H. destruct (Z i' _ _ (code_small _ _ _ Ec' Sm) (eq_sym H)).
  - intros [= H]. apply enc_inj. exact H.
  - intros [= H]. apply enc_inj. exact H.
Qed.

(** ** Entries *)

Definition erep (f : bytes) (oc : codes) (e : entry) (l : list L) : Prop :=
  e_n e = N.of_nat (length l) /\
  match l with
  | [] => e_val e = None /\ (snd (e_ref e) = 0 \/ e_ref e = junk)
  | [v] => e_val e = Some v
  | _ => e_val e = None /\ chain f oc (e_ref e) l
  end.
Definition norm (e : entry) : entry :=
  if e_n e =? 0 then E (e_key e) 0 None junk
  else if e_n e =? 1 then E (e_key e) 1 (e_val e) junk
  else E (e_key e) (e_n e) None (e_ref e).

Lemma norm_key e : e_key (norm e) = e_key e.
Proof. unfold norm. destruct (e_n e =? 0); [reflexivity|]. destruct (e_n e =? 1); reflexivity. Qed.
Lemma norm_rep f oc e l : erep f oc e l -> erep f oc (norm e) l.
Proof.
  intros [A B]. unfold norm. rewrite A. destruct l as [|v [|w l]].
  - split; [reflexivity|]. split; [reflexivity|right; reflexivity].
  - split; [reflexivity|exact B].
  - cbn [length]. destruct (N.eqb_spec (N.of_nat (S (S (length l)))) 0); [lia|].
    destruct (N.eqb_spec (N.of_nat (S (S (length l)))) 1); [lia|].
    split; [exact eq_refl|]. split; [reflexivity|exact (proj2 B)].
Qed.
Lemma erep_mono f f' oc oc' e l : erep f oc e l -> agree f f' -> ext oc oc' -> erep f' oc' e l.
Proof.
  intros [A B] F X. split; [exact A|]. destruct l as [|v [|w l]]; [exact B|exact B|].
  split; [apply B|]. eapply chain_mono; [apply B|exact F|exact X].
Qed.

Lemma read_entry_ext oc oc' b x : read_entry oc b = Some x -> ext oc oc' -> read_entry oc' b = Some x.
Proof.
  unfold HashIndexModel.read_entry. intros H X. destruct (read_varint b) as [[size r]|]; [|exact H].
  destruct (read_bytes r (N.to_nat size)) as [[key r1]|]; [|exact H].
  destruct (read_varint r1) as [[nv r2]|]; [|exact H]. destruct (nv =? 0); [exact H|].
  destruct (nv =? 1); [|exact H]. destruct (read_zvalue oc r2) as [[v r3]|] eqn:Ez; [|discriminate H].
  rewrite (read_zvalue_ext _ _ _ _ Ez X). exact H.
Qed.
Lemma read_entries_ext oc oc' c : forall b x, read_entries oc c b = Some x -> ext oc oc' -> read_entries oc' c b = Some x.
Proof.
  induction c as [|c IH]; intros b x H X; cbn [HashIndexModel.read_entries] in *; [exact H|].
  destruct (read_entry oc b) as [[e r]|] eqn:E1; [|discriminate H]. rewrite (read_entry_ext _ _ _ _ E1 X).
  destruct (read_entries oc c r) as [l|] eqn:E2; [|discriminate H]. rewrite (IH _ _ E2 X). exact H.
Qed.
Lemma scan_entries oc key c : forall b es, read_entries oc c b = Some es ->
  scan oc key c b = Some (find (fun e => beq (e_key e) key) es).
Proof.
  induction c as [|c IH]; intros b es H; cbn [HashIndexModel.read_entries HashIndexModel.scan] in *.
  - injection H as <-. reflexivity.
  - destruct (read_entry oc b) as [[e r]|]; [|discriminate H].
    destruct (read_entries oc c r) as [l|] eqn:E2; [|discriminate H]. injection H as <-. cbn [find].
    destruct (beq (e_key e) key); [reflexivity|]. apply IH. exact E2.
Qed.

Lemma write_entries_ok f es : forall oc b oc',
  write_entries oc es = (b, oc') -> flen f < 2 ^ 62 -> flen b < 2 ^ 62 ->
  (forall e, In e es -> exists oc0 l, erep f oc0 e l) ->
  ext oc oc' /\ (small oc' -> (length es <= length b)%nat) /\
  forall oc'' r, ext oc' oc'' -> small oc'' -> read_entries oc'' (length es) (b ++ r) = Some (map norm es).
Proof.
  induction es as [|e es IH]; intros oc b oc' W Hf Hb He; cbn [HashIndexModel.write_entries] in W.
  - injection W as <- <-. split; [apply ext_refl|]. split; [cbn [length]; lia|]. reflexivity.
  - match type of W with (let '(_, _) := ?X in _) = _ => destruct X as [b1 oc1] eqn:E1 end.
    destruct (write_entries oc1 es) as [b2 oc2] eqn:E2. injection W as <- <-.
    unfold flen in Hb. rewrite !app_length in Hb.
    destruct (IH _ _ _ E2 Hf ltac:(unfold flen; lia) (fun e H => He e (or_intror H))) as [X2 [N2 R2]].
    destruct (He e (or_introl eq_refl)) as [oc0 [l [En Ev]]].
    assert (Hl : N.of_nat (length l) < 2 ^ 62).
    { destruct l as [|v [|w l]]; [cbn [length]; lia|cbn [length]; lia|].
      pose proof (chain_len _ _ _ _ (proj2 Ev)). lia. }
    assert (V1 : (1 <= length (put_varint (N.of_nat (length (e_key e)))))%nat) by (apply varint_pos; lia).
    assert (X1 : ext oc oc1 /\ forall oc'' r, ext oc1 oc'' -> small oc'' ->
      read_entry oc'' (put_varint (N.of_nat (length (e_key e))) ++ e_key e ++ put_varint (e_n e) ++ b1 ++ r) =
      Some (norm e, r)).
    { unfold HashIndexModel.read_entry, norm. rewrite En in *.
      destruct l as [|v [|w l]].
      - cbn [length] in E1. change (N.of_nat 0) with 0 in *. rewrite N.eqb_refl in *. injection E1 as <- <-.
        split; [apply ext_refl|]. intros oc'' r _ _. rewrite read_varint_put by lia.
        rewrite Nat2N.id, read_bytes_app. cbn [app]. rewrite read_varint_put by lia. reflexivity.
      - cbn [length] in *. change (N.of_nat 1) with 1 in *. change (1 =? 0) with false in *.
        change (1 =? 1) with true in *. cbv iota in *. rewrite Ev in *.
        destruct (zvalue_ok _ _ _ _ E1) as [Y1 [Y2 Y3]]. split; [exact Y1|]. intros oc'' r Y Ss.
        rewrite read_varint_put by lia. rewrite Nat2N.id, read_bytes_app, read_varint_put by lia.
        change (1 =? 0) with false. change (1 =? 1) with true. cbv iota. rewrite Y3 by assumption. reflexivity.
      - cbn [length] in *. destruct (N.eqb_spec (N.of_nat (S (S (length l)))) 0); [lia|].
        destruct (N.eqb_spec (N.of_nat (S (S (length l)))) 1); [lia|]. injection E1 as <- <-.
        split; [apply ext_refl|]. intros oc'' r _ _. pose proof (chain_len _ _ _ _ (proj2 Ev)).
        rewrite read_varint_put by lia. rewrite Nat2N.id, read_bytes_app, read_varint_put by lia.
        destruct (N.eqb_spec (N.of_nat (S (S (length l)))) 0); [lia|].
        destruct (N.eqb_spec (N.of_nat (S (S (length l)))) 1); [lia|].
        rewrite <- !app_assoc, !read_varint_put by lia. destruct (e_ref e); reflexivity. }
    destruct X1 as [X1 R1]. split; [eapply ext_trans; eassumption|]. split.
    + intros Ss. specialize (N2 Ss). rewrite !app_length. cbn [length]. lia.
    + intros oc'' r X Ss. cbn [length HashIndexModel.read_entries map]. rewrite <- !app_assoc.
      rewrite R1; [|eapply ext_trans; eassumption|exact Ss]. rewrite R2 by assumption. reflexivity.
Qed.

(** ** The entries of a bucket *)

Definition map_t := L -> option (list L).

Definition estate (sc : codes) (b : N) (m : map_t) (f : bytes) (oc : codes) (es : list entry) : Prop :=
  NoDup (map e_key es) /\
  (forall e, In e es -> exists k l, e_key e = zkey sc k /\ coded sc k /\ bucket sc k = b /\ m k = Some l /\ erep f oc e l) /\
  (forall k l, m k = Some l -> coded sc k -> bucket sc k = b -> exists e, In e es /\ e_key e = zkey sc k).
Definition bstored (f : bytes) (oc : codes) (ref : cref) (es : list entry) : Prop :=
  (snd ref = 0 /\ es = []) \/
  (snd ref <> 0 /\ head <= fst ref /\ fst ref + snd ref <= flen f /\ read_bucket oc f ref = Some es).

Lemma estate_mono sc b m f f' oc oc' es : estate sc b m f oc es -> agree f f' -> ext oc oc' -> estate sc b m f' oc' es.
Proof.
  intros [A [B C]] F X. split; [exact A|]. split; [|exact C]. intros e He.
  destruct (B e He) as [k [l [B1 [B2 [B3 [B4 B5]]]]]]. exists k, l. repeat (split; [assumption|]).
  eapply erep_mono; eassumption.
Qed.
Lemma estate_cong sc b m m' f oc es : estate sc b m f oc es -> (forall k, bucket sc k = b -> m k = m' k) ->
  estate sc b m' f oc es.
Proof.
  intros [A [B C]] H. split; [exact A|]. split.
  - intros e He. destruct (B e He) as [k [l [B1 [B2 [B3 [B4 B5]]]]]]. exists k, l.
    rewrite <- (H k B3). repeat (split; [assumption|]). assumption.
  - intros k l Hk Hc Hb. rewrite <- (H k Hb) in Hk. eapply C; eassumption.
Qed.
Lemma read_bucket_mono f f' oc oc' ref es : read_bucket oc f ref = Some es -> head <= fst ref ->
  fst ref + snd ref <= flen f -> agree f f' -> ext oc oc' -> read_bucket oc' f' ref = Some es.
Proof.
  unfold HashIndexModel.read_bucket. intros H H1 H2 [_ F] X. destruct (snd ref =? 0); [exact H|].
  rewrite F by assumption. destruct (read_varint (slice f (fst ref) (snd ref))) as [[c r]|]; [|discriminate H].
  eapply read_entries_ext; eassumption.
Qed.
Lemma bstored_mono f f' oc oc' ref es : bstored f oc ref es -> agree f f' -> ext oc oc' -> bstored f' oc' ref es.
Proof.
  intros [H|[H1 [H2 [H3 H4]]]] F X; [left; exact H|]. right. split; [exact H1|]. split; [exact H2|].
  split; [destruct F; lia|]. eapply read_bucket_mono; eassumption.
Qed.
Lemma bstored_read f oc ref es : bstored f oc ref es -> read_bucket oc f ref = Some es.
Proof.
  intros [[H ->]|H]; [|apply H]. unfold HashIndexModel.read_bucket. rewrite H. reflexivity.
Qed.

Lemma estate_find sc b m f oc es k : estate sc b m f oc es -> small sc -> bucket sc k = b ->
  (forall l, m k = Some l -> coded sc k) ->
  match find (fun e => beq (e_key e) (zkey sc k)) es with
  | Some e => exists l, m k = Some l /\ erep f oc e l
  | None => m k = None
  end.
Proof.
  intros [A [B C]] Sm Hb Hc. destruct (find _ es) as [e|] eqn:Ef.
  - apply find_some in Ef. destruct Ef as [Hi Hq]. apply beq_spec in Hq.
    destruct (B e Hi) as [k' [l [B1 [B2 [B3 [B4 B5]]]]]]. rewrite Hq in B1. apply zkey_inj in B1; [|exact Sm].
    subst k'. exists l. split; assumption.
  - destruct (m k) as [l|] eqn:Em; [|reflexivity]. destruct (C k l Em (Hc l eq_refl) Hb) as [e [C1 C2]].
    pose proof (find_none _ _ Ef e C1) as X. cbv beta in X. rewrite C2, beq_refl in X. discriminate X.
Qed.

(** A bucket that is written. *)
Lemma bucket_written sc b m f oc es bb oc' : estate sc b m f oc es -> write_bucket oc es = (bb, oc') ->
  es <> [] -> head <= flen f -> flen (f ++ bb) < 2 ^ 62 -> small oc' ->
  ext oc oc' /\ exists es', bstored (f ++ bb) oc' (flen f, flen bb) es' /\ estate sc b m (f ++ bb) oc' es' /\
    length es' = length es.
Proof.
  unfold HashIndexModel.write_bucket. destruct (write_entries oc es) as [b1 oc1] eqn:Ew.
  intros [A [B C]] [= <- <-] Hne Hh Hf Ss. rewrite flen_app in Hf. unfold flen at 2 in Hf. rewrite app_length in Hf.
  destruct (write_entries_ok f es oc b1 oc1 Ew ltac:(lia) ltac:(unfold flen; lia)) as [X [Nb R]].
  { intros e He. destruct (B e He) as [k [l H]]. exists oc, l. apply H. }
  specialize (Nb Ss). split; [exact X|]. exists (map norm es). split.
  - right. cbn [fst snd].
    assert (length es <> 0)%nat by (destruct es; [contradiction|discriminate]).
    split; [unfold flen; rewrite app_length; lia|]. split; [exact Hh|]. split; [rewrite (flen_app f); lia|].
    unfold HashIndexModel.read_bucket. cbn [fst snd]. destruct (N.eqb_spec (flen (put_varint (N.of_nat (length es)) ++ b1)) 0) as [Z|Z];
      [unfold flen in Z; rewrite app_length in Z; lia|].
    rewrite slice_end, read_varint_put by lia. rewrite Nat2N.id.
    rewrite <- (app_nil_r b1). apply R; [apply ext_refl|exact Ss].
  - split; [|apply map_length]. split; [|split].
    + rewrite map_map. erewrite map_ext; [exact A|]. apply norm_key.
    + intros e' He'. apply in_map_iff in He'. destruct He' as [e [<- He]].
      destruct (B e He) as [k [l [B1 [B2 [B3 [B4 B5]]]]]]. exists k, l. rewrite norm_key.
      repeat (split; [assumption|]). apply norm_rep. eapply erep_mono; [exact B5|apply agree_app|exact X].
    + intros k l H1 H2 H3. destruct (C k l H1 H2 H3) as [e [C1 C2]]. exists (norm e). split; [apply in_map; exact C1|].
      rewrite norm_key. exact C2.
Qed.

(** ** Updates *)

Definition addl (l vs : list L) : list L :=
  match l with [] => vs | [c] => c :: vs | _ => vs ++ l end.
Definition applied (vs : list L) (repl : bool) (o : option (list L)) : list L :=
  if repl then vs else match o with Some l => addl l vs | None => vs end.
Definition step (m : map_t) (k : L) (vs : list L) (repl : bool) : map_t :=
  fun k' => if leq k' k then Some (applied vs repl (m k)) else m k'.
Definition okitem (m : map_t) (k : L) (vs : list L) (repl : bool) : Prop :=
  repl = false -> vs <> [] /\ ((2 <= length vs)%nat -> m k = Some [] -> snd junk = 0).

Lemma set_ok f oc key vs ref0 f' oc' e : set_entry L enc oid_of f oc key vs ref0 = (f', oc', e) ->
  head <= flen f -> flen f' < 2 ^ 62 -> small oc' -> snd ref0 = 0 \/ ref0 = junk ->
  (exists g, f' = f ++ g) /\ ext oc oc' /\ e_key e = key /\ erep f' oc' e vs.
Proof.
  unfold set_entry. intros H Hh Hf Ss J. destruct vs as [|v [|w vs]].
  - injection H as <- <- <-. split; [exists []; rewrite app_nil_r; reflexivity|]. split; [apply ext_refl|].
    split; [reflexivity|]. split; [reflexivity|]. split; [reflexivity|exact J].
  - injection H as <- <- <-. split; [exists []; rewrite app_nil_r; reflexivity|]. split; [apply ext_refl|].
    split; [reflexivity|]. split; reflexivity.
  - destruct (append_block L enc oid_of f oc (v :: w :: vs) (0, 0)) as [[f1 oc1] ref] eqn:Ea.
    injection H as <- <- <-.
    destruct (block_ok _ _ _ _ _ _ _ Ea ltac:(discriminate) Hh Hf Ss ltac:(cbn [fst]; lia) ltac:(cbn [snd]; lia)) as [A [B [C _]]].
    split; [exact A|]. split; [exact B|]. split; [reflexivity|]. split; [reflexivity|]. split; [reflexivity|].
    apply C. reflexivity.
Qed.
Lemma extend_ok f oc e vs f' oc' e' l : extend_entry L enc oid_of f oc e vs = (f', oc', e') ->
  erep f oc e l -> head <= flen f -> flen f' < 2 ^ 62 -> small oc' -> vs <> [] ->
  ((2 <= length vs)%nat -> l = [] -> snd junk = 0) ->
  (exists g, f' = f ++ g) /\ ext oc oc' /\ e_key e' = e_key e /\ erep f' oc' e' (addl l vs).
Proof.
  unfold extend_entry. intros H [En Ev] Hh Hf Ss Hv J. destruct l as [|c [|c' l]]; cbn [addl].
  - destruct Ev as [Ev Er]. rewrite Ev in H. rewrite En in H. cbn [length] in H.
    change (N.of_nat 0) with 0 in H. rewrite N.eqb_refl in H.
    destruct vs as [|v [|w vs]]; [contradiction| |].
    + injection H as <- <- <-. split; [exists []; rewrite app_nil_r; reflexivity|]. split; [apply ext_refl|].
      split; [reflexivity|]. split; reflexivity.
    + destruct (append_block L enc oid_of f oc (v :: w :: vs) (e_ref e)) as [[f1 oc1] ref] eqn:Ea.
      injection H as <- <- <-.
      assert (Z : snd (e_ref e) = 0).
      { destruct Er as [Er|Er]; [exact Er|]. rewrite Er. apply J; [cbn [length]; lia|reflexivity]. }
      assert (Ea' : append_block L enc oid_of f oc (v :: w :: vs) (0, 0) = (f1, oc1, ref)).
      { rewrite <- Ea. unfold append_block, HashIndexModel.value_block. rewrite Z. reflexivity. }
      destruct (block_ok _ _ _ _ _ _ _ Ea' ltac:(discriminate) Hh Hf Ss ltac:(cbn [fst]; lia) ltac:(cbn [snd]; lia)) as [A [B [C _]]].
      split; [exact A|]. split; [exact B|]. split; [reflexivity|]. split; [reflexivity|]. split; [reflexivity|].
      apply C. reflexivity.
  - rewrite Ev in H.
    assert (H' : (let '(f', oc', ref) := append_block L enc oid_of f oc (c :: vs) (0, 0) in
             (f', oc', E (e_key e) (e_n e + N.of_nat (length vs)) None ref)) = (f', oc', e')).
    { destruct vs as [|v [|w vs]]; exact H. }
    clear H. destruct (append_block L enc oid_of f oc (c :: vs) (0, 0)) as [[f1 oc1] ref] eqn:Ea.
    injection H' as <- <- <-.
    destruct (block_ok _ _ _ _ _ _ _ Ea ltac:(discriminate) Hh Hf Ss ltac:(cbn [fst]; lia) ltac:(cbn [snd]; lia)) as [A [B [C _]]].
    split; [exact A|]. split; [exact B|]. split; [reflexivity|]. split; [cbn [HashIndexModel.e_n]; rewrite En; cbn [length]; lia|].
    destruct vs as [|v vs]; [contradiction|]. split; [reflexivity|]. apply C. reflexivity.
  - destruct Ev as [Ev Er]. rewrite Ev in H. rewrite En in H.
    pose proof (chain_len _ _ _ _ Er) as CL.
    assert (H' : (let '(f', oc', ref) := append_block L enc oid_of f oc vs (e_ref e) in
             (f', oc', E (e_key e) (N.of_nat (length (c :: c' :: l)) + N.of_nat (length vs)) None ref)) = (f', oc', e')).
    { cbn [length] in H. destruct (N.eqb_spec (N.of_nat (S (S (length l)))) 0) in H; [lia|].
      destruct vs as [|v [|w vs]]; exact H. }
    clear H. destruct (append_block L enc oid_of f oc vs (e_ref e)) as [[f1 oc1] ref] eqn:Ea.
    injection H' as <- <- <-.
    assert (Hff : flen f <= flen f1).
    { unfold append_block in Ea. destruct (value_block oc vs (e_ref e)) as [bb occ]. injection Ea as <- _ _.
      rewrite flen_app. lia. }
    destruct (block_ok _ _ _ _ _ _ _ Ea Hv Hh Hf Ss ltac:(lia) ltac:(lia)) as [A [B [_ C]]].
    split; [exact A|]. split; [exact B|]. split; [reflexivity|]. split; [cbn [HashIndexModel.e_n]; rewrite app_length; cbn [length]; lia|].
    specialize (C _ Er). destruct vs as [|v vs]; [contradiction|]. destruct vs as [|v' vs]; cbn [app] in *; (split; [reflexivity|exact C]).
Qed.

Lemma update_split key vs repl f oc : forall es f' oc' es',
  update L enc oid_of junk key vs repl f oc es = (f', oc', es') ->
  ((forall e, In e es -> e_key e <> key) /\ exists e', set_entry L enc oid_of f oc key vs junk = (f', oc', e') /\ es' = es ++ [e']) \/
  (exists a e c e', es = a ++ e :: c /\ e_key e = key /\ es' = a ++ e' :: c /\
    (if repl then set_entry L enc oid_of f oc key vs (0, 0) else extend_entry L enc oid_of f oc e vs) = (f', oc', e')).
Proof.
  induction es as [|e es IH]; intros f' oc' es' H; cbn [update] in H.
  - left. split; [intros e []|]. destruct (set_entry L enc oid_of f oc key vs junk) as [[f1 oc1] e1].
    injection H as <- <- <-. exists e1. split; reflexivity.
  - destruct (beq key (e_key e)) eqn:Eb.
    + apply beq_spec in Eb. right. exists [], e, es.
      destruct (if repl then _ else _) as [[f1 oc1] e1] eqn:E1. injection H as <- <- <-.
      exists e1. split; [reflexivity|]. split; [symmetry; exact Eb|]. split; [reflexivity|first [exact E1|reflexivity]].
    + destruct (update L enc oid_of junk key vs repl f oc es) as [[f1 oc1] es1] eqn:E1.
      injection H as <- <- <-. destruct (IH _ _ _ eq_refl) as [[A [e1 [B C]]]|[a [e1 [c [e2 [A [B [C D]]]]]]]].
      * left. split; [|exists e1; split; [exact B|rewrite C; reflexivity]].
        intros x [<-|Hx]; [|apply A; exact Hx]. intros X. rewrite X, beq_refl in Eb. discriminate Eb.
      * right. exists (e :: a), e1, c, e2. rewrite A, C. split; [reflexivity|]. split; [exact B|].
        split; [reflexivity|exact D].
Qed.

Lemma leq_refl x : leq x x = true.
Proof. apply leq_eq. reflexivity. Qed.
Lemma step_same m k vs repl : step m k vs repl k = Some (applied vs repl (m k)).
Proof. unfold step. rewrite leq_refl. reflexivity. Qed.
Lemma step_other m k vs repl k' : k' <> k -> step m k vs repl k' = m k'.
Proof. intros H. unfold step. destruct (leq k' k) eqn:X; [|reflexivity]. apply leq_eq in X. contradiction. Qed.
Lemma eq_cases (a b : L) : a = b \/ a <> b.
Proof.
  destruct (leq a b) eqn:X; [left; apply leq_eq; exact X|right; intros Y; apply leq_eq in Y; congruence].
Qed.

Lemma update_ok sc b m k vs repl f oc es f' oc' es' :
  estate sc b m f oc es -> small sc -> coded sc k -> bucket sc k = b ->
  update L enc oid_of junk (zkey sc k) vs repl f oc es = (f', oc', es') ->
  head <= flen f -> flen f' < 2 ^ 62 -> small oc' -> okitem m k vs repl ->
  (exists g, f' = f ++ g) /\ ext oc oc' /\ es' <> [] /\ (length es <= length es')%nat /\ estate sc b (step m k vs repl) f' oc' es'.
Proof.
  intros Est Sm Hc Hb Hu Hh Hf Ss Hok. pose proof (estate_find _ _ _ _ _ _ _ Est Sm Hb (fun _ _ => Hc)) as Fi.
  destruct Est as [A [B C]].
  destruct (update_split _ _ _ _ _ _ _ _ _ Hu) as [[U1 [e' [U2 ->]]]|[a [e [c [e' [-> [U2 [-> U3]]]]]]]].
  - assert (Mn : m k = None).
    { destruct (find _ es) as [e|] eqn:Ef; [|exact Fi]. apply find_some in Ef. destruct Ef as [Ef1 Ef2].
      apply beq_spec in Ef2. destruct (U1 e Ef1 Ef2). }
    destruct (set_ok _ _ _ _ _ _ _ _ U2 Hh Hf Ss (or_intror eq_refl)) as [[g ->] [X [K R]]].
    split; [exists g; reflexivity|]. split; [exact X|]. split; [destruct es; discriminate|].
    split; [rewrite app_length; cbn [length]; lia|]. split; [|split].
    + rewrite map_app. apply (Permutation_NoDup (l := e_key e' :: map e_key es)).
      * apply Permutation_cons_append.
      * constructor; [|exact A]. rewrite K. intros I. apply in_map_iff in I. destruct I as [x [I1 I2]].
        exact (U1 x I2 I1).
    + intros x Hx. apply in_app_or in Hx. destruct Hx as [Hx|[<-|[]]].
      * destruct (B x Hx) as [k' [l [B1 [B2 [B3 [B4 B5]]]]]]. exists k', l.
        assert (D : k' <> k) by (intros ->; exact (U1 x Hx B1)).
        rewrite (step_other _ _ _ _ _ D). repeat (split; [assumption|]).
        eapply erep_mono; [exact B5|apply agree_app|exact X].
      * exists k, (applied vs repl (m k)). repeat (split; [assumption|]). split; [apply step_same|].
        rewrite Mn. unfold applied. destruct repl; exact R.
    + intros k' l H1 H2 H3. destruct (eq_cases k' k) as [->|D].
      * exists e'. split; [apply in_or_app; right; left; reflexivity|exact K].
      * rewrite (step_other _ _ _ _ _ D) in H1. destruct (C k' l H1 H2 H3) as [x [C1 C2]]. exists x.
        split; [apply in_or_app; left; exact C1|exact C2].
  - destruct (B e (in_elt e a c)) as [k0 [l [B1 [B2 [B3 [B4 B5]]]]]].
    rewrite U2 in B1. apply zkey_inj in B1; [|exact Sm]. subst k0.
    assert (Q : (exists g, f' = f ++ g) /\ ext oc oc' /\ e_key e' = e_key e /\ erep f' oc' e' (applied vs repl (m k))).
    { unfold applied. destruct repl.
      - destruct (set_ok _ _ _ _ _ _ _ _ U3 Hh Hf Ss (or_introl eq_refl)) as [Q1 [Q2 [Q3 Q4]]].
        split; [exact Q1|]. split; [exact Q2|]. split; [congruence|exact Q4].
      - rewrite B4. destruct (Hok eq_refl) as [O1 O2].
        apply (extend_ok _ _ _ _ _ _ _ _ U3 B5 Hh Hf Ss O1). intros O3 ->. apply O2; assumption. }
    destruct Q as [[g ->] [X [K R]]]. split; [exists g; reflexivity|]. split; [exact X|].
    split; [destruct a; discriminate|]. split; [rewrite !app_length; cbn [length]; lia|].
    assert (Ks : map e_key (a ++ e' :: c) = map e_key (a ++ e :: c)).
    { rewrite !map_app. cbn [map]. rewrite K. reflexivity. }
    split; [rewrite Ks; exact A|]. split.
    + intros x Hx. apply in_app_or in Hx. destruct Hx as [Hx|[<-|Hx]].
      1,3: destruct (B x) as [k' [l' [D1 [D2 [D3 [D4 D5]]]]]];
        [apply in_or_app; first [left; exact Hx|right; right; exact Hx]|];
        exists k', l';
        (assert (D : k' <> k);
         [intros ->; rewrite map_app in A; cbn [map] in A; apply NoDup_remove_2 in A; apply A;
          rewrite U2, <- D1, <- map_app; apply in_map; apply in_or_app; first [left; exact Hx|right; exact Hx]|]);
        rewrite (step_other _ _ _ _ _ D); repeat (split; [assumption|]);
        eapply erep_mono; [exact D5|apply agree_app|exact X].
      exists k, (applied vs repl (m k)). rewrite K, U2. repeat (split; [assumption || reflexivity|]).
      split; [apply step_same|exact R].
    + intros k' l' H1 H2 H3. destruct (eq_cases k' k) as [->|D].
      * exists e'. split; [apply in_elt|congruence].
      * rewrite (step_other _ _ _ _ _ D) in H1. destruct (C k' l' H1 H2 H3) as [x [C1 C2]].
        apply in_app_or in C1. destruct C1 as [C1|[<-|C1]].
        -- exists x. split; [apply in_or_app; left; exact C1|exact C2].
        -- rewrite U2 in C2. apply zkey_inj in C2; [|exact Sm]. congruence.
        -- exists x. split; [apply in_or_app; right; right; exact C1|exact C2].
Qed.

(** ** Runs of updates *)

Notation item := (HashIndexModel.item L).
Notation it_key := (HashIndexModel.it_key L).
Notation it_vals := (HashIndexModel.it_vals L).
Notation it_repl := (HashIndexModel.it_repl L).
Notation it_bucket := (HashIndexModel.it_bucket L).

Definition step_i (m : map_t) (i : item) : map_t := step m (it_key i) (it_vals i) (it_repl i).
Definition run (m : map_t) (its : list item) : map_t := fold_left step_i its m.
Fixpoint safe (m : map_t) (its : list item) : Prop :=
  match its with
  | [] => True
  | i :: r => okitem m (it_key i) (it_vals i) (it_repl i) /\ safe (step_i m i) r
  end.

Lemma append_grow f oc vs cont f' oc' ref : append_block L enc oid_of f oc vs cont = (f', oc', ref) ->
  (exists g, f' = f ++ g) /\ ext oc oc'.
Proof.
  unfold append_block, HashIndexModel.value_block. destruct (zvalues oc vs) as [b oc1] eqn:Ez.
  intros [= <- <- _]. split; [eexists; reflexivity|]. apply (zvalues_ok _ _ _ _ Ez).
Qed.
Lemma grow_refl (f : bytes) (oc : codes) : (exists g, f = f ++ g) /\ ext oc oc.
Proof. split; [exists []; rewrite app_nil_r; reflexivity|apply ext_refl]. Qed.
Lemma set_grow f oc key vs ref0 f' oc' e : set_entry L enc oid_of f oc key vs ref0 = (f', oc', e) ->
  (exists g, f' = f ++ g) /\ ext oc oc'.
Proof.
  unfold set_entry. destruct vs as [|v [|w vs]].
  - intros [= <- <- <-]. apply grow_refl.
  - intros [= <- <- <-]. apply grow_refl.
  - destruct (append_block _ _ _ _ _ _ _) as [[f1 oc1] ref] eqn:Ea. intros [= <- <- _]. eapply append_grow. eassumption.
Qed.
Lemma extend_grow f oc e vs f' oc' e' : extend_entry L enc oid_of f oc e vs = (f', oc', e') ->
  (exists g, f' = f ++ g) /\ ext oc oc'.
Proof.
  assert (A : forall vs cont (g : cref -> entry), (let '(f', oc', ref) := append_block L enc oid_of f oc vs cont in (f', oc', g ref)) = (f', oc', e') ->
    (exists g, f' = f ++ g) /\ ext oc oc').
  { intros vs0 cont g. destruct (append_block _ _ _ _ _ _ _) as [[f1 oc1] ref] eqn:Ea. intros [= <- <- _]. eapply append_grow. eassumption. }
  unfold extend_entry. destruct vs as [|v [|w vs]]; destruct (e_val e) as [c|].
  1,2,3,5,6: intros H; match type of H with (let '(_, _) := _ in (_, _, ?X)) = _ => idtac | _ => idtac end;
    match type of H with (let '(_, _) := append_block _ _ _ _ _ ?V ?C in _) = _ =>
      apply (A V C (fun ref => E (e_key e) _ None ref) H) end.
  destruct (e_n e =? 0); [intros [= <- <- _]; apply grow_refl|].
  intros H. match type of H with (let '(_, _) := append_block _ _ _ _ _ ?V ?C in _) = _ =>
      apply (A V C (fun ref => E (e_key e) _ None ref) H) end.
Qed.
Lemma update_grow key vs repl f oc es f' oc' es' : update L enc oid_of junk key vs repl f oc es = (f', oc', es') ->
  (exists g, f' = f ++ g) /\ ext oc oc'.
Proof.
  intros H. destruct (update_split _ _ _ _ _ _ _ _ _ H) as [[_ [e' [H' _]]]|[a [e [c [e' [_ [_ [_ H']]]]]]]].
  - eapply set_grow. eassumption.
  - destruct repl; [eapply set_grow|eapply extend_grow]; eassumption.
Qed.
Notation updates := (HashIndexModel.updates L enc oid_of slot_of junk).
Lemma updates_grow sc its : forall f oc es f' oc' es', updates sc its f oc es = (f', oc', es') ->
  (exists g, f' = f ++ g) /\ ext oc oc'.
Proof.
  induction its as [|i its IH]; intros f oc es f' oc' es' H; cbn [HashIndexModel.updates] in H.
  - injection H as <- <- <-. apply grow_refl.
  - destruct (update _ _ _ _ _ _ _ _ _ _) as [[f1 oc1] es1] eqn:E1.
    destruct (update_grow _ _ _ _ _ _ _ _ _ E1) as [[g1 ->] X1].
    destruct (IH _ _ _ _ _ _ H) as [[g2 ->] X2]. split; [exists (g1 ++ g2); rewrite app_assoc; reflexivity|].
    eapply ext_trans; eassumption.
Qed.

Lemma updates_ok sc b its : forall m f oc es f' oc' es', updates sc its f oc es = (f', oc', es') ->
  estate sc b m f oc es -> small sc -> (forall i, In i its -> coded sc (it_key i) /\ bucket sc (it_key i) = b) ->
  head <= flen f -> flen f' < 2 ^ 62 -> small oc' -> safe m its ->
  (length es <= length es')%nat /\ (its <> [] -> es' <> []) /\ estate sc b (run m its) f' oc' es'.
Proof.
  induction its as [|i its IH]; intros m f oc es f' oc' es' H Est Sm Hi Hh Hf Ss Sf; cbn [HashIndexModel.updates] in H.
  - injection H as <- <- <-. split; [lia|]. split; [congruence|exact Est].
  - destruct (update _ _ _ _ _ _ _ _ _ _) as [[f1 oc1] es1] eqn:E1.
    destruct (updates_grow _ _ _ _ _ _ _ _ H) as [[g2 ->] X2]. rewrite flen_app in Hf.
    destruct Sf as [Sf1 Sf2].
    destruct (update_ok sc b m _ _ _ _ _ _ _ _ _ Est Sm (proj1 (Hi i (or_introl eq_refl)))
                (proj2 (Hi i (or_introl eq_refl))) E1 Hh ltac:(lia) (small_ext _ _ X2 Ss) Sf1) as [[g1 ->] [X1 [Ne [Le Est1]]]].
    rewrite flen_app in *.
    destruct (IH _ _ _ _ _ _ _ H Est1 Sm (fun i H => Hi i (or_intror H)) ltac:(rewrite flen_app; lia)
                ltac:(rewrite !flen_app; lia) Ss Sf2) as [Le2 [Ne2 Est2]].
    split; [lia|]. split; [|exact Est2]. intros _. destruct es' as [|x es']; [|discriminate].
    destruct es1; [contradiction|cbn [length] in Le2; lia].
Qed.

(** Updates of other buckets do not matter. *)
Lemma run_filter sc b its : (forall i, In i its -> bucket sc (it_key i) = it_bucket i) -> forall m m',
  (forall k, bucket sc k = b -> m k = m' k) ->
  forall k, bucket sc k = b -> run m its k = run m' (filter (fun i => it_bucket i =? b) its) k.
Proof.
  induction its as [|i its IH]; intros Hi m m' Hm k Hk; [exact (Hm k Hk)|].
  cbn [filter]. pose proof (Hi i (or_introl eq_refl)) as Bi. destruct (N.eqb_spec (it_bucket i) b) as [D|D].
  - apply IH; [intros j Hj; apply Hi; right; exact Hj| |exact Hk].
    intros k' Hk'. unfold step_i, step. rewrite (Hm k' Hk'). destruct (leq k' (it_key i)); [|reflexivity].
    rewrite (Hm (it_key i)) by congruence. reflexivity.
  - apply IH; [intros j Hj; apply Hi; right; exact Hj| |exact Hk].
    intros k' Hk'. unfold step_i. rewrite step_other; [apply Hm; exact Hk'|]. intros ->. congruence.
Qed.
Lemma safe_filter sc b its : (forall i, In i its -> bucket sc (it_key i) = it_bucket i) -> forall m m',
  (forall k, bucket sc k = b -> m k = m' k) -> safe m its -> safe m' (filter (fun i => it_bucket i =? b) its).
Proof.
  induction its as [|i its IH]; intros Hi m m' Hm S; [exact I|].
  cbn [filter safe] in *. pose proof (Hi i (or_introl eq_refl)) as Bi. destruct S as [S1 S2].
  destruct (N.eqb_spec (it_bucket i) b) as [D|D].
  - cbn [safe]. split; [intros R; destruct (S1 R) as [Q1 Q2]; split; [exact Q1|]; rewrite <- (Hm (it_key i)) by congruence; exact Q2|].
    apply (IH (fun j Hj => Hi j (or_intror Hj)) (step_i m i)); [|exact S2].
    intros k' Hk'. unfold step_i, step. rewrite (Hm k' Hk'). destruct (leq k' (it_key i)); [|reflexivity].
    rewrite (Hm (it_key i)) by congruence. reflexivity.
  - apply (IH (fun j Hj => Hi j (or_intror Hj)) (step_i m i)); [|exact S2].
    intros k' Hk'. unfold step_i. rewrite step_other; [apply Hm; exact Hk'|]. intros ->. congruence.
Qed.
Lemma run_untouched its k : (forall i, In i its -> it_key i <> k) -> forall m, run m its k = m k.
Proof.
  induction its as [|i its IH]; intros H m; [reflexivity|]. cbn [run fold_left].
  change (run (step_i m i) its k = m k). rewrite IH by (intros j Hj; apply H; right; exact Hj).
  apply step_other. intros X. exact (H i (or_introl eq_refl) (eq_sym X)).
Qed.
Lemma run_nonempty its k l : forall m, run m its k = Some l -> l <> [] ->
  (exists i, In i its /\ it_key i = k /\ it_vals i <> []) \/ exists l0, m k = Some l0 /\ l0 <> [].
Proof.
  induction its as [|i its IH]; intros m H Hl; [right; exists l; split; assumption|].
  destruct (IH (step_i m i) H Hl) as [[j [J1 J2]]|[l0 [L1 L2]]].
  - left. exists j. split; [right; exact J1|exact J2].
  - unfold step_i in L1. destruct (eq_cases k (it_key i)) as [->|D].
    + rewrite step_same in L1. injection L1 as <-. unfold applied in L2.
      destruct (it_vals i) as [|v vs] eqn:Ev.
      * right. destruct (it_repl i); [congruence|]. destruct (m (it_key i)) as [l0|]; [|congruence].
        exists l0. split; [reflexivity|]. intros ->. apply L2. reflexivity.
      * left. exists i. split; [left; reflexivity|]. split; [reflexivity|]. rewrite Ev. discriminate.
    + rewrite step_other in L1 by exact D. right. exists l0. split; assumption.
Qed.
Lemma run_some its k l : forall m, run m its k = Some l ->
  (exists i, In i its /\ it_key i = k) \/ m k = Some l.
Proof.
  induction its as [|i its IH]; intros m H; [right; exact H|].
  destruct (IH (step_i m i) H) as [[j [J1 J2]]|J].
  - left. exists j. split; [right; exact J1|exact J2].
  - unfold step_i in J. destruct (eq_cases k (it_key i)) as [->|D].
    + left. exists i. split; [left; reflexivity|reflexivity].
    + rewrite step_other in J by exact D. right. exact J.
Qed.
Lemma run_has its k : forall m, (exists i, In i its /\ it_key i = k) \/ m k <> None -> run m its k <> None.
Proof.
  induction its as [|i its IH]; intros m H; [destruct H as [[j [[] _]]|H]; exact H|].
  apply IH. destruct H as [[j [[<-|Hj] H]]|H].
  - right. subst k. unfold step_i. rewrite step_same. discriminate.
  - left. exists j. split; assumption.
  - right. unfold step_i. destruct (eq_cases k (it_key i)) as [->|D]; [rewrite step_same; discriminate|].
    rewrite step_other by exact D. exact H.
Qed.

(** ** The schedule *)

Notation schedule := (HashIndexModel.schedule L enc slot_of n).
Lemma schedule_ok l : forall sc its sc', schedule sc l = (its, sc') -> ext sc sc' /\
  map (fun i => (it_key i, it_vals i, it_repl i)) its = l /\
  forall i, In i its -> coded sc' (it_key i) /\ bucket sc' (it_key i) = it_bucket i.
Proof.
  induction l as [|[[k vs] repl] l IH]; intros sc its sc' H; cbn [HashIndexModel.schedule] in H.
  - injection H as <- <-. split; [apply ext_refl|]. split; [reflexivity|intros i []].
  - destruct (schedule (learn sc k) l) as [its1 sc1] eqn:E1. injection H as <- <-.
    destruct (IH _ _ _ E1) as [X [M I]]. split; [eapply ext_trans; [apply learn_ext|exact X]|].
    split; [cbn [map HashIndexModel.it_key HashIndexModel.it_vals HashIndexModel.it_repl]; rewrite M; reflexivity|].
    intros i [<-|Hi]; [|apply I; exact Hi].
    cbn [HashIndexModel.it_key HashIndexModel.it_bucket]. split; [eapply coded_ext; [apply learn_coded|exact X]|].
    apply bucket_ext; [apply learn_coded|exact X].
Qed.

(** ** The buckets of a save *)

Fixpoint sumdiff (G B : N -> list entry) (bs : list N) : N :=
  match bs with [] => 0 | b :: r => N.of_nat (length (G b) - length (B b)) + sumdiff G B r end.
Lemma sumdiff_cong G G' B bs : (forall b, In b bs -> G b = G' b) -> sumdiff G B bs = sumdiff G' B bs.
Proof.
  induction bs as [|b bs IH]; intros H; [reflexivity|]. cbn [sumdiff].
  rewrite (H b (or_introl eq_refl)), IH by (intros x Hx; apply H; right; exact Hx). reflexivity.
Qed.

Notation save_buckets := (HashIndexModel.save_buckets L enc dec oid_of mk_oid slot_of t junk).
Lemma write_bucket_ext oc es bb oc' : write_bucket oc es = (bb, oc') -> ext oc oc'.
Proof.
  unfold HashIndexModel.write_bucket. destruct (write_entries oc es) as [b1 oc1] eqn:Ew. intros [= _ <-].
  revert oc b1 oc1 Ew. induction es as [|e es IH]; intros oc b1 oc1 Ew; cbn [HashIndexModel.write_entries] in Ew.
  - injection Ew as _ <-. apply ext_refl.
  - match type of Ew with (let '(_, _) := ?X in _) = _ => destruct X as [b2 oc2] eqn:E1 end.
    destruct (write_entries oc2 es) as [b3 oc3] eqn:E3. injection Ew as _ <-.
    eapply ext_trans; [|eapply IH; eassumption].
    destruct (e_n e =? 0); [injection E1 as _ <-; apply ext_refl|].
    destruct (e_n e =? 1); [|injection E1 as _ <-; apply ext_refl].
    destruct (e_val e); [|injection E1 as _ <-; apply ext_refl]. apply (zvalue_ok _ _ _ _ E1).
Qed.
Lemma save_buckets_grow f0 sc its bs : forall f oc oc0 f' oc' refs nk,
  save_buckets f0 sc its bs f oc oc0 = Some (f', oc', refs, nk) -> (exists g, f' = f ++ g) /\ ext oc oc'.
Proof.
  induction bs as [|b bs IH]; intros f oc oc0 f' oc' refs nk H; cbn [HashIndexModel.save_buckets] in H.
  - injection H as <- <- _ _. apply grow_refl.
  - destruct (get_ref _ f0 b) as [ref|]; [|discriminate H].
    destruct (read_bucket oc0 f0 ref) as [es|]; [|discriminate H].
    destruct (updates sc _ f oc es) as [[f1 oc1] es1] eqn:E1.
    destruct (write_bucket oc1 es1) as [bb oc2] eqn:E2.
    destruct (save_buckets f0 sc its bs (f1 ++ bb) oc2 oc0) as [[[[f2 oc3] refs2] nk2]|] eqn:E3; [|discriminate H].
    injection H as <- <- _ _. destruct (updates_grow _ _ _ _ _ _ _ _ E1) as [[g1 ->] X1].
    destruct (IH _ _ _ _ _ _ _ E3) as [[g2 ->] X3]. split; [exists (g1 ++ bb ++ g2); rewrite !app_assoc; reflexivity|].
    eapply ext_trans; [exact X1|]. eapply ext_trans; [|exact X3].
    exact (write_bucket_ext _ _ _ _ E2).
Qed.

Definition mine (b : N) (its : list item) : list item := filter (fun i => it_bucket i =? b) its.

Lemma save_buckets_ok f0 sc its m B oc0 : small sc ->
  (forall i, In i its -> coded sc (it_key i) /\ bucket sc (it_key i) = it_bucket i) ->
  forall bs f oc f' oc' refs nk,
  save_buckets f0 sc its bs f oc oc0 = Some (f', oc', refs, nk) -> NoDup bs ->
  agree f0 f -> ext oc0 oc -> head <= flen f -> flen f' < 2 ^ 62 -> small oc' ->
  (forall b, In b bs -> exists ref, get_ref (save_offtype t) f0 b = Some ref /\ bstored f0 oc0 ref (B b) /\ estate sc b m f0 oc0 (B b)) ->
  (forall b, In b bs -> mine b its <> []) ->
  (forall b, In b bs -> safe m (mine b its)) ->
  map fst refs = bs /\ exists G,
    (forall b ref, In (b, ref) refs -> bstored f' oc' ref (G b) /\ estate sc b (run m (mine b its)) f' oc' (G b) /\
       (length (B b) <= length (G b))%nat /\ fst ref + snd ref <= flen f') /\
    nk = sumdiff G B bs.
Proof.
  intros Sm Hi. induction bs as [|b bs IH]; intros f oc f' oc' refs nk H Nd Ag Ex Hh Hf Ss Hb Hne Hs;
    cbn [HashIndexModel.save_buckets] in H.
  - injection H as <- <- <- <-. split; [reflexivity|]. exists B. split; [intros b ref []|reflexivity].
  - destruct (Hb b (or_introl eq_refl)) as [ref [Hr [Hst Hes]]]. rewrite Hr in H.
    rewrite (bstored_read _ _ _ _ Hst) in H. fold (mine b its) in H.
    destruct (updates sc (mine b its) f oc (B b)) as [[f1 oc1] es1] eqn:E1.
    destruct (write_bucket oc1 es1) as [bb oc2] eqn:E2.
    destruct (save_buckets f0 sc its bs (f1 ++ bb) oc2 oc0) as [[[[f2 oc3] refs2] nk2]|] eqn:E3; [|discriminate H].
    injection H as <- <- <- <-.
    destruct (updates_grow _ _ _ _ _ _ _ _ E1) as [[g1 Hg1] X1].
    destruct (save_buckets_grow _ _ _ _ _ _ _ _ _ _ _ E3) as [[g2 Hg2] X3].
    pose proof (write_bucket_ext _ _ _ _ E2) as X2.
    assert (Hl : flen f1 = flen f + flen g1) by (rewrite Hg1; apply flen_app).
    assert (Hl2 : flen f2 = flen f1 + flen bb + flen g2) by (rewrite Hg2, !flen_app; reflexivity).
    destruct (updates_ok sc b (mine b its) m f oc (B b) f1 oc1 es1 E1
                (estate_mono _ _ _ _ _ _ _ _ Hes Ag Ex) Sm) as [Le [Ne Est]].
    { intros i Im. apply filter_In in Im. destruct Im as [Im Ib]. apply N.eqb_eq in Ib. destruct (Hi i Im). split; congruence. }
    { exact Hh. } { lia. } { eapply small_ext; [|exact Ss]. eapply ext_trans; eassumption. }
    { apply Hs. left. reflexivity. }
    destruct (bucket_written sc b _ f1 oc1 es1 bb oc2 Est E2 (Ne (Hne b (or_introl eq_refl))) ltac:(lia)
                ltac:(rewrite flen_app; lia) (small_ext _ _ X3 Ss)) as [_ [es' [W1 [W2 W3]]]].
    inversion Nd as [|b' bs' Nd1 Nd2]; subst b' bs'.
    destruct (IH (f1 ++ bb) oc2 f2 oc3 refs2 nk2 E3 Nd2) as [Mr [G [HG HN]]].
    { eapply agree_trans; [exact Ag|]. rewrite Hg1, <- app_assoc. apply agree_app. }
    { eapply ext_trans; [exact Ex|]. eapply ext_trans; eassumption. }
    { rewrite flen_app. lia. } { exact Hf. } { exact Ss. }
    { intros x Hx. apply Hb. right. exact Hx. } { intros x Hx. apply Hne. right. exact Hx. }
    { intros x Hx. apply Hs. right. exact Hx. }
    split; [cbn [map fst]; rewrite Mr; reflexivity|].
    exists (fun x => if x =? b then es' else G x). split.
    + intros x ref' [[= <- <-]|Hx].
      * rewrite N.eqb_refl. rewrite Hg2. split; [eapply bstored_mono; [exact W1|apply agree_app|exact X3]|].
        split; [eapply estate_mono; [exact W2|apply agree_app|exact X3]|]. split; [lia|]. cbn [fst snd]. rewrite !flen_app. lia.
      * assert (D : x <> b). { intros ->. apply Nd1. rewrite <- Mr. apply (in_map fst _ _ Hx). }
        destruct (N.eqb_spec x b); [contradiction|]. apply HG. exact Hx.
    + cbn [sumdiff]. rewrite N.eqb_refl. rewrite W3, HN. f_equal. apply sumdiff_cong.
      intros x Hx. destruct (N.eqb_spec x b) as [->|_]; [contradiction|reflexivity].
Qed.

(** ** References *)

Hypothesis n_pos : 0 < n.

Lemma ref_pos b : b < n -> 256 + b * ref_size t + ref_size t <= head.
Proof. intros H. unfold head. destruct t; cbn [ref_size]; lia. Qed.
Lemma ref_disjoint b b' : b <> b' -> b * ref_size t + ref_size t <= b' * ref_size t \/ b' * ref_size t + ref_size t <= b * ref_size t.
Proof. intros H. destruct t; cbn [ref_size]; lia. Qed.
Lemma direct_flen r : flen (direct_bytes t r) = ref_size t.
Proof. unfold flen. rewrite direct_len. lia. Qed.

Lemma write_ref_len f r : fst r < n -> head <= flen f -> flen (write_ref t f r) = flen f.
Proof.
  intros H Hh. unfold write_ref. apply patch_len. rewrite direct_flen. pose proof (ref_pos (fst r) H). lia.
Qed.
Lemma write_ref_agree f r : fst r < n -> head <= flen f -> agree f (write_ref t f r).
Proof.
  intros H Hh. unfold write_ref. apply agree_patch; [|exact Hh]. rewrite direct_flen. pose proof (ref_pos (fst r) H). lia.
Qed.
Lemma write_ref_same f r : fst r < n -> head <= flen f -> in_range t (snd r) -> get_ref t (write_ref t f r) (fst r) = Some (snd r).
Proof.
  intros H Hh R. unfold get_ref, write_ref. pose proof (ref_pos (fst r) H).
  rewrite <- (direct_flen (snd r)). rewrite slice_patch_same by (rewrite direct_flen; lia).
  apply decode_direct. exact R.
Qed.
Lemma write_ref_other f r b : fst r < n -> b < n -> b <> fst r -> head <= flen f ->
  get_ref t (write_ref t f r) b = get_ref t f b.
Proof.
  intros H Hb D Hh. unfold get_ref, write_ref. pose proof (ref_pos (fst r) H). pose proof (ref_pos b Hb). f_equal.
  destruct (ref_disjoint _ _ D).
  - apply slice_patch_before; rewrite ?direct_flen; lia.
  - apply slice_patch_after; rewrite ?direct_flen; lia.
Qed.
Lemma write_ref_low f r off size : off + size <= 256 -> fst r < n -> head <= flen f ->
  slice (write_ref t f r) off size = slice f off size.
Proof.
  intros H H1 H2. unfold write_ref. pose proof (ref_pos (fst r) H1).
  apply slice_patch_before; rewrite ?direct_flen; lia.
Qed.

Lemma write_refs_ok refs : forall f, NoDup (map fst refs) -> (forall r, In r refs -> fst r < n /\ in_range t (snd r)) ->
  head <= flen f ->
  flen (fold_left (write_ref t) refs f) = flen f /\ agree f (fold_left (write_ref t) refs f) /\
  (forall r, In r refs -> get_ref t (fold_left (write_ref t) refs f) (fst r) = Some (snd r)) /\
  (forall b, b < n -> ~ In b (map fst refs) -> get_ref t (fold_left (write_ref t) refs f) b = get_ref t f b) /\
  (forall off size, off + size <= 256 -> slice (fold_left (write_ref t) refs f) off size = slice f off size).
Proof.
  induction refs as [|r refs IH]; intros f Nd Hr Hh; cbn [fold_left].
  - split; [reflexivity|]. split; [apply agree_refl|]. split; [intros r []|]. split; [reflexivity|]. reflexivity.
  - cbn [map] in Nd. inversion Nd as [|x y Nd1 Nd2]; subst x y. destruct (Hr r (or_introl eq_refl)) as [R1 R2].
    pose proof (write_ref_len f r R1 Hh) as Hl.
    destruct (IH (write_ref t f r) Nd2 (fun r H => Hr r (or_intror H)) ltac:(lia)) as [A [B [C [D F]]]].
    split; [lia|]. split; [exact (agree_trans _ _ _ (write_ref_agree f r R1 Hh) B)|]. split; [|split].
    + intros x [<-|Hx]; [|apply C; exact Hx]. rewrite D by assumption. apply write_ref_same; assumption.
    + intros b Hb Hn. cbn [map In] in Hn. rewrite D by tauto. apply write_ref_other; try assumption. intros X. apply Hn. left. symmetry. exact X.
    + intros off size Ho. rewrite F by exact Ho. apply write_ref_low; assumption.
Qed.

Lemma header_ok fmt odd nk f : head <= flen f ->
  flen (write_header fmt odd nk f) = flen f /\ agree f (write_header fmt odd nk f) /\
  (forall b, b < n -> get_ref t (write_header fmt odd nk f) b = get_ref t f b) /\
  slice (write_header fmt odd nk f) 16 4 = put_4bytes nk.
Proof.
  intros Hh. assert (Hd : 256 <= head) by (unfold head; lia).
  assert (L4 : forall x, flen (put_4bytes x) = 4) by (intros; unfold flen; rewrite put_4bytes_len; reflexivity).
  assert (L8 : forall x, flen (put_8bytes x) = 8) by (intros; unfold flen; rewrite put_8bytes_len; reflexivity).
  unfold write_header.
  set (f1 := patch f 248 _). assert (H1 : flen f1 = flen f) by (unfold f1; apply patch_len; rewrite L8; lia).
  set (f2 := patch f1 8 _). assert (H2 : flen f2 = flen f) by (unfold f2; rewrite patch_len; rewrite ?L4; lia).
  set (f3 := patch f2 16 _). assert (H3 : flen f3 = flen f) by (unfold f3; rewrite patch_len; rewrite ?L4; lia).
  assert (Q : forall off size, 256 <= off -> off + size <= flen f -> slice (patch f3 0 (put_4bytes 0x8011308)) off size = slice f off size).
  { intros off size A B. rewrite slice_patch_after by (rewrite ?L4; lia). unfold f3. rewrite slice_patch_after by (rewrite ?L4; lia).
    unfold f2. rewrite slice_patch_after by (rewrite ?L4; lia). unfold f1. rewrite slice_patch_after by (rewrite ?L8; lia). reflexivity. }
  split; [rewrite patch_len; rewrite ?L4; lia|]. split; [|split].
  - split; [rewrite patch_len; rewrite ?L4; lia|]. intros off size A B. apply Q; lia.
  - intros b Hb. unfold get_ref. pose proof (ref_pos b Hb). rewrite Q by lia. reflexivity.
  - rewrite slice_patch_after by (rewrite ?L4; lia). unfold f3. rewrite <- (L4 nk). apply slice_patch_same. rewrite L4. lia.
Qed.

(** ** Indexes *)

Notation index := HashIndexModel.index.
Notation uncoded := (HashIndexModel.uncoded L slot_of).
Notation fetch := (HashIndexModel.fetch L leq enc dec mk_oid slot_of t n junk).
Notation fetchn1 := (HashIndexModel.fetchn1 L leq enc dec mk_oid slot_of t n junk).
Notation find_entry := (HashIndexModel.find_entry L enc dec mk_oid slot_of t n junk).
Notation choice_of := (HashIndexModel.choice_of L leq).
Notation save_data := (HashIndexModel.save_data L leq enc dec oid_of mk_oid slot_of t n junk).

Definition total (B : N -> list entry) : N :=
  fold_right (fun b a => N.of_nat (length (B (N.of_nat b))) + a) 0 (seq 0 (N.to_nat n)).

Record inv (ix : index) (m : map_t) (B : N -> list entry) : Prop := {
  i_head : head <= flen (ix_file ix);
  i_len : flen (ix_file ix) < 2 ^ 62;
  i_slots : small (ix_slots ix);
  i_oids : small (ix_oids ix);
  i_coded : forall k l, m k = Some l -> coded (ix_slots ix) k;
  i_odd : forall k l, m k = Some l -> l <> [] -> uncoded ix k = false;
  i_buckets : forall b, b < n -> exists ref, get_ref t (ix_file ix) b = Some ref /\
    bstored (ix_file ix) (ix_oids ix) ref (B b) /\
    estate (ix_slots ix) b m (ix_file ix) (ix_oids ix) (B b) }.

Lemma bucket_lt sc k : bucket sc k < n.
Proof. unfold HashIndexModel.bucket. apply N.mod_lt. lia. Qed.

Lemma find_entry_ok ix m B k : inv ix m B ->
  match find_entry ix k with
  | Some (Some e) => exists l, m k = Some l /\ erep (ix_file ix) (ix_oids ix) e l
  | Some None => m k = None
  | None => False
  end.
Proof.
  intros V. destruct (i_buckets _ _ _ V _ (bucket_lt (ix_slots ix) k)) as [ref [Hr [Hb Hs]]].
  pose proof (estate_find _ _ _ _ _ _ k Hs (i_slots _ _ _ V) eq_refl (fun l H => i_coded _ _ _ V k l H)) as Fi.
  unfold HashIndexModel.find_entry. rewrite Hr. destruct Hb as [[Z Eb]|[Z [_ [_ R]]]].
  - rewrite Z. cbn [N.eqb]. rewrite Eb in Fi. exact Fi.
  - unfold HashIndexModel.read_bucket in R. destruct (N.eqb_spec (snd ref) 0); [contradiction|].
    destruct (read_varint _) as [[c r]|]; [|discriminate R]. rewrite (scan_entries _ _ _ _ _ R). exact Fi.
Qed.

Definition values_of (o : option (list L)) : list L := match o with Some l => l | None => [] end.

Lemma fetch_ok ix m B k : inv ix m B -> fetch ix k = Ok (choice_of (values_of (m k))).
Proof.
  intros V. unfold HashIndexModel.fetch. destruct (uncoded ix k) eqn:U.
  - destruct (m k) as [[|v l]|] eqn:Em; [reflexivity| |reflexivity].
    rewrite (i_odd _ _ _ V k (v :: l) Em) in U by discriminate. discriminate U.
  - pose proof (find_entry_ok ix m B k V) as Fe. destruct (find_entry ix k) as [[e|]|]; [|rewrite Fe; reflexivity|contradiction].
    destruct Fe as [l [-> [En Ev]]]. cbn [values_of]. destruct l as [|v [|w l]].
    + rewrite En. reflexivity.
    + rewrite En, Ev. reflexivity.
    + destruct Ev as [_ Ch]. pose proof (chain_len _ _ _ _ Ch) as Hl. rewrite En.
      destruct (N.eqb_spec (N.of_nat (length (v :: w :: l))) 0) as [Z|_]; [cbn [length] in Z; lia|].
      destruct (N.eqb_spec (N.of_nat (length (v :: w :: l))) 1) as [Z|_]; [cbn [length] in Z; lia|].
      rewrite Nat2N.id. rewrite (chain_values _ _ _ _ Ch); [reflexivity|]. unfold flen in Hl. lia.
Qed.
Lemma fetchn1_ok ix m B k : inv ix m B -> fetchn1 ix k = Ok (choice_of (values_of (m k))).
Proof.
  intros V. unfold HashIndexModel.fetchn1. destruct (uncoded ix k) eqn:U.
  - destruct (m k) as [[|v l]|] eqn:Em; [reflexivity| |reflexivity].
    rewrite (i_odd _ _ _ V k (v :: l) Em) in U by discriminate. discriminate U.
  - pose proof (find_entry_ok ix m B k V) as Fe. destruct (find_entry ix k) as [[e|]|]; [|rewrite Fe; reflexivity|contradiction].
    destruct Fe as [l [-> [En Ev]]]. cbn [values_of]. destruct l as [|v [|w l]].
    + rewrite En. reflexivity.
    + rewrite En, Ev. reflexivity.
    + destruct Ev as [_ Ch]. pose proof (chain_len _ _ _ _ Ch) as Hl. rewrite En.
      destruct (N.eqb_spec (N.of_nat (length (v :: w :: l))) 0) as [Z|_]; [cbn [length] in Z; lia|].
      destruct (N.eqb_spec (N.of_nat (length (v :: w :: l))) 1) as [Z|_]; [cbn [length] in Z; lia|].
      rewrite (chain_chain _ _ _ _ Ch); [|unfold flen in Hl; lia]. rewrite N.eqb_refl. reflexivity.
Qed.

Lemma uncoded_mono ix f' sc' oc' (odd' : bool) nk k : (ix_odd ix = true -> odd' = true) -> ext (ix_slots ix) sc' ->
  uncoded ix k = false -> uncoded (Ix f' sc' oc' odd' nk) k = false.
Proof.
  intros Ho X. unfold HashIndexModel.uncoded. cbn [ix_odd ix_slots]. destruct (slot_of k) as [[s r]|]; [|reflexivity].
  destruct (ix_odd ix); [rewrite (Ho eq_refl); reflexivity|]. cbn [negb andb].
  destruct (code_of (ix_slots ix) s) as [i|] eqn:Ec; [|discriminate]. rewrite (code_ext _ _ _ _ Ec X).
  intros _. apply andb_false_r.
Qed.

Lemma estate_sc sc sc' b m f oc es : estate sc b m f oc es -> ext sc sc' ->
  (forall k l, m k = Some l -> coded sc k) -> estate sc' b m f oc es.
Proof.
  intros [A [B C]] X Hc. split; [exact A|]. split.
  - intros e He. destruct (B e He) as [k [l [B1 [B2 [B3 [B4 B5]]]]]]. exists k, l.
    rewrite (zkey_ext _ _ _ B2 X), (bucket_ext _ _ _ B2 X).
    split; [exact B1|]. split; [eapply coded_ext; eassumption|]. repeat (split; [assumption|]). assumption.
  - intros k l H1 _ H3. pose proof (Hc k l H1) as C0. rewrite (bucket_ext _ _ _ C0 X) in H3.
    rewrite (zkey_ext _ _ _ C0 X). eapply C; eassumption.
Qed.

Definition stable (sort : list item -> list item) : Prop := forall b l, mine b (sort l) = mine b l.

Lemma qsort_stable : stable (FileIndexModel.qsort it_bucket).
Proof.
  intros b l. unfold mine. induction l as [|x l IH]; [reflexivity|].
  cbn [FileIndexModel.qsort fold_right filter].
  change (fold_right (FileIndexModel.insert it_bucket) [] l) with (FileIndexModel.qsort it_bucket l).
  rewrite <- IH. generalize (FileIndexModel.qsort it_bucket l) as q. clear. induction q as [|y q IH]; [reflexivity|].
  cbn [FileIndexModel.insert]. destruct (N.leb_spec (it_bucket x) (it_bucket y)) as [Q|Q]; [reflexivity|].
  cbn [filter]. rewrite IH. destruct (N.eqb_spec (it_bucket x) b), (N.eqb_spec (it_bucket y) b); try reflexivity. lia.
Qed.
Lemma stable_in sort l : stable sort -> forall i, In i (sort l) <-> In i l.
Proof.
  intros H i. split; intros Hi.
  - assert (In i (mine (it_bucket i) (sort l))) as A by (apply filter_In; split; [exact Hi|apply N.eqb_refl]).
    rewrite H in A. apply filter_In in A. apply A.
  - assert (In i (mine (it_bucket i) l)) as A by (apply filter_In; split; [exact Hi|apply N.eqb_refl]).
    rewrite <- H in A. apply filter_In in A. apply A.
Qed.

(** The changes of a save: what it replaces and what it adds. *)
Notation commits := (HashIndexModel.commits L).
Notation c_adds := (HashIndexModel.c_adds L).
Notation c_drops := (HashIndexModel.c_drops L).
Notation c_stores := (HashIndexModel.c_stores L).
Notation minus := (HashIndexModel.minus L leq).
Notation real_adds := (HashIndexModel.real_adds L).
Definition reduced (m : map_t) (drops : list (L * list L)) : list (L * list L) :=
  map (fun kv => (fst kv, minus (choice_of (values_of (m (fst kv)))) (snd kv))) drops.
Lemma reduce_ok ix m B drops : inv ix m B ->
  reduce_drops L leq enc dec mk_oid slot_of t n junk ix drops = Ok (reduced m drops).
Proof.
  intros V. induction drops as [|[k v] r IH]; [reflexivity|]. cbn [reduce_drops].
  rewrite (fetchn1_ok ix m B k V), IH. reflexivity.
Qed.

Definition stepe (m : map_t) (e : L * list L * bool) : map_t := let '(k, vs, r) := e in step m k vs r.
Definition rune (m : map_t) (l : list (L * list L * bool)) : map_t := fold_left stepe l m.
Fixpoint safee (m : map_t) (l : list (L * list L * bool)) : Prop :=
  match l with [] => True | (k, vs, r) :: q => okitem m k vs r /\ safee (step m k vs r) q end.
Lemma rune_run its : forall m, rune m (map (fun i => (it_key i, it_vals i, it_repl i)) its) = run m its.
Proof. induction its as [|i its IH]; intros m; [reflexivity|]. exact (IH (step_i m i)). Qed.
Lemma safee_safe its : forall m, safee m (map (fun i => (it_key i, it_vals i, it_repl i)) its) -> safe m its.
Proof. induction its as [|i its IH]; intros m H; [exact I|]. destruct H as [H1 H2]. split; [exact H1|]. apply IH. exact H2. Qed.

Definition work (m : map_t) (c : commits) : list (L * list L * bool) :=
  edits L true (c_stores c ++ reduced m (c_drops c)) ++ edits L false (real_adds (c_adds c)).

Lemma sum_upd (G B : N -> list entry) bs q : NoDup bs -> NoDup q -> (forall b, In b bs -> exists i, In i q /\ b = N.of_nat i) ->
  (forall b, In b bs -> (length (B b) <= length (G b))%nat) ->
  fold_right (fun b a => N.of_nat (length (if existsb (N.eqb (N.of_nat b)) bs then G (N.of_nat b) else B (N.of_nat b))) + a) 0 q =
  fold_right (fun b a => N.of_nat (length (B (N.of_nat b))) + a) 0 q + sumdiff G B bs.
Proof.
  revert q. induction bs as [|b bs IH]; intros q Nb Nq Hin Hle.
  - cbn [existsb sumdiff]. lia.
  - inversion Nb as [|x y Nb1 Nb2]; subst x y. cbn [sumdiff].
    destruct (Hin b (or_introl eq_refl)) as [i [Hi Eb]].
    specialize (IH q Nb2 Nq (fun x Hx => Hin x (or_intror Hx)) (fun x Hx => Hle x (or_intror Hx))).
    pose proof (Hle b (or_introl eq_refl)) as Lb.
    assert (P : fold_right (fun j a => N.of_nat (length (if existsb (N.eqb (N.of_nat j)) (b :: bs) then G (N.of_nat j) else B (N.of_nat j))) + a) 0 q =
                fold_right (fun j a => N.of_nat (length (if existsb (N.eqb (N.of_nat j)) bs then G (N.of_nat j) else B (N.of_nat j))) + a) 0 q +
                N.of_nat (length (G b) - length (B b))).
    { clear IH Hin Hle. assert (F : existsb (N.eqb b) bs = false).
      { destruct (existsb (N.eqb b) bs) eqn:X; [|reflexivity]. apply existsb_exists in X. destruct X as [x [X1 X2]].
        apply N.eqb_eq in X2. subst x. contradiction. }
      induction q as [|j q IHq]; [destruct Hi|]. cbn [fold_right]. inversion Nq as [|x y Nq1 Nq2]; subst x y.
      destruct Hi as [->|Hi].
      - assert (R : forall q', ~ In i q' ->
          fold_right (fun j a => N.of_nat (length (if existsb (N.eqb (N.of_nat j)) (b :: bs) then G (N.of_nat j) else B (N.of_nat j))) + a) 0 q' =
          fold_right (fun j a => N.of_nat (length (if existsb (N.eqb (N.of_nat j)) bs then G (N.of_nat j) else B (N.of_nat j))) + a) 0 q').
        { induction q' as [|x q' IH']; intros Hx; [reflexivity|]. cbn [fold_right]. rewrite IH' by (intros Y; apply Hx; right; exact Y).
          f_equal. cbn [existsb]. destruct (N.eqb_spec (N.of_nat x) b) as [Y|Y]; [|reflexivity].
          exfalso. apply Hx. left. lia. }
        rewrite (R q Nq1). cbn [existsb]. rewrite <- Eb, N.eqb_refl, F. cbn [orb]. lia.
      - rewrite (IHq Nq2 Hi). cbn [existsb]. destruct (N.eqb_spec (N.of_nat j) b) as [Y|Y].
        + exfalso. assert (i = j) by lia. subst j. contradiction.
        + cbn [orb]. lia. }
    rewrite P, IH. lia.
Qed.

Lemma seq_NoDup' a b : NoDup (seq a b).
Proof. apply seq_NoDup. Qed.

(** A save up to the references, and any number of them written. *)
Lemma save_data_ok sort ix m B c s : inv ix m B -> stable sort -> t <> B64 ->
  save_data sort ix c = Ok s -> safee m (work m c) -> small (sv_slots s) -> small (sv_oids s) ->
  (forall r, In r (sv_refs s) -> in_range t (snd r)) ->
  (forall k vs r, In (k, vs, r) (work m c) -> vs <> [] ->
     forall f nk, uncoded (Ix f (sv_slots s) (sv_oids s) (sv_odd s) nk) k = false) ->
  let m' := rune m (work m c) in
  let wrote k done := existsb (fun r => fst r =? bucket (sv_slots s) k) done in
  (exists g, sv_file s = ix_file ix ++ g) /\ ext (ix_slots ix) (sv_slots s) /\ ext (ix_oids ix) (sv_oids s) /\
  NoDup (map fst (sv_refs s)) /\ (forall r, In r (sv_refs s) -> fst r < n) /\
  exists G, (forall done rest nk, sv_refs s = done ++ rest ->
    inv (Ix (fold_left (write_ref t) done (sv_file s)) (sv_slots s) (sv_oids s) (sv_odd s) nk)
        (fun k => if wrote k done then m' k else m k)
        (fun b => if existsb (N.eqb b) (map fst done) then G b else B b)) /\
    (forall k, wrote k (sv_refs s) = false -> m' k = m k) /\
    total (fun b => if existsb (N.eqb b) (map fst (sv_refs s)) then G b else B b) + ix_nkeys ix =
      total B + sv_nkeys s.
Proof.
  intros V St T H Sf S1 S2 Rr Un m' wrote. unfold HashIndexModel.save_data in H.
  rewrite (reduce_ok ix m B _ V) in H. fold (work m c) in H.
  destruct (schedule (ix_slots ix) (work m c)) as [its0 sc] eqn:Es.
  destruct (save_buckets (ix_file ix) sc (sort its0) _ _ _ _) as [[[[f' oc] refs] nk0]|] eqn:Eb; [|discriminate H].
  destruct (N.leb_spec (maxpos t) (flen f')) as [|Hmax]; [discriminate H|]. injection H as <-. cbn [sv_file sv_slots sv_oids sv_odd sv_refs sv_nkeys] in *.
  destruct (schedule_ok _ _ _ _ Es) as [Xs [Ms Is]].
  destruct (save_buckets_grow _ _ _ _ _ _ _ _ _ _ _ Eb) as [[g Hg] Xo].
  assert (Hlen : flen f' < 2 ^ 62) by (destruct t; cbn [maxpos] in Hmax; lia).
  assert (Is' : forall i, In i (sort its0) -> coded sc (it_key i) /\ bucket sc (it_key i) = it_bucket i).
  { intros i Hi. apply Is. apply (stable_in sort its0 St). exact Hi. }
  assert (Hbs : forall b, In b (nodup N.eq_dec (map it_bucket (sort its0))) -> b < n /\ mine b (sort its0) <> []).
  { intros b Hb. apply nodup_In in Hb. apply in_map_iff in Hb. destruct Hb as [i [<- Hi]]. split.
    - rewrite <- (proj2 (Is' i Hi)). apply bucket_lt.
    - intros X. assert (In i (mine (it_bucket i) (sort its0))) as A by (apply filter_In; split; [exact Hi|apply N.eqb_refl]).
      rewrite X in A. destruct A. }
  assert (OT : save_offtype t = t) by (destruct t; [reflexivity|reflexivity|contradiction]).
  destruct (save_buckets_ok (ix_file ix) sc (sort its0) m B (ix_oids ix) S1 Is' _ _ _ _ _ _ _ Eb (NoDup_nodup _ _)
              (agree_refl _) (ext_refl _) (i_head _ _ _ V) Hlen S2) as [Mr [G [HG HN]]].
  { intros b Hb. rewrite OT. destruct (i_buckets _ _ _ V b (proj1 (Hbs b Hb))) as [ref [A1 [A2 A3]]].
    exists ref. split; [exact A1|]. split; [exact A2|]. eapply estate_sc; [exact A3|exact Xs|exact (i_coded _ _ _ V)]. }
  { intros b Hb. apply Hbs. exact Hb. }
  { intros b Hb. rewrite St. apply (safe_filter sc b its0 (fun i Hi => proj2 (Is i Hi)) m m (fun _ _ => eq_refl)).
    apply safee_safe. rewrite Ms. exact Sf. }
  assert (Nd : NoDup (map fst refs)) by (rewrite Mr; apply NoDup_nodup).
  assert (Rn : forall r, In r refs -> fst r < n).
  { intros r Hr. apply Hbs. rewrite <- Mr. apply in_map. exact Hr. }
  split; [exists g; exact Hg|]. split; [exact Xs|]. split; [exact Xo|]. split; [exact Nd|]. split; [exact Rn|].
  assert (M' : m' = run m its0) by (unfold m'; rewrite <- rune_run, Ms; reflexivity).
  exists G. split; [|split].
  - intros done rest nk Er.
    assert (Nd' : NoDup (map fst done)).
    { rewrite Er, map_app in Nd. clear - Nd. induction (map fst done) as [|x q IH]; [constructor|].
      inversion Nd as [|y z N1 N2]; subst. constructor; [intros X; apply N1; apply in_or_app; left; exact X|apply IH; exact N2]. }
    assert (Rd : forall r, In r done -> In r refs) by (intros r Hr; rewrite Er; apply in_or_app; left; exact Hr).
    assert (Hh' : head <= flen f') by (rewrite Hg, flen_app; pose proof (i_head _ _ _ V); lia).
    destruct (write_refs_ok done f' Nd' (fun r Hr => conj (Rn r (Rd r Hr)) (Rr r (Rd r Hr))) Hh') as [W1 [W2 [W3 [W4 W5]]]].
    assert (Ag : agree (ix_file ix) (fold_left (write_ref t) done f')).
    { assert (A0 : agree (ix_file ix) f') by (rewrite Hg; apply agree_app). exact (agree_trans _ _ _ A0 W2). }
    assert (C' : forall k l, (if wrote k done then m' k else m k) = Some l -> coded sc k).
    { intros k l Hk. assert (Q : m' k = Some l \/ m k = Some l) by (destruct (wrote k done); auto).
      destruct Q as [Q|Q]; [|eapply coded_ext; [eapply i_coded; eassumption|exact Xs]].
      rewrite M' in Q. destruct (run_some _ _ _ _ Q) as [[i [Hi1 <-]]|Q']; [apply (Is i Hi1)|].
      eapply coded_ext; [eapply i_coded; eassumption|exact Xs]. }
    assert (Wr : forall k b, bucket sc k = b -> wrote k done = existsb (N.eqb b) (map fst done)).
    { intros k b Hk. unfold wrote. rewrite Hk. clear. induction done as [|r q IH]; [reflexivity|]. cbn [existsb map].
      rewrite IH, (N.eqb_sym (fst r)). reflexivity. }
    constructor; cbn [ix_file ix_slots ix_oids ix_odd ix_nkeys].
    + lia.
    + lia.
    + exact S1.
    + exact S2.
    + exact C'.
    + intros k l Hk Hl. assert (Q : m' k = Some l \/ m k = Some l) by (destruct (wrote k done); auto).
      assert (Z : forall l0, m k = Some l0 -> l0 <> [] ->
        uncoded (Ix (fold_left (write_ref t) done f') sc oc (odd_after L slot_of ix (c_adds c)) nk) k = false).
      { intros l0 Z1 Z2. apply (uncoded_mono ix); [|exact Xs|eapply i_odd; eassumption].
        intros Z3. unfold odd_after. rewrite Z3. reflexivity. }
      destruct Q as [Q|Q]; [|eapply Z; eassumption]. rewrite M' in Q.
      destruct (run_nonempty _ _ _ _ Q Hl) as [[i [I1 [<- I3]]]|[l0 [Q1 Q2]]]; [|eapply Z; eassumption].
      apply (Un (it_key i) (it_vals i) (it_repl i)); [|exact I3]. rewrite <- Ms. apply (in_map (fun i => (it_key i, it_vals i, it_repl i))). exact I1.
    + intros b Hb. destruct (existsb (N.eqb b) (map fst done)) eqn:Ed.
      * apply existsb_exists in Ed. destruct Ed as [b' [Hb' Eq]]. apply N.eqb_eq in Eq. subst b'.
        apply in_map_iff in Hb'. destruct Hb' as [[b' ref] [Eq Hr]]. cbn [fst] in Eq. subst b'.
        exists ref. split; [exact (W3 _ Hr)|]. destruct (HG b ref (Rd _ Hr)) as [G1 [G2 _]].
        split; [eapply bstored_mono; [exact G1|exact W2|apply ext_refl]|].
        eapply estate_mono; [|exact W2|apply ext_refl]. eapply estate_cong; [exact G2|].
        intros k Hk. rewrite (Wr k b Hk).
        assert (X : existsb (N.eqb b) (map fst done) = true) by (apply existsb_exists; exists b; split; [apply (in_map fst _ _ Hr)|apply N.eqb_refl]).
        rewrite X, M', St. symmetry. apply (run_filter sc b its0 (fun i Hi => proj2 (Is i Hi)) m m (fun _ _ => eq_refl) k Hk).
      * destruct (i_buckets _ _ _ V b Hb) as [ref [A1 [A2 A3]]]. exists ref.
        assert (Nin : ~ In b (map fst done)).
        { intros X. assert (Y : existsb (N.eqb b) (map fst done) = true) by (apply existsb_exists; exists b; split; [exact X|apply N.eqb_refl]). congruence. }
        split.
        { rewrite W4 by assumption. unfold get_ref in *. pose proof (ref_pos b Hb). pose proof (i_head _ _ _ V).
          rewrite Hg, slice_app by lia. exact A1. }
        split; [eapply bstored_mono; [exact A2|exact Ag|exact Xo]|].
        eapply estate_cong; [eapply estate_mono; [eapply estate_sc; [exact A3|exact Xs|exact (i_coded _ _ _ V)]|exact Ag|exact Xo]|].
        intros k Hk. rewrite (Wr k b Hk), Ed. reflexivity.
  - intros k Hk. rewrite M'. apply run_untouched. intros i Hi X. subst k. unfold wrote in Hk.
    assert (Y : existsb (fun r => fst r =? bucket sc (it_key i)) refs = true); [|congruence].
    assert (Z : In (it_bucket i) (map fst refs)).
    { rewrite Mr. apply nodup_In. apply in_map. apply (stable_in sort its0 St). exact Hi. }
    apply in_map_iff in Z. destruct Z as [r [Z1 Z2]]. apply existsb_exists. exists r. split; [exact Z2|].
    apply N.eqb_eq. rewrite Z1. symmetry. apply (Is i Hi).
  - rewrite HN. unfold total. rewrite Mr.
    rewrite sum_upd; [lia|apply NoDup_nodup|apply seq_NoDup| |].
    + intros b Hb. exists (N.to_nat b). split; [apply in_seq; pose proof (proj1 (Hbs b Hb)); lia|lia].
    + intros b Hb. rewrite <- Mr in Hb. apply in_map_iff in Hb. destruct Hb as [[b' ref] [<- Hr]]. apply (HG b' ref Hr).
Qed.

Lemma inv_cong ix m m' B : inv ix m B -> (forall k, m k = m' k) -> inv ix m' B.
Proof.
  intros V H. constructor.
  - apply V.
  - apply V.
  - apply V.
  - apply V.
  - intros k l. rewrite <- H. apply V.
  - intros k l. rewrite <- H. apply V.
  - intros b Hb. destruct (i_buckets _ _ _ V b Hb) as [ref [A1 [A2 A3]]]. exists ref. split; [exact A1|]. split; [exact A2|].
    eapply estate_cong; [exact A3|]. intros k _. apply H.
Qed.
Lemma inv_file f f' sc oc odd nk nk' m B : inv (Ix f sc oc odd nk) m B -> agree f f' -> flen f' < 2 ^ 62 ->
  (forall b, b < n -> get_ref t f' b = get_ref t f b) -> inv (Ix f' sc oc odd nk') m B.
Proof.
  intros V A Hf R. constructor; cbn [ix_file ix_slots ix_oids ix_odd].
  - pose proof (i_head _ _ _ V) as X. cbn [ix_file] in X. destruct A. lia.
  - exact Hf.
  - exact (i_slots _ _ _ V).
  - exact (i_oids _ _ _ V).
  - exact (i_coded _ _ _ V).
  - intros k l H1 H2. exact (i_odd _ _ _ V k l H1 H2).
  - intros b Hb. destruct (i_buckets _ _ _ V b Hb) as [ref [A1 [A2 A3]]]. cbn [ix_file ix_slots ix_oids] in *.
    exists ref. rewrite R by exact Hb. split; [exact A1|]. split; [eapply bstored_mono; [exact A2|exact A|apply ext_refl]|].
    eapply estate_mono; [exact A3|exact A|apply ext_refl].
Qed.

Definition counted (ix : index) (B : N -> list entry) : Prop :=
  ix_nkeys ix = total B /\ read_4bytes (slice (ix_file ix) 16 4) = Some (ix_nkeys ix mod 2 ^ 32, []).

Notation save_with := (HashIndexModel.save_with L leq enc dec oid_of mk_oid slot_of t n junk).

Lemma save_ok sort fmt ix m B c ix' : inv ix m B -> counted ix B -> stable sort -> t <> B64 ->
  save_with sort fmt ix c = Ok ix' -> safee m (work m c) -> small (ix_slots ix') -> small (ix_oids ix') ->
  (forall s r, save_data sort ix c = Ok s -> In r (sv_refs s) -> in_range t (snd r)) ->
  (forall k vs r, In (k, vs, r) (work m c) -> vs <> [] -> uncoded ix' k = false) ->
  exists B', inv ix' (rune m (work m c)) B' /\ counted ix' B'.
Proof.
  intros V Ct St T H Sf S1 S2 Rr Un. unfold HashIndexModel.save_with in H.
  assert (Q : (c_adds c = [] /\ c_drops c = [] /\ c_stores c = [] /\ ix' = ix) \/
    exists s, save_data sort ix c = Ok s /\
      ix' = Ix (write_header fmt (sv_odd s) (sv_nkeys s) (fold_left (write_ref t) (sv_refs s) (sv_file s)))
             (sv_slots s) (sv_oids s) (sv_odd s) (sv_nkeys s)).
  { destruct (c_adds c), (c_drops c), (c_stores c);
      try (right; destruct (save_data sort ix c) as [s| | |]; try discriminate H; exists s; split; [reflexivity|congruence]).
    left. repeat split; congruence. }
  clear H. destruct Q as [[Q1 [Q2 [Q3 ->]]]|[s [Es ->]]].
  - exists B. unfold work. rewrite Q1, Q2, Q3. split; [exact V|exact Ct].
  - cbn [ix_slots ix_oids] in *.
    destruct (save_data_ok sort ix m B c s V St T Es Sf S1 S2 (fun r => Rr s r Es)) as [_ [_ [_ [Nd [Rn [G [I1 [I2 I3]]]]]]]].
    { intros k vs r H1 H2 f nk. rewrite <- (Un k vs r H1 H2). reflexivity. }
    specialize (I1 (sv_refs s) [] (sv_nkeys s) (eq_sym (app_nil_r _))).
    set (f1 := fold_left (write_ref t) (sv_refs s) (sv_file s)) in *.
    pose proof (i_head _ _ _ I1) as Hh. pose proof (i_len _ _ _ I1) as Hl. cbn [ix_file] in Hh, Hl.
    destruct (header_ok fmt (sv_odd s) (sv_nkeys s) f1 Hh) as [A1 [A2 [A3 A4]]].
    eexists. split.
    + eapply inv_cong.
      * eapply inv_file; [exact I1|exact A2|rewrite A1; exact Hl|exact A3].
      * intros k. cbv beta. destruct (existsb _ (sv_refs s)) eqn:X; [reflexivity|]. symmetry. apply I2. exact X.
    + split; cbn [ix_nkeys ix_file].
      * destruct Ct as [Ct _]. cbv beta in I3. rewrite Ct in I3. lia.
      * rewrite A4. rewrite <- (app_nil_r (put_4bytes _)). apply read_4bytes_put.
Qed.

(** ** A new index *)

Definition none : map_t := fun _ => None.
Notation make_file := (HashIndexModel.make_file t n).
Notation make_index := (HashIndexModel.make_index t n).

Lemma make_parts fmt times tail : exists hd, make_file fmt times tail = hd ++ repeat 0 (N.to_nat (n * ref_size t)) ++ tail /\
  flen hd = 256 /\ slice hd 16 4 = put_4bytes 0.
Proof.
  exists (put_4bytes 0x8011308 ++ put_4bytes n ++ put_4bytes fmt ++ put_4bytes 0 ++ put_4bytes 0 ++ firstn 236 (times ++ repeat 0 236)).
  split; [unfold HashIndexModel.make_file; rewrite <- !app_assoc; reflexivity|]. split.
  - unfold flen. rewrite !app_length, firstn_length, app_length, repeat_length, !put_4bytes_len. lia.
  - reflexivity.
Qed.
Lemma zero_ref x : decode_ref t (repeat 0 (N.to_nat (ref_size t)) ++ x) = Some (0, 0).
Proof. destruct t; reflexivity. Qed.
Lemma skipn_repeat (a b : nat) : skipn a (repeat 0 b) = repeat 0 (b - a).
Proof. revert b. induction a as [|a IH]; intros [|b]; try reflexivity. cbn [repeat skipn]. rewrite IH. reflexivity. Qed.
Lemma firstn_repeat (a b : nat) : (a <= b)%nat -> firstn a (repeat 0 b) = repeat 0 a.
Proof. revert b. induction a as [|a IH]; intros [|b] H; try reflexivity; [lia|]. cbn [repeat firstn]. rewrite IH by lia. reflexivity. Qed.

Lemma make_inv (fmt : N) (odd : bool) times tail slots oids : flen (make_file (if odd then fmt + 0x80 else fmt) times tail) < 2 ^ 62 -> small slots -> small oids ->
  inv (make_index fmt odd times tail slots oids) none (fun _ => []) /\
  counted (make_index fmt odd times tail slots oids) (fun _ => []).
Proof.
  intros Hl S1 S2. unfold HashIndexModel.make_index. set (fm := if odd then fmt + 0x80 else fmt) in *.
  destruct (make_parts fm times tail) as [hd [Em [Eh Es]]].
  assert (Hh : head <= flen (make_file fm times tail)).
  { rewrite Em, !flen_app, Eh. unfold flen, head. rewrite repeat_length. lia. }
  split; [constructor|split]; cbn [ix_file ix_slots ix_oids ix_odd ix_nkeys].
  - exact Hh.
  - exact Hl.
  - exact S1.
  - exact S2.
  - discriminate.
  - discriminate.
  - intros b Hb. exists (0, 0). split; [|split; [left; split; reflexivity|]].
    + unfold get_ref. rewrite Em. pose proof (ref_pos b Hb) as P. unfold head in P. unfold slice.
      rewrite FileIndexProofs.skip_app_ge by (unfold flen in Eh; lia).
      rewrite FileIndexProofs.skip_app_le by (rewrite repeat_length; unfold flen in Eh; lia).
      rewrite skipn_repeat. rewrite firstn_app, repeat_length.
      replace (N.to_nat (ref_size t) - _)%nat with O by (unfold flen in Eh; lia). cbn [firstn].
      rewrite firstn_repeat by (unfold flen in Eh; lia). apply zero_ref.
    + split; [constructor|]. split; [intros e []|intros k l X; discriminate X].
  - unfold total. generalize (seq 0 (N.to_nat n)) as q. induction q as [|x q IH]; [reflexivity|]. cbn [fold_right]. rewrite <- IH. reflexivity.
  - rewrite Em, slice_app by lia. rewrite Es. reflexivity.
Qed.

(** ** Keys *)

Notation read_key := (HashIndexModel.read_key L dec mk_key).
Notation keys_in := (HashIndexModel.keys_in L dec mk_key).
Notation infos_of := (HashIndexModel.infos_of L dec mk_oid mk_key junk).
Notation fetchinfo := (HashIndexModel.fetchinfo L dec mk_oid mk_key t n junk).
Notation fetchkeys := (HashIndexModel.fetchkeys L dec mk_oid mk_key t n junk).
Notation used_refs := (HashIndexModel.used_refs t).

Lemma read_zkey sc k : small sc -> read_key sc (zkey sc k) = Some k.
Proof.
  intros Sm. unfold HashIndexModel.read_key, HashIndexModel.zkey.
  assert (D : forall x, dec (enc x) = Some (x, [])) by (intros x; rewrite <- (app_nil_r (enc x)); apply codec).
  destruct (slot_of k) as [[s r]|] eqn:Ek; [|rewrite varint_zero; cbn [N.eqb]; rewrite D; reflexivity].
  destruct (code_of sc s) as [i|] eqn:Ec; [|rewrite varint_zero; cbn [N.eqb]; rewrite D; reflexivity].
  pose proof (code_small _ _ _ Ec Sm). rewrite read_varint_put by lia. destruct (N.eqb_spec (i + 1) 0); [lia|].
  destruct sc as [l|]; [|discriminate Ec]. replace (i + 1 - 1) with i by lia.
  rewrite (proj1 (index_of_nth _ _ _ Ec)), D. rewrite (slot_ok _ _ _ Ek). reflexivity.
Qed.
Lemma keys_in_map sc : small sc -> forall es, (forall e, In e es -> exists k, e_key e = zkey sc k) ->
  exists l, keys_in sc es = Some l /\ map (fun p => (zkey sc (fst p), snd p)) l = map (fun e => (e_key e, e_n e)) es.
Proof.
  intros Sm. induction es as [|e es IH]; intros H; [exists []; split; reflexivity|].
  destruct (H e (or_introl eq_refl)) as [k Hk]. destruct (IH (fun e He => H e (or_intror He))) as [l [Hl Ml]].
  exists ((k, e_n e) :: l). cbn [HashIndexModel.keys_in map fst snd]. rewrite Hk, (read_zkey sc k Sm), Hl, Ml. split; reflexivity.
Qed.
Lemma NoDup_of_map {A C} (g : A -> C) l : NoDup (map g l) -> NoDup l.
Proof.
  induction l as [|x l IH]; intros H; [constructor|]. cbn [map] in H. inversion H as [|y z H1 H2]; subst y z.
  constructor; [intros X; apply H1; apply in_map; exact X|apply IH; exact H2].
Qed.
Lemma keys_in_ok sc b m f oc es : estate sc b m f oc es -> small sc -> exists l, keys_in sc es = Some l /\
  length l = length es /\ NoDup (map fst l) /\
  (forall k c, In (k, c) l -> bucket sc k = b /\ exists vs, m k = Some vs /\ c = N.of_nat (length vs)) /\
  (forall k vs, m k = Some vs -> coded sc k -> bucket sc k = b -> In (k, N.of_nat (length vs)) l).
Proof.
  intros [A [B C]] Sm. destruct (keys_in_map sc Sm es) as [l [Hl Ml]].
  { intros e He. destruct (B e He) as [k [vs [B1 _]]]. exists k. exact B1. }
  assert (Q : forall k c, In (k, c) l -> exists e, In e es /\ e_key e = zkey sc k /\ e_n e = c).
  { intros k c Hk. apply (in_map (fun p => (zkey sc (fst p), snd p))) in Hk. rewrite Ml in Hk. apply in_map_iff in Hk.
    destruct Hk as [e [He1 He2]]. cbn [fst snd] in He1. injection He1 as He1 He3. exists e. repeat split; assumption. }
  exists l. split; [exact Hl|]. split.
  { rewrite <- (map_length (fun p => (zkey sc (fst p), snd p)) l), Ml. apply map_length. }
  assert (Kz : map (zkey sc) (map fst l) = map e_key es).
  { rewrite map_map. transitivity (map fst (map (fun p => (zkey sc (fst p), snd p)) l)).
    - rewrite map_map. reflexivity.
    - rewrite Ml, map_map. reflexivity. }
  split; [apply (NoDup_of_map (zkey sc)); rewrite Kz; exact A|]. split.
  - intros k c Hk. destruct (Q k c Hk) as [e [E1 [E2 E3]]]. destruct (B e E1) as [k' [vs [B1 [B2 [B3 [B4 [B5 _]]]]]]].
    rewrite E2 in B1. apply zkey_inj in B1; [|exact Sm]. subst k'. split; [exact B3|]. exists vs. split; [exact B4|congruence].
  - intros k vs Hk Hc Hb. destruct (C k vs Hk Hc Hb) as [e [E1 E2]].
    assert (I1 : In (zkey sc k, e_n e) (map (fun p => (zkey sc (fst p), snd p)) l)).
    { rewrite Ml. apply in_map_iff. exists e. rewrite E2. split; [reflexivity|exact E1]. }
    apply in_map_iff in I1. destruct I1 as [[k' c] [I1 I2]]. cbn [fst snd] in I1. injection I1 as I1 I3.
    apply zkey_inj in I1; [|exact Sm]. subst k' c.
    destruct (B e E1) as [k' [vs' [B1 [B2 [B3 [B4 [B5 _]]]]]]]. rewrite E2 in B1. apply zkey_inj in B1; [|exact Sm]. subst k'.
    rewrite Hk in B4. injection B4 as <-. rewrite B5 in I2. exact I2.
Qed.

Definition info (ix : index) (ref : cref) : list (L * N) :=
  match read_bucket (ix_oids ix) (ix_file ix) ref with
  | Some es => match keys_in (ix_slots ix) es with Some l => l | None => [] end
  | None => []
  end.
Lemma infos_flat ix refs : (forall r, In r refs -> exists es l, read_bucket (ix_oids ix) (ix_file ix) r = Some es /\ keys_in (ix_slots ix) es = Some l) ->
  infos_of ix refs = Some (flat_map (info ix) refs).
Proof.
  induction refs as [|r refs IH]; intros H; [reflexivity|]. cbn [HashIndexModel.infos_of flat_map].
  destruct (H r (or_introl eq_refl)) as [es [l [H1 H2]]]. unfold info at 1. rewrite H1, H2.
  rewrite IH by (intros x Hx; apply H; right; exact Hx). reflexivity.
Qed.
Lemma flat_perm {A C} (g : A -> list C) l l' : Permutation l l' -> Permutation (flat_map g l) (flat_map g l').
Proof.
  induction 1; cbn [flat_map].
  - constructor.
  - apply Permutation_app_head. assumption.
  - rewrite !app_assoc. apply Permutation_app_tail. apply Permutation_app_comm.
  - etransitivity; eassumption.
Qed.

Lemma used_ok ix m B : inv ix m B -> forall bs, (forall b, In b bs -> N.of_nat b < n) ->
  exists refs, used_refs (ix_file ix) bs = Some refs /\
    (forall r, In r refs -> exists b es l, b < n /\ es = B b /\ read_bucket (ix_oids ix) (ix_file ix) r = Some es /\ keys_in (ix_slots ix) es = Some l) /\
    exists F : N -> list (L * N), flat_map (info ix) refs = flat_map (fun b => F (N.of_nat b)) bs /\
      (forall b, b < n -> keys_in (ix_slots ix) (B b) = Some (F b)).
Proof.
  intros V. set (F := fun b => match keys_in (ix_slots ix) (B b) with Some l => l | None => [] end).
  assert (HF : forall b, b < n -> keys_in (ix_slots ix) (B b) = Some (F b)).
  { intros b Hb. destruct (i_buckets _ _ _ V b Hb) as [ref [_ [_ A3]]].
    destruct (keys_in_ok _ _ _ _ _ _ A3 (i_slots _ _ _ V)) as [l [Hl _]]. unfold F. rewrite Hl. reflexivity. }
  induction bs as [|b bs IH]; intros Hb.
  - exists []. split; [reflexivity|]. split; [intros r []|]. exists F. split; [reflexivity|exact HF].
  - destruct (IH (fun x Hx => Hb x (or_intror Hx))) as [refs [U1 [U2 [F' [U3 U4]]]]]. cbn [HashIndexModel.used_refs].
    pose proof (Hb b (or_introl eq_refl)) as Hbn.
    destruct (i_buckets _ _ _ V _ Hbn) as [ref [A1 [A2 A3]]]. rewrite A1, U1.
    pose proof (U4 _ Hbn) as Fb. pose proof (bstored_read _ _ _ _ A2) as Rd. destruct A2 as [[Z Eb]|[Z _]].
    + rewrite Z. cbn [N.eqb]. exists refs. split; [reflexivity|]. split; [exact U2|]. exists F'. split; [|exact U4].
      cbn [flat_map]. rewrite Eb in Fb. injection Fb as <-. exact U3.
    + destruct (N.eqb_spec (snd ref) 0); [contradiction|]. exists (ref :: refs). split; [reflexivity|]. split.
      * intros r [<-|Hr]; [|apply U2; exact Hr]. exists (N.of_nat b), (B (N.of_nat b)), (F' (N.of_nat b)). repeat split; assumption.
      * exists F'. split; [|exact U4]. cbn [flat_map]. rewrite U3. f_equal. unfold info. rewrite Rd, Fb. reflexivity.
Qed.

Lemma flat_NoDup {A C} (g : nat -> list (A * C)) (h : A -> N) bs : NoDup bs ->
  (forall b, In b bs -> NoDup (map fst (g b)) /\ forall k c, In (k, c) (g b) -> h k = N.of_nat b) ->
  NoDup (map fst (flat_map g bs)).
Proof.
  induction bs as [|b bs IH]; intros Nd H; [constructor|]. cbn [flat_map]. rewrite map_app.
  inversion Nd as [|x y N1 N2]; subst x y. destruct (H b (or_introl eq_refl)) as [H1 H2].
  specialize (IH N2 (fun x Hx => H x (or_intror Hx))). revert H1 IH.
  assert (Dj : forall k, In k (map fst (g b)) -> In k (map fst (flat_map g bs)) -> False).
  { intros k K1 K2. apply in_map_iff in K1. destruct K1 as [[k1 c1] [E1 K1]]. apply in_map_iff in K2. destruct K2 as [[k2 c2] [E2 K2]].
    cbn [fst] in E1, E2. subst k1 k2. apply in_flat_map in K2. destruct K2 as [b' [B1 B2]].
    pose proof (H2 _ _ K1). pose proof (proj2 (H b' (or_intror B1)) _ _ B2). apply N1. assert (b' = b) by lia. subst b'. exact B1. }
  revert Dj. generalize (map fst (g b)) as l1, (map fst (flat_map g bs)) as l2. clear.
  induction l1 as [|x l1 IH]; intros l2 Dj N1 N2; [exact N2|]. inversion N1 as [|y z M1 M2]; subst y z. cbn [app]. constructor.
  - intros X. apply in_app_or in X. destruct X as [X|X]; [exact (M1 X)|exact (Dj x (or_introl eq_refl) X)].
  - apply IH; [intros k K1 K2; exact (Dj k (or_intror K1) K2)|exact M2|exact N2].
Qed.

Lemma infos_ok ix m B : inv ix m B -> counted ix B -> ix_nkeys ix < 2 ^ 32 -> exists l, fetchinfo ix = Some l /\
  NoDup (map fst l) /\ N.of_nat (length l) = ix_nkeys ix /\
  forall k c, In (k, c) l <-> exists vs, m k = Some vs /\ c = N.of_nat (length vs).
Proof.
  intros V [C1 C2] Hn. unfold HashIndexModel.fetchinfo. rewrite C2. rewrite N.mod_small by exact Hn.
  destruct (used_ok ix m B V (seq 0 (N.to_nat n))) as [refs [U1 [U2 [F [U3 U4]]]]].
  { intros b Hb. apply in_seq in Hb. lia. }
  rewrite U1.
  assert (P : Permutation (flat_map (info ix) (FileIndexModel.qsort (fun r => fst r) refs)) (flat_map (fun b => F (N.of_nat b)) (seq 0 (N.to_nat n)))).
  { rewrite <- U3. apply flat_perm. apply FileIndexProofs.qsort_perm. }
  assert (HF : forall b, b < n -> length (F b) = length (B b) /\ NoDup (map fst (F b)) /\
    (forall k c, In (k, c) (F b) -> bucket (ix_slots ix) k = b /\ exists vs, m k = Some vs /\ c = N.of_nat (length vs)) /\
    (forall k vs, m k = Some vs -> bucket (ix_slots ix) k = b -> In (k, N.of_nat (length vs)) (F b))).
  { intros b Hb. destruct (i_buckets _ _ _ V b Hb) as [ref [_ [_ A3]]].
    destruct (keys_in_ok _ _ _ _ _ _ A3 (i_slots _ _ _ V)) as [l [Hl [K1 [K2 [K3 K4]]]]].
    rewrite (U4 b Hb) in Hl. injection Hl as <-. split; [exact K1|]. split; [exact K2|]. split; [exact K3|].
    intros k vs Hk Hkb. apply K4; [exact Hk|eapply i_coded; eassumption|exact Hkb]. }
  assert (Len : N.of_nat (length (flat_map (fun b => F (N.of_nat b)) (seq 0 (N.to_nat n)))) = total B).
  { unfold total. assert (X : forall q, (forall b, In b q -> N.of_nat b < n) ->
      N.of_nat (length (flat_map (fun b => F (N.of_nat b)) q)) = fold_right (fun b a => N.of_nat (length (B (N.of_nat b))) + a) 0 q).
    { induction q as [|x q IH]; intros Hq; [reflexivity|]. cbn [flat_map fold_right]. rewrite app_length.
      rewrite <- IH by (intros y Hy; apply Hq; right; exact Hy). rewrite <- (proj1 (HF _ (Hq x (or_introl eq_refl)))). lia. }
    apply X. intros b Hb. apply in_seq in Hb. lia. }
  destruct (N.eqb_spec (ix_nkeys ix) 0) as [Z|Z].
  - exists []. split; [reflexivity|]. split; [constructor|]. split; [rewrite Z; reflexivity|].
    intros k c. split; [intros []|]. intros [vs [Hk ->]]. exfalso.
    pose proof (bucket_lt (ix_slots ix) k) as Hb.
    pose proof (proj2 (proj2 (proj2 (HF _ Hb))) k vs Hk eq_refl) as X.
    assert (Y : In (k, N.of_nat (length vs)) (flat_map (fun b => F (N.of_nat b)) (seq 0 (N.to_nat n)))).
    { apply in_flat_map. exists (N.to_nat (bucket (ix_slots ix) k)). split; [apply in_seq; lia|]. rewrite N2Nat.id. exact X. }
    destruct (flat_map (fun b => F (N.of_nat b)) (seq 0 (N.to_nat n))); [destruct Y|]. cbn [length] in Len. lia.
  - rewrite infos_flat.
    + eexists. split; [reflexivity|]. split; [|split].
      * eapply Permutation_NoDup; [apply Permutation_map; apply Permutation_sym; exact P|].
        apply (flat_NoDup (fun b => F (N.of_nat b)) (bucket (ix_slots ix))); [apply seq_NoDup|].
        intros b Hb. apply in_seq in Hb. destruct (HF (N.of_nat b) ltac:(lia)) as [_ [K2 [K3 _]]]. split; [exact K2|].
        intros k c Hk. apply (K3 k c Hk).
      * rewrite (Permutation_length P), Len, C1. reflexivity.
      * intros k c. split.
        -- intros Hk. apply (Permutation_in _ P) in Hk. apply in_flat_map in Hk. destruct Hk as [b [Hb Hk]]. apply in_seq in Hb.
           apply (proj1 (proj2 (proj2 (HF (N.of_nat b) ltac:(lia)))) k c Hk).
        -- intros [vs [Hk ->]]. apply (Permutation_in _ (Permutation_sym P)). apply in_flat_map.
           pose proof (bucket_lt (ix_slots ix) k) as Hb.
           exists (N.to_nat (bucket (ix_slots ix) k)). split; [apply in_seq; lia|]. rewrite N2Nat.id.
           apply (proj2 (proj2 (proj2 (HF _ Hb))) k vs Hk eq_refl).
    + intros r Hr. apply (Permutation_in _ (FileIndexProofs.qsort_perm _ refs)) in Hr.
      destruct (U2 r Hr) as [b [es [l [_ [-> [R1 R2]]]]]]. eexists. eexists. split; eassumption.
Qed.
End Proofs.
