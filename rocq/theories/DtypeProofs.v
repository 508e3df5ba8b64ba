(** * Lemmas about dtypes. *)

From Coq Require Import NArith ZArith List Bool Lia Permutation Sorted.
From Verif Require Import SortModel BytesModel BytesProofs ValueModel ValueProofs
  ChoicesModel ChoicesProofs ChoicesProofs2 DtypeModel.
From Verif Require BigintProofs BigintProofs4 BigintProps NumbersProofs.
Import ListNotations.
Local Open Scope N_scope.

(** ** Induction over values *)
Section Ind.
Variable P : dv -> Prop.
Hypothesis Hconst : forall n, P (DConst n).
Hypothesis Hchar : forall c, P (DChar c).
Hypothesis Hsym : forall s, P (DSym s).
Hypothesis Hfix : forall z, P (DFix z).
Hypothesis Hoid : forall h l, P (DOid h l).
Hypothesis Hbig : forall b, P (DBig b).
Hypothesis Hflo : forall w, P (DFlo w).
Hypothesis Hrat : forall a b, P a -> P b -> P (DRat a b).
Hypothesis Hcpx : forall a b, P a -> P b -> P (DCpx a b).
Hypothesis Hstr : forall s, P (DStr s).
Hypothesis Hpkt : forall k s, P (DPacket k s).
Hypothesis Hpair : forall a b, P a -> P b -> P (DPair a b).
Hypothesis Hvec : forall l, Forall P l -> P (DVec l).
Hypothesis Hchoice : forall l, Forall P l -> P (DChoice l).
Hypothesis Hqchoice : forall l, Forall P l -> P (DQChoice l).
Hypothesis Hcomp : forall t l, P t -> Forall P l -> P (DCompound t l).
Hypothesis Hslot : forall l, Forall P l -> P (DSlotmap l).
Hypothesis Hschema : forall l, Forall P l -> P (DSchemap l).
Hypothesis Hht : forall n l, Forall P l -> P (DHashtable n l).
Hypothesis Hhs : forall n l, Forall P l -> P (DHashset n l).
Hypothesis Hmyst : forall p k n bs l, Forall P l -> P (DMystery p k n bs l).
Hypothesis Hother : forall t a, P (DOther t a).
Fixpoint dv_ind2 (x : dv) : P x :=
  let all := fix all (l : list dv) : Forall P l :=
    match l with [] => Forall_nil P | a :: r => Forall_cons a (dv_ind2 a) (all r) end in
  match x with
  | DConst n => Hconst n
  | DChar c => Hchar c
  | DSym s => Hsym s
  | DFix z => Hfix z
  | DOid h l => Hoid h l
  | DBig b => Hbig b
  | DFlo w => Hflo w
  | DRat a b => Hrat a b (dv_ind2 a) (dv_ind2 b)
  | DCpx a b => Hcpx a b (dv_ind2 a) (dv_ind2 b)
  | DStr s => Hstr s
  | DPacket k s => Hpkt k s
  | DPair a b => Hpair a b (dv_ind2 a) (dv_ind2 b)
  | DVec l => Hvec l (all l)
  | DChoice l => Hchoice l (all l)
  | DQChoice l => Hqchoice l (all l)
  | DCompound t l => Hcomp t l (dv_ind2 t) (all l)
  | DSlotmap l => Hslot l (all l)
  | DSchemap l => Hschema l (all l)
  | DHashtable n l => Hht n l (all l)
  | DHashset n l => Hhs n l (all l)
  | DMystery p k n bs l => Hmyst p k n bs l (all l)
  | DOther t a => Hother t a
  end.
End Ind.

(** ** The number returned by the writer *)

(** A result that is an error or the number of bytes. *)
Definition honest (r : wres) : Prop := (snd r < 0)%Z \/ snd r = Z.of_nat (length (fst r)).

Lemma wseq_honest l : forall len h, Forall honest l -> len = Z.of_nat (length h) ->
  honest (wpre h (wseq l len)).
Proof.
  induction l as [|[b d] l IH]; intros len h F E.
  - right. unfold wpre. cbn [wseq fst snd]. rewrite app_nil_r. exact E.
  - inversion F as [|? ? Hb Fl]; subst. unfold honest in Hb. cbn [fst snd] in Hb.
    cbn [wseq]. destruct (Z.ltb_spec d 0); [left; cbn; lia|].
    destruct Hb as [Hb|Hb]; [lia|].
    specialize (IH (Z.of_nat (length h) + d)%Z (h ++ b) Fl).
    unfold wpre in *. destruct (wseq l (Z.of_nat (length h) + d)) as [bs r]. cbn [fst snd] in *.
    rewrite <- app_assoc in IH. apply IH. rewrite app_length. lia.
Qed.
Lemma wfields_honest l : forall len h, Forall honest l -> len = Z.of_nat (length h) ->
  honest (wpre h (wfields l len)).
Proof.
  induction l as [|[b d] l IH]; intros len h F E.
  - right. unfold wpre. cbn [wfields fst snd]. rewrite app_nil_r. exact E.
  - inversion F as [|? ? Hb Fl]; subst. unfold honest in Hb. cbn [fst snd] in Hb.
    cbn [wfields]. destruct (Z.ltb_spec d 0); [left; cbn; lia|].
    destruct Hb as [Hb|Hb]; [lia|].
    specialize (IH (Z.of_nat (length h) + d)%Z (h ++ b) Fl).
    unfold wpre in *. destruct (wfields l (Z.of_nat (length h) + d)) as [bs r]. cbn [fst snd] in *.
    rewrite <- app_assoc in IH. apply IH. rewrite app_length. lia.
Qed.

Lemma header_len a b s n : snd (package_header a b s n) = Z.of_nat (length (fst (package_header a b s n))).
Proof. destruct s; reflexivity. Qed.
Lemma choice_header_len c n : snd (choice_header c n) = Z.of_nat (length (fst (choice_header c n))).
Proof. unfold choice_header. destruct (_ && _); [reflexivity|apply header_len]. Qed.
Lemma llen_z {T} (l : list T) : Z.of_N (llen l) = Z.of_nat (length l).
Proof. unfold llen. lia. Qed.
Ltac lens := rewrite ?app_length, ?put_4bytes_len, ?put_8bytes_len, ?llen_z; cbn [length put_byte app].

Lemma opaque_honest s : honest (write_opaque s).
Proof. right. unfold write_opaque. cbn [fst snd]. lens. lia. Qed.
Lemma fallback_honest c x : honest (write_fallback c x).
Proof. unfold write_fallback. destruct (w_opaque c); [apply opaque_honest|left; cbn; lia]. Qed.
Lemma const_honest c n : honest (write_const c n).
Proof.
  unfold write_const.
  repeat match goal with |- context [if ?b then _ else _] => destruct b end;
    first [apply fallback_honest|right; reflexivity].
Qed.
Lemma named_honest c t g s : honest (write_named c t g s).
Proof. unfold write_named. destruct (_ && _); right; cbn [fst snd]; lens; lia. Qed.
Lemma char_honest n : n < 2 ^ 23 -> honest (write_char n).
Proof.
  intros H. unfold write_char.
  destruct (n <? 128); [right; reflexivity|]. destruct (n <? 256); [right; reflexivity|].
  destruct (n <? 65536); [right; reflexivity|].
  destruct (N.ltb_spec n 0x1000000); [right; reflexivity|]. change (2 ^ 23) with 8388608 in H. lia.
Qed.
Lemma fixnum_honest z : honest (write_fixnum z).
Proof. unfold write_fixnum. destruct (_ && _)%bool; right; reflexivity. Qed.
Lemma flat_put l : length (flat_map put_byte l) = length l.
Proof. induction l; cbn; auto. Qed.
Lemma bigint_honest b : honest (write_bigint b).
Proof.
  unfold write_bigint. destruct (B.fits_in_word b 32 true) as [[|]|]; [| |left; cbn; lia].
  - destruct (B.bigint_to_long b); [right; reflexivity|left; cbn; lia].
  - destruct (B.bigint_to_digit_stream b 256) as [t|]; [|left; cbn; lia].
    right. cbn [fst snd]. destruct (_ <? 256); lens; rewrite flat_put, map_length, rev_length; lia.
Qed.
Lemma secret_honest s : honest (write_secret s).
Proof. unfold write_secret. destruct (_ <? 256); right; cbn [fst snd]; lens; lia. Qed.

(** ** Which values can be written *)

Definition all_of (P : dv -> Prop) (l : list dv) : Prop := fold_right and True (map P l).
Lemma all_of_Forall P l : all_of P l <-> Forall P l.
Proof.
  unfold all_of. induction l as [|a l IH]; cbn [map fold_right].
  - split; auto.
  - rewrite IH. split; [intros []; constructor; auto|intros H; inversion H; auto].
Qed.

(** Every part has a writer: no constant other than VOID, #f, #t, the empty choice, the
    empty list and KNO_NEVERSEEN, no object without a writer, unless opaque values are
    allowed; bigints are well formed; the values of zero-pool OIDs were written. *)
Section Writable.
Variable c : wconf.
Definition opaque_on : Prop := w_opaque c <> None.
Fixpoint writable (x : dv) : Prop :=
  match x with
  | DConst n => n <= 4 \/ n = 20 \/ opaque_on
  | DOid hi lo => hi = 0 -> forall r, w_zero c lo = Some r -> (0 <= snd r)%Z
  | DBig b => BigintProps.normal_form b
  | DOther _ _ => opaque_on
  | DRat a b | DCpx a b | DPair a b => writable a /\ writable b
  | DVec l | DQChoice l | DSlotmap l | DSchemap l | DHashtable _ l
  | DHashset _ l | DMystery _ _ _ _ l => fold_right and True (map writable l)
  | DChoice l => fold_right and True (map writable l)
                 /\ match w_natsort c with Some o => Forall (fun i => (i < length l)%nat) (o l) | None => True end
  | DCompound t l => writable t /\ fold_right and True (map writable l)
  | _ => True
  end.
(** The parts of which dtype_compound does not check the result can be written;
    characters have 23 bits, the size of a mystery is that of its bytes, the values of
    zero-pool OIDs were written with a correct result. *)
Fixpoint checked (x : dv) : Prop :=
  match x with
  | DChar n => n < 2 ^ 23
  | DOid hi lo => hi = 0 -> forall r, w_zero c lo = Some r -> honest r
  | DRat a b | DCpx a b | DPair a b => checked a /\ checked b
  | DVec l | DChoice l | DQChoice l | DSlotmap l | DSchemap l | DHashtable _ l
  | DHashset _ l => fold_right and True (map checked l)
  | DMystery _ _ n bs l => n = llen bs /\ fold_right and True (map checked l)
  | DCompound t l => writable t /\ checked t /\ (forall f, l = [f] -> writable f)
                     /\ fold_right and True (map checked l)
  | _ => True
  end.

Lemma wseq_ok l : forall n, (0 <= n)%Z -> Forall (fun r => 0 <= snd r)%Z l -> (0 <= snd (wseq l n))%Z.
Proof.
  induction l as [|[b d] l IH]; intros n Hn F; cbn [wseq]; [exact Hn|].
  inversion F as [|? ? Hd Fl]; subst. cbn [snd] in Hd. destruct (Z.ltb_spec d 0); [lia|].
  specialize (IH (n + d)%Z ltac:(lia) Fl). destruct (wseq l (n + d)). exact IH.
Qed.
Lemma wfields_ok l : forall n, (0 <= n)%Z -> Forall (fun r => 0 <= snd r)%Z l -> (0 <= snd (wfields l n))%Z.
Proof.
  induction l as [|[b d] l IH]; intros n Hn F; cbn [wfields]; [exact Hn|].
  inversion F as [|? ? Hd Fl]; subst. cbn [snd] in Hd. destruct (Z.ltb_spec d 0); [lia|].
  specialize (IH (n + d)%Z ltac:(lia) Fl). destruct (wfields l (n + d)). exact IH.
Qed.
Lemma header_pos a b s n : (0 <= snd (package_header a b s n))%Z.
Proof. destruct s; cbn; lia. Qed.
Lemma choice_header_pos n : (0 <= snd (choice_header c n))%Z.
Proof. unfold choice_header. destruct (_ && _); [cbn; lia|apply header_pos]. Qed.
Lemma fallback_pos x : opaque_on -> (0 <= snd (write_fallback c x))%Z.
Proof. unfold opaque_on, write_fallback. destruct (w_opaque c); [intros _; unfold write_opaque; cbn [snd]; lia|congruence]. Qed.

Lemma map_ok l : Forall (fun x => writable x -> (0 <= snd (write_dtype c x))%Z) l ->
  fold_right and True (map writable l) -> Forall (fun r => 0 <= snd r)%Z (map (write_dtype c) l).
Proof.
  intros F W. apply (all_of_Forall writable) in W. induction l; inversion F; inversion W; constructor; auto.
Qed.
Lemma writable_spec x : writable x -> (0 <= snd (write_dtype c x))%Z.
Proof.
  induction x using dv_ind2; cbn [writable]; intros W; cbn [write_dtype].
  - unfold write_const.
    repeat match goal with |- context [if (?a =? ?b) then _ else _] => destruct (N.eqb_spec a b) end;
      try (cbn; lia).
    + destruct (w_v2 c); cbn; lia.
    + apply fallback_pos. destruct W as [W|[W|W]]; [lia|lia|exact W].
  - unfold write_char. repeat match goal with |- context [if ?b then _ else _] => destruct b end; cbn; lia.
  - unfold write_named. destruct (_ && _); cbn [snd]; lia.
  - unfold write_fixnum. destruct (_ && _); cbn; lia.
  - destruct (N.eqb_spec h 0) as [->|]; [|cbn; lia].
    destruct (w_zero c l) eqn:E; [|cbn; lia]. now apply W.
  - unfold write_bigint. apply BigintProps.normal_norm in W.
    rewrite BigintProofs4.fits_in_word_spec by (auto; lia).
    destruct (BigintProofs4.bigint_to_digit_stream_spec b 256 W) as (t & -> & _); [lia|].
    destruct (Z.ltb_spec (Z.abs (BigintProofs.bval b)) (2 ^ (32 - 1))) as [L|L].
    + rewrite BigintProofs4.bigint_to_long_spec by (auto; lia). cbn; lia.
    + cbn [snd]. destruct (_ <? 256); lia.
  - cbn; lia.
  - destruct W. apply wseq_ok; [lia|]. repeat constructor; auto.
  - destruct W. apply wseq_ok; [lia|]. repeat constructor; auto.
  - unfold write_named. destruct (_ && _); cbn [snd]; lia.
  - destruct k; [|cbn [snd]; lia]. unfold write_secret. destruct (_ <? 256); cbn [snd]; lia.
  - destruct W. apply wseq_ok; [lia|]. repeat constructor; auto.
  - apply wseq_ok; [lia|]. now apply map_ok.
  - destruct W as [W O]. apply wseq_ok; [apply choice_header_pos|].
    pose proof (map_ok l H W) as M. destruct (w_natsort c) as [o|]; [|exact M].
    apply Forall_forall. intros r Hr. apply in_map_iff in Hr. destruct Hr as (i & <- & Hi).
    rewrite Forall_forall in M, O. apply M. apply nth_In. rewrite map_length. now apply O.
  - apply wseq_ok; [apply header_pos|]. now apply map_ok.
  - destruct W as [Wt Wl]. specialize (IHx Wt). pose proof (map_ok l H Wl) as M.
    unfold write_compound.
    assert (Hf : (0 <= snd (wfields (map (write_dtype c) l) (1 + snd (write_dtype c x) + 5)))%Z)
      by (apply wfields_ok; [lia|exact M]).
    destruct (map (write_dtype c) l) as [|f [|g r]]; [exact Hf| |exact Hf].
    inversion M; subst. cbn [snd]. lia.
  - apply wseq_ok; [apply header_pos|]. now apply map_ok.
  - apply wseq_ok; [apply header_pos|]. now apply map_ok.
  - apply wseq_ok; [apply header_pos|]. now apply map_ok.
  - apply wseq_ok; [apply header_pos|]. now apply map_ok.
  - unfold write_mystery. destruct (negb _).
    + apply wseq_ok; [destruct (_ <? _); cbn; lia|]. now apply map_ok.
    + destruct (_ <? _); cbn [snd]; lia.
  - now apply fallback_pos.
Qed.

Lemma map_honest l : Forall (fun x => checked x -> honest (write_dtype c x)) l ->
  fold_right and True (map checked l) -> Forall honest (map (write_dtype c) l).
Proof.
  intros F W. apply (all_of_Forall checked) in W. induction l; inversion F; inversion W; constructor; auto.
Qed.
Lemma checked_spec x : checked x -> honest (write_dtype c x).
Proof.
  induction x using dv_ind2; cbn [checked]; intros W; cbn [write_dtype].
  - apply const_honest.
  - now apply char_honest.
  - apply named_honest.
  - apply fixnum_honest.
  - destruct (N.eqb_spec h 0) as [->|]; [|right; reflexivity].
    destruct (w_zero c l) eqn:E; [|right; reflexivity]. now apply W.
  - apply bigint_honest.
  - right; reflexivity.
  - destruct W. apply wseq_honest; [|reflexivity]. constructor; [auto|constructor; [auto|constructor]].
  - destruct W. apply wseq_honest; [|reflexivity]. constructor; [auto|constructor; [auto|constructor]].
  - apply named_honest.
  - destruct k; [apply secret_honest|]. right. cbn [fst snd]. lens. lia.
  - destruct W. apply wseq_honest; [|reflexivity]. constructor; [auto|constructor; [auto|constructor]].
  - apply wseq_honest; [|reflexivity]. now apply map_honest.
  - apply wseq_honest; [|apply choice_header_len].
    pose proof (map_honest l H W) as M. destruct (w_natsort c) as [o|]; [|exact M].
    apply Forall_forall. intros r Hr. apply in_map_iff in Hr. destruct Hr as (i & <- & Hi).
    rewrite Forall_forall in M. destruct (nth_in_or_default i (map (write_dtype c) l) ([], (-1)%Z)) as [?| -> ];
      [now apply M|left; cbn; lia].
  - apply wseq_honest; [|apply header_len]. now apply map_honest.
  - destruct W as (Wt & Ct & Cf & Cl). specialize (IHx Ct). apply writable_spec in Wt.
    pose proof (map_honest l H Cl) as M. unfold write_compound.
    destruct IHx as [IHx|IHx]; [lia|].
    assert (Hf : honest (wpre (put_byte 0x0b ++ fst (write_dtype c x) ++ put_byte 0x09
                   ++ put_4bytes (llen (map (write_dtype c) l)))
              (wfields (map (write_dtype c) l) (1 + snd (write_dtype c x) + 5)))).
    { apply wfields_honest; [exact M|]. lens. lia. }
    destruct l as [|f [|g r]]; [exact Hf| |exact Hf]. clear Hf.
    cbn [map]. specialize (Cf f eq_refl). apply writable_spec in Cf.
    inversion M as [|? ? Hf _]; subst. destruct Hf as [Hf|Hf]; [lia|].
    right. cbn [fst snd]. lens. lia.
  - apply wseq_honest; [|apply header_len]. now apply map_honest.
  - apply wseq_honest; [|apply header_len]. now apply map_honest.
  - apply wseq_honest; [|apply header_len]. now apply map_honest.
  - apply wseq_honest; [|apply header_len]. now apply map_honest.
  - destruct W as [-> W]. unfold write_mystery. destruct (negb _).
    + apply wseq_honest; [now apply map_honest|]. destruct (_ <? _); reflexivity.
    + right. destruct (_ <? _); cbn [fst snd]; lens; lia.
  - apply fallback_honest.
Qed.
End Writable.
