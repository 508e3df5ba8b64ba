(** Proofs about the functions of texttools.c and about greedy matching. *)
From Coq Require Import List Bool Arith NArith Relations Lia ZArith ZifyBool ZifyN ZifyNat.
From Verif Require Import TextMatchModel TextMatchSpec TextMatchProofs.
From Verif Require Import TextToolsModel TextToolsSpec.
Import ListNotations.

Section Tools.
Variable t : list N.
Variable lower : N -> N.
Variable env : N -> option pat.
Notation L := (length t).
Notation ends := (ends t lower).
Notation dm := (domatch t lower env).
Notation ts := (tsearch t lower env).
Notation found := (found t lower).
Notation span := (span t).

Lemma part_span : forall a b, part t a b = span a b.
Proof. reflexivity. Qed.

Lemma span_nil : forall a, span a a = [].
Proof. intro a. unfold TextToolsSpec.span. rewrite Nat.sub_diag. reflexivity. Qed.

Lemma span_app : forall a b c, a <= b -> b <= c -> span a b ++ span b c = span a c.
Proof.
  intros a b c H1 H2. unfold TextToolsSpec.span.
  replace (skipn b t) with (skipn (b - a) (skipn a t)).
  - replace (c - a) with ((b - a) + (c - b)) by lia.
    generalize (skipn a t). generalize (c - b). generalize (b - a). clear.
    intros n m l. revert l. induction n as [|n IH]; intro l; cbn; [reflexivity|].
    destruct l as [|x l]; cbn; [destruct m; reflexivity|]. rewrite IH. reflexivity.
  - replace b with (a + (b - a)) at 2 by lia. generalize (b - a). clear. intro n.
    revert a. induction t as [|x l IH]; intros [|a]; cbn; auto.
    destruct n; reflexivity.
Qed.

Lemma span_end : forall a, skipn a t = span a L.
Proof.
  intro a. unfold TextToolsSpec.span. symmetry. apply firstn_all2. rewrite skipn_length. lia.
Qed.

Section One.
Variable p : pat.
Variable f : nat.
Hypothesis HM : matches_ok t lower env f false p.
Hypothesis HS : searches_ok t lower env f false p.

(** One round: nothing found, only the empty match at the end, or a match. *)
Lemma round : forall i, i <= L ->
  (ts f p i L flags0 = SNone /\ (forall k j, i <= k < L -> ~ ends false p k j)) \/
  (ts f p i L flags0 = SAt L /\ (forall k j, i <= k < L -> ~ ends false p k j) /\
   exists x l, dm f p None L L flags0 = MOk (x :: l) /\ list_max (x :: l) = L /\
   In L (x :: l)) \/
  (exists s e x l, ts f p i L flags0 = SAt s /\ s < L /\
   first_match t lower false p i s /\
   dm f p None s L flags0 = MOk (x :: l) /\ list_max (x :: l) = e /\
   longest_at t lower p s e /\ i <= s <= e /\ e <= L /\
   forall j, In j (x :: l) <-> ends false p s j).
Proof.
  intros i Hi. pose proof (HS i Hi) as Hs. unfold sres_ok in Hs.
  change (Flags false false) with flags0 in *.
  destruct (ts f p i L flags0) as [s| | | |] eqn:Es; try contradiction.
  - destruct Hs as (Hr & _ & (j & Hj) & Hf).
    destruct (HM None s ltac:(lia)) as (l & El & Il).
    change (Flags false false) with flags0 in El.
    assert (Hl : l <> []).
    { intros ->. apply Il in Hj. destruct Hj. }
    pose proof (list_max_in l Hl) as Hin.
    assert (Hrg : s <= list_max l <= L).
    { apply (ends_range t lower env p false s); [lia | apply Il, Hin]. }
    destruct l as [|x l]; [congruence|].
    destruct (Nat.eq_dec s L) as [-> | Hn].
    + right. left. split; [reflexivity|]. split; [exact Hf|].
      exists x, l. split; [exact El|]. assert (E : list_max (x :: l) = L) by lia.
      split; [exact E|]. rewrite E in Hin. exact Hin.
    + right. right. exists s, (list_max (x :: l)), x, l.
      split; [reflexivity|]. split; [lia|].
      split; [split; [lia | split; [eauto | exact Hf]]|].
      split; [exact El|]. split; [reflexivity|].
      split; [|split; [lia | split; [lia | exact Il]]].
      split; [apply Il, Hin|]. intros k Hk. apply list_max_ge. apply Il, Hk.
  - left. split; [reflexivity | exact Hs].
Qed.

Lemma gather_ok : forall b i, i <= L -> L - i < b ->
  exists ps, gather_loop t lower env f b p L (ts f p i L flags0) = Some (nonempty ps) /\
    found p i ps.
Proof.
  induction b as [|b IH]; intros i Hi Hb; [lia|].
  destruct (round i Hi) as
    [(E & Hf) | [(E & Hf & x & l & El & Em & _) | (s & e & x & l & E & Hs & Hfm & El & Em & Hlg & Hr & He & _)]];
    rewrite E; cbn [gather_loop].
  - exists []. split; [reflexivity | constructor; exact Hf].
  - rewrite El, Em, Nat.ltb_irrefl, Nat.eqb_refl.
    exists []. split; [reflexivity | constructor; exact Hf].
  - rewrite El, Em. destruct (s <? e) eqn:C.
    + apply Nat.ltb_lt in C. destruct (IH e He ltac:(lia)) as (ps & Ep & Hp).
      rewrite Ep. exists ((s, e) :: ps). split.
      * unfold nonempty. cbn [filter fst snd]. replace (s <? e) with true by lia. reflexivity.
      * apply found_cons; auto. replace (s =? e) with false by lia. exact Hp.
    + apply Nat.ltb_ge in C. assert (e = s) by lia. subst e.
      rewrite H in *. replace (s =? L) with false by lia.
      rewrite fwd_lt by lia. destruct (IH (S s) ltac:(lia) ltac:(lia)) as (ps & Ep & Hp).
      rewrite Ep. exists ((s, s) :: ps). split.
      * unfold nonempty. cbn [filter fst snd]. rewrite Nat.ltb_irrefl. reflexivity.
      * apply found_cons; auto. rewrite Nat.eqb_refl. exact Hp.
Qed.

Lemma subst_ok : forall rep b i last, i <= L -> L - i < b ->
  exists ps, subst_loop t lower env f b p rep L last (ts f p i L flags0) =
    Some (replaced t rep last (nonempty ps)) /\ found p i ps.
Proof.
  intro rep. induction b as [|b IH]; intros i last Hi Hb; [lia|].
  destruct (round i Hi) as
    [(E & Hf) | [(E & Hf & x & l & El & Em & _) | (s & e & x & l & E & Hs & Hfm & El & Em & Hlg & Hr & He & _)]];
    rewrite E; cbn [subst_loop].
  - exists []. split; [cbn; rewrite span_end; reflexivity | constructor; exact Hf].
  - rewrite El, Em, Nat.ltb_irrefl, Nat.eqb_refl.
    exists []. split; [cbn; rewrite span_end; reflexivity | constructor; exact Hf].
  - rewrite El, Em. destruct (s <? e) eqn:C.
    + apply Nat.ltb_lt in C. destruct (IH e e He ltac:(lia)) as (ps & Ep & Hp).
      rewrite Ep. exists ((s, e) :: ps). split.
      * unfold nonempty. cbn [filter fst snd]. replace (s <? e) with true by lia. reflexivity.
      * apply found_cons; auto. replace (s =? e) with false by lia. exact Hp.
    + apply Nat.ltb_ge in C. assert (H : e = s) by lia. rewrite H in *.
      replace (s =? L) with false by lia.
      rewrite fwd_lt by lia. destruct (IH (S s) last ltac:(lia) ltac:(lia)) as (ps & Ep & Hp).
      rewrite Ep. exists ((s, s) :: ps). split.
      * unfold nonempty. cbn [filter fst snd]. rewrite Nat.ltb_irrefl. reflexivity.
      * apply found_cons; auto. rewrite Nat.eqb_refl. exact Hp.
Qed.

(** What the loop of text/slice makes of the matches. *)
Fixpoint slices (keep : Z) (start : nat) (l : list (nat * nat)) : list (list N) :=
  match l with
  | [] => if start <? L then [span start L] else []
  | (s, e) :: r =>
    slice_pieces t keep start s e ++ slices keep (if (keep <? 0)%Z then s else e) r
  end.

Lemma slice_ok : forall keep b i start, i <= L -> L - i < b ->
  exists ps, slice_loop t lower env f b p keep L start (ts f p i L flags0) =
    Some (slices keep start ps) /\ found p i ps.
Proof.
  intro keep. induction b as [|b IH]; intros i start Hi Hb; [lia|].
  destruct (round i Hi) as
    [(E & Hf) | [(E & Hf & x & l & El & Em & _) | (s & e & x & l & E & Hs & Hfm & El & Em & Hlg & Hr & He & _)]];
    rewrite E; cbn [slice_loop].
  - exists []. split; [reflexivity | constructor; exact Hf].
  - rewrite Nat.ltb_irrefl. exists []. split; [reflexivity | constructor; exact Hf].
  - replace (s <? L) with true by lia. rewrite El. cbv zeta. rewrite Em.
    destruct (s =? e) eqn:C.
    + apply Nat.eqb_eq in C. subst s. rewrite fwd_lt by lia.
      destruct (IH (S e) (if (keep <? 0)%Z then e else e) ltac:(lia) ltac:(lia)) as (ps & Ep & Hp).
      rewrite Ep. exists ((e, e) :: ps). split; [reflexivity|].
      apply found_cons; auto. rewrite Nat.eqb_refl. exact Hp.
    + destruct (IH e (if (keep <? 0)%Z then s else e) ltac:(lia) ltac:(lia)) as (ps & Ep & Hp).
      rewrite Ep. exists ((s, e) :: ps). split; [reflexivity|].
      apply found_cons; auto. rewrite C. exact Hp.
Qed.

Lemma ends_ok : forall b i, i <= L -> L - i + 1 < b ->
  exists r, ends_loop t lower env f b p L (ts f p i L flags0) = Some r /\
    (r = true -> exists k, i <= k <= L /\ ends false p k L) /\
    (r = false -> forall k, i <= k < L -> ~ ends false p k L).
Proof.
  induction b as [|b IH]; intros i Hi Hb; [lia|].
  destruct (round i Hi) as
    [(E & Hf) | [(E & Hf & x & l & El & Em & Hin) | (s & e & x & l & E & Hs & Hfm & El & Em & Hlg & Hr & He & Il)]];
    rewrite E; cbn [ends_loop].
  - exists false. split; [reflexivity|]. split; [discriminate|]. intros _ k Hk. apply Hf, Hk.
  - rewrite El. rewrite (proj2 (inb_in L (x :: l)) Hin). exists true. split; [reflexivity|].
    split; [|discriminate]. intros _. exists L. split; [lia|].
    destruct (HM None L (le_n _)) as (l' & El' & Il').
    change (Flags false false) with flags0 in El'. rewrite El in El'.
    injection El' as <-. apply Il', Hin.
  - rewrite El. destruct (inb L (x :: l)) eqn:C.
    + exists true. split; [reflexivity|]. split; [|discriminate]. intros _. exists s.
      split; [lia|]. apply Il, inb_in, C.
    + rewrite fwd_lt by lia. destruct (IH (S s) ltac:(lia) ltac:(lia)) as (r & Er & H1 & H2).
      exists r. split; [exact Er|]. split.
      * intro Ht. destruct (H1 Ht) as (k & Hk & Hk'). exists k. split; [lia | exact Hk'].
      * intros Hfa k Hk. destruct (Nat.lt_trichotomy k s) as [Hlt | [-> | Hgt]].
        -- destruct Hfm as (_ & _ & Hfm). apply Hfm. lia.
        -- intro He'. apply Il in He'. apply inb_nin in C. contradiction.
        -- apply H2; [exact Hfa | lia].
Qed.
End One.

(** Properties of the lists. *)
Lemma found_start : forall p i l, found p i l ->
  match l with [] => True | (s, e) :: _ => i <= s <= e /\ e <= L end.
Proof.
  intros p i l H. destruct H as [|i s e l Hf Hs Hl H]; [exact I|].
  destruct Hf as (Hr & _). destruct Hl as (He & _).
  apply (ends_range t lower env) in He; lia.
Qed.

Lemma slices_keep : forall keep p i l, keep <> 0%Z -> found p i l ->
  forall start, start <= i -> start <= L -> concat (slices keep start l) = span start L.
Proof.
  intros keep p i l Hk H. induction H as [i H | i s e l Hf Hs Hl H IH]; intros start Hst HL.
  - cbn [slices]. destruct (start <? L) eqn:C; cbn [concat].
    + apply app_nil_r.
    + assert (start = L) by lia. subst start. rewrite span_nil. reflexivity.
  - destruct Hf as (Hr & _). pose proof (proj1 Hl) as He. apply (ends_range t lower env) in He; [|lia].
    cbn [slices]. rewrite concat_app.
    assert (Hnext : (if (keep <? 0)%Z then s else e) <= (if s =? e then S s else e))
      by (destruct (keep <? 0)%Z, (s =? e) eqn:C; lia).
    rewrite IH by (try exact Hnext; destruct (keep <? 0)%Z; lia). clear IH.
    unfold slice_pieces. rewrite !part_span. replace (keep =? 0)%Z with false by lia.
    destruct ((0 <? e) && (start <? e)) eqn:C.
    + destruct (keep =? 2)%Z eqn:K2; [|destruct (0 <? keep)%Z eqn:K0].
      * replace (keep <? 0)%Z with false by lia. cbn [concat]. rewrite app_nil_r.
        rewrite span_app by lia. apply span_app; lia.
      * replace (keep <? 0)%Z with false by lia. cbn [concat]. rewrite app_nil_r.
        apply span_app; lia.
      * replace (keep <? 0)%Z with true by lia. cbn [concat]. rewrite app_nil_r.
        apply span_app; lia.
    + cbn [concat]. assert (start = e) by lia. assert (s = e) by lia. subst.
      destruct (keep <? 0)%Z; reflexivity.
Qed.

Lemma slices_between : forall l start, slices 0 start l = between t start l.
Proof.
  induction l as [|(s, e) l IH]; intro start; cbn [slices between]; [reflexivity|].
  change (0 <? 0)%Z with false. cbv iota. rewrite IH. f_equal.
  unfold slice_pieces. change (0 =? 0)%Z with true. cbv iota. rewrite part_span.
  destruct (start <? e) eqn:C; [replace (0 <? e) with true by lia; reflexivity|].
  rewrite andb_false_r. reflexivity.
Qed.

(** The list of matches is determined. *)
Lemma found_unique : forall p i l, found p i l -> forall l', found p i l' -> l = l'.
Proof.
  intros p i l H. induction H as [i H | i s e l Hf Hs Hl H IH]; intros l' H'.
  - inversion H' as [|i' s e l2 (Hr & (j & Hj) & _) Hs Hl H2]; [reflexivity|]. subst.
    exfalso. apply (H s j); [lia | exact Hj].
  - inversion H' as [i' Hn | i' s' e' l2 Hf' Hs' Hl' H2]; subst.
    + destruct Hf as (Hr & (j & Hj) & _). exfalso. apply (Hn s j); [lia | exact Hj].
    + assert (s' = s).
      { destruct Hf as (Hr & (j & Hj) & Hm), Hf' as (Hr' & (j' & Hj') & Hm').
        destruct (Nat.lt_trichotomy s s') as [C | [C | C]]; [|auto|].
        - exfalso. apply (Hm' s j); [lia | exact Hj].
        - exfalso. apply (Hm s' j'); [lia | exact Hj']. }
      subst s'. assert (e' = e).
      { destruct Hl as [A B], Hl' as [A' B']. apply B in A'. apply B' in A. lia. }
      subst e'. f_equal. apply IH, H2.
Qed.

(** ** Greedy matching *)

Notation loose := (loose t lower).

Lemma loose_any : forall ic l i j,
  (loose ic (PAlt l) i j <-> exists q, In q l /\ loose ic q i j).
Proof.
  intros ic l i j. cbn [TextToolsSpec.loose]. induction l as [|q l IH].
  - split; [intros [] | intros (q & [] & _)].
  - rewrite IH. split.
    + intros [H | (q' & H1 & H2)]; [exists q; cbn; auto | exists q'; cbn; auto].
    + intros (q' & [-> | H1] & H2); [left; auto | right; eauto].
Qed.

Lemma loose_vec : forall ic l i j,
  loose ic (PVec l) i j <-> seq_rel (loose ic) l i j.
Proof.
  intros ic l i j. cbn [TextToolsSpec.loose]. revert i.
  induction l as [|q l IH]; intro i; cbn [seq_rel]; [tauto|].
  split; intros (k & H1 & H2); exists k; split; auto; apply IH; exact H2.
Qed.

Lemma plain_all : forall ic l, plain ic (PAlt l) <-> (forall q, In q l -> plain ic q).
Proof.
  intros ic l. cbn [plain]. induction l as [|q l IH].
  - split; [intros _ q [] | auto].
  - rewrite IH. split.
    + intros [H1 H2] q' [-> | H]; auto.
    + intro H. split; [apply H; cbn; auto | intros q' H'; apply H; cbn; auto].
Qed.

Lemma munion_len : forall a b, length (munion a b) <= length a + length b.
Proof.
  intros a b. unfold munion. rewrite <- app_length. generalize (a ++ b). clear.
  induction l as [|x l IH]; cbn; [lia|]. destruct (in_dec Nat.eq_dec x l); cbn; lia.
Qed.

Lemma mall_sound : forall (f : nat -> mres) st l, mall f st = MOk l ->
  (forall j, In j l -> exists i l', In i st /\ f i = MOk l' /\ In j l') /\
  ((forall i l', In i st -> f i = MOk l' -> length l' <= 1) ->
   length st <= 1 -> length l <= 1).
Proof.
  intros f. induction st as [|i st IH]; intros l H; cbn [mall] in H.
  - injection H as <-. split; [intros j [] | cbn; lia].
  - destruct (f i) as [a| | |] eqn:Ei; try discriminate.
    destruct (mall f st) as [b| | |] eqn:Eb; try discriminate. injection H as <-.
    destruct (IH b eq_refl) as [H1 H2]. split.
    + intros j Hj. apply munion_in in Hj. destruct Hj as [Hj | Hj].
      * exists i, a. cbn; auto.
      * destruct (H1 j Hj) as (i' & l' & A & B & C). exists i', l'. cbn; auto.
    + intros Hl Hs. destruct st as [|i' st]; [|cbn in Hs; lia].
      cbn in Eb. injection Eb as <-. pose proof (munion_len a []) as Hm. cbn [length] in Hm.
      specialize (Hl i a (or_introl eq_refl) Ei). lia.
Qed.

Lemma malt_sound : forall (f : pat -> mres) l r, malt f l = MOk r ->
  forall j, In j r -> exists q l', In q l /\ f q = MOk l' /\ In j l'.
Proof.
  intros f. induction l as [|q l IH]; intros r H j Hj; cbn [malt] in H.
  - injection H as <-. destruct Hj.
  - destruct (f q) as [a| | |] eqn:Ei; try discriminate.
    destruct (malt f l) as [b| | |] eqn:Eb; try discriminate. injection H as <-.
    apply munion_in in Hj. destruct Hj as [Hj | Hj].
    + exists q, a. cbn; auto.
    + destruct (IH b eq_refl j Hj) as (q' & l' & A & B & C). exists q', l'. cbn; auto.
Qed.

Lemma mpref_sound : forall (f : pat -> mres) l r, mpref f l = MOk r -> r <> [] ->
  exists q, In q l /\ f q = MOk r.
Proof.
  intros f. induction l as [|q l IH]; intros r H Hn; cbn [mpref] in H.
  - congruence.
  - destruct (f q) as [a| | |] eqn:Ei; try discriminate. destruct a as [|x a].
    + destruct (IH r H Hn) as (q' & A & B). exists q'. cbn; auto.
    + injection H as <-. exists q. cbn; auto.
Qed.

Definition sound (g : bool) (R : nat -> nat -> Prop) (i : nat) (l : list nat) : Prop :=
  (forall j, In j l -> i <= j <= L /\ R i j) /\ (g = true -> length l <= 1).

Lemma mseq_sound : forall g (E : pat -> nat -> nat -> Prop) dm' l nx st r,
  (forall p nx i l', In p l -> i <= L -> dm' p nx i = MOk l' -> sound g (E p) i l') ->
  (forall i, In i st -> i <= L) ->
  mseq dm' l nx st = MOk r ->
  (forall j, In j r -> exists i, In i st /\ i <= j <= L /\ seq_rel E l i j) /\
  (g = true -> length st <= 1 -> length r <= 1).
Proof.
  intros g E dm'. induction l as [|p l IH]; intros nx st r H Hst Hr; cbn [mseq] in Hr.
  - injection Hr as <-. split; [|auto]. intros j Hj. exists j. cbn. split; [exact Hj|].
    split; [specialize (Hst j Hj); lia | reflexivity].
  - remember (match l with [] => nx | q :: _ => Some q end) as nx'.
    destruct (mall (dm' p nx') st) as [a| | |] eqn:Ea; try discriminate.
    destruct (mall_sound _ _ _ Ea) as [H1 H2].
    assert (Ha : forall j, In j a -> exists i, In i st /\ i <= j <= L /\ E p i j).
    { intros j Hj. destruct (H1 j Hj) as (i & l' & A & B & C). exists i. split; [exact A|].
      specialize (Hst i A).
      destruct (H p nx' i l' (or_introl eq_refl) Hst B) as [S1 _]. apply S1, C. }
    assert (Hl : g = true -> length st <= 1 -> length a <= 1).
    { intros Hg Hs. apply H2; [|exact Hs]. intros i l' A B.
      destruct (H p nx' i l' (or_introl eq_refl) (Hst i A) B) as [_ S2]. auto. }
    destruct a as [|x a].
    + injection Hr as <-. split; [intros j [] | cbn; lia].
    + destruct (IH nx (x :: a) r) as [H3 H4].
      * intros q n i l' Hq. apply H. cbn; auto.
      * intros i Hi. destruct (Ha i Hi) as (k & _ & Hk & _). lia.
      * exact Hr.
      * split; [|auto]. intros j Hj. destruct (H3 j Hj) as (k & A & B & C).
        destruct (Ha k A) as (i & D & F & G). exists i. split; [exact D|]. split; [lia|].
        cbn [seq_rel]. exists k. auto.
Qed.

Section Rep.
Variable g : bool.
Variable R : nat -> nat -> Prop.
Variable f : nat -> mres.
Hypothesis Hf : forall i l, i <= L -> f i = MOk l -> sound g R i l.
Variable off : nat.
Hypothesis Hoff : off <= L.
Variable z : bool.

Definition reached (x : nat) : Prop := off <= x <= L /\ clos_trans nat R off x.
Definition ended (x : nat) : Prop := (z = true /\ x = off) \/ reached x.

Lemma mrep_sound : forall b (first : bool) mp st r,
  (forall x, In x mp -> ended x) ->
  (forall x, In x st -> (x = off \/ reached x)) ->
  (first = true -> st = [off] /\ mp = (if z then [off] else [])) ->
  (g = true -> length mp <= 1 /\ length st <= 1 /\ (first = false -> mp = st)) ->
  mrep f g z b first mp st = MOk r ->
  (forall x, In x r -> ended x) /\
  (g = true -> length r <= 1 /\
     forall x, In x r -> exists l, f x = MOk l /\ forall k, In k l -> k = x).
Proof.
  induction b as [|b IH]; intros first mp st r Hmp Hst H1 Hlen Hr; cbn [mrep] in Hr;
    [discriminate|].
  destruct (mall f st) as [a| | |] eqn:Ea; try discriminate.
  destruct (mall_sound _ _ _ Ea) as [Hs Hl].
  remember (filter (fun n => negb (inb n st)) a) as next.
  assert (Hnext : forall x, In x next -> reached x).
  { intros x Hx. subst next. apply filter_In in Hx. destruct Hx as [Hx _].
    destruct (Hs x Hx) as (i & l' & A & B & C).
    assert (Hi : off <= i <= L).
    { destruct (Hst i A) as [-> | [H _]]; lia. }
    destruct (Hf i l' ltac:(lia) B) as [S1 _]. destruct (S1 x C) as [Hr1 Hr2].
    split; [lia|]. destruct (Hst i A) as [-> | [_ H]].
    - apply t_step, Hr2.
    - apply t_trans with i; [exact H | apply t_step, Hr2]. }
  assert (Hnl : g = true -> length next <= 1).
  { intro Hg. destruct (Hlen Hg) as (_ & Hsl & _).
    assert (Hal : length a <= 1).
    { apply Hl; [|exact Hsl]. intros i l' A B.
      assert (Hi : i <= L) by (destruct (Hst i A) as [-> | [H _]]; lia).
      destruct (Hf i l' Hi B) as [_ S2]. auto. }
    subst next. clear - Hal. destruct a as [|x [|y a]]; cbn in *; try lia.
    destruct (negb (inb x st)); cbn; lia. }
  destruct next as [|x next].
  - destruct g eqn:Eg.
    + injection Hr as <-. split; [exact Hmp|]. intros _. destruct (Hlen eq_refl) as (A & B & C).
      split; [exact A|]. intros x Hx.
      assert (Hst' : st = [x]).
      { destruct first.
        - destruct (H1 eq_refl) as [-> ->]. destruct z; [|destruct Hx].
          destruct Hx as [-> | []]. reflexivity.
        - rewrite <- (C eq_refl). destruct mp as [|y [|y' mp]]; cbn in A; try lia; [destruct Hx|].
          destruct Hx as [-> | []]. reflexivity. }
      subst st. cbn [mall] in Ea. destruct (f x) as [l| | |] eqn:Ex; try discriminate.
      injection Ea as <-. exists l. split; [reflexivity|]. intros k Hk.
      destruct (Nat.eq_dec k x) as [|Hne]; [auto|]. exfalso.
      assert (Hin : In k (filter (fun n => negb (inb n [x])) (munion l []))).
      { apply filter_In. split; [apply munion_in; auto|]. apply negb_true_iff, inb_nin.
        intros [Hx' | []]. congruence. }
      rewrite <- Heqnext in Hin. destruct Hin.
    + split; [|discriminate]. destruct first.
      * destruct z eqn:Ez.
        -- injection Hr as <-. intros x Hx. rewrite (proj1 (H1 eq_refl)) in Hx.
           destruct Hx as [<- | []]. left. auto.
        -- injection Hr as <-. intros x [].
      * injection Hr as <-. exact Hmp.
  - assert (HB : forall y, In y (x :: next) -> y = off \/ reached y) by (intros y Hy; right; auto).
    destruct g eqn:Eg.
    + refine (IH false _ _ _ _ HB _ _ Hr).
      * intros y Hy. right. auto.
      * discriminate.
      * intros _. split; [auto | split; [auto | reflexivity]].
    + refine (IH false _ _ _ _ HB _ _ Hr).
      * intros y Hy. apply munion_in in Hy. destruct Hy as [Hy | Hy]; [auto | right; auto].
      * discriminate.
      * discriminate.
Qed.

Lemma repeatedly_sound : forall b r,
  match_repeatedly f g z b off = MOk r ->
  (forall x, In x r -> ended x) /\
  (g = true -> length r <= 1 /\
     forall x, In x r -> exists l, f x = MOk l /\ forall k, In k l -> k = x).
Proof.
  intros b r H. unfold match_repeatedly in H. refine (mrep_sound b true _ _ _ _ _ _ _ H).
  - intros x Hx. destruct z eqn:Ez; [|destruct Hx]. destruct Hx as [<- | []]. left. auto.
  - intros x [<- | []]. auto.
  - intros _. auto.
  - intros _. split; [destruct z; cbn; lia|]. split; [cbn; lia | discriminate].
Qed.
End Rep.

Lemma get_longest_len : forall l, length (get_longest l) <= 1.
Proof. intros [|x [|y l]]; cbn; lia. Qed.

Lemma sound_incl : forall g R i l l', sound g R i l -> incl l' l ->
  (g = true -> length l' <= 1) -> sound g R i l'.
Proof. intros g R i l l' [H1 _] Hi Hl. split; auto. Qed.

Lemma sound_imp : forall g g' (R R' : nat -> nat -> Prop) i l,
  sound g R i l -> (forall j, R i j -> R' i j) ->
  (g' = true -> length l <= 1) -> sound g' R' i l.
Proof.
  intros g g' R R' i l [H1 _] H Hl. split; auto. intros j Hj. destruct (H1 j Hj). auto.
Qed.

Lemma after_sound : forall ic g R i l l', sound false R i l ->
  after_op (Flags ic g) (MOk l) = MOk l' -> sound g R i l'.
Proof.
  intros ic g R i l l' [H1 _] H. cbn [after_op f_greedy] in H. injection H as <-. split.
  - intros j Hj. destruct g; [apply get_longest_in in Hj; destruct Hj | ]; auto.
  - intros ->. apply get_longest_len.
Qed.

Lemma weak_sound : forall g R i l, sound g R i l -> sound false R i l.
Proof. intros g R i l [H _]. split; [exact H | discriminate]. Qed.

(** Patterns without parts: what they match does not depend on the fuel. *)
Lemma leaf : forall p ic f,
  claim t lower env ic p ->
  (forall f' nx off, dm (S f) p nx off L (Flags ic false) = dm (S f') p nx off L (Flags ic false)) ->
  forall nx off l, off <= L -> dm (S f) p nx off L (Flags ic false) = MOk l ->
  sound false (ends ic p) off l.
Proof.
  intros p ic f (f0 & H) Hi nx off l Ho E. destruct (H (S f0) ltac:(lia)) as [HM _].
  destruct (HM nx off Ho) as (l0 & E0 & I0). rewrite <- (Hi f0), E in E0.
  injection E0 as <-. split; [|discriminate]. intros j Hj. apply I0 in Hj. split; [|exact Hj].
  exact (ends_range t lower env p ic off j Ho Hj).
Qed.

Lemma leaf_op : forall p ic f g,
  claim t lower env ic p ->
  (forall f' nx off, dm (S f) p nx off L (Flags ic false) = dm (S f') p nx off L (Flags ic false)) ->
  (forall nx off, off <= L -> dm (S f) p nx off L (Flags ic true) =
     after_op (Flags ic true) (dm (S f) p nx off L (Flags ic false))) ->
  forall nx off l, off <= L -> dm (S f) p nx off L (Flags ic g) = MOk l ->
  sound g (ends ic p) off l.
Proof.
  intros p ic f g Hc Hi Hg nx off l Ho E. destruct g.
  - rewrite (Hg nx off Ho) in E.
    destruct (dm (S f) p nx off L (Flags ic false)) as [l0| | |] eqn:E0; try discriminate.
    refine (after_sound ic true _ _ l0 l _ E). exact (leaf p ic f Hc Hi nx off l0 Ho E0).
  - exact (leaf p ic f Hc Hi nx off l Ho E).
Qed.

Lemma lim_off' : forall off, off <= L -> (L <? off) = false.
Proof. intros off H. apply Nat.ltb_ge. exact H. Qed.

Lemma after_op_idem : forall l, MOk (get_longest l) = after_op (Flags false true) (MOk l).
Proof. reflexivity. Qed.

Theorem dm_sound : forall f p ic g nx off l,
  plain ic p -> off <= L -> dm f p nx off L (Flags ic g) = MOk l ->
  sound g (loose ic p) off l.
Proof.
  induction f as [|f IH]; intros p ic g nx off l Hp Ho E; [discriminate E|].
  assert (Hop : forall r, (forall l0, r = MOk l0 -> sound false (loose ic p) off l0) ->
    after_op (Flags ic g) r = MOk l -> sound g (loose ic p) off l).
  { intros r H Hr. destruct r as [l0| | |]; try discriminate.
    exact (after_sound ic g _ off l0 l (H l0 eq_refl) Hr). }
  destruct p; cbn [plain] in Hp; try contradiction.
  - (* PStr *)
    apply (leaf_op (PStr s) ic f g (claim_str t lower env ic s)) with nx; auto.
    intros nx' off' Ho'. rewrite dm_S. unfold match_step. rewrite (lim_off' _ Ho').
    destruct (off' =? L); [destruct s; reflexivity|]. unfold strmatcher. cbn [f_ic].
    destruct ic; [destruct (ic_match t lower s off' L)|destruct (prefix_at t s off')]; reflexivity.
  - (* PChr *)
    apply (leaf_op (PChr c) ic f g (claim_chr t lower env ic c)) with nx; auto.
    intros nx' off' Ho'. rewrite dm_S. unfold match_step. rewrite (lim_off' _ Ho').
    destruct (off' =? L); [reflexivity|]. destruct (c =? ch t off')%N; reflexivity.
  - (* PAlt *)
    rewrite dm_S in E. unfold match_step in E. rewrite (lim_off' _ Ho) in E.
    destruct (malt (fun q => dm f q nx off L (Flags ic g)) l0) as [a| | |] eqn:Ea; try discriminate.
    cbn [f_greedy] in E. injection E as <-.
    assert (Ha : forall j, In j a -> off <= j <= L /\ loose ic (PAlt l0) off j).
    { intros j Hj. destruct (malt_sound _ _ _ Ea j Hj) as (q & l' & A & B & C).
      destruct (IH q ic g nx off l' (proj1 (plain_all ic l0) Hp q A) Ho B) as [S1 _].
      destruct (S1 j C) as [R1 R2]. split; [exact R1|]. apply loose_any. eauto. }
    split.
    + intros j Hj. apply Ha. destruct g; [|exact Hj]. destruct a as [|x a]; [destruct Hj|].
      destruct Hj as [<- | []]. apply list_max_in. discriminate.
    + intros ->. destruct a; cbn; lia.
  - (* PVec *)
    rewrite dm_S in E. unfold match_step in E. rewrite (lim_off' _ Ho) in E.
    destruct (mseq_sound g (loose ic) (fun e n i => dm f e n i L (Flags ic g)) l0 nx [off] l)
      as [H1 H2].
    + intros q n i l' Hq Hi. apply IH; [|exact Hi]. apply (proj1 (plain_all ic l0) Hp q Hq).
    + intros i [<- | []]. exact Ho.
    + exact E.
    + split; [|intro Hg; apply H2; [exact Hg | cbn; lia]].
      intros j Hj. destruct (H1 j Hj) as (i & [<- | []] & A & B). split; [exact A|].
      apply loose_vec, B.
  - (* PStar *)
    rewrite dm_S in E. unfold match_step in E. rewrite (lim_off' _ Ho) in E.
    cbn [match_op f_greedy] in E. revert E. apply Hop. intros l0 E.
    destruct (repeatedly_sound g (loose ic p) (fun i => dm f p nx i L (Flags ic g))
      (fun i l1 Hi => IH p ic g nx i l1 Hp Hi) off Ho true f l0 E) as [H1 _].
    split; [|discriminate]. intros j Hj. destruct (H1 j Hj) as [[_ ->] | [R1 R2]].
    + split; [lia | apply rt_refl].
    + split; [exact R1 | apply trans_rt, R2].
  - (* PPlus *)
    rewrite dm_S in E. unfold match_step in E. rewrite (lim_off' _ Ho) in E.
    cbn [match_op f_greedy] in E. revert E. apply Hop. intros l0 E.
    destruct (repeatedly_sound g (loose ic p) (fun i => dm f p nx i L (Flags ic g))
      (fun i l1 Hi => IH p ic g nx i l1 Hp Hi) off Ho false f l0 E) as [H1 _].
    split; [|discriminate]. intros j Hj. destruct (H1 j Hj) as [[C _] | [R1 R2]]; [discriminate|].
    split; [exact R1 | exact R2].
  - (* POpt *)
    rewrite dm_S in E. unfold match_step in E. rewrite (lim_off' _ Ho) in E.
    cbn [match_op] in E. revert E. apply Hop. intros l0 E.
    destruct (dm f p nx off L (Flags ic g)) as [a| | |] eqn:Ea; try discriminate.
    destruct a as [|x a].
    + injection E as <-. split; [|discriminate]. intros j [<- | []]. split; [lia|].
      cbn. auto.
    + injection E as <-. apply (sound_imp g false (loose ic p)); [|cbn; auto|discriminate].
      exact (IH p ic g nx off _ Hp Ho Ea).
  - (* PChoiceOp *)
    rewrite dm_S in E. unfold match_step in E. rewrite (lim_off' _ Ho) in E.
    revert E. apply Hop. intros r E. destruct l0 as [|q [|q' l0]].
    + cbn in E. injection E as <-. split; [intros j [] | discriminate].
    + cbn [match_op] in E. apply (sound_imp g false (loose ic q)); [|cbn; auto|discriminate].
      destruct Hp as [Hq _]. exact (IH q ic g nx off r Hq Ho E).
    + cbn [match_op] in E. apply (sound_imp g false (loose ic (PAlt (q :: q' :: l0))));
        [|cbn; auto|discriminate].
      exact (IH (PAlt (q :: q' :: l0)) ic g None off r Hp Ho E).
  - (* PPref *)
    rewrite dm_S in E. unfold match_step in E. rewrite (lim_off' _ Ho) in E.
    cbn [match_op] in E. revert E. apply Hop. intros r E.
    destruct r as [|x r]; [split; [intros j [] | discriminate]|].
    destruct (mpref_sound _ _ _ E ltac:(discriminate)) as (q & A & B).
    apply (sound_imp g false (loose ic q)); [| |discriminate].
    + exact (IH q ic g nx off _ (proj1 (plain_all ic l0) Hp q A) Ho B).
    + intros j Hj. change (loose ic (PAlt l0) off j). apply loose_any. eauto.
  - (* PLabel *)
    rewrite dm_S in E. unfold match_step in E. rewrite (lim_off' _ Ho) in E.
    cbn [match_op] in E. revert E. apply Hop. intros r E.
    apply (weak_sound g). exact (IH p ic g nx off r Hp Ho E).
  - (* PGreedy *)
    rewrite dm_S in E. unfold match_step in E. rewrite (lim_off' _ Ho) in E.
    cbn [match_op f_ic] in E. revert E. apply Hop. intros r E.
    apply (weak_sound true). exact (IH p ic true None off r Hp Ho E).
  - (* PExpansive *)
    rewrite dm_S in E. unfold match_step in E. rewrite (lim_off' _ Ho) in E.
    cbn [match_op f_ic] in E. revert E. apply Hop. intros r E.
    exact (IH p ic false None off r Hp Ho E).
  - (* PLongest *)
    rewrite dm_S in E. unfold match_step in E. rewrite (lim_off' _ Ho) in E.
    cbn [match_op] in E. revert E. apply Hop. intros r E.
    destruct (dm f p None off L (Flags ic g)) as [a| | |] eqn:Ea; try discriminate.
    injection E as <-. apply (sound_incl false _ _ a).
    + apply (weak_sound g). exact (IH p ic g None off a Hp Ho Ea).
    + intros j Hj. apply get_longest_in in Hj. tauto.
    + discriminate.
  - (* PIgnoreCase *)
    rewrite dm_S in E. unfold match_step in E. rewrite (lim_off' _ Ho) in E.
    cbn [match_op f_greedy] in E. revert E. apply Hop. intros r E.
    apply (weak_sound g). exact (IH p true g None off r Hp Ho E).
  - (* PMatchCase *)
    rewrite dm_S in E. unfold match_step in E. rewrite (lim_off' _ Ho) in E.
    cbn [match_op f_greedy] in E. revert E. apply Hop. intros r E.
    apply (weak_sound g). exact (IH p false g None off r Hp Ho E).
  - apply (leaf_op PBol ic f g (claim_bol t lower env ic)) with nx; auto.
    intros nx' off' Ho'. rewrite dm_S. unfold match_step. rewrite (lim_off' _ Ho'). rewrite after_op_ng. reflexivity.
  - apply (leaf_op PEol ic f g (claim_eol t lower env ic)) with nx; auto.
    intros nx' off' Ho'. rewrite dm_S. unfold match_step. rewrite (lim_off' _ Ho'). rewrite after_op_ng. reflexivity.
  - apply (leaf_op PBos ic f g (claim_bos t lower env ic)) with nx; auto.
    intros nx' off' Ho'. rewrite dm_S. unfold match_step. rewrite (lim_off' _ Ho'). rewrite after_op_ng. reflexivity.
  - apply (leaf_op PEos ic f g (claim_eos t lower env ic)) with nx; auto.
    intros nx' off' Ho'. rewrite dm_S. unfold match_step. rewrite (lim_off' _ Ho'). rewrite after_op_ng. reflexivity.
  - apply (leaf_op PRest ic f g (claim_rest t lower env ic)) with nx; auto.
    intros nx' off' Ho'. rewrite dm_S. unfold match_step. rewrite (lim_off' _ Ho'). rewrite after_op_ng. reflexivity.
  - destruct Hp as [-> Ha].
    apply (leaf_op (PRange a b) false f g (claim_range t lower env a b Ha)) with nx; auto.
    intros nx' off' Ho'. rewrite dm_S. unfold match_step. rewrite (lim_off' _ Ho'). rewrite after_op_ng. reflexivity.
  - apply (leaf_op (PChars neg star s) ic f g (claim_chars t lower env ic neg star s)) with nx; auto.
    intros nx' off' Ho'. rewrite dm_S. unfold match_step. rewrite (lim_off' _ Ho'). rewrite after_op_ng. reflexivity.
  - apply (leaf_op (PClass f0) ic f g (claim_class t lower env ic f0 Hp)) with nx; auto.
    intros nx' off' Ho'. rewrite dm_S. unfold match_step. rewrite (lim_off' _ Ho'). rewrite after_op_ng. reflexivity.
  - apply (leaf_op (PClassPlus f0) ic f g (claim_classp t lower env ic f0 Hp)) with nx; auto.
    intros nx' off' Ho'. rewrite dm_S. unfold match_step. rewrite (lim_off' _ Ho'). rewrite after_op_ng.
    cbn [match_op f_greedy after_op]. destruct (run_ends t f0 (len t - off') off') as [|x [|y r]]; try reflexivity.
    cbn [get_longest list_max fold_right]. rewrite Nat.max_0_r. reflexivity.
Qed.

(** A greedy repetition ends where no further one is possible. *)
Lemma greedy_star_stuck : forall (plus : bool) f q ic nx off l,
  plain ic q -> off <= L ->
  dm (S f) (if plus then PPlus q else PStar q) nx off L (Flags ic true) = MOk l ->
  forall j, In j l -> exists l', dm f q nx j L (Flags ic true) = MOk l' /\
    forall k, In k l' -> k = j.
Proof.
  intros plus f q ic nx off l Hp Ho E j Hj.
  assert (E' : after_op (Flags ic true)
    (match_repeatedly (fun i => dm f q nx i L (Flags ic true)) true (negb plus) f off) = MOk l).
  { destruct plus; rewrite dm_S in E; unfold match_step in E; rewrite (lim_off' _ Ho) in E; exact E. }
  destruct (match_repeatedly (fun i => dm f q nx i L (Flags ic true)) true (negb plus) f off)
    as [l0| | |] eqn:E0; try discriminate.
  cbn [after_op f_greedy] in E'. injection E' as <-. apply get_longest_in in Hj. destruct Hj as [Hj _].
  destruct (repeatedly_sound true (loose ic q) (fun i => dm f q nx i L (Flags ic true))
    (fun i l1 Hi => dm_sound f q ic true nx i l1 Hp Hi) off Ho (negb plus) f l0 E0) as [_ H2].
  destruct (H2 eq_refl) as [_ H3]. apply H3, Hj.
Qed.
End Tools.
