(** * InitP: proofs about allocation and release. *)
From Verif Require Import Base BaseP InitM InitSpec.
From Coq Require Import Permutation.

Definition is (h : heap) (L : list Z) : Prop :=
  live_is h L /\ NoDup L /\ (forall p, In p L -> 0 < p < hnext h) /\ 0 < hnext h.

Lemma is_perm h L L' : is h L -> Permutation L L' -> is h L'.
Proof.
  intros (A & B & C & D) P. split; [|split; [|split]].
  - intros p. rewrite (A p). split; intros H; [apply (Permutation_in _ P H)|apply (Permutation_in _ (Permutation_sym P) H)].
  - apply (Permutation_NoDup P B).
  - intros p H. apply C. apply (Permutation_in _ (Permutation_sym P) H).
  - exact D.
Qed.

Lemma free_mid h A p B : is h (A ++ p :: B) -> wp (free h p) (fun h' => is h' (A ++ B) /\ hnext h' = hnext h).
Proof.
  intros (X & Y & Z0 & W). unfold free.
  assert (Hp : In p (A ++ p :: B)) by (apply in_or_app; right; left; reflexivity).
  pose proof (Z0 p Hp) as Hr. replace (p =? NIL) with false by (symmetry; apply Z.eqb_neq; unfold NIL; lia).
  rewrite (proj2 (X p) Hp). cbn [wp]. split; [|reflexivity].
  pose proof (NoDup_remove A B p Y) as (N1 & N2).
  split; [|split; [exact N1|split; [|exact W]]].
  - intros q. cbn [live]. unfold upd. destruct (q =? p) eqn:E.
    + apply Z.eqb_eq in E. subst q. split; [discriminate|]. intros K; contradiction.
    + apply Z.eqb_neq in E. rewrite (X q). rewrite !in_app_iff. cbn [In]. intuition congruence.
  - intros q Hq. cbn [hnext]. apply Z0. apply in_app_iff in Hq. apply in_or_app. cbn [In]. tauto.
Qed.

Lemma free_cons h p B : is h (p :: B) -> wp (free h p) (fun h' => is h' B /\ hnext h' = hnext h).
Proof. exact (free_mid h [] p B). Qed.

Lemma alloc_is orc h L : is h L ->
  let '(h', p) := alloc orc h in
  (p = NIL /\ is h' L /\ live h' = live h) \/ (p <> NIL /\ is h' (p :: L)).
Proof.
  intros (X & Y & Z0 & W). unfold alloc. destruct (orc (hnext h)).
  - right. split; [unfold NIL; lia|]. split; [|split; [|split]]; cbn [hnext].
    + intros q. cbn [live In]. unfold upd. destruct (q =? hnext h) eqn:E.
      * apply Z.eqb_eq in E. split; [left; congruence|reflexivity].
      * apply Z.eqb_neq in E. rewrite (X q). intuition congruence.
    + constructor; [|exact Y]. intros K. apply Z0 in K. lia.
    + intros q [<-|K]; [lia|]. apply Z0 in K. lia.
    + lia.
  - left. split; [reflexivity|]. split; [|reflexivity]. split; [exact X|split; [exact Y|split]]; cbn [hnext].
    + intros q K. apply Z0 in K. lia.
    + lia.
Qed.

Lemma two_New_is orc h L : is h L ->
  wp (two_New orc h) (fun '(h', q) => (q = (NIL, NIL) /\ is h' L) \/ (fst q <> NIL /\ is h' (fst q :: snd q :: L))).
Proof.
  intros I. unfold two_New. pose proof (alloc_is orc h L I) as A. destruct (alloc orc h) as (h1, p).
  destruct A as [(-> & A & _)|(N & A)].
  - cbn. left; auto.
  - replace (p =? NIL) with false by (symmetry; apply Z.eqb_neq; exact N).
    pose proof (alloc_is orc h1 _ A) as B. destruct (alloc orc h1) as (h2, q). destruct B as [(-> & B & _)|(N2 & B)].
    + cbn [Z.eqb NIL]. change (0 =? 0) with true. cbn match. apply wp_bind. eapply wp_mono; [apply (free_cons h2 p L B)|].
      intros h3 (C & _). cbn. left; auto.
    + replace (q =? NIL) with false by (symmetry; apply Z.eqb_neq; exact N2). cbn. right. split; [exact N|].
      apply (is_perm _ _ _ B). apply perm_swap.
Qed.

Lemma two_Free_is h p L : is h (fst p :: snd p :: L) ->
  wp (two_Free h p) (fun '(h', q) => q = (NIL, NIL) /\ is h' L).
Proof.
  intros I. unfold two_Free. destruct I as (X & Y & Z0 & W).
  pose proof (Z0 (fst p) (or_introl eq_refl)). replace (fst p =? NIL) with false by (symmetry; apply Z.eqb_neq; unfold NIL; lia).
  rewrite (proj2 (X (fst p)) (or_introl eq_refl)). cbn [negb].
  apply wp_bind. eapply wp_mono; [apply (free_mid h [fst p] (snd p) L); exact (conj X (conj Y (conj Z0 W)))|].
  intros h1 (I1 & _). apply wp_bind. eapply wp_mono; [apply (free_cons h1 (fst p) L I1)|]. intros h2 (I2 & _).
  cbn. auto.
Qed.

Lemma free_nil h : free h NIL = Ret h.
Proof. reflexivity. Qed.

Definition has_blocks (m : mgraph) (lk : list Z) : list Z :=
  [pV m; pVI m] ++ (if pE m =? NIL then [] else [pE m]) ++
  [fst (pBRL m); snd (pBRL m); fst (pSDL m); snd (pSDL m);
   fst (pStk m); snd (pStk m); pExt m; fst (pHoles m); snd (pHoles m)] ++ pG m :: lk.

Lemma clear_is h m lk : is h (has_blocks m lk) ->
  wp (_ClearGraph h m) (fun '(h', m') => is h' (pG m :: lk) /\ pG m' = pG m).
Proof.
  intros I. unfold _ClearGraph, has_blocks in *. cbn [app] in I.
  apply wp_bind. eapply wp_mono; [apply (free_cons _ _ _ I)|]. clear I. intros h1 (I & _).
  apply wp_bind. eapply wp_mono; [apply (free_cons _ _ _ I)|]. clear I. intros h2 (I & _).
  apply wp_bind.
  match type of I with is _ (_ ++ ?R) => assert (K : wp (free h2 (pE m)) (fun h3 => is h3 R)) end.
  { destruct (pE m =? NIL) eqn:E.
    - apply Z.eqb_eq in E. rewrite E. rewrite free_nil. exact I.
    - cbn [app] in I. eapply wp_mono; [apply (free_cons _ _ _ I)|]. intros h3 (I3 & _). exact I3. }
  eapply wp_mono; [exact K|]. clear I K. intros h3 I. cbn beta in I.
  apply wp_bind. eapply wp_mono; [apply (two_Free_is _ _ _ I)|]. clear I. intros (h4, q4) (_ & I).
  apply wp_bind. eapply wp_mono; [apply (two_Free_is _ _ _ I)|]. clear I. intros (h5, q5) (_ & I).
  apply wp_bind. eapply wp_mono; [apply (two_Free_is _ _ _ I)|]. clear I. intros (h6, q6) (_ & I).
  apply wp_bind. eapply wp_mono; [apply (free_cons _ _ _ I)|]. clear I. intros h7 (I & _).
  apply wp_bind. eapply wp_mono; [apply (two_Free_is _ _ _ I)|]. clear I. intros (h8, q8) (_ & I).
  cbn. auto.
Qed.

Lemma gp_Free_is h m lk : is h (has_blocks m lk) -> wp (gp_Free h m) (fun h' => is h' lk).
Proof.
  intros I. unfold gp_Free. apply wp_bind. eapply wp_mono; [apply (clear_is _ _ _ I)|]. intros (h1, m1) (I1 & E).
  rewrite E. eapply wp_mono; [apply (free_cons _ _ _ I1)|]. intros h2 (I2 & _). exact I2.
Qed.

Ltac split_at x r k :=
  match r with
  | x :: ?t => k (@nil Z) t
  | ?y :: ?t => split_at x t ltac:(fun a b => k (y :: a) b)
  end.
Ltac perm1 :=
  match goal with
  | |- Permutation ?l ?l => apply Permutation_refl
  | |- Permutation (?x :: ?l) ?r =>
      split_at x r ltac:(fun a b => change r with (a ++ x :: b); apply Permutation_cons_app; cbn [app])
  end.
Ltac perm := cbn [app]; repeat perm1.

(** Ensure on an initialised graph. *)
Lemma ensure_is orc h m lk req : is h (has_blocks m lk) ->
  wp (_EnsureArcCapacity orc h m req) (fun '(h', m', r) =>
    mN m' = mN m /\
    ((r = C_OK /\ is h' (has_blocks m' lk) /\ (pE m <> NIL -> pE m' <> NIL)) \/
     (r = C_NOTOK /\ mCap m' = mCap m /\
      ((pE m' = pE m /\ is h' (has_blocks m' lk)) \/
       (pE m' = NIL /\ pE m <> NIL /\ is h' (has_blocks m' (pE m :: lk))))))).
Proof.
  intros I. unfold _EnsureArcCapacity. destruct (req <=? mCap m).
  { cbn. auto. }
  apply wp_bind.
  eapply wp_mono with (P := fun '(h1, m1, r1) => mN m1 = mN m /\ pE m1 = pE m /\ mCap m1 = mCap m /\
     is h1 (has_blocks m1 lk) /\ (r1 = C_OK \/ r1 = C_NOTOK)).
  { destruct (mStkCap m <? 2 * req); [|cbn; auto 10].
    apply wp_bind. eapply wp_mono; [apply (two_New_is orc h _ I)|]. intros (h1, q) [(-> & I1)|(N & I1)].
    - cbn [fst]. change (NIL =? NIL) with true. cbn. auto 10.
    - replace (fst q =? NIL) with false by (symmetry; apply Z.eqb_neq; exact N).
      apply wp_bind. unfold has_blocks in *. cbn [app] in I1.
      eapply wp_mono; [apply (two_Free_is h1 (pStk m) (fst q :: snd q :: pV m :: pVI m ::
         (if pE m =? NIL then [] else [pE m]) ++ fst (pBRL m) :: snd (pBRL m) :: fst (pSDL m) :: snd (pSDL m) ::
          [pExt m; fst (pHoles m); snd (pHoles m)] ++ pG m :: lk))|].
      + apply (is_perm _ _ _ I1). destruct (pE m =? NIL); perm.
      + intros (h2, q2) (_ & I2). cbn [wp set_pV set_pVI set_pE set_pBRL set_pSDL set_pStk set_pExt set_pHoles set_mN set_mCap set_mStkCap pG pV pVI pE pBRL pSDL pStk pExt pHoles mN mCap].
        split; [reflexivity|]. split; [reflexivity|]. split; [reflexivity|]. split; [|auto].
        apply (is_perm _ _ _ I2). destruct (pE m =? NIL); perm. }
  clear I. intros ((h1, m1), r1) (EN & EE & EC & I & [-> | ->]).
  2: { change (C_NOTOK =? C_NOTOK) with true. cbn [wp]. split; [exact EN|]. right. auto. }
  change (C_OK =? C_NOTOK) with false. cbn match.
  apply wp_bind. eapply wp_mono; [apply (two_New_is orc h1 _ I)|]. intros (h2, q) [(-> & I1)|(N & I1)].
  { cbn [fst]. change (NIL =? NIL) with true. cbn [wp]. split; [exact EN|]. right. auto. }
  replace (fst q =? NIL) with false by (symmetry; apply Z.eqb_neq; exact N).
  apply wp_bind.
  eapply wp_mono; [apply (two_Free_is h2 (pHoles m1) ((if pE m1 =? NIL then [] else [pE m1]) ++ fst q :: snd q :: pV m1 :: pVI m1 ::
          fst (pBRL m1) :: snd (pBRL m1) :: fst (pSDL m1) :: snd (pSDL m1) ::
          [fst (pStk m1); snd (pStk m1); pExt m1] ++ pG m1 :: lk))|].
  { apply (is_perm _ _ _ I1). unfold has_blocks. destruct (pE m1 =? NIL); perm. }
  clear I I1. intros (h3, q3) (_ & I).
  cbn [set_pV set_pVI set_pE set_pBRL set_pSDL set_pStk set_pExt set_pHoles set_mN set_mCap set_mStkCap pG pV pVI pE pBRL pSDL pStk pExt pHoles mN mCap mStkCap]. apply wp_bind.
  unfold realloc.
  assert (L1 : negb (pE m1 =? NIL) && negb (live h3 (pE m1)) = false).
  { destruct (pE m1 =? NIL); [reflexivity|]. cbn [negb andb app] in *. apply negb_false_iff. apply I. left. reflexivity. }
  rewrite L1. pose proof (alloc_is orc h3 _ I) as A. destruct (alloc orc h3) as (h4, e).
  destruct A as [(-> & A & _)|(Ne & A)].
  { change (NIL =? NIL) with true. cbn [wp set_pV set_pVI set_pE set_pBRL set_pSDL set_pStk set_pExt set_pHoles set_mN set_mCap set_mStkCap pG pV pVI pE pBRL pSDL pStk pExt pHoles mN mCap mStkCap].
    split; [exact EN|]. right. split; [reflexivity|]. split; [exact EC|].
    destruct (pE m1 =? NIL) eqn:E1.
    - left. apply Z.eqb_eq in E1. split; [cbn [set_pE pE]; congruence|]. unfold has_blocks.
      cbn [set_pV set_pVI set_pE set_pBRL set_pSDL set_pStk set_pExt set_pHoles set_mN set_mCap set_mStkCap pG pV pVI pE pBRL pSDL pStk pExt pHoles]. change (NIL =? NIL) with true. cbn match.
      apply (is_perm _ _ _ A). perm.
    - right. apply Z.eqb_neq in E1. split; [reflexivity|]. split; [congruence|]. unfold has_blocks.
      cbn [set_pV set_pVI set_pE set_pBRL set_pSDL set_pStk set_pExt set_pHoles set_mN set_mCap set_mStkCap pG pV pVI pE pBRL pSDL pStk pExt pHoles]. change (NIL =? NIL) with true. cbn match. rewrite <- EE.
      apply (is_perm _ _ _ A). perm. }
  replace (e =? NIL) with false by (symmetry; apply Z.eqb_neq; exact Ne).
  apply wp_bind.
  match type of A with is _ (e :: (if _ then _ else _) ++ ?R) =>
    assert (K : wp (free h4 (pE m1)) (fun h5 => is h5 (e :: R))) end.
  { destruct (pE m1 =? NIL) eqn:E1.
    - apply Z.eqb_eq in E1. rewrite E1, free_nil. exact A.
    - eapply wp_mono; [apply (free_mid h4 [e] (pE m1) _ A)|]. intros h5 (B & _). exact B. }
  eapply wp_mono; [exact K|]. intros h5 B. cbn beta in B. cbn [wp].
  replace (e =? NIL) with false by (symmetry; apply Z.eqb_neq; exact Ne).
  cbn [wp set_pV set_pVI set_pE set_pBRL set_pSDL set_pStk set_pExt set_pHoles set_mN set_mCap set_mStkCap pG pV pVI pE pBRL pSDL pStk pExt pHoles mN mCap mStkCap].
  split; [exact EN|]. left. split; [reflexivity|]. split; [|auto].
  unfold has_blocks. cbn [set_pV set_pVI set_pE set_pBRL set_pSDL set_pStk set_pExt set_pHoles set_mN set_mCap set_mStkCap pG pV pVI pE pBRL pSDL pStk pExt pHoles].
  replace (e =? NIL) with false by (symmetry; apply Z.eqb_neq; exact Ne).
  apply (is_perm _ _ _ B). perm.
Qed.

Ltac T0 P lk I := cbn [wp]; split; [exact P|]; exists lk; split; [exact I|]; left; reflexivity.

(** Any history after a successful initialisation. *)
Lemma mrun_is orc l : forall h m lk, is h (has_blocks m lk) -> 0 < mN m ->
  wp (mrun orc l h m) (fun '(h', m', rs) =>
    0 < mN m' /\ exists lk', is h' (has_blocks m' lk') /\
      ((forall i r, nth_error l i = Some (MEnsure r) -> nth_error rs i <> Some C_NOTOK \/ r <= 0 \/ Z.odd r = true) -> lk' = lk)).
Proof.
  induction l as [|o l IH]; intros h m lk I P.
  - cbn. split; [exact P|]. exists lk. auto.
  - cbn [mrun]. apply wp_bind.
    eapply wp_mono with (P := fun '(h1, m1, r1) => 0 < mN m1 /\ exists lk1, is h1 (has_blocks m1 lk1) /\
      (lk1 = lk \/ exists r, o = MEnsure r /\ r1 = C_NOTOK /\ 0 < r /\ Z.odd r = false)).
    { destruct o as [N|r]; cbn [mrun1].
      - unfold gp_InitGraph. destruct (N <=? 0); [T0 P lk I|].
        replace (mN m =? 0) with false by (symmetry; apply Z.eqb_neq; lia). T0 P lk I.
      - unfold gp_EnsureArcCapacity. destruct (r <=? 0) eqn:E0; [T0 P lk I|]. destruct (Z.odd r) eqn:E1; [T0 P lk I|].
        destruct (r <=? mCap m); [T0 P lk I|].
        replace (mN m =? 0) with false by (symmetry; apply Z.eqb_neq; lia).
        eapply wp_mono; [apply (ensure_is orc h m lk r I)|].
        intros ((h1, m1), r1) (EN & [(_ & I1 & _)|(Er & _ & [(_ & I1)|(_ & _ & I1)])]).
        + split; [lia|]. exists lk. split; [exact I1|]. left. reflexivity.
        + split; [lia|]. exists lk. split; [exact I1|]. left. reflexivity.
        + split; [lia|]. exists (pE m :: lk). split; [exact I1|]. right. exists r. apply Z.leb_gt in E0. auto. }
    intros ((h1, m1), r1) (P1 & lk1 & I1 & D). apply wp_bind. eapply wp_mono; [apply (IH h1 m1 lk1 I1 P1)|].
    intros ((h2, m2), rs) (P2 & lk2 & I2 & D2). cbn [wp]. split; [exact P2|]. exists lk2. split; [exact I2|].
    intros HA. rewrite D2.
    + destruct D as [D|(r & -> & -> & Dr & Do)]; [exact D|]. exfalso.
      destruct (HA O r eq_refl) as [K|[K|K]]; [apply K; reflexivity|lia|congruence].
    + intros i r Hi. exact (HA (Datatypes.S i) r Hi).
Qed.

(** ** Initialisation *)
Definition ob (p : Z) : list Z := if p =? NIL then [] else [p].
Definition ob2 (q : Z * Z) : list Z := if fst q =? NIL then [] else [fst q; snd q].
Definition opt_blocks (m : mgraph) (lk : list Z) : list Z :=
  ob (pV m) ++ ob (pVI m) ++ ob (pE m) ++ ob2 (pBRL m) ++ ob2 (pSDL m) ++ ob2 (pStk m) ++ ob (pExt m) ++
  ob2 (pHoles m) ++ pG m :: lk.

Lemma free_opt h p L : is h (ob p ++ L) -> wp (free h p) (fun h' => is h' L).
Proof.
  unfold ob. destruct (p =? NIL) eqn:E; intros I.
  - apply Z.eqb_eq in E. subst p. rewrite free_nil. exact I.
  - eapply wp_mono; [apply (free_cons _ _ _ I)|]. intros h' (A & _). exact A.
Qed.

Lemma two_Free_opt h q L : is h (ob2 q ++ L) -> wp (two_Free h q) (fun '(h', q') => fst q' = NIL /\ (q = (NIL, NIL) \/ fst q <> NIL -> q' = (NIL, NIL)) /\ is h' L).
Proof.
  unfold ob2. destruct (fst q =? NIL) eqn:E; intros I.
  - unfold two_Free. rewrite E. cbn. apply Z.eqb_eq in E. split; [exact E|]. split; [|exact I]. intros [K|K]; [exact K|contradiction].
  - eapply wp_mono; [apply (two_Free_is _ _ _ I)|]. intros (h', q') (-> & A). auto.
Qed.

Definition good2 (q : Z * Z) : Prop := q = (NIL, NIL) \/ fst q <> NIL.

Lemma clear_opt h m lk : is h (opt_blocks m lk) ->
  good2 (pBRL m) -> good2 (pSDL m) -> good2 (pStk m) -> good2 (pHoles m) ->
  wp (_ClearGraph h m) (fun '(h', m') => is h' (pG m :: lk) /\
    m' = mkMG (pG m) NIL (pVI m) NIL (NIL, NIL) (NIL, NIL) (NIL, NIL) NIL (NIL, NIL) 0 0 0).
Proof.
  intros I G1 G2 G3 G4. unfold _ClearGraph, opt_blocks in *.
  apply wp_bind. eapply wp_mono; [apply (free_opt _ _ _ I)|]. clear I. cbn beta. intros h1 I.
  apply wp_bind. eapply wp_mono; [apply (free_opt _ _ _ I)|]. clear I. cbn beta. intros h2 I.
  apply wp_bind. eapply wp_mono; [apply (free_opt _ _ _ I)|]. clear I. cbn beta. intros h3 I.
  apply wp_bind. eapply wp_mono; [apply (two_Free_opt _ _ _ I)|]. clear I. intros (h4, q4) (_ & E4 & I).
  apply wp_bind. eapply wp_mono; [apply (two_Free_opt _ _ _ I)|]. clear I. intros (h5, q5) (_ & E5 & I).
  apply wp_bind. eapply wp_mono; [apply (two_Free_opt _ _ _ I)|]. clear I. intros (h6, q6) (_ & E6 & I).
  apply wp_bind. eapply wp_mono; [apply (free_opt _ _ _ I)|]. clear I. cbn beta. intros h7 I.
  apply wp_bind. eapply wp_mono; [apply (two_Free_opt _ _ _ I)|]. clear I. intros (h8, q8) (_ & E8 & I).
  cbn [wp]. split; [exact I|]. rewrite (E4 G1), (E5 G2), (E6 G3), (E8 G4). reflexivity.
Qed.

Lemma alloc_is2 orc h L : is h L ->
  let '(h', p) := alloc orc h in
  hnext h' = hnext h + 1 /\
  ((orc (hnext h) = false /\ p = NIL /\ is h' L) \/ (orc (hnext h) = true /\ p = hnext h /\ p <> NIL /\ is h' (p :: L))).
Proof.
  intros I. pose proof (alloc_is orc h L I) as A. unfold alloc in *. destruct (orc (hnext h)); cbn [hnext].
  - split; [reflexivity|]. right. destruct A as [(K & _)|A]; [|tauto].
    exfalso. destruct I as (_ & _ & _ & W). unfold NIL in K. lia.
  - split; [reflexivity|]. left. destruct A as [(_ & A & _)|(A & _)]; [tauto|contradiction].
Qed.

Lemma two_New_is2 orc h L : is h L ->
  wp (two_New orc h) (fun '(h', q) => (q = (NIL, NIL) /\ is h' L) \/
     (fst q <> NIL /\ orc (hnext h) = true /\ orc (hnext h + 1) = true /\ hnext h' = hnext h + 2 /\ is h' (fst q :: snd q :: L))).
Proof.
  intros I. unfold two_New. pose proof (alloc_is2 orc h L I) as A. destruct (alloc orc h) as (h1, p).
  destruct A as (E1 & [(_ & -> & A)|(O1 & Ep & N & A)]).
  - cbn. left; auto.
  - replace (p =? NIL) with false by (symmetry; apply Z.eqb_neq; exact N).
    pose proof (alloc_is2 orc h1 _ A) as B. destruct (alloc orc h1) as (h2, q). destruct B as (E2 & [(_ & -> & B)|(O2 & Eq & N2 & B)]).
    + change (NIL =? NIL) with true. cbn match. apply wp_bind. eapply wp_mono; [apply (free_cons h2 p L B)|].
      intros h3 (C & _). cbn. left; auto.
    + replace (q =? NIL) with false by (symmetry; apply Z.eqb_neq; exact N2). cbn. right. split; [exact N|].
      rewrite E1 in *. split; [exact O1|]. split; [exact O2|]. split; [lia|].
      apply (is_perm _ _ _ B). apply perm_swap.
Qed.

(** What _InitGraph does on a graph without blocks, whose vertex info pointer may dangle. *)
Definition bare (m : mgraph) (d : Z) : Prop :=
  m = mkMG (pG m) NIL d NIL (NIL, NIL) (NIL, NIL) (NIL, NIL) NIL (NIL, NIL) 0 (mCap m) 0.

Lemma ob_ne p : p <> NIL -> ob p = [p].
Proof. intros H. unfold ob. replace (p =? NIL) with false by (symmetry; apply Z.eqb_neq; exact H). reflexivity. Qed.
Lemma ob2_ne q : fst q <> NIL -> ob2 q = [fst q; snd q].
Proof. intros H. unfold ob2. replace (fst q =? NIL) with false by (symmetry; apply Z.eqb_neq; exact H). reflexivity. Qed.

Ltac fl := cbn [set_pV set_pVI set_pE set_pBRL set_pSDL set_pStk set_pExt set_pHoles set_mN set_mCap set_mStkCap pG pV pVI pE pBRL pSDL pStk pExt pHoles mN mCap mStkCap].
Ltac g2 := unfold good2; fl; first [left; reflexivity | right; assumption].
Ltac obs := unfold opt_blocks; fl; change (ob NIL) with (@nil Z); change (ob2 (NIL, NIL)) with (@nil Z);
   rewrite ?ob_ne, ?ob2_ne by assumption.

Lemma init_bare orc h m d N : bare m d -> is h [pG m] -> 0 < N ->
  (orc (hnext h) = true \/ d = NIL) ->
  wp (_InitGraph orc h m N) (fun '(h', m', r) =>
    ((forall k, hnext h <= k < hnext h + 12 -> orc k = true) /\ r = C_OK /\ mN m' = N /\ is h' (has_blocks m' []) /\ pE m' <> NIL /\ pG m' = pG m)
    \/ ((orc (hnext h) = false \/ orc (hnext h + 1) = false) /\ r = C_NOTOK /\ is h' [pG m] /\
        m' = mkMG (pG m) NIL NIL NIL (NIL, NIL) (NIL, NIL) (NIL, NIL) NIL (NIL, NIL) 0 0 0)
    \/ (orc (hnext h) = true /\ orc (hnext h + 1) = true /\ r = C_NOTOK /\ is h' [pG m] /\
        exists d', d' <> NIL /\ live h' d' = false /\
        m' = mkMG (pG m) NIL d' NIL (NIL, NIL) (NIL, NIL) (NIL, NIL) NIL (NIL, NIL) 0 0 0)).
Proof.
  intros B I HN HD. set (k := hnext h) in *. set (G := pG m) in *.
  unfold _InitGraph.
  set (cap := if 0 <? mCap m then mCap m else 6 * N). clearbody cap. cbv zeta. set (ss := Z.max _ _). clearbody ss.
  set (m0 := set_mCap (set_mN m N) cap).
  assert (EM : m0 = mkMG G NIL d NIL (NIL, NIL) (NIL, NIL) (NIL, NIL) NIL (NIL, NIL) N cap 0).
  { unfold m0, G. rewrite B. reflexivity. }
  clearbody m0. subst m0. clear B.
  pose proof (alloc_is2 orc h _ I) as A. fold k in A. destruct (alloc orc h) as (h1, pv). clear I.
  destruct A as (E1 & [(O1 & -> & I)|(O1 & _ & N1 & I)]).
  { destruct HD as [HD|HD]; [congruence|]. change (NIL =? NIL) with true. cbn match. apply wp_bind.
    eapply wp_mono; [apply (clear_opt h1 _ []); try g2; subst d; obs; exact I|].
    intros (h', m') (I' & ->). cbn [wp]. right. left. subst d. auto. }
  replace (pv =? NIL) with false by (symmetry; apply Z.eqb_neq; exact N1). clear HD.
  pose proof (alloc_is2 orc h1 _ I) as A. rewrite E1 in A. destruct (alloc orc h1) as (h2, pvi). clear I.
  destruct A as (E2 & [(O2 & -> & I)|(O2 & _ & N2 & I)]).
  { change (NIL =? NIL) with true. cbn match. apply wp_bind.
    eapply wp_mono; [apply (clear_opt h2 _ []); try g2; obs; exact I|].
    intros (h', m') (I' & ->). cbn [wp]. right. left. auto. }
  replace (pvi =? NIL) with false by (symmetry; apply Z.eqb_neq; exact N2).
  assert (FAIL : forall h' m', is h' (opt_blocks m' []) -> good2 (pBRL m') -> good2 (pSDL m') -> good2 (pStk m') -> good2 (pHoles m') ->
     pG m' = G -> pVI m' = pvi ->
     wp ('(h, m) <- _ClearGraph h' m' ;; Ret (h, m, C_NOTOK)) (fun '(h', m', r) =>
      ((forall k', k <= k' < k + 12 -> orc k' = true) /\ r = C_OK /\ mN m' = N /\ is h' (has_blocks m' []) /\ pE m' <> NIL /\ pG m' = G)
    \/ ((orc k = false \/ orc (k + 1) = false) /\ r = C_NOTOK /\ is h' [G] /\
        m' = mkMG G NIL NIL NIL (NIL, NIL) (NIL, NIL) (NIL, NIL) NIL (NIL, NIL) 0 0 0)
    \/ (orc k = true /\ orc (k + 1) = true /\ r = C_NOTOK /\ is h' [G] /\
        exists d', d' <> NIL /\ live h' d' = false /\
        m' = mkMG G NIL d' NIL (NIL, NIL) (NIL, NIL) (NIL, NIL) NIL (NIL, NIL) 0 0 0))).
  { intros h' m' I' G1 G2 G3 G4 EG EV. apply wp_bind. eapply wp_mono; [apply (clear_opt h' m' []); assumption|].
    intros (h'', m'') (I'' & ->). cbn [wp]. right. right. rewrite EG in *. rewrite EV.
    split; [exact O1|]. split; [exact O2|]. split; [reflexivity|]. split; [exact I''|]. exists pvi.
    split; [exact N2|]. split; [|reflexivity].
    apply not_true_is_false. intros K. apply I'' in K. destruct K as [K|[]].
    destruct I as (_ & ND & _). inversion ND as [|x l NI _]. apply NI. right. left. exact K. }
  pose proof (alloc_is2 orc h2 _ I) as A. rewrite E2 in A. destruct (alloc orc h2) as (h3, pe). clear I.
  destruct A as (E3 & [(O3 & -> & I)|(O3 & _ & N3 & I)]).
  { change (NIL =? NIL) with true. cbn match. apply FAIL; try g2; try reflexivity. obs. apply (is_perm _ _ _ I). perm. }
  replace (pe =? NIL) with false by (symmetry; apply Z.eqb_neq; exact N3).
  apply wp_bind. eapply wp_mono; [apply (two_New_is2 orc h3 _ I)|]. clear I. intros (h4, q4) [(-> & I)|(N4 & O4 & O5 & E4 & I)].
  { cbn [fst]. change (NIL =? NIL) with true. cbn match. apply FAIL; try g2; try reflexivity. obs. apply (is_perm _ _ _ I). perm. }
  replace (fst q4 =? NIL) with false by (symmetry; apply Z.eqb_neq; exact N4).
  apply wp_bind. eapply wp_mono; [apply (two_New_is2 orc h4 _ I)|]. clear I. intros (h5, q5) [(-> & I)|(N5 & O6 & O7 & E5 & I)].
  { cbn [fst]. change (NIL =? NIL) with true. cbn match. apply FAIL; try g2; try reflexivity. obs. apply (is_perm _ _ _ I). perm. }
  replace (fst q5 =? NIL) with false by (symmetry; apply Z.eqb_neq; exact N5).
  apply wp_bind. eapply wp_mono; [apply (two_New_is2 orc h5 _ I)|]. clear I. intros (h6, q6) [(-> & I)|(N6 & O8 & O9 & E6 & I)].
  { cbn [fst]. change (NIL =? NIL) with true. cbn match. apply FAIL; try g2; try reflexivity. obs. apply (is_perm _ _ _ I). perm. }
  replace (fst q6 =? NIL) with false by (symmetry; apply Z.eqb_neq; exact N6).
  pose proof (alloc_is2 orc h6 _ I) as A. destruct (alloc orc h6) as (h7, px). clear I.
  destruct A as (E7 & [(O10 & -> & I)|(O10 & _ & N7 & I)]).
  { change (NIL =? NIL) with true. cbn match. apply FAIL; try g2; try reflexivity. obs. apply (is_perm _ _ _ I). perm. }
  replace (px =? NIL) with false by (symmetry; apply Z.eqb_neq; exact N7).
  apply wp_bind. eapply wp_mono; [apply (two_New_is2 orc h7 _ I)|]. clear I. intros (h8, q8) [(-> & I)|(N8 & O11 & O12 & E8 & I)].
  { cbn [fst]. change (NIL =? NIL) with true. cbn match. apply FAIL; try g2; try reflexivity. obs. apply (is_perm _ _ _ I). perm. }
  replace (fst q8 =? NIL) with false by (symmetry; apply Z.eqb_neq; exact N8).
  cbn [wp]. left. split.
  { intros j Hj. rewrite E7, E6, E5, E4, E3 in *.
    assert (C : j = k \/ j = k + 1 \/ j = k + 1 + 1 \/ j = k + 1 + 1 + 1 \/ j = k + 1 + 1 + 1 + 1 \/
       j = k + 1 + 1 + 1 + 2 \/ j = k + 1 + 1 + 1 + 2 + 1 \/ j = k + 1 + 1 + 1 + 2 + 2 \/ j = k + 1 + 1 + 1 + 2 + 2 + 1 \/
       j = k + 1 + 1 + 1 + 2 + 2 + 2 \/ j = k + 1 + 1 + 1 + 2 + 2 + 2 + 1 \/ j = k + 1 + 1 + 1 + 2 + 2 + 2 + 1 + 1) by lia.
    repeat (destruct C as [->|C]; [assumption|]). subst j. assumption. }
  split; [reflexivity|]. split; [reflexivity|]. split; [|split; [exact N3|reflexivity]].
  unfold has_blocks. fl. replace (pe =? NIL) with false by (symmetry; apply Z.eqb_neq; exact N3).
  apply (is_perm _ _ _ I). perm.
Qed.

(** ** The theorems *)
Lemma is_owns h m : is h (has_blocks m []) -> pE m <> NIL -> 0 < mN m -> owns h m.
Proof.
  intros I NE PN. unfold has_blocks in I. replace (pE m =? NIL) with false in I by (symmetry; apply Z.eqb_neq; exact NE).
  assert (J : is h (blocks m)). { apply (is_perm _ _ _ I). unfold blocks. perm. }
  destruct J as (A & B & C & _). split; [exact PN|]. split; [exact B|]. split; [|exact A].
  intros p H K. apply C in H. unfold NIL in K. lia.
Qed.

Lemma new_is orc : orc 1 = true -> exists h1 m,
  gp_New orc empty_heap = Ret (h1, Some m) /\ is h1 [pG m] /\ hnext h1 = 2 /\
  m = mkMG 1 NIL NIL NIL (NIL, NIL) (NIL, NIL) (NIL, NIL) NIL (NIL, NIL) 0 0 0.
Proof.
  intros H. unfold gp_New, alloc. cbn [empty_heap hnext]. rewrite H. cbn -[upd Z.add].
  do 2 eexists. split; [reflexivity|]. split; [|split; reflexivity].
  split; [|split; [|split]]; cbn [hnext].
  - intros p. cbn. unfold upd. destruct (p =? 1) eqn:E; [apply Z.eqb_eq in E|apply Z.eqb_neq in E]; intuition congruence.
  - repeat constructor. intros [].
  - intros p [<-|[]]. cbn. lia.
  - lia.
Qed.

Lemma gp_Free_opt h m : is h (opt_blocks m []) ->
  good2 (pBRL m) -> good2 (pSDL m) -> good2 (pStk m) -> good2 (pHoles m) ->
  wp (gp_Free h m) nothing_live.
Proof.
  intros I G1 G2 G3 G4. unfold gp_Free. apply wp_bind. eapply wp_mono; [apply (clear_opt h m []); assumption|].
  intros (h1, m1) (I1 & ->). cbn [pG]. eapply wp_mono; [apply (free_cons _ _ _ I1)|]. intros h2 (I2 & _).
  intros p. apply not_true_is_false. intros K. apply I2 in K. exact K.
Qed.

Lemma init_failure orc N : 0 < N -> orc 1 = true ->
  exists h1 m,
    gp_New orc empty_heap = Ret (h1, Some m) /\ as_new h1 m /\
    wp (gp_InitGraph orc h1 m N) (fun '(h2, m2, r) =>
      ((forall k, 2 <= k <= 13 -> orc k = true) /\ r = C_OK /\ mN m2 = N /\ owns h2 m2 /\
       wp (gp_Free h2 m2) nothing_live)
      \/ ((orc 2 = false \/ orc 3 = false) /\ r = C_NOTOK /\ as_new h2 m2 /\
          wp (gp_Free h2 m2) nothing_live)
      \/ (orc 2 = true /\ orc 3 = true /\ r = C_NOTOK /\ live_is h2 [pG m2] /\
          pVI m2 <> NIL /\ gp_Free h2 m2 = UB)).
Proof.
  intros HN H1. destruct (new_is orc H1) as (h1 & m & E & I & HX & Em). exists h1, m. split; [exact E|]. split.
  { rewrite Em in *. split; [reflexivity|]. split; [reflexivity|]. split; [reflexivity|]. apply I. }
  unfold gp_InitGraph. replace (N <=? 0) with false by (symmetry; apply Z.leb_gt; lia).
  replace (mN m =? 0) with true by (rewrite Em; reflexivity). cbn [negb].
  eapply wp_mono; [apply (init_bare orc h1 m NIL N); auto; rewrite Em; reflexivity|].
  intros ((h2, m2), r). rewrite HX. intros [(A & -> & EN & I2 & NE & _)|[(A & -> & I2 & ->)|(A & B & -> & I2 & d & Nd & Ld & ->)]].
  - left. split; [intros k Hk; apply A; lia|]. split; [reflexivity|]. split; [exact EN|].
    split; [apply is_owns; auto; lia|]. eapply wp_mono; [apply (gp_Free_is _ _ _ I2)|].
    intros h3 I3 p. apply not_true_is_false. intros K. apply I3 in K. exact K.
  - right. left. split; [exact A|]. split; [reflexivity|]. split.
    + split; [reflexivity|]. split; [reflexivity|]. split; [reflexivity|]. apply I2.
    + apply gp_Free_opt; try g2. exact I2.
  - right. right. split; [exact A|]. split; [exact B|]. split; [reflexivity|]. split; [apply I2|]. split; [exact Nd|].
    unfold gp_Free, _ClearGraph. cbn [pV pVI pG]. rewrite free_nil. cbn [bind]. unfold free.
    replace (d =? NIL) with false by (symmetry; apply Z.eqb_neq; exact Nd). rewrite Ld. reflexivity.
Qed.

Lemma init_ok_is orc N h1 m h2 m2 :
  gp_New orc empty_heap = Ret (h1, Some m) -> gp_InitGraph orc h1 m N = Ret (h2, m2, C_OK) ->
  is h2 (has_blocks m2 []) /\ pE m2 <> NIL /\ 0 < mN m2.
Proof.
  intros E EI. destruct (orc 1) eqn:O1.
  2: { unfold gp_New, alloc in E. cbn [empty_heap hnext] in E. rewrite O1 in E. cbn in E. discriminate. }
  destruct (new_is orc O1) as (h1' & m' & E' & I & HX & Em). rewrite E in E'. injection E' as <- <-.
  unfold gp_InitGraph in EI. destruct (N <=? 0) eqn:EN; [discriminate|]. apply Z.leb_gt in EN.
  replace (mN m =? 0) with true in EI by (rewrite Em; reflexivity). cbn [negb] in EI.
  assert (W : wp (_InitGraph orc h1 m N) (fun '(h', m', r) => r = C_OK -> is h' (has_blocks m' []) /\ pE m' <> NIL /\ mN m' = N)).
  { eapply wp_mono; [apply (init_bare orc h1 m NIL N); auto; rewrite Em; reflexivity|].
    intros ((h', m'), r) [(_ & _ & X & Y & Z0 & _)|[(_ & X & _)|(_ & _ & X & _)]] K; [auto|rewrite K in X; discriminate|rewrite K in X; discriminate]. }
  rewrite EI in W. cbn [wp] in W. destruct (W eq_refl) as (A & B & C). split; [exact A|]. split; [exact B|]. lia.
Qed.

Lemma capacity_histories orc N h1 m h2 m2 l :
  gp_New orc empty_heap = Ret (h1, Some m) ->
  gp_InitGraph orc h1 m N = Ret (h2, m2, C_OK) ->
  wp (mrun orc l h2 m2) (fun '(h3, m3, rs) =>
    wp (gp_Free h3 m3) (fun h4 =>
      (forall i r, nth_error l i = Some (MEnsure r) -> 0 < r -> Z.even r = true -> nth_error rs i = Some C_OK) ->
      nothing_live h4)).
Proof.
  intros E EI. destruct (init_ok_is _ _ _ _ _ _ E EI) as (I & NE & PN).
  eapply wp_mono; [apply (mrun_is orc l h2 m2 [] I PN)|]. intros ((h3, m3), rs) (P3 & lk & I3 & D).
  eapply wp_mono; [apply (gp_Free_is _ _ _ I3)|]. intros h4 I4 HA p. apply not_true_is_false. intros K. apply I4 in K.
  rewrite D in K; [exact K|]. intros i r Hi.
  destruct (Z_le_gt_dec r 0) as [L|G]; [tauto|]. destruct (Z.odd r) eqn:O; [tauto|]. left.
  rewrite (HA i r Hi); [discriminate|lia|]. rewrite <- Z.negb_odd, O. reflexivity.
Qed.

Lemma capacity_failure orc N h1 m h2 m2 req h3 m3 :
  gp_New orc empty_heap = Ret (h1, Some m) ->
  gp_InitGraph orc h1 m N = Ret (h2, m2, C_OK) ->
  gp_EnsureArcCapacity orc h2 m2 req = Ret (h3, m3, C_NOTOK) ->
  mN m3 = mN m2 /\ mCap m3 = mCap m2 /\
  ((pE m3 = pE m2 /\ live h3 (pE m3) = true) \/ (pE m3 = NIL /\ live h3 (pE m2) = true)).
Proof.
  intros E EI EE. destruct (init_ok_is _ _ _ _ _ _ E EI) as (I & NE & PN).
  assert (IE : forall h m lk, is h (has_blocks m lk) -> pE m <> NIL -> live h (pE m) = true).
  { intros h0 m0 lk I0 N0. apply I0. unfold has_blocks. replace (pE m0 =? NIL) with false by (symmetry; apply Z.eqb_neq; exact N0).
    cbn. auto. }
  unfold gp_EnsureArcCapacity in EE.
  destruct (req <=? 0). { injection EE as <- <-. eauto 6. }
  destruct (Z.odd req). { injection EE as <- <-. eauto 6. }
  destruct (req <=? mCap m2); [discriminate|].
  replace (mN m2 =? 0) with false in EE by (symmetry; apply Z.eqb_neq; lia).
  pose proof (ensure_is orc h2 m2 [] req I) as W. rewrite EE in W. cbn [wp] in W.
  destruct W as (EN & [(K & _)|(_ & EC & [(EP & I3)|(EP & _ & I3)])]); [discriminate| |].
  - split; [exact EN|]. split; [exact EC|]. left. split; [exact EP|]. eapply IE; [exact I3|congruence].
  - split; [exact EN|]. split; [exact EC|]. right. split; [exact EP|]. apply I3. unfold has_blocks.
    rewrite !in_app_iff. right. right. right. right. left. reflexivity.
Qed.
