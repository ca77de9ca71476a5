(** * EmbDown2: merging and embedding one edge keeps the invariant of the walk down. *)
From Coq Require Import ZifyBool Permutation Sorted.
From Verif Require Import Base BaseP GraphRec GraphM GraphSpec GSimp LinkP GraphP GraphP2 ListM ListSpec ListP DFSM DFSSpec DFSP TestP EmbM EmbSpec EmbP FaceP GeoP GeoP2 EmbInv EmbStep EmbTree EmbWalk EmbFan EmbUp EmbJoin PlV3 EmbDown.

Section Down2.
Variables (g0 : graph) (kids : Z -> list Z).
Hypothesis St : static g0 kids.
Local Notation N := (gN g0).
Local Notation p := (viParent (gVI g0)).
Local Notation prim := (prim (gN g0)).
Local Notation isroot := (isroot (gN g0)).
Local Notation geo := (geo (gN g0) (viParent (gVI g0))).
Local Notation anc := (ancestor (viParent (gVI g0))).
Local Notation via := (via g0).
Local Notation act := (act g0).
Local Notation rp := (rp g0).
Local Notation HP := (Hp g0 kids St).
Local Notation vsof := (vsof (gN g0)).
Local Notation jrel := (jrel g0 kids).
Local Notation chain := (chain g0).
Local Notation pof := (pof g0).
Local Notation dinv := (dinv g0 kids).
Local Notation drel := (drel g0).
Local Notation passed := (passed g0).
Local Notation nfp := (nfp g0).
Local Notation mu := (mu g0).

Lemma ss_drop {A} (R : A -> A -> Prop) l1 f l2 : StronglySorted R (l1 ++ f :: l2) -> StronglySorted R (l1 ++ l2).
Proof.
  induction l1 as [|x l1 IH]; cbn [app]; intros S; inversion S as [|? ? S' F]; subst; [auto|]. constructor; [auto|].
  rewrite Forall_forall in *. intros y Hy. apply F. rewrite in_app_iff in *. cbn [In]. tauto.
Qed.
Lemma ss_ext {A} (R R' : A -> A -> Prop) l : (forall x y, In x l -> In y l -> R x y -> R' x y) -> StronglySorted R l -> StronglySorted R' l.
Proof.
  intros H S. induction S as [|x l S IH F]; [constructor|]. constructor.
  - apply IH. intros; apply H; auto; now right.
  - rewrite Forall_forall in *. intros y Hy. apply H; [now left|now right|auto].
Qed.
Lemma jrel_refl a C : jrel a a [] C.
Proof.
  constructor; auto.
  - intros x d. cbn [In]. tauto.
  - intros x l1 l2 E F. exists [], l2. split; [auto|]. split; [auto|]. intros c [].
  - intros d _. cbn [In]. tauto.
  - tauto.
Qed.

(** The state after merging along [Rs] into [C] and embedding [f] from [W] to [C]. *)
Lemma dinv_embed v c a a1 a2 Rs W Q' f l1 l2 P :
  dinv v c a -> prim v -> prim c -> p c = v -> act (eV a) c -> jrel a a1 Rs (N + c) -> embed_rel a1 a2 (N + c) W Q' f v l1 l2 ->
  geo NIL [] (eV a2) -> fw a v = l1 ++ f :: l2 -> NoDup (l1 ++ f :: l2) -> nb (eV a) f = W -> prim W -> B (eV a1) W = N + c ->
  ~ In (N + c) Rs -> (forall d, In (N + d) Rs -> act (eV a) d /\ anc c (p d) /\ prim (p d)) -> passed v a P ->
  (forall y, In y (X (eV a) (B (eV a) y)) -> ~ In y P -> In y (X (eV a2) (B (eV a2) y))) -> (opl g0 = true -> fans g0 (eV a2)) -> ofx g0 NIL (eV a2) ->
  dinv v c (set_pe a2 W NIL) /\ drel v c a (set_pe a2 W NIL) /\ (forall d, act (eV a2) d <-> act (eV a) d /\ ~ In (N + d) Rs) /\ (forall u f', In f' (fw a2 u) <-> In f' (fw a u) /\ f' <> f).
Proof.
  intros D Hv Hc Ec Ac J E G2 Efw Nd Enf PW BW Nc HRs HP HX HF HOx. pose proof (d_fw _ _ _ _ _ D) as F.
  assert (Hf : In f (fw a v)) by (rewrite Efw; apply in_app_iff; right; now left).
  assert (Hact1 : forall d, act (eV a2) d <-> act (eV a1) d).
  { intros d. unfold EmbTree.act. split; intros (A1 & A2 & A3); (split; [auto|]); (split; [auto|]).
    - intros E0. destruct (adj (eV a2) (N + d)) as [|e l] eqn:Ea; [congruence|]. assert (In e (adj (eV a2) (N + d))) as He by (rewrite Ea; now left).
      apply (er_in _ _ _ _ _ _ _ _ _ E) in He. rewrite E0 in He. destruct He as [[]|[[Q1 _]|[Q1 _]]].
      + apply (j_act _ _ _ _ _ _ J d A1) in E0. assert (d = c) by lia. subst d. destruct E0 as [E0|E0]; [|contradiction]. destruct Ac as (_ & _ & Ac). congruence.
      + unfold GeoP.prim in *. lia.
    - intros E0. apply A3. destruct (adj (eV a1) (N + d)) as [|e l] eqn:Ea; [auto|]. exfalso. assert (In e (adj (eV a2) (N + d))) as He by (apply (er_in _ _ _ _ _ _ _ _ _ E); left; rewrite Ea; now left).
      rewrite E0 in He. destruct He. }
  assert (Hact : forall d, act (eV a2) d <-> act (eV a) d /\ ~ In (N + d) Rs) by (intros d; rewrite Hact1; apply (jrel_act _ _ _ _ _ _ _ J)).
  assert (Hfw : forall u f', In f' (fw a2 u) <-> In f' (fw a u) /\ f' <> f).
  { intros u f'. rewrite (er_fw _ _ _ _ _ _ _ _ _ E), (j_fw _ _ _ _ _ _ J). destruct (Z.eqb_spec u v) as [->|Ne].
    - rewrite Efw. apply NoDup_remove_2 in Nd. rewrite !in_app_iff. cbn [In]. split.
      + intros H. split; [tauto|]. intros ->. apply Nd. now apply in_app_iff.
      + intros [[H|[H|H]] H2]; auto. congruence.
    - split; [|tauto]. intros H. split; [auto|]. intros ->. apply Ne. destruct (fo_twin _ _ F u f H). rewrite (fo_twin _ _ F v f Hf). auto. }
  assert (Hnb : forall u f', In f' (fw a u) -> f' <> f -> nb (eV a2) f' = nb (eV a) f' /\ nb (eV a2) (twin f') = nb (eV a) (twin f')).
  { intros u f' Hi Ne. rewrite !(er_nb _ _ _ _ _ _ _ _ _ E). rewrite !eqb_false_neq.
    - split; apply (j_nb2 _ _ _ _ _ _ J); intros x; [apply (fo_free _ _ F u f' x Hi)|rewrite twin_invol; apply (fo_free _ _ F u f' x Hi)].
    - intros Q. apply twin_inj in Q. congruence.
    - intros Q. apply (fo_tw _ _ F v u f Hf). now rewrite <- Q. }
  assert (Hch : forall e, childarc (eV a2) e <-> childarc (eV a) e).
  { intros e. unfold childarc. rewrite (er_fl _ _ _ _ _ _ _ _ _ E), (j_fl _ _ _ _ _ _ J). tauto. }
  assert (Hadj : forall e x, In e (adj (eV a2) x) -> (exists y, In e (adj (eV a) y)) \/ e = f \/ e = twin f).
  { intros e x H. apply (er_in _ _ _ _ _ _ _ _ _ E) in H. destruct H as [H|[[_ H]|[_ H]]]; auto. left. apply (j_arc _ _ _ _ _ _ J). eauto. }
  assert (Hpr : forall x d, In d (prl a2 x) <-> In d (prl a x) /\ ~ In (N + d) Rs) by (intros; rewrite (er_prl _ _ _ _ _ _ _ _ _ E); apply (j_prl _ _ _ _ _ _ J)).
  assert (Tv : nb (eV a) (twin f) = v) by (apply (fo_twin _ _ F v f Hf)).
  assert (Nff : twin f <> f) by apply twin_ne.
  set (b := set_pe a2 W NIL).
  assert (Fb : fwok g0 b).
  { constructor; cbn [b set_pe eV fw].
    - intros u f' H. apply Hfw in H. destruct H as [H1 H2]. destruct (Hnb u f' H1 H2) as [-> _]. now apply (fo_via _ _ F).
    - intros u f' H. apply Hfw in H. destruct H as [H1 H2]. destruct (Hnb u f' H1 H2) as [_ ->]. now apply (fo_twin _ _ F).
    - intros u f' x H. apply Hfw in H. destruct H as [H1 H2]. split; intros Hi; apply Hadj in Hi.
      + destruct Hi as [[y Hi]|[Q|Q]]; [exact (proj1 (fo_free _ _ F u f' y H1) Hi)|congruence|]. apply (fo_tw _ _ F v u f Hf). now rewrite <- Q.
      + destruct Hi as [[y Hi]|[Q|Q]]; [exact (proj2 (fo_free _ _ F u f' y H1) Hi)| |apply twin_inj in Q; congruence]. apply (fo_tw _ _ F u v f' H1). now rewrite Q.
    - intros u u' f' H Hi. apply Hfw in H, Hi. apply (fo_tw _ _ F u u' f'); tauto.
    - intros u f' H. apply Hfw in H. rewrite !Hch. now apply (fo_type _ _ F u).
    - intros u. pose proof (fo_sorted _ _ F u) as S. apply (ss_ext (fun e e' => nb (eV a) e < nb (eV a) e')).
      + intros x y Hx Hy. apply Hfw in Hx, Hy. destruct (Hnb u x (proj1 Hx) (proj2 Hx)) as [-> _]. destruct (Hnb u y (proj1 Hy) (proj2 Hy)) as [-> _]. auto.
      + rewrite (er_fw _ _ _ _ _ _ _ _ _ E), (j_fw _ _ _ _ _ _ J). destruct (Z.eqb_spec u v) as [->|]; [|auto]. rewrite Efw in S. eapply ss_drop; eauto.
    - intros u f' H. apply Hfw in H. destruct (Hnb u f' (proj1 H) (proj2 H)) as [-> _]. apply (fo_la _ _ F). tauto.
    - intros u f' c1 H. apply Hfw in H. destruct (Hnb u f' (proj1 H) (proj2 H)) as [-> _]. apply (fo_lp _ _ F). tauto. }
  assert (Av : forall d, In (N + d) Rs -> d <> c /\ p d <> v).
  { intros d Hd. destruct (HRs d Hd) as ((D1 & D2 & _) & D3 & D4). split; [intros ->; contradiction|]. intros Q. rewrite Q in D3.
    pose proof (anc_le g0 kids St _ _ Hv D3). pose proof (proj2 (Hp g0 kids St c Hc ltac:(rewrite Ec; now apply prim_ne with g0))). lia. }
  split; [|split; [|exact (conj Hact Hfw)]].
  - constructor; auto.
    + intros w Hw. cbn [b set_pe fpc eV]. rewrite (er_fpc _ _ _ _ _ _ _ _ _ E). destruct (d_fpc _ _ _ _ _ D w Hw) as (k1 & k2 & K1 & K2 & K3).
      destruct (j_fpc _ _ _ _ _ _ J w k1 k2 K1 K2) as (m1 & m2 & M1 & M2 & M3). exists (k1 ++ m1), m2. split; [rewrite <- app_assoc, <- M1; auto|]. split; [auto|].
      intros y Hy. apply in_app_iff in Hy. rewrite Hact. destruct Hy as [Hy|Hy]; [destruct (K3 y Hy); tauto|]. left. specialize (M3 y Hy). tauto.
    + intros x. cbn [b set_pe pe eV fw]. rewrite (er_pe _ _ _ _ _ _ _ _ _ E), (j_pe _ _ _ _ _ _ J). unfold upd. destruct (Z.eqb_spec x W) as [->|Ne]; [congruence|].
      intros Hn. destruct (d_pe _ _ _ _ _ D x Hn) as [I1 I2]. assert (pe a x <> f) by (intros Q; rewrite Q in I2; congruence). split; [apply Hfw; auto|].
      destruct (Hnb v _ I1 H) as [-> _]. auto.
    + intros z d. cbn [b set_pe prl eV fw]. intros Hd. apply Hpr in Hd. destruct Hd as [Hd Nd']. destruct (d_prl _ _ _ _ _ D z d Hd) as (P1 & P2 & P3 & f' & P4 & P5).
      assert (Ad : act (eV a2) d) by (apply Hact; auto). split; [auto|]. split; [auto|]. split; [auto|].
      exists f'. destruct (Z.eq_dec f' f) as [->|Ne].
      * exfalso. rewrite Enf in P5. pose proof (B_near g0 kids St _ _ _ _ _ G2 Ad PW P5) as Bn. rewrite (er_B _ _ _ _ _ _ _ _ _ E), BW in Bn.
        assert (AcW : anc c W).
        { apply (B_anc g0 kids St NIL [] (eV a2)); auto. now rewrite (er_B _ _ _ _ _ _ _ _ _ E). }
        assert (Zv : z <> v) by (intros ->; rewrite (d_prlv _ _ _ _ _ D) in Hd; destruct Hd).
        assert (Add : anc d c) by (apply (anc_total g0 kids St) with W; auto; lia). destruct (Z.eq_dec d c) as [->|Ne]; [congruence|].
        destruct (anc_up g0 _ _ Add Ne) as [_ Au]. rewrite Ec in Au. pose proof (anc_le g0 kids St _ _ Hv Au). destruct P3 as (P31 & P32 & _). pose proof (proj2 (Hp g0 kids St d P31 P32)). lia.
      * split; [apply Hfw; auto|]. destruct (Hnb v _ P4 Ne) as [-> _]. auto.
    + cbn [b set_pe prl]. rewrite (er_prl _ _ _ _ _ _ _ _ _ E). destruct (prl a1 v) as [|d l] eqn:El; [auto|]. assert (In d (prl a1 v)) as I by (rewrite El; now left).
      apply (j_prl _ _ _ _ _ _ J) in I. rewrite (d_prlv _ _ _ _ _ D) in I. destruct I as [[] _].
    + intros y Y1 Y2 Y3. apply Hact. split; [now apply (d_act _ _ _ _ _ D)|]. intros Hy. destruct (HRs y Hy) as (_ & R2 & R3).
      pose proof (via_lt g0 kids St v c (p y) ltac:(unfold EmbTree.via; auto)) as L.
      destruct (Z.eq_dec c (p y)) as [Q|Q]; [rewrite <- Q in Y3; lia|]. destruct (anc_up g0 _ _ R2 Q) as [U1 U2].
      pose proof (anc_le g0 kids St _ _ (proj1 (Hp g0 kids St _ R3 U1)) U2). lia.
    + apply (keep_step g0 v a b P); auto; [apply (d_keep _ _ _ _ _ D)| |].
      * intros u f' Hu H. apply Hfw in H. split; [tauto|]. apply (Hnb u f'); tauto.
      * intros d Hd. apply Hact in Hd. tauto.
    + apply (outer_step g0 v a b P); auto. apply (d_out _ _ _ _ _ D).
    + intros f'. cbn [b set_pe fw eV pe]. intros H. apply Hfw in H. destruct H as [H1 H2]. destruct (Hnb v f' H1 H2) as [-> _]. destruct (d_comp _ _ _ _ _ D f' H1) as [K1 K2].
      rewrite (er_pe _ _ _ _ _ _ _ _ _ E), (j_pe _ _ _ _ _ _ J). split.
      * unfold upd. destruct (Z.eqb_spec (nb (eV a) f') W) as [Q|]; [|auto]. exfalso. apply H2. rewrite Q in K1. rewrite <- K1. rewrite <- Enf. apply (d_comp _ _ _ _ _ D f Hf).
      * intros d Ad Ax Lx. cbn [b set_pe eV prl] in *. apply Hact in Ad. destruct Ad as [Ad Nd']. apply Hpr. split; [|auto]. now apply K2.
  - constructor; cbn [b set_pe fw eV prl vis].
    + intros u Hu. rewrite (er_fw _ _ _ _ _ _ _ _ _ E), (j_fw _ _ _ _ _ _ J). now rewrite (eqb_false_neq _ _ Hu).
    + intros f' H. apply Hfw in H. tauto.
    + intros u f' H. apply Hfw in H. apply (Hnb u f'); tauto.
    + intros x d H1 H2. apply Hpr. split; [auto|]. intros Hd. destruct (HRs d Hd) as (_ & R2 & _). destruct (d_prl _ _ _ _ _ D x d H1) as (P1 & _). apply H2. now rewrite <- P1.
    + intros x d H. apply Hpr in H. tauto.
    + now rewrite (er_vis _ _ _ _ _ _ _ _ _ E), (j_vis _ _ _ _ _ _ J).
    + intros d Hd. apply Hact in Hd. tauto.
    + constructor.
      * intros e. unfold arc. cbn [b set_pe eV fw].
        assert (Q1 : (exists x, In e (adj (eV a2) x)) <-> (exists x, In e (adj (eV a) x)) \/ e = f \/ e = twin f).
        { split; [intros (x & H); eapply Hadj; eauto|]. intros [H|H].
          - apply (j_arc _ _ _ _ _ _ J) in H. destruct H as [x H]. exists x. apply (er_in _ _ _ _ _ _ _ _ _ E). auto.
          - destruct H as [-> | ->]; [exists (N + c)|exists W]; apply (er_in _ _ _ _ _ _ _ _ _ E); auto. }
        rewrite Q1. split.
        -- intros [[H|[-> | ->]]|(u & [H|H])]; auto.
           ++ right. exists v. auto.
           ++ right. exists v. right. now rewrite twin_invol.
           ++ apply Hfw in H. right. exists u. tauto.
           ++ apply Hfw in H. right. exists u. tauto.
        -- intros [H|(u & [H|H])]; auto.
           ++ destruct (Z.eq_dec e f) as [->|Ne]; [auto|]. right. exists u. left. apply Hfw. auto.
           ++ destruct (Z.eq_dec (twin e) f) as [Eq|Ne]; [left; right; right; now rewrite <- Eq, twin_invol|]. right. exists u. right. apply Hfw. auto.
      * intros e. cbn [b set_pe eV]. rewrite (er_nb _ _ _ _ _ _ _ _ _ E). destruct (Z.eqb_spec e (twin f)) as [->|]; [|apply (j_nb1 _ _ _ _ _ _ J)].
        rewrite Tv. unfold EmbJoin.pof, GeoP.prim in *. replace (N + c <=? N) with false by lia. replace (v <=? N) with true by lia. now replace (N + c - N) with c by lia.
      * intros e. cbn [b set_pe eV]. now rewrite (er_fl _ _ _ _ _ _ _ _ _ E), (j_fl _ _ _ _ _ _ J).
      * intros e H1 H2. cbn [b set_pe eV]. rewrite (er_nb _ _ _ _ _ _ _ _ _ E). destruct (Z.eqb_spec e (twin f)) as [->|].
        -- exfalso. apply H1. right. exists v. right. now rewrite twin_invol.
        -- apply (j_nb2 _ _ _ _ _ _ J). intros x Hx. apply H2. left. eauto.
Qed.
End Down2.
