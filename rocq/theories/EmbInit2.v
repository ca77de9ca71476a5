(** * EmbInit2: the search that starts the embedder. *)
From Coq Require Import ZifyBool Permutation Sorted.
From Verif Require Import Base BaseP GraphRec GraphM GraphSpec GSimp LinkP GraphP GraphP2 GraphP5 ListM ListSpec ListP DFSM DFSSpec DFSP DFSP2 TestM EmbM EmbSpec EmbP FaceP GeoP EmbInv EmbInit.

Section Init.
Variables (g0 : graph) (adj : Z -> list Z).
Hypotheses (R0 : rep g0 adj) (P0 : primary_edges g0 adj) (Sm : simple_adj g0 adj).

Lemma lnk_sim g h F : lnk g0 adj g F -> gN h = gN g -> gCap h = gCap g -> (forall x, x <= gN g -> vfirst h x = vfirst g x /\ vlast h x = vlast g x) ->
  enext h = enext g -> eprev h = eprev g -> (forall x, etype h x = EDGE_TYPE_FORWARD <-> etype g x = EDGE_TYPE_FORWARD) -> viFwd (gVI h) = viFwd (gVI g) -> lnk g0 adj h F.
Proof.
  intros [L1 L2 L3 L4 L5] E1 E2 E3 E5 E6 E7 E8.
  constructor; rewrite ?E5, ?E6, ?E8; auto.
  - apply (chains_ext _ (al adj g)).
    + destruct L1 as [C1 C2 C3 C4 C5 C6 C7]. constructor; unfold is_vertex, gp_EdgeIndexBound, view in *; gsimp; gsimp_in C1; gsimp_in C2; gsimp_in C3; gsimp_in C4; gsimp_in C7; rewrite ?E1, ?E2, ?E5, ?E6; auto.
      * intros v Hv. rewrite <- C1 by auto. destruct (v <=? gN g) eqn:Q; [|reflexivity]. apply E3. lia.
      * intros v Hv. rewrite <- C2 by auto. destruct (v <=? gN g) eqn:Q; [|reflexivity]. apply E3. lia.
    + intros v. unfold al. apply filter_ext. intros x. destruct (Z.eqb_spec (etype h x) EDGE_TYPE_FORWARD) as [Q|Q], (Z.eqb_spec (etype g x) EDGE_TYPE_FORWARD) as [Q'|Q']; auto; exfalso; rewrite E7 in Q; auto.
  - intros u f. rewrite E7. apply L4.
Qed.

Record setup (gd g gs : graph) (es : list Z) (w up e DFI : Z) (F kd : Z -> list Z) : Prop := {
  su_fr : iframe g0 gs;
  su_vf : vflags gs = upd (vflags gd) w (Z.lor (vflags gd w) 1);
  su_ix : vindex gs = upd (vindex gd) w DFI;
  su_par : viParent (gVI gs) = upd (viParent (gVI gd)) w up;
  su_stk : gstack gs = flat g0 es;
  su_ty0 : e = NIL -> forall x, etype gs x = etype g x;
  su_ty1 : e <> NIL -> forall x, etype gs x = if x =? twin e then EDGE_TYPE_PARENT else if x =? e then EDGE_TYPE_CHILD else etype g x;
  su_lnk : lnk g0 adj gs F;
  su_kids : holds (mkCl (sdl gs) (sdcheads gs)) (if e =? NIL then kd else upd kd up (kd up ++ [DFI]));
  su_virt : forall x, gN g0 < x -> vfirst gs x = (if negb (e =? NIL) && (x =? DFI + gN g0) then e else vfirst g x) /\
    vlast gs x = (if negb (e =? NIL) && (x =? DFI + gN g0) then e else vlast g x);
  su_la : viLeast (gVI gs) = upd (viLeast (gVI g)) w DFI }.

Lemma setup_ok gd g es' es ord ta r F kd w up e : dinv g0 gd adj es' ord ta r -> irel g0 adj gd g es' ord ta F kd ->
  primary g0 w -> visited gd w = false ->
  (es' = e :: es /\ up = src g0 e /\ enbr g0 e = w) \/ (es' = [] /\ es = [] /\ up = NIL /\ e = NIL) ->
  let DFI := 1 + Z.of_nat (length ord) in
  exists gs, evisit (set_gstack g (flat g0 es)) w up e DFI = (e0 <- gp_GetFirstArc gs w ;; einit_arcs_loop (efuel gs) gs w e0) /\ setup gd g gs es w up e DFI F kd.
Proof.
  intros D I Pw Uw V DFI. destruct I as [Fr Vf Ix Pa Stk Tf To Lk Srt Kids Kid Ks Vt1 Vt2 La1 La2 La3].
  set (gq := set_gstack g (flat g0 es)). pose proof (if_N _ _ Fr) as EN. pose proof (if_cap _ _ Fr) as EC.
  assert (Iw : inV g w = true /\ inVI g w = true) by (apply (prim_inV g0); auto). destruct Iw as [Iw Iw'].
  set (ga := mark_vertex gq w DFI up).
  assert (Lg : lnk g0 adj ga F) by (apply (lnk_sim g); auto; unfold ga, gq, mark_vertex; gsimp; auto; reflexivity).
  assert (NoC : forall j, ~ In DFI (kd j)).
  { intros j Hj. apply Kid in Hj. destruct Hj as (v & Hv & E & _). pose proof (ord_idx_range _ _ v (di_idx _ _ _ _ _ _ _ D) Hv). unfold DFI in E. lia. }
  assert (Len : 1 <= DFI <= gN g0).
  { assert (Hl : Z.of_nat (length (w :: ord)) <= Z.max 0 (gN g0 + 1 - 1)).
    { apply nodup_range_length.
      - constructor; [|apply D]. intros Hi. apply (di_ord _ _ _ _ _ _ _ D) in Hi. destruct Hi; congruence.
      - intros x [<-|Hx]; [destruct Pw; lia|]. apply (di_ord _ _ _ _ _ _ _ D) in Hx. destruct Hx as [[] _]. lia. }
    cbn [length] in Hl. unfold DFI. destruct Pw. lia. }
  assert (E0 : forall k, (g1 <- gp_SetVertexVisited gq w ;; g2 <- gp_SetVertexIndex g1 w DFI ;; g3 <- gp_SetVertexParent g2 w up ;; k g3) = (k ga : res graph)).
  { intros k. pose proof (mark_vertex_ok gq w DFI up Iw Iw') as E1. fold ga in E1.
    destruct (gp_SetVertexVisited gq w) as [h1| |]; cbn [bind] in *; try discriminate.
    destruct (gp_SetVertexIndex h1 w DFI) as [h2| |]; cbn [bind] in *; try discriminate. rewrite E1. reflexivity. }
  unfold evisit. rewrite E0. clear E0.
  assert (Fin : forall gx, inV gx w = true -> inVI gx w = true -> vindex gx w = DFI ->
    (i <- gp_GetVertexIndex gx w ;; g4 <- gp_SetVertexLeastAncestor gx w i ;; e0 <- gp_GetFirstArc g4 w ;; einit_arcs_loop (efuel g4) g4 w e0) =
    (e0 <- gp_GetFirstArc (set_gVI gx (set_viLeast (gVI gx) (upd (viLeast (gVI gx)) w DFI))) w ;; einit_arcs_loop (efuel (set_gVI gx (set_viLeast (gVI gx) (upd (viLeast (gVI gx)) w DFI)))) (set_gVI gx (set_viLeast (gVI gx) (upd (viLeast (gVI gx)) w DFI))) w e0)).
  { intros gx J1 J2 J3. unfold gp_GetVertexIndex at 1. rewrite guard_true by exact J1. cbn [bind]. rewrite J3. unfold gp_SetVertexLeastAncestor. rewrite guard_true by exact J2. reflexivity. }
  destruct V as [(E & E1 & E2)|(E & E1 & E2 & E3)].
  - destruct (di_es_arc _ _ _ _ _ _ _ D e) as (B1 & B2 & B3); [rewrite E; now left|].
    destruct (arc_twin g0 adj R0 _ _ B1) as (_ & B4 & B5 & B6). destruct (arc_primary g0 adj R0 P0 _ _ B1) as [Pp _].
    assert (Ne : e <> NIL) by (apply (ch_nonnil _ _ _ _ (rep_chains _ _ R0) B1)). rewrite (eqb_false_neq _ _ Ne). cbn [negb].
    assert (T0 : etype gd e = 0 /\ etype gd (twin e) = 0 /\ ~ In (twin e) es').
    { pose proof (di_edge _ _ _ _ _ _ _ D _ _ B1 B2) as S. rewrite E2 in S. destruct S; try congruence; auto. }
    destruct T0 as (T1 & T2 & T3).
    assert (T4 : etype ga e = 0).
    { change (etype ga e) with (etype g e). rewrite (To _ _ B1); [exact T1|rewrite E2; intros [_ Q]; congruence|tauto]. }
    assert (T5 : etype ga (twin e) = 0).
    { change (etype ga (twin e)) with (etype g (twin e)). rewrite (To _ _ B4); [exact T2|tauto|]. rewrite E2. intros [_ Q]. congruence. }
    assert (Ie : inE ga e = true) by (apply (arc_inE g0 adj R0 _ (src g0 e)); auto). assert (Ie' : inE ga (twin e) = true) by (apply (arc_inE g0 adj R0 _ (enbr g0 e)); auto).
    pose proof (mark_edge_ok ga e EDGE_TYPE_CHILD EDGE_TYPE_PARENT Ie Ie') as Em.
    destruct (gp_SetEdgeType ga e EDGE_TYPE_CHILD) as [h1| |]; cbn [bind] in *; try discriminate. rewrite Em. cbn [bind]. clear Em h1.
    set (gb := mark_edge ga e EDGE_TYPE_CHILD EDGE_TYPE_PARENT).
    assert (Ib : vindex gb w = DFI) by (unfold gb, mark_edge, ga, mark_vertex; gsimp; apply upd_same).
    unfold gp_GetVertexIndex at 1. rewrite guard_true by exact Iw. cbn [bind]. rewrite Ib.
    destruct (kid_append gb kd up DFI) as (sn & sp & sd & Ek & Hk).
    { exact Kids. }
    { change (gN gb) with (gN g). rewrite EN, E1. exact Pp. }
    { change (gN gb) with (gN g). lia. }
    { exact NoC. }
    cbv zeta in Ek, Hk. rewrite Ek. cbn [bind]. set (gk := set_gVI (set_gX gb (set_sdlPrev (set_sdlNext (gX gb) sn) sp)) (set_viSDC (gVI gb) sd)) in *.
    unfold gp_GetVertexIndex at 1. rewrite guard_true by exact Iw. cbn [bind]. change (vindex gk w) with (vindex gb w). rewrite Ib.
    unfold gp_GetRootFromDFSChild. change (gN gk) with (gN g). rewrite EN.
    rewrite set_first by (unfold inV, gp_VertexIndexBound; change (gN gk) with (gN g); lia). cbn [bind].
    rewrite set_last by (unfold inV, gp_VertexIndexBound; gsimp; change (gN gk) with (gN g); lia). cbn [bind].
    set (R := DFI + gN g0). rewrite Fin; [|exact Iw|exact Iw'|exact Ib].
    eexists. split; [reflexivity|].
    assert (Te := fun x => etype_mark ga e EDGE_TYPE_CHILD EDGE_TYPE_PARENT x eq_refl eq_refl T4 T5). fold gb in Te.
    constructor.
    + destruct Fr. constructor; auto; unfold gk, gb, mark_edge, ga, mark_vertex, gq; gsimp; auto.
      * intros x. rewrite <- if_fl. unfold upd. destruct (x =? twin e) eqn:X1.
        -- apply Z.eqb_eq in X1. subst x. rewrite (eqb_false_neq (twin e) e) by (apply twin_neq). now rewrite ldiff_lor_mask.
        -- destruct (x =? e) eqn:X2; [|reflexivity]. apply Z.eqb_eq in X2. subst x. now rewrite ldiff_lor_mask.
      * rewrite if_X. gsimp. reflexivity.
    + unfold gk, gb, mark_edge, ga, mark_vertex, gq; gsimp. now rewrite Vf.
    + unfold gk, gb, mark_edge, ga, mark_vertex, gq; gsimp. now rewrite Ix.
    + unfold gk, gb, mark_edge, ga, mark_vertex, gq; gsimp. now rewrite Pa.
    + reflexivity.
    + congruence.
    + intros _. exact Te.
    + apply (lnk_sim ga); [exact Lg|reflexivity|reflexivity| |reflexivity|reflexivity| |reflexivity].
      * intros x Hx. change (gN ga) with (gN g) in Hx. gsimp. unfold upd. rewrite (eqb_false_neq x R) by (unfold R; lia). auto.
      * intros x. change (etype gb x = EDGE_TYPE_FORWARD <-> etype ga x = EDGE_TYPE_FORWARD). rewrite Te. destruct (Z.eqb_spec x (twin e)) as [->|]; [rewrite T5; split; discriminate|]. destruct (Z.eqb_spec x e) as [->|]; [rewrite T4; split; discriminate|tauto].
    + rewrite (eqb_false_neq _ _ Ne). exact Hk.
    + intros x Hx. rewrite (eqb_false_neq _ _ Ne). cbn [negb andb]. gsimp. fold R. unfold upd. destruct (x =? R); auto.
    + reflexivity.
  - subst e up. rewrite Z.eqb_refl. cbn [negb bind]. rewrite Fin; [|exact Iw|exact Iw'|unfold ga, mark_vertex; gsimp; apply upd_same].
    eexists. split; [reflexivity|]. constructor.
    + destruct Fr. constructor; auto.
    + unfold ga, mark_vertex, gq; gsimp. now rewrite Vf.
    + unfold ga, mark_vertex, gq; gsimp. now rewrite Ix.
    + unfold ga, mark_vertex, gq; gsimp. now rewrite Pa.
    + reflexivity.
    + reflexivity.
    + congruence.
    + apply (lnk_sim ga); auto. reflexivity.
    + rewrite Z.eqb_refl. exact Kids.
    + intros x Hx. rewrite Z.eqb_refl. cbn [negb andb]. auto.
    + reflexivity.
Qed.

Lemma tw_tw x : twin (twin x) = x.
Proof. apply twin_twin. Qed.
Lemma tw_inj x y : twin x = twin y -> x = y.
Proof. apply twin_inj. Qed.

Definition stept (es' es : list Z) (w up e : Z) : Prop :=
  (es' = e :: es /\ up = src g0 e /\ enbr g0 e = w) \/ (es' = [] /\ es = [] /\ up = NIL /\ e = NIL).

(** Arcs at a vertex not yet visited are unmarked on both sides. *)
Lemma fresh_arc gd g es' ord ta r F kd w x : dinv g0 gd adj es' ord ta r -> irel g0 adj gd g es' ord ta F kd -> visited gd w = false -> In x (adj w) ->
  etype gd x = 0 /\ etype gd (twin x) = 0 /\ etype g x = 0 /\ etype g (twin x) = 0 /\ ~ In x es' /\ (In (twin x) es' <-> visited gd (enbr g0 x) = true).
Proof.
  intros D I U Hx. pose proof (di_edge _ _ _ _ _ _ _ D _ _ Hx (proj1 Sm _ _ Hx)) as St. destruct (arc_twin g0 adj R0 _ _ Hx) as (B0 & B4 & B5 & B6).
  assert (Q : etype gd x = 0 /\ etype gd (twin x) = 0 /\ ~ In x es' /\ (In (twin x) es' <-> visited gd (enbr g0 x) = true)).
  { destruct St; try congruence; do 3 (split; [assumption|]); split; intros; auto; try contradiction; congruence. }
  destruct Q as (Q1 & Q2 & Q3 & Q4). rewrite (ir_to _ _ _ _ _ _ _ _ _ I _ _ Hx), (ir_to _ _ _ _ _ _ _ _ _ I _ _ B4); auto.
  - do 4 (split; [assumption|]). auto.
  - rewrite B6. intros [_ Q]. congruence.
  - rewrite B5. tauto.
  - tauto.
  - intros [_ Q]. congruence.
Qed.

Lemma visit_ok gd g es' es ord ta r F kd w up e : 2 * gCap g0 <= gstackCap g0 -> 2 <= gstackCap g0 ->
  dinv g0 gd adj es' ord ta r -> irel g0 adj gd g es' ord ta F kd -> primary g0 w -> visited gd w = false -> stept es' es w up e ->
  dinv g0 (gvisit gd w (1 + Z.of_nat (length ord)) up e) adj (newarcs g0 adj (gvisit gd w (1 + Z.of_nat (length ord)) up e) w ++ es) (w :: ord) (if e =? NIL then ta else upd ta w e) (if e =? NIL then w else r) ->
  exists g' F' kd', evisit (set_gstack g (flat g0 es)) w up e (1 + Z.of_nat (length ord)) = Ret g' /\
    irel g0 adj (gvisit gd w (1 + Z.of_nat (length ord)) up e) g' (newarcs g0 adj (gvisit gd w (1 + Z.of_nat (length ord)) up e) w ++ es) (w :: ord) (if e =? NIL then ta else upd ta w e) F' kd'.
Proof.
  intros Rm Rm2 D I Pw Uw V D1. set (DFI := 1 + Z.of_nat (length ord)) in *. set (gd1 := gvisit gd w DFI up e) in *.
  destruct (setup_ok gd g es' es ord ta r F kd w up e D I Pw Uw V) as (gs & Ev & Su). fold DFI in Ev, Su. rewrite Ev. clear Ev.
  destruct Su as [Sfr Svf Six Spar Sstk Sty0 Sty1 Slnk Skids Svirt Sla].
  destruct (gvisit_fields gd w DFI up e) as (Gvf & Gix & Gpar). fold gd1 in Gvf, Gix, Gpar.
  assert (Fa := fresh_arc gd g es' ord ta r F kd w). assert (Fa' := fun x => Fa x D I Uw). clear Fa.
  assert (Wo : ~ In w ord) by (intros Q; apply (di_ord _ _ _ _ _ _ _ D) in Q; destruct Q; congruence).
  assert (Vg : forall x, visited gd1 x = (x =? w) || visited gd x).
  { intros x. rewrite <- (visited_mark gd w DFI up x). unfold visited. rewrite Gvf. reflexivity. }
  assert (Vs : forall x, visited gs x = (x =? w) || visited gd x).
  { intros x. rewrite <- Vg. unfold visited. now rewrite Svf, Gvf. }
  assert (Nde : NoDup es') by apply D.
  assert (Ees : e <> NIL -> es' = e :: es /\ up = src g0 e /\ enbr g0 e = w /\ In e (adj up) /\ In (twin e) (adj w) /\ visited gd up = true).
  { intros Ne. destruct V as [(E & E1 & E2)|(E & E1 & E2 & E3)]; [|congruence].
    destruct (di_es_arc _ _ _ _ _ _ _ D e) as (B1 & B2 & B3); [rewrite E; now left|]. destruct (arc_twin g0 adj R0 _ _ B1) as (_ & B4 & B5 & B6). subst up w. auto 10. }
  assert (Eno : e = NIL -> es' = [] /\ es = []).
  { intros En. destruct V as [(E & E1 & E2)|(E & E1 & E2 & E3)]; [|auto]. exfalso.
    destruct (di_es_arc _ _ _ _ _ _ _ D e) as (B1 & _); [rewrite E; now left|]. now apply (ch_nonnil _ _ _ _ (rep_chains _ _ R0) B1). }
  assert (Sub : forall x, In x es -> In x es' /\ x <> e /\ visited gd (src g0 x) = true /\ In x (adj (src g0 x)) /\ src g0 x <> w).
  { intros x Hx. destruct (Z.eq_dec e NIL) as [En|En]; [destruct (Eno En) as [_ E]; rewrite E in Hx; destruct Hx|].
    destruct (Ees En) as (E & _). assert (Hx' : In x es') by (rewrite E; now right). destruct (di_es_arc _ _ _ _ _ _ _ D x Hx') as (B1 & B2 & B3).
    split; [auto|]. split; [|split; [auto|split; [auto|congruence]]]. rewrite E in Nde. inversion Nde. congruence. }
  assert (Sup : forall x, In x es' -> x <> e -> In x es).
  { intros x Hx Nx. destruct (Z.eq_dec e NIL) as [En|En]; [destruct (Eno En) as [E _]; rewrite E in Hx; destruct Hx|]. destruct (Ees En) as (E & _). rewrite E in Hx. destruct Hx; congruence. }
  (* types at w in gs *)
  assert (Tw : forall x, In x (adj w) -> etype gs x = (if negb (e =? NIL) && (x =? twin e) then EDGE_TYPE_PARENT else 0) /\ etype gs (twin x) = (if negb (e =? NIL) && (x =? twin e) then EDGE_TYPE_CHILD else 0)).
  { intros x Hx. destruct (Fa' x Hx) as (_ & _ & Q3 & Q4 & Q5 & _). destruct (Z.eqb_spec e NIL) as [En|En]; cbn [negb andb].
    - rewrite !(Sty0 En). auto.
    - rewrite !(Sty1 En). destruct (Ees En) as (E & _). assert (Nx : x <> e) by (intros ->; apply Q5; rewrite E; now left).
      rewrite (eqb_false_neq (twin x) (twin e)) by (intros Q; apply Nx; now apply tw_inj).
      rewrite (eqb_false_neq x e) by exact Nx. rewrite Q3, Q4.
      destruct (Z.eqb_spec x (twin e)) as [->|Nt]; [rewrite tw_tw, Z.eqb_refl; auto|].
      rewrite (eqb_false_neq (twin x) e); [auto|]. intros Q. apply Nt. now rewrite <- Q, tw_tw. }
  assert (Bk : forall x, In x (adj w) -> bk g0 gs x = true <-> In (twin x) es).
  { intros x Hx. unfold bk. rewrite Vs. rewrite (eqb_false_neq (enbr g0 x) w) by (apply (proj1 Sm _ _ Hx)). cbn [orb].
    destruct (Tw x Hx) as [T1 _]. destruct (Fa' x Hx) as (_ & _ & _ & _ & _ & Q6). rewrite T1. split.
    - intros Q. apply andb_true_iff in Q. destruct Q as [Q Q']. apply Q6 in Q. apply Sup; [exact Q|]. intros Qe.
      destruct (Z.eqb_spec e NIL) as [En|En]; [destruct (Eno En) as [E _]; rewrite E in Q; destruct Q|].
      cbn [negb andb] in Q'. rewrite <- Qe, tw_tw, Z.eqb_refl in Q'. discriminate.
    - intros Q. destruct (Sub _ Q) as (Q1 & Q2 & _). apply andb_true_iff. split; [apply Q6, Q1|].
      destruct (Z.eqb_spec x (twin e)) as [->|]; [rewrite tw_tw in Q2; congruence|]. rewrite andb_false_r. reflexivity. }
  (* types in gs away from the scan *)
  assert (Gd1 : forall x, etype gd1 x = if e =? NIL then etype gd x else if x =? twin e then EDGE_TYPE_PARENT else if x =? e then EDGE_TYPE_CHILD else etype gd x).
  { intros x. unfold gd1, gvisit. destruct (Z.eqb_spec e NIL) as [En|En]; [reflexivity|]. destruct (Ees En) as (_ & _ & _ & _ & B & _).
    destruct (Fa' _ B) as (T2 & T1 & _). rewrite tw_tw in T1. apply (etype_mark (mark_vertex gd w DFI up)); auto. }
  assert (Gtf : forall u x, In x (adj u) -> In x es -> visited gd (enbr g0 x) = true -> etype gs x = EDGE_TYPE_FORWARD /\ etype gs (twin x) = EDGE_TYPE_BACK).
  { intros u x Hx He Hv. destruct (Sub _ He) as (Q1 & Q2 & Q3 & Q4 & Q5). destruct (ir_tf _ _ _ _ _ _ _ _ _ I u x Hx Q1 Hv) as [T1 T2].
    destruct (Z.eqb_spec e NIL) as [En|En]; [rewrite !(Sty0 En); auto|]. rewrite !(Sty1 En). destruct (Ees En) as (E & _ & En' & _ & B & _).
    assert (Nx : x <> twin e). { intros ->. destruct (Fa' _ B) as (_ & _ & _ & _ & Q & _). contradiction. }
    rewrite (eqb_false_neq x (twin e)), (eqb_false_neq x e), (eqb_false_neq (twin x) (twin e)), (eqb_false_neq (twin x) e); auto.
    - intros Q. apply Nx. now rewrite <- Q, tw_tw.
    - intros Q. apply Q2. now apply tw_inj. }
  assert (Gto : forall u x, In x (adj u) -> ~ (In x es /\ visited gd (enbr g0 x) = true) -> ~ (In (twin x) es /\ visited gd u = true) -> etype gs x = etype gd1 x).
  { intros u x Hx H1 H2. rewrite Gd1. destruct (Z.eqb_spec e NIL) as [En|En].
    - rewrite (Sty0 En). destruct (Eno En) as [E _]. apply (ir_to _ _ _ _ _ _ _ _ _ I u x Hx); rewrite E; cbn; tauto.
    - rewrite (Sty1 En). destruct (Z.eqb_spec x (twin e)) as [|N1]; [reflexivity|]. destruct (Z.eqb_spec x e) as [|N2]; [reflexivity|].
      apply (ir_to _ _ _ _ _ _ _ _ _ I u x Hx).
      + intros [Q Q']. apply H1. split; [now apply Sup|auto].
      + intros [Q Q']. apply H2. split; [apply Sup; [auto|]|auto]. intros Qe. apply N1. now rewrite <- Qe, tw_tw. }
  pose proof (ir_fr _ _ _ _ _ _ _ _ _ I) as Fr.
  assert (Idx : forall v, v <> w -> vindex gd1 v = vindex gd v) by (intros v Nv; rewrite Gix; now apply upd_other).
  assert (Iw : vindex gd1 w = DFI) by (rewrite Gix; apply upd_same).
  assert (Par : forall v, v <> w -> par gd1 v = par gd v) by (intros v Nv; unfold par; rewrite Gpar; now apply upd_other).
  assert (Pw1 : par gd1 w = up) by (unfold par; rewrite Gpar; apply upd_same).
  (* forward arcs lead to visited vertices *)
  assert (Fw : forall u f, In f (F u) -> enbr g0 f <> w).
  { intros u f Hf Q. apply (lk_in _ _ _ _ (ir_lnk _ _ _ _ _ _ _ _ _ I)) in Hf. destruct Hf as [Hf Tf]. destruct (arc_twin g0 adj R0 _ _ Hf) as (_ & B & B5 & _). rewrite Q in B.
    destruct (Fa' _ B) as (_ & _ & _ & T & _). rewrite tw_tw in T. rewrite Tf in T. discriminate. }
  assert (Fo : forall u f, In f (F u) -> In (enbr g0 f) ord).
  { intros u f Hf. pose proof Hf as Hf'. apply (lk_in _ _ _ _ (ir_lnk _ _ _ _ _ _ _ _ _ I)) in Hf. destruct Hf as [Hf Tf]. destruct (arc_twin g0 adj R0 _ _ Hf) as (_ & B & B5 & B6).
    apply (di_ord _ _ _ _ _ _ _ D). split; [apply (arc_primary g0 adj R0 P0 _ _ Hf)|]. destruct (visited gd (enbr g0 f)) eqn:Q; [reflexivity|].
    destruct (fresh_arc gd g es' ord ta r F kd _ _ D I Q B) as (_ & _ & _ & T & _). rewrite tw_tw in T. rewrite Tf in T. discriminate. }
  assert (Ca : al adj gs w = adj w).
  { unfold al. apply filter_true. intros x Hx. destruct (Tw x Hx) as [T _]. rewrite T. destruct (negb (e =? NIL) && (x =? twin e)); reflexivity. }
  assert (EN := if_N _ _ Sfr).
  assert (Hf : gp_GetFirstArc gs w = Ret (hd NIL (adj w))).
  { rewrite get_first by (apply (prim_inV g0); auto). f_equal. rewrite <- Ca.
    pose proof (ch_first _ _ (lk_ch _ _ _ _ Slnk) w) as Q. rewrite <- Q.
    - unfold view. gsimp. destruct Pw. rewrite EN. destruct (w <=? gN g0) eqn:Q'; [reflexivity|lia].
    - destruct Pw. unfold is_vertex, view; gsimp. lia. }
  rewrite Hf. cbn [bind]. clear Hf.
  assert (So : forall v, StronglySorted (fun a b => vindex gd1 (enbr g0 a) < vindex gd1 (enbr g0 b)) (F v)).
  { intros v. pose proof (ir_srt _ _ _ _ _ _ _ _ _ I v) as Q. pose proof (Fw v) as Q'. induction Q as [|a l Hl IHl Ha]; constructor.
    - apply IHl. intros f Hf. apply Q'. now right.
    - rewrite Forall_forall in *. intros b Hb. rewrite !Idx; [apply Ha, Hb| |]; apply Q'; [now right|now left]. }
  assert (Ixs : vindex gs = vindex gd1) by (now rewrite Six, Gix).
  destruct (arcs_loop_ok g0 adj R0 P0 Sm gs w F (if_N _ _ Sfr) (if_cap _ _ Sfr) (if_enbr _ _ Sfr) Slnk Pw) with (l := adj w) (done := @nil Z) (n := efuel gs) (g := gs) (F := F) as (g' & F' & E' & M).
  - intros v f Hv. rewrite Ixs, Iw, Idx by (apply (Fw v), Hv). pose proof (ord_idx_range _ _ _ (di_idx _ _ _ _ _ _ _ D) (Fo _ _ Hv)). unfold DFI. lia.
  - intros x Hx. rewrite (proj1 (Tw x Hx)). destruct (negb (e =? NIL) && (x =? twin e)); discriminate.
  - intros x Hx Hb. apply (Bk x Hx) in Hb. destruct (Tw x Hx) as [T1 T2]. rewrite T1, T2.
    destruct (Z.eqb_spec x (twin e)) as [->|]; [rewrite tw_tw in Hb; destruct (Sub _ Hb) as (_ & Q & _); congruence|]. rewrite andb_false_r. auto.
  - reflexivity.
  - unfold efuel, gp_EdgeIndexBound. rewrite (if_cap _ _ Sfr). apply (adj_len g0 adj w (rep_chains _ _ R0)).
  - constructor; auto.
    + apply mframe_refl.
    + intros x [].
    + intros v. unfold fsorted. rewrite Ixs. apply So.
    + lia.
    + intros x [].
  - rewrite Sstk, flat_length, (if_stackCap _ _ Sfr). destruct (dinv_len g0 adj R0 _ _ _ _ _ D1) as [L _]. unfold newarcs in L. rewrite app_length, rev_length in L.
    rewrite (filter_ext (fun e0 => negb (visited gs (enbr g0 e0))) (fun e0 => negb (visited gd1 (enbr g0 e0)))) by (intros x; now rewrite Vs, Vg). lia.
  - exists g', F', (if e =? NIL then kd else upd kd up (kd up ++ [DFI])). split; [exact E'|].
    destruct M as [Mfr Mstk Mty1 Mty2 Mlnk Msort Mla Mlau Mlab Mlax].
    assert (Ty1 : forall x, In x (adj w) -> In (twin x) es -> etype g' x = EDGE_TYPE_BACK /\ etype g' (twin x) = EDGE_TYPE_FORWARD) by (intros x Hx Q; apply Mty1; [auto|now apply Bk]).
    assert (Ty2 : forall x, ~ (In x (adj w) /\ In (twin x) es) -> ~ (In (twin x) (adj w) /\ In x es) -> etype g' x = etype gs x).
    { intros x H1 H2. apply Mty2.
      - intros [Q Q']. apply H1. split; [auto|now apply Bk].
      - intros [Q Q']. apply H2. split; [auto|]. rewrite <- (tw_tw x). now apply Bk. }
    constructor.
    + destruct Sfr, Mfr. constructor; try congruence.
      * rewrite mf_VI. exact if_pe.
      * rewrite mf_VI. exact if_pr.
      * rewrite mf_VI. exact if_vv.
      * rewrite mf_VI. exact if_fpc.
    + rewrite (mf_vflags _ _ _ Mfr). congruence.
    + rewrite (mf_vindex _ _ _ Mfr). congruence.
    + rewrite (mf_VI _ _ _ Mfr). gsimp. congruence.
    + rewrite Mstk, Sstk, flat_app. f_equal. unfold newarcs. do 2 f_equal. apply filter_ext. intros x. now rewrite Vs, Vg.
    + intros u x Hx He Hv. apply in_app_iff in He. destruct He as [He|He].
      { unfold newarcs in He. apply in_rev in He. apply filter_In in He. destruct He as [_ He]. rewrite Hv in He. discriminate. }
      destruct (arc_twin g0 adj R0 _ _ Hx) as (B0 & B4 & B5 & B6). destruct (Sub _ He) as (Q1 & Q2 & Q3 & Q4 & Q5). rewrite B0 in *.
      destruct (Z.eq_dec (enbr g0 x) w) as [Ew|Nw].
      * rewrite Ew in B4. destruct (Ty1 (twin x) B4) as [T1 T2]; [now rewrite B5|]. rewrite B5 in T2. auto.
      * rewrite Vg, (eqb_false_neq _ _ Nw) in Hv. cbn [orb] in Hv. destruct (Gtf u x Hx He Hv) as [T1 T2]. rewrite <- T1, <- T2.
        assert (Z1 : ~ In x (adj w)) by (intros Q; apply Q5; apply (adj_disj g0 adj R0 _ _ _ Hx Q)).
        assert (Z2 : ~ In (twin x) (adj w)) by (intros Q; apply Nw; apply (adj_disj g0 adj R0 _ _ _ B4 Q)).
        split; apply Ty2; rewrite ?B5; tauto.
    + intros u x Hx H1 H2. destruct (arc_twin g0 adj R0 _ _ Hx) as (B0 & B4 & B5 & B6).
      rewrite Ty2.
      * apply (Gto u x Hx).
        -- intros [Q Q']. apply H1. split; [apply in_app_iff; now right|]. rewrite Vg, Q'. apply orb_true_r.
        -- intros [Q Q']. apply H2. split; [apply in_app_iff; now right|]. rewrite Vg, Q'. apply orb_true_r.
      * intros [Q Q']. apply H2. split; [apply in_app_iff; now right|]. rewrite Vg, (adj_disj g0 adj R0 _ _ _ Hx Q), Z.eqb_refl. reflexivity.
      * intros [Q Q']. apply H1. split; [apply in_app_iff; now right|]. rewrite Vg, (adj_disj g0 adj R0 _ _ _ B4 Q), Z.eqb_refl. reflexivity.
    + exact Mlnk.
    + intros v. rewrite <- Ixs. apply Msort.
    + replace (sdl g') with (sdl gs) by (unfold sdl, gp_PrimaryVertexIndexBound; now rewrite (mf_N _ _ _ Mfr), (mf_X _ _ _ Mfr)).
      replace (sdcheads g') with (sdcheads gs) by (unfold sdcheads; rewrite (mf_N _ _ _ Mfr), (mf_VI _ _ _ Mfr); reflexivity). exact Skids.
    + intros u c. assert (Old : In c (kd u) <-> exists v, In v ord /\ vindex gd1 v = c /\ par gd1 v = u /\ u <> NIL).
      { rewrite (ir_kid _ _ _ _ _ _ _ _ _ I). split; intros (v & H1 & H2 & H3 & H4); exists v; assert (v <> w) by congruence; rewrite Idx, Par in * by auto; auto. }
      destruct (Z.eqb_spec e NIL) as [En|En].
      * rewrite Old. split; intros (v & H1 & H2 & H3 & H4); exists v; [split; [now right|auto]|]. destruct H1 as [<-|H1]; [|auto]. exfalso.
        destruct V as [(E & _)|(_ & _ & E & _)]; [destruct (Eno En) as [E1 _]; congruence|]. congruence.
      * destruct (Ees En) as (E & E1 & E2 & B1 & B2 & B3). destruct (arc_primary g0 adj R0 P0 _ _ B1) as [Pp _].
        unfold upd. destruct (Z.eqb_spec u up) as [->|Nu].
        -- rewrite in_app_iff, Old. split.
           ++ intros [(v & H1 & H2)|[<-|[]]]; [exists v; split; [now right|auto]|]. exists w. split; [now left|]. split; [exact Iw|]. split; [exact Pw1|]. destruct Pp. unfold NIL. lia.
           ++ intros (v & [<-|H1] & H2); [right; left; destruct H2; congruence|]. left. exists v. auto.
        -- rewrite Old. split; intros (v & H1 & H2 & H3 & H4); exists v; [split; [now right|auto]|]. destruct H1 as [<-|H1]; [congruence|auto].
    + intros u. destruct (Z.eqb_spec e NIL) as [En|En]; [apply (ir_ksort _ _ _ _ _ _ _ _ _ I)|]. unfold upd. destruct (Z.eqb_spec u up) as [->|Nu]; [|apply (ir_ksort _ _ _ _ _ _ _ _ _ I)].
      apply sort_snoc; [apply (ir_ksort _ _ _ _ _ _ _ _ _ I)|]. apply Forall_forall. intros c Hc. apply (ir_kid _ _ _ _ _ _ _ _ _ I) in Hc. destruct Hc as (v & H1 & <- & _).
      pose proof (ord_idx_range _ _ _ (di_idx _ _ _ _ _ _ _ D) H1). unfold DFI. lia.
    + intros v Hv Hp. assert (Hx : gN g0 < vindex gd1 v + gN g0) by (pose proof (ord_idx_range _ _ _ (di_idx _ _ _ _ _ _ _ D1) Hv); lia).
      destruct (mf_virt _ _ _ Mfr _ Hx) as [-> ->]. destruct (Svirt _ Hx) as [-> ->]. destruct Hv as [<-|Hv].
      * rewrite Pw1 in Hp. assert (En : e <> NIL) by (intros En; destruct V as [(E & _)|(_ & _ & E & _)]; [destruct (Eno En) as [E1 _]; congruence|congruence]).
        rewrite (eqb_false_neq _ _ En), Iw, Z.eqb_refl, upd_same. auto.
      * assert (Nv : v <> w) by congruence. rewrite Idx by auto. rewrite Par in Hp by auto. pose proof (ord_idx_range _ _ _ (di_idx _ _ _ _ _ _ _ D) Hv) as Hr.
        rewrite (eqb_false_neq (vindex gd v + gN g0) (DFI + gN g0)) by (unfold DFI; lia). rewrite andb_false_r.
        replace ((if e =? NIL then ta else upd ta w e) v) with (ta v) by (destruct (e =? NIL); [reflexivity|now rewrite upd_other]). apply (ir_vt1 _ _ _ _ _ _ _ _ _ I v Hv Hp).
    + intros x Hx Hn. destruct (mf_virt _ _ _ Mfr x (proj1 Hx)) as [-> ->]. destruct (Svirt _ (proj1 Hx)) as [-> ->].
      assert (Q : negb (e =? NIL) && (x =? DFI + gN g0) = false).
      { destruct (Z.eqb_spec e NIL) as [En|En]; [reflexivity|]. cbn [negb andb]. apply eqb_false_neq. rewrite <- Iw. apply Hn; [now left|]. rewrite Pw1.
        destruct (Ees En) as (_ & _ & _ & B & _). destruct (arc_primary g0 adj R0 P0 _ _ B) as [[] _]. unfold NIL. lia. }
      rewrite Q. apply (ir_vt2 _ _ _ _ _ _ _ _ _ I x Hx). intros v Hv Hp. assert (Nv : v <> w) by congruence. rewrite <- Idx by auto. apply Hn; [now right|]. now rewrite Par.
    + intros v [<-|Hv].
      * rewrite Iw. rewrite Sla, upd_same in Mlau. exact Mlau.
      * assert (Nv : v <> w) by congruence. rewrite Mla, Sla, upd_other, Idx by auto. apply (ir_la1 _ _ _ _ _ _ _ _ _ I v Hv).
    + intros v x [<-|Hv] Hx Ht.
      * rewrite <- Ixs. destruct (bk g0 gs x) eqn:Qb; [now apply Mlab|]. exfalso.
        assert (Nb : ~ In (twin x) es) by (intros Q; apply Bk in Q; [congruence|auto]).
        destruct (arc_twin g0 adj R0 _ _ Hx) as (B0 & B4 & B5 & B6).
        rewrite Ty2 in Ht; [|tauto|].
        -- rewrite (proj1 (Tw x Hx)) in Ht. destruct (negb (e =? NIL) && (x =? twin e)); discriminate.
        -- intros [Q _]. apply (proj1 Sm _ _ Hx). apply (adj_disj g0 adj R0 _ _ _ B4 Q).
      * assert (Nv : v <> w) by congruence. rewrite Mla, Sla, upd_other by auto. destruct (arc_twin g0 adj R0 _ _ Hx) as (B0 & B4 & B5 & B6).
        assert (Ht' : etype gs x = EDGE_TYPE_BACK).
        { rewrite <- Ty2; [exact Ht| |].
          - intros [Q _]. apply Nv. apply (adj_disj g0 adj R0 _ _ _ Hx Q).
          - intros [Q Q']. destruct (Ty1 _ Q) as [_ T]; [now rewrite B5|]. rewrite B5, Ht in T. discriminate. }
        assert (Ht2 : etype g x = EDGE_TYPE_BACK).
        { destruct (Z.eqb_spec e NIL) as [En|En]; [now rewrite <- (Sty0 En)|]. rewrite (Sty1 En) in Ht'. destruct (x =? twin e); [discriminate|]. destruct (x =? e); [discriminate|exact Ht']. }
        rewrite Idx; [apply (ir_la2 _ _ _ _ _ _ _ _ _ I v x Hv Hx Ht2)|]. intros Q. rewrite Q in B4. destruct (Fa' _ B4) as (_ & _ & _ & T & _). rewrite B5, Ht2 in T. discriminate.
    + intros v [<-|Hv].
      * rewrite Iw. destruct Mlax as [Q|(x & Hx & Hb & Q)]; [left; rewrite Q, Sla; apply upd_same|]. right. exists x. split; [exact Hx|].
        split; [apply (Mty1 x Hx Hb)|]. now rewrite Q, Ixs.
      * assert (Nv : v <> w) by congruence. rewrite Mla, Sla, upd_other, Idx by auto.
        destruct (ir_la3 _ _ _ _ _ _ _ _ _ I v Hv) as [Q|(x & Hx & Hb & Q)]; [now left|]. right. exists x. split; [exact Hx|].
        destruct (arc_twin g0 adj R0 _ _ Hx) as (B0 & B4 & B5 & B6).
        assert (Nx : enbr g0 x <> w) by (intros Q'; rewrite Q' in B4; destruct (Fa' _ B4) as (_ & _ & _ & T & _); rewrite B5, Hb in T; discriminate).
        split; [|now rewrite Idx].
        assert (Nw : ~ In x (adj w)) by (intros Q'; apply Nv, (adj_disj g0 adj R0 _ _ _ Hx Q')).
        assert (Nt : ~ In (twin x) (adj w)) by (intros Q'; apply Nx, (adj_disj g0 adj R0 _ _ _ B4 Q')).
        rewrite Ty2 by tauto. destruct (Z.eqb_spec e NIL) as [En|En]; [now rewrite (Sty0 En)|].
        destruct (Ees En) as (E & E1 & E2 & A1 & A2 & A3). rewrite (Sty1 En), !eqb_false_neq; [exact Hb|congruence|]. intros ->. auto.
Qed.

(** An arc popped after its end was visited: the search has nothing to do, the forest search marks it. *)
Lemma skip_ok gd g e es ord ta r F kd : dinv g0 gd adj (e :: es) ord ta r -> irel g0 adj gd g (e :: es) ord ta F kd -> visited gd (enbr g0 e) = true ->
  exists gd2, dinv g0 gd2 adj es ord ta r /\ irel g0 adj gd2 (set_gstack g (flat g0 es)) es ord ta F kd.
Proof.
  intros D I Uv. destruct (di_es_arc _ _ _ _ _ _ _ D e (or_introl eq_refl)) as (B1 & B2 & B3). pose proof (di_frame _ _ _ _ _ _ _ D) as Fr.
  destruct (arc_twin g0 adj R0 _ _ B1) as (_ & B4 & B5 & B6).
  assert (T : etype gd e = 0 /\ etype gd (twin e) = 0 /\ ~ In (twin e) (e :: es)).
  { destruct (di_edge _ _ _ _ _ _ _ D _ _ B1 B2) as [? ? ? ? A|? ? ? ? A|? ? ? ? A|? ? ? ? A|? ? ? ? A|? ? A]; try congruence; auto; exfalso; apply A; now left. }
  destruct T as (T1 & T2 & T3). set (gd2 := mark_edge gd e EDGE_TYPE_FORWARD EDGE_TYPE_BACK).
  assert (Te := fun x => etype_mark gd e EDGE_TYPE_FORWARD EDGE_TYPE_BACK x eq_refl eq_refl T1 T2). fold gd2 in Te.
  assert (Nt : twin e <> e) by apply twin_neq.
  exists gd2. split.
  - apply (pop_step g0 adj R0 gd _ e es ord ta r D Uv); auto.
    + apply frame_mark_edge; auto.
    + rewrite Te. rewrite (eqb_false_neq e (twin e)) by auto. now rewrite Z.eqb_refl.
    + rewrite Te. now rewrite Z.eqb_refl.
    + intros x N1 N2. rewrite Te. now rewrite (eqb_false_neq x (twin e)), (eqb_false_neq x e) by auto.
  - pose proof (di_es_nodup _ _ _ _ _ _ _ D) as Nd. inversion Nd as [|? ? Ne Nd']; subst.
    destruct (ir_tf _ _ _ _ _ _ _ _ _ I _ e B1 (or_introl eq_refl) Uv) as [U1 U2]. destruct I. constructor; auto.
    + destruct ir_fr; constructor; auto.
    + intros u x Hx He Hv. apply (ir_tf u x Hx); [now right|exact Hv].
    + intros u x Hx H1 H2. rewrite Te. change (etype g x = (if x =? twin e then EDGE_TYPE_BACK else if x =? e then EDGE_TYPE_FORWARD else etype gd x)).
      destruct (Z.eqb_spec x (twin e)) as [->|N1]; [exact U2|]. destruct (Z.eqb_spec x e) as [->|N2]; [exact U1|].
      apply (ir_to u x Hx).
      * intros [[Q|Q] Q']; [congruence|]. apply H1. auto.
      * intros [[Q|Q] Q']; [|apply H2; auto]. apply N1. now rewrite Q, tw_tw.
    + apply (lnk_same g0 adj g); auto.
Qed.

Hypotheses (Cap0 : 0 <= gCap g0) (Room : 2 * gCap g0 <= gstackCap g0) (Room2 : 2 <= gstackCap g0).

Lemma etree_loop_ok v : forall n gd g es ord ta r F kd, dinv g0 gd adj es ord ta r -> irel g0 adj gd g es ord ta F kd -> dmeas g0 es ord < Z.of_nat n ->
  exists gd' g' ord' ta' F' kd', einit_tree_loop n g (1 + Z.of_nat (length ord)) v = Ret (g', 1 + Z.of_nat (length ord')) /\
    dinv g0 gd' adj [] ord' ta' r /\ irel g0 adj gd' g' [] ord' ta' F' kd' /\ incl ord ord'.
Proof.
  induction n as [|n IH]; intros gd g es ord ta r F kd D I Hm.
  { destruct (dinv_len g0 adj R0 _ _ _ _ _ D). unfold dmeas in Hm. nia. }
  rewrite etree_unfold. unfold stk_empty. pose proof (ir_stk _ _ _ _ _ _ _ _ _ I) as S'. rewrite S'.
  destruct es as [|e es].
  - cbn [flat flat_map]. exists gd, g, ord, ta, F, kd. auto using incl_refl.
  - change (flat g0 (e :: es)) with (e :: src g0 e :: flat g0 es) in *. cbv beta iota.
    rewrite (DFSP.pop2_ok _ _ _ _ S'). cbn [bind].
    destruct (di_es_arc _ _ _ _ _ _ _ D e (or_introl eq_refl)) as (B1 & B2 & B3).
    destruct (arc_primary g0 adj R0 P0 _ _ B1) as [Ps Pn].
    rewrite (eqb_false_neq (src g0 e) NIL) by (destruct Ps; unfold NIL; lia).
    pose proof (ir_fr _ _ _ _ _ _ _ _ _ I) as Fr.
    assert (Ie : inE (set_gstack g (flat g0 es)) e = true) by (apply (arc_inE g0 adj R0 _ (src g0 e)); [apply Fr|auto]).
    rewrite (get_nbr _ _ Ie). cbn [bind]. gsimp. rewrite (if_enbr _ _ Fr).
    destruct (prim_inV g0 (set_gstack g (flat g0 es)) (enbr g0 e)) as [Iv Ii]; [apply Fr|auto|].
    rewrite (get_visited _ _ Iv). cbn [bind]. gsimp. rewrite (ir_vf _ _ _ _ _ _ _ _ _ I).
    assert (Ev : (Z.land (vflags gd (enbr g0 e)) VERTEX_VISITED_MASK =? 0) = negb (visited gd (enbr g0 e))) by (unfold visited; now rewrite negb_involutive).
    rewrite Ev. destruct (visited gd (enbr g0 e)) eqn:Uv; cbn [negb].
    + destruct (skip_ok _ _ _ _ _ _ _ _ _ D I Uv) as (gd2 & D2 & I2). apply (IH _ _ _ _ _ _ _ _ D2 I2). unfold dmeas in *. cbn [length] in Hm. lia.
    + pose proof (ghost_visit g0 adj R0 P0 gd (e :: es) es ord ta r (enbr g0 e) (src g0 e) e D Pn Uv ltac:(left; auto)) as D1. cbv zeta in D1.
      destruct (visit_ok gd g (e :: es) es ord ta r F kd (enbr g0 e) (src g0 e) e Room Room2 D I Pn Uv ltac:(left; auto) D1) as (g' & F' & kd' & E' & I').
      rewrite E'. cbn [bind].
      rewrite (eqb_false_neq e NIL) in D1, I' by (apply (ch_nonnil _ _ _ _ (rep_chains _ _ R0) B1)).
      replace (1 + Z.of_nat (length ord) + 1) with (1 + Z.of_nat (length (enbr g0 e :: ord))) by (cbn [length]; lia).
      destruct (IH _ _ _ _ _ _ _ _ D1 I') as (gd2 & g2 & ord2 & ta2 & F2 & kd2 & E2 & D2 & I2 & Inc).
      * destruct (dinv_len g0 adj R0 _ _ _ _ _ D1) as [L1 L2]. unfold dmeas in *. cbn [length] in *. nia.
      * exists gd2, g2, ord2, ta2, F2, kd2. do 3 (split; [assumption|]). intros x Hx. apply Inc. now right.
Qed.

Lemma eforest_loop_ok : forall n gd g ord ta v F kd, dinv g0 gd adj [] ord ta (v - 1) -> irel g0 adj gd g [] ord ta F kd -> 1 <= v <= gN g0 + 1 ->
  (forall x, 1 <= x < v -> visited gd x = true) -> gN g0 + 1 - v < Z.of_nat n ->
  exists gd' g' ord' ta' F' kd', einit_forest_loop n g (1 + Z.of_nat (length ord)) v = Ret g' /\
    dinv g0 gd' adj [] ord' ta' (gN g0) /\ irel g0 adj gd' g' [] ord' ta' F' kd' /\ Z.of_nat (length ord') = gN g0.
Proof.
  induction n as [|n IH]; intros gd g ord ta v F kd D I Hv Hvis Hn; [lia|]. cbn [einit_forest_loop].
  pose proof (ir_fr _ _ _ _ _ _ _ _ _ I) as Fr. rewrite (if_N _ _ Fr).
  destruct (dinv_len g0 adj R0 _ _ _ _ _ D) as [_ L].
  destruct (1 + Z.of_nat (length ord) <=? gN g0) eqn:EL; [apply Z.leb_le in EL|apply Z.leb_gt in EL].
  - assert (Pv : primary g0 v).
    { split; [lia|]. destruct (Z.eq_dec v (gN g0 + 1)) as [->|]; [|lia]. exfalso.
      assert (Hl : (length (map (fun i : nat => (Z.of_nat i + 1)%Z) (seq 0 (Z.to_nat (gN g0)))) <= length ord)%nat).
      { apply NoDup_incl_length.
        - apply FinFun.Injective_map_NoDup; [intros a b; lia|apply seq_NoDup].
        - intros x Hx. apply in_map_iff in Hx. destruct Hx as (i & <- & Hi). apply in_seq in Hi.
          apply (di_ord _ _ _ _ _ _ _ D). split; [split; lia|apply Hvis; lia]. }
      rewrite map_length, seq_length in Hl. lia. }
    destruct (prim_inV g0 g v) as [Iv Ii]; [apply Fr|auto|].
    unfold gp_GetVertexParent, rd_vi. rewrite guard_true by exact Ii. cbn [bind]. rewrite (ir_par _ _ _ _ _ _ _ _ _ I). fold (par gd v).
    destruct (par gd v =? NIL) eqn:Ep; cbn [negb].
    + apply Z.eqb_eq in Ep.
      assert (Uv : visited gd v = false).
      { destruct (visited gd v) eqn:E; [|auto]. assert (Hin : In v ord) by (apply (di_ord _ _ _ _ _ _ _ D); auto).
        pose proof (di_rt _ _ _ _ _ _ _ D v Hin Ep). lia. }
      pose proof (ir_stk _ _ _ _ _ _ _ _ _ I) as S'. change (flat g0 []) with (@nil Z) in S'.
      rewrite DFSP.push2_ok by (rewrite S', (if_stackCap _ _ Fr); cbn [length]; lia). cbn [bind].
      unfold tfuel. rewrite etree_unfold. unfold stk_empty. gsimp. cbv beta iota.
      rewrite (DFSP.pop2_ok _ NIL NIL (gstack g)) by reflexivity. cbn [bind]. rewrite Z.eqb_refl. cbn [bind].
      gsimp. change (set_gstack (set_gstack g (NIL :: NIL :: gstack g)) (gstack g)) with (set_gstack g (gstack g)).
      rewrite get_visited by exact Iv. cbn [bind]. gsimp.
      assert (Ev : (Z.land (vflags g v) VERTEX_VISITED_MASK =? 0) = true).
      { rewrite (ir_vf _ _ _ _ _ _ _ _ _ I). unfold visited in Uv. destruct (Z.land (vflags gd v) VERTEX_VISITED_MASK =? 0); [auto|discriminate]. }
      rewrite Ev. rewrite S'. change (@nil Z) with (flat g0 []) at 1.
      pose proof (ghost_visit g0 adj R0 P0 gd [] [] ord ta (v - 1) v NIL NIL D Pv Uv ltac:(right; repeat split; auto; lia)) as D1. cbv zeta in D1.
      destruct (visit_ok gd g [] [] ord ta (v - 1) F kd v NIL NIL Room Room2 D I Pv Uv ltac:(right; auto) D1) as (g' & F' & kd' & E' & I').
      rewrite E'. cbn [bind]. rewrite Z.eqb_refl in D1, I'.
      rewrite app_nil_r in D1, I'.
      replace (1 + Z.of_nat (length ord) + 1) with (1 + Z.of_nat (length (v :: ord))) by (cbn [length]; lia).
      match goal with |- context [einit_tree_loop ?m g' _ v] => set (fu := m); destruct (etree_loop_ok v fu _ _ _ _ _ _ _ _ D1 I') as (gd2 & g2 & ord2 & ta2 & F2 & kd2 & E2 & D2 & I2 & Inc) end.
      * destruct (dinv_len g0 adj R0 _ _ _ _ _ D1) as [L1 L2]. unfold dmeas, fu. cbn [length] in *. unfold gp_EdgeIndexBound. gsimp.
        rewrite (if_N _ _ Fr), (if_cap _ _ Fr). rewrite Nat2Z.inj_mul, !Nat2Z.inj_succ, !Z2Nat.id by lia. nia.
      * rewrite E2. cbn [bind]. apply (IH gd2 g2 ord2 ta2 (v + 1) F2 kd2); auto.
        -- replace (v + 1 - 1) with v by lia. exact D2.
        -- destruct Pv. lia.
        -- intros x Hx. apply (di_ord _ _ _ _ _ _ _ D2). apply Inc.
           destruct (Z.eq_dec x v) as [->|]; [now left|]. right. apply (di_ord _ _ _ _ _ _ _ D).
           destruct Pv. split; [split; lia|]. apply Hvis; lia.
        -- lia.
    + apply Z.eqb_neq in Ep. apply (IH gd g ord ta (v + 1) F kd); auto; try lia.
      * replace (v + 1 - 1) with v by lia. destruct D; constructor; auto. intros x Hx Hp. pose proof (di_rt x Hx Hp). lia.
      * destruct Pv. lia.
      * intros x Hx. destruct (Z.eq_dec x v) as [->|]; [|apply Hvis; lia].
        destruct (visited gd v) eqn:E; [auto|]. exfalso. apply Ep. now apply (di_par_un _ _ _ _ _ _ _ D).
  - exists gd, g, ord, ta, F, kd. split; [reflexivity|]. split; [|split; [auto|lia]].
    destruct D; constructor; auto. intros x Hx Hp. apply di_ord in Hx. destruct Hx as [[] _]. lia.
Qed.
End Init.
