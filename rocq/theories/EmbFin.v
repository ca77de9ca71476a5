(** * EmbFin: from the end of the main loop of the embedder to the joined planar embedding. *)
From Coq Require Import ZifyBool Permutation Sorted.
From Verif Require Import Base BaseP GraphRec GraphM GraphSpec GSimp LinkP GraphP GraphP2 ListM ListSpec ListP DFSM DFSSpec DFSP TestM TestSpec GraphP3 TestP TestP2 TestP3 EmbM EmbSpec EmbP EmbP2 EmbP3 FaceP GeoP GeoP2 EmbInv EmbStep EmbTree EmbWalk EmbUp EmbJoin EmbDown EmbDown2 EmbDown3 EmbDown4 EmbLoop EmbOrient EmbEuler EmbC4 IsoP1 IsoP4 IsoT IsoB IsoKV.
From Verif Require Export EmbStor.

Section Fin.
Variables (g0 : graph) (kids : Z -> list Z).
Hypothesis St : static g0 kids.
Local Notation N := (gN g0).
Local Notation p := (viParent (gVI g0)).
Local Notation prim := (prim (gN g0)).
Local Notation isroot := (isroot (gN g0)).
Local Notation geo := (geo (gN g0) (viParent (gVI g0))).
Local Notation act := (act g0).
Local Notation fsim := (fsim g0).
Local Notation rp := (rp g0).
Local Notation pof := (pof g0).
Local Notation sedge := (sedge g0).
Local Notation stor := (stor g0).

Lemma isroot_act s R : geo NIL [] s -> isroot R -> adj s R <> [] -> exists c, R = N + c /\ act s c.
Proof.
  intros G HR Na. exists (R - N). assert (Pc : prim (R - N)) by (unfold GeoP.isroot, GeoP.prim in *; lia). split; [lia|]. split; [auto|].
  assert (E : N + (R - N) = R) by lia. split; [|now rewrite E]. intros E0. destruct (g_B0 _ _ _ (g_base _ _ _ _ _ G) _ Pc E0) as (_ & _ & Q). rewrite E in Q. contradiction.
Qed.
Lemma orient_roots g a n : rp g a [] -> geo NIL [] (eV a) ->
  exists V, rp g (set_V a V) [] /\ fsim (eV a) V /\ geo NIL [] V /\ forall c, 1 <= c <= Z.of_nat n -> act V c -> o V (N + c) = false.
Proof.
  intros H G. induction n as [|n (V & H1 & F1 & G1 & O1)].
  - exists (eV a). split; [destruct a; exact H|]. split; [apply fsim_refl|]. split; [auto|]. intros c Hc. lia.
  - destruct (act_dec g0 V (Z.of_nat (S n))) as [A|A].
    + destruct (orient g0 (set_V a V) [] g (Z.of_nat (S n)) (N + Z.of_nat (S n)) false H1 G1 A) as (V2 & H2 & F2 & G2 & E2 & O2 & _); [now left|].
      exists V2. split; [exact H2|]. split; [eapply fsim_trans; eauto|]. split; [auto|]. intros c Hc Ac. destruct (Z.eq_dec c (Z.of_nat (S n))) as [->|Ne]; [auto|].
      rewrite O2; [|cbn [set_V eV]; intros [Q|Q]; [lia|]; unfold GeoP.mem in Q; apply filter_In in Q; destruct Q as [Q _]; apply in_zrange in Q; destruct A as [A _]; destruct Ac as [Ac _]; unfold GeoP.prim in *; lia].
      apply O1; [lia|]. apply (fsim_act g0 V V2 c F2). exact Ac.
    + exists V. split; [auto|]. split; [auto|]. split; [auto|]. intros c Hc Ac. destruct (Z.eq_dec c (Z.of_nat (S n))) as [->|Ne]; [contradiction|]. apply O1; [lia|auto].
Qed.

(** What is known of the finished graph, in terms of the partial embedding before the main loop. *)
Record embedded (a : est) (h : graph) (A : Z -> list Z) : Prop := {
  em_keeps : keeps g0 h;
  em_rep : rep h A; em_euler : euler h A; em_roots : one_root_each h A;
  em_outer : opl g0 = true -> all_outer h A;
  em_arcs : forall e, (exists v, In e (A v)) <-> arc a e;
  em_virt : forall v, N < v -> A v = [];
  em_nbr : forall e, arc a e -> enbr h e = pof (nb (eV a) e);
  em_type : forall e, Z.land (eflags h e) EDGE_TYPE_MASK = Z.land (fl (eV a) e) EDGE_TYPE_MASK;
  em_stk : gstack h = [] }.

Lemma post_ok a g b : rp g b [] -> geo NIL [] (eV b) -> outer g0 (eV b) -> (forall u, fw b u = []) -> sedge a b -> stor a ->
  exists h A, _EmbedPostprocess g C_OK = Ret (h, C_OK) /\ embedded a h A.
Proof.
  intros H G Ou Fw E S. pose proof (stor_sedge _ _ _ E S) as S'. destruct (orient_roots g b (Z.to_nat N) H G) as (V & H1 & F1 & G1 & O1).
  pose proof (so_N _ _ S) as HN.
  assert (Ho : forall R, isroot R -> adj V R <> [] -> o V R = false).
  { intros R HR Na. destruct (isroot_act V R G1 HR Na) as (c & -> & Ac). apply O1; [|auto]. destruct Ac as [Ac _]. unfold GeoP.prim in Ac. lia. }
  assert (Os : os g0 V (fun _ => false) g []).
  { constructor; try apply H.
    - destruct (r_chains _ _ _ _ H1). constructor; auto.
    - intros x. apply (r_nb _ _ _ _ H1).
    - intros x e _ _. apply (r_fl _ _ _ _ H1).
    - intros e. now rewrite (r_fl _ _ _ _ H1). }
  destruct (orient_all g0 kids St V G1 Ho g [] Os) as (h & W1 & K & Kev & Kch & Knb & Kty & Kst).
  assert (EN : gN h = N) by apply (k_N _ _ K). assert (EP : viParent (gVI h) = p) by apply (k_parent _ _ K).
  assert (Gh : GeoP.geo (gN h) (viParent (gVI h)) NIL [] V) by (now rewrite EN, EP).
  assert (Hph : forall z, GeoP.prim (gN h) z -> viParent (gVI h) z <> NIL -> GeoP.prim (gN h) (viParent (gVI h) z) /\ viParent (gVI h) z < z).
  { rewrite EN, EP. apply (st_p _ _ St). }
  assert (Arc : forall e, (exists x, In e (rot V x)) <-> arc a e).
  { intros e. rewrite <- (se_arc _ _ _ E e). unfold arc. rewrite <- (fs_adj _ _ F1). split.
    - intros (x & Hx). left. exists x. now apply in_rot in Hx.
    - intros [(x & Hx)|(u & Hu)]; [exists x; now apply in_rot|]. rewrite Fw in Hu. destruct Hu as [[]|[]]. }
  assert (Arcb : forall e, arc b e <-> exists x, In e (rot V x)) by (intros e; rewrite Arc; apply (se_arc _ _ _ E)).
  assert (Tw : twins_ok h (rot V)).
  { intros v e He. apply in_rot in He. destruct (g_twins _ _ _ (g_base _ _ _ _ _ G1) _ _ He) as [T1 T2]. rewrite !Knb. split; [auto|]. now apply in_rot. }
  assert (EU : gp_EdgeInUseIndexBound h = gp_EdgeInUseIndexBound g0) by (unfold gp_EdgeInUseIndexBound; now rewrite (k_M _ _ K), (k_holes _ _ K)).
  assert (EB : gp_EdgeIndexBound h = gp_EdgeIndexBound g0) by (unfold gp_EdgeIndexBound; now rewrite (k_cap _ _ K)).
  assert (Rh : rep h (rot V)).
  { constructor; [exact Kch|exact Tw|]. constructor; rewrite ?EN, ?EU, ?EB, ?(k_M _ _ K), ?(k_holes _ _ K), ?(k_holesCap _ _ K); try apply S'; auto.
    - rewrite (k_cap _ _ K). apply S'.
    - intros v e He. apply (so_used _ _ S'). apply Arcb. eauto.
    - intros e He. destruct (so_holes _ _ S' e He) as (Q1 & Q2 & Q3). rewrite !Knb, (fs_nb _ _ F1). auto.
    - intros e He. destruct (so_cover _ _ S' e He) as [Q|Q]; [left|auto]. apply Arcb in Q. destruct Q as [x Hx]. destruct (Tw _ _ Hx) as [T1 _]. now rewrite T1. }
  pose proof (copies h Hph V Gh) as Cp.
  pose proof (join_ok h (rot V) Kch Tw Kev Cp ltac:(lia)) as W. unfold _EmbedPostprocess. rewrite Z.eqb_refl, W1. cbn [bind C_OK Z.eqb negb].
  destruct (_JoinBicomps h) as [[k r]| |]; cbn [wp] in W; try contradiction. destruct W as [-> J]. cbn [bind C_OK Z.eqb negb].
  assert (Rk : rep k (rotn h V (Z.to_nat (gN h)))) by (apply part_rep; auto; lia).
  exists k, (rotn h V (Z.to_nat (gN h))). split; [reflexivity|]. pose proof (pj_core _ _ _ _ J) as F.
  assert (In_A : forall v e, In e (rotn h V (Z.to_nat (gN h)) v) <-> exists u, In e (rot V u) /\ part_prim h (Z.to_nat (gN h)) u = v).
  { intros v e. apply (part_in h (rot V)); auto. lia. }
  constructor.
  - destruct K. constructor; rewrite ?(fc_N _ _ F), ?(fc_M _ _ F), ?(fc_cap _ _ F), ?(fc_holes _ _ F), ?(fc_holesCap _ _ F), ?(fc_stackCap _ _ F), ?(fc_iflags _ _ F), ?(fc_embed _ _ F), ?(fc_VI _ _ F), ?(fc_sdlPrev _ _ F), ?(fc_sdlNext _ _ F); auto.
    intros x Hx. rewrite (pj_vindex _ _ _ _ J), (pj_vflags _ _ _ _ J) by (left; lia). auto.
  - exact Rk.
  - apply joined_euler; auto. lia.
  - apply joined_roots; auto. lia.
  - intros Op. apply joined_outer; auto; [lia|]. unfold allX. rewrite EN, EP. exact (fsim_out1 g0 _ _ (proj1 (proj1 Ou Op)) F1).
  - intros e. rewrite <- Arc. split.
    + intros (v & Hv). apply In_A in Hv. destruct Hv as (u & Hu & _). eauto.
    + intros (x & Hx). exists (part_prim h (Z.to_nat (gN h)) x). apply In_A. eauto.
  - intros v Hv. destruct (rotn h V (Z.to_nat (gN h)) v) as [|e l] eqn:El; [auto|]. exfalso. assert (He : In e (rotn h V (Z.to_nat (gN h)) v)) by (rewrite El; now left).
    apply In_A in He. destruct He as (u & Hu & Ev). assert (Nu : rot V u <> []) by (intros Q; rewrite Q in Hu; destruct Hu). apply in_rot in Hu. pose proof (g_out _ _ _ (g_base _ _ _ _ _ G1) _ _ Hu) as Ru.
    unfold part_prim in Ev. destruct ((gN h <? u) && (u <=? gN h + Z.of_nat (Z.to_nat (gN h)))) eqn:Eu; [|lia].
    pose proof (Cp u ltac:(lia) Nu). lia.
  - intros e He. apply Arc in He. destruct He as [x Hx]. rewrite (nbk h V Gh k J x e Hx). rewrite <- (se_nb _ _ _ E). unfold nbn, EmbJoin.pof, part_prim, primary_of. rewrite (fs_nb _ _ F1).
    apply in_rot in Hx. destruct (g_twins _ _ _ (g_base _ _ _ _ _ G1) _ _ Hx) as [_ T2]. pose proof (g_out _ _ _ (g_base _ _ _ _ _ G1) _ _ T2) as Ru. rewrite (fs_nb _ _ F1) in Ru. rewrite EN, EP.
    destruct (Z.leb_spec (nb (eV b) e) N) as [L|L].
    + now replace ((N <? nb (eV b) e) && (nb (eV b) e <=? N + Z.of_nat (Z.to_nat N))) with false by lia.
    + now replace ((N <? nb (eV b) e) && (nb (eV b) e <=? N + Z.of_nat (Z.to_nat N))) with true by lia.
  - intros e. rewrite (pj_eflags _ _ _ _ J), Kty, (fs_fl _ _ F1). apply (se_fl _ _ _ E).
  - now rewrite (fc_stack _ _ F).
Qed.

Theorem loop_post_ok (EE : Z -> Z -> Prop) g a : rp g a [] -> einv g0 kids EE N a -> good g0 a ->
  exists g' x, embed_loop (Z.to_nat N) g N = Ret (g', x) /\
    (x = C_NONEMBEDDABLE /\ ~ guard g0 EE /\ isol g0 a g' /\ _EmbedPostprocess g' x = Ret (g', C_NONEMBEDDABLE) \/
     x = C_OK /\ exists h A, _EmbedPostprocess g' x = Ret (h, C_OK) /\ embedded a h A).
Proof.
  intros H I Gd. pose proof (proj1 (proj2 (proj2 Gd))) as S. pose proof (so_N _ _ S) as HN. destruct (eloop_ok g0 kids St EE (Z.to_nat N) N g a ltac:(lia) ltac:(lia) H I Gd) as (g' & x & W & Q).
  exists g', x. split; [exact W|]. destruct Q as [(-> & Ng & Is)|(-> & b & H1 & I1 & F1 & E1)].
  - left. split; [auto|]. split; [exact Ng|]. split; [exact Is|]. reflexivity.
  - right. split; [auto|]. apply (post_ok a g' b); auto; [apply (ei_geo _ _ _ _ _ I1)|apply (ei_out _ _ _ _ _ I1)].
Qed.
End Fin.
