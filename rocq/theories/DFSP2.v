(** * DFSP2: correctness of the whole search. *)
From Verif Require Import Base BaseP GraphRec GraphM GraphSpec GSimp LinkP GraphP GraphP5 DFSM DFSSpec DFSP.

Lemma clear_visited_ok g : 0 <= gN g ->
  exists f, _ClearVertexVisitedFlags g false = Ret (set_vflags g f) /\
    forall x, f x = if (1 <=? x) && (x <=? gN g) then Z.ldiff (vflags g x) VERTEX_VISITED_MASK else vflags g x.
Proof.
  intros HN. unfold _ClearVertexVisitedFlags.
  pose (P := fun k (s : graph) => exists f, s = set_vflags g f /\
    forall x, f x = if (1 <=? x) && (x <? k) then Z.ldiff (vflags g x) VERTEX_VISITED_MASK else vflags g x).
  assert (H : wp (for_up (Z.to_nat (gN g)) 1 (fun v g => gp_ClearVertexVisited g v) g) (P (1 + Z.of_nat (Z.to_nat (gN g))))).
  { apply for_up_inv.
    - exists (vflags g). split; [destruct g; reflexivity|]. intros x. destruct ((1 <=? x) && (x <? 1)) eqn:E; [lia|reflexivity].
    - intros k s Hk (f & -> & Hf). unfold gp_ClearVertexVisited.
      assert (I : inV (set_vflags g f) k = true) by (unfold inV, gp_VertexIndexBound; gsimp; lia).
      rewrite (rd_vflags_ok _ _ I). cbn [bind]. rewrite (wr_vflags_ok _ _ _ I). apply wp_ret.
      exists (upd f k (Z.ldiff (f k) VERTEX_VISITED_MASK)). split; [reflexivity|]. intros x.
      unfold upd. destruct (x =? k) eqn:E.
      + apply Z.eqb_eq in E. subst x. rewrite (Hf k).
        replace ((1 <=? k) && (k <? k)) with false by lia. replace ((1 <=? k) && (k <? k + 1)) with true by lia. reflexivity.
      + rewrite Hf. replace ((1 <=? x) && (x <? k + 1)) with ((1 <=? x) && (x <? k)) by lia. reflexivity. }
  apply wp_inv in H. destruct H as (g' & E & f & -> & Hf). rewrite E. cbn [bind]. exists f. split; [reflexivity|].
  intros x. rewrite Hf. replace (x <? 1 + Z.of_nat (Z.to_nat (gN g))) with (x <=? gN g) by lia. reflexivity.
Qed.

Lemma cap_nonneg g adj : rep g adj -> 0 <= gCap g.
Proof.
  intros R. pose proof (st_cap _ _ (rep_storage _ _ R)). pose proof (st_M _ _ (rep_storage _ _ R)).
  unfold gp_EdgeInUseIndexBound, gp_EdgeIndexBound in *. lia.
Qed.

Lemma frame_rep g h adj : rep g adj -> dfs_frame g h -> rep h adj.
Proof.
  intros [C T S] F. destruct F.
  assert (B : gp_EdgeInUseIndexBound h = gp_EdgeInUseIndexBound g) by (unfold gp_EdgeInUseIndexBound; congruence).
  assert (B2 : gp_EdgeIndexBound h = gp_EdgeIndexBound g) by (unfold gp_EdgeIndexBound; congruence).
  constructor.
  - destruct C. constructor; unfold is_vertex in *; rewrite ?dff_N, ?B2, ?dff_vfirst, ?dff_vlast, ?dff_enext, ?dff_eprev; auto.
  - unfold twins_ok in *. rewrite dff_enbr. auto.
  - destruct S. constructor; rewrite ?B, ?B2, ?dff_N, ?dff_M, ?dff_cap, ?dff_holes, ?dff_holesCap, ?dff_enbr; auto.
Qed.

(** From the final state of the search to the specification. *)
Section Final.
Variables (g0 g : graph) (adj : Z -> list Z) (ord : list Z) (ta : Z -> Z).
Hypotheses (R0 : rep g0 adj) (P0 : primary_edges g0 adj).
Hypothesis D : dinv g0 g adj [] ord ta (gN g0).
Hypothesis Full : Z.of_nat (length ord) = gN g0.

Lemma all_in v : primary g0 v -> In v ord.
Proof.
  intros Hv. apply (nodup_full ord (gN g0)); auto; [apply D|].
  intros x Hx. apply (di_ord _ _ _ _ _ _ _ D) in Hx. exact (proj1 Hx).
Qed.
Lemma all_visited v : primary g0 v -> visited g v = true.
Proof. intros Hv. apply (di_ord _ _ _ _ _ _ _ D). now apply all_in. Qed.
Lemma all_done u e : In e (adj u) -> enbr g0 e <> u -> edone g u e (enbr g0 e).
Proof.
  intros He Hn. destruct (arc_primary _ _ R0 P0 _ _ He) as [Pu Pn].
  pose proof (all_visited _ Pu). pose proof (all_visited _ Pn).
  destruct (di_edge _ _ _ _ _ _ _ D u e He Hn) as [A1 A2 A3 A4 A5 A6|A1 A2 A3 A4 A5 A6|A1 A2 A3 A4 A5 A6|A1 A2 A3 A4 A5 A6 A7|A1 A2 A3 A4 A5 A6 A7|A1 A2 A3 A4 A5];
    try congruence; try (destruct A5; fail); try (destruct A6; fail); auto; first [destruct A5|destruct A6].
Qed.
Lemma root_of n v : primary g0 v -> vindex g v < Z.of_nat n ->
  exists r, primary g0 r /\ par g r = NIL /\ connected g0 adj r v /\ ancestor (par g) r v.
Proof.
  revert v. induction n as [|n IH]; intros v Hv Hi.
  - pose proof (ord_idx_range _ _ v (di_idx _ _ _ _ _ _ _ D) (all_in v Hv)). lia.
  - destruct (Z.eq_dec (par g v) NIL) as [E|N].
    + exists v. do 2 (split; [auto|]). split; constructor.
    + destruct (di_par _ _ _ _ _ _ _ D v (all_in v Hv) N) as (B1 & B2 & B3 & B4 & B5).
      assert (Pp : primary g0 (par g v)) by (apply (di_ord _ _ _ _ _ _ _ D) in B1; tauto).
      destruct (IH (par g v) Pp ltac:(lia)) as (r & C1 & C2 & C3 & C4).
      exists r. do 2 (split; [auto|]). split; [|now apply anc_step].
      rewrite <- B4. now apply conn_step with (par g v).
Qed.
Lemma root_anc r v : primary g0 r -> par g r = NIL -> connected g0 adj r v -> ancestor (par g) r v.
Proof.
  intros Pr Hr Hc. induction Hc as [|v e Hc IH He]; [constructor|].
  destruct (Z.eq_dec (enbr g0 e) v) as [->|N]; [auto|].
  destruct (arc_primary _ _ R0 P0 _ _ He) as [Pu Pn].
  destruct (all_done v e He N) as [_ _ E|_ _ E|_ _ E|_ _ E].
  - apply anc_step; rewrite E; [|auto]. destruct Pu. unfold NIL. lia.
  - inversion IH as [E2|x Hn Hx E2].
    + subst v. rewrite Hr in E. destruct Pn. unfold NIL in E. lia.
    + rewrite <- E. auto.
  - now apply anc_trans with v.
  - now apply anc_cmp with v.
Qed.

Lemma dinv_forest : dfs_forest g adj (par g) (vindex g).
Proof.
  assert (F := di_frame _ _ _ _ _ _ _ D).
  assert (PN : forall v, primary g v <-> primary g0 v) by (intros v; unfold primary; now rewrite (dff_N _ _ F)).
  constructor.
  - intros v Hv. apply PN in Hv. pose proof (ord_idx_range _ _ v (di_idx _ _ _ _ _ _ _ D) (all_in v Hv)).
    rewrite (dff_N _ _ F). lia.
  - intros v w Hv Hw. apply PN in Hv, Hw. apply (ord_idx_inj ord); auto using all_in. apply D.
  - intros v Hv Hp. apply PN in Hv. destruct (di_par _ _ _ _ _ _ _ D v (all_in v Hv) Hp) as (B1 & B2 & _).
    split; [|auto]. apply PN. apply (di_ord _ _ _ _ _ _ _ D) in B1. tauto.
  - intros v Hv Hp. apply PN in Hv. destruct (di_par _ _ _ _ _ _ _ D v (all_in v Hv) Hp) as (B1 & B2 & B3 & B4 & B5).
    exists (ta v). rewrite (dff_enbr _ _ F). do 3 (split; [auto|]). intros u e' He' E Ht.
    rewrite (di_child _ _ _ _ _ _ _ D u e' He' Ht). now rewrite E.
  - intros u e He. rewrite (dff_enbr _ _ F). cbv zeta. intros Hn.
    destruct (all_done u e He Hn) as [A1 A2 A3|A1 A2 A3|A1 A2 A3|A1 A2 A3];
      [left|right; left|right; right; left|right; right; right]; auto.
  - intros u e. rewrite (dff_enbr _ _ F). apply (di_loop _ _ _ _ _ _ _ D).
  - intros u v d Hu Hv Hd. apply PN in Hu, Hv, Hd. apply (di_pre _ _ _ _ _ _ _ D); auto using all_in.
  - assert (CN : forall r v, connected g adj r v <-> connected g0 adj r v).
    { intros r v. split; induction 1 as [|v e H IH He]; try constructor;
      [rewrite (dff_enbr _ _ F)|rewrite <- (dff_enbr _ _ F)]; now apply conn_step with v. }
    intros v Hv. apply PN in Hv. destruct (root_of (S (Z.to_nat (vindex g v))) v Hv ltac:(lia)) as (r & C1 & C2 & C3 & C4).
    exists r. rewrite PN, CN. do 3 (split; [auto|]). intros r' Pr'. rewrite CN. apply PN in Pr'. intros Hr' Hc.
    assert (A := root_anc r' v Pr' Hr' Hc). apply (anc_root (par g)); [auto|]. now apply (anc_cmp _ _ _ v).
Qed.
End Final.

Lemma visited_ldiff f : Z.land (Z.ldiff f VERTEX_VISITED_MASK) VERTEX_VISITED_MASK = 0.
Proof. apply land_ldiff_mask. Qed.

Definition searched (g : graph) : Prop := Z.land (giflags g) FLAGS_DFSNUMBERED <> 0.

Lemma create_dfs_ok g adj : rep g adj -> primary_edges g adj -> unsearched g adj ->
  exists g', gp_CreateDFSTree g = Ret (g', C_OK) /\ dfs_frame g g' /\ gstack g' = [] /\
    dfs_forest g' adj (par g') (vindex g') /\ giflags g' = Z.lor (giflags g) FLAGS_DFSNUMBERED /\
    (forall v, primary g v -> visited g' v = true).
Proof.
  intros R P U. pose proof (cap_nonneg _ _ R) as Hc. destruct U as [U1 U2 U3 U4 U5].
  pose proof (st_N _ _ (rep_storage _ _ R)) as HN.
  unfold gp_CreateDFSTree. unfold FLAGS_DFSNUMBERED at 1. rewrite U1. cbn [negb Z.eqb].
  unfold gp_GetArcCapacity. replace (gstackCap g <? 2 * (gCap g - 2)) with false by lia.
  destruct (clear_visited_ok (stk_clear g)) as (f & E & Hf); [unfold stk_clear; gsimp; lia|].
  rewrite E. cbn [bind]. unfold stk_clear in *. gsimp. gsimp_in Hf.
  set (g1 := set_vflags (set_gstack g []) f).
  assert (F1 : dfs_frame g g1).
  { constructor; try reflexivity.
    - intros v Hv. split; [reflexivity|split; [|reflexivity]]. unfold g1. gsimp. rewrite Hf.
      replace ((1 <=? v) && (v <=? gN g)) with false by (unfold primary in Hv; lia). reflexivity.
    - intros v. unfold g1. gsimp. rewrite Hf. destruct ((1 <=? v) && (v <=? gN g)); [apply ldiff_ldiff_mask|reflexivity].
    - exists (viParent (gVI g)). unfold g1. gsimp. destruct (gVI g); reflexivity. }
  assert (Un : forall v, primary g v -> visited g1 v = false).
  { intros v [Hv1 Hv2]. unfold visited, g1. gsimp. rewrite Hf. replace ((1 <=? v) && (v <=? gN g)) with true by lia.
    now rewrite visited_ldiff. }
  assert (D : dinv g g1 adj [] [] (fun _ => NIL) (1 - 1)).
  { constructor.
    - exact F1.
    - reflexivity.
    - constructor.
    - intros e [].
    - constructor.
    - intros v. split; [intros []|]. intros [Hv Hu]. rewrite (Un v Hv) in Hu. discriminate.
    - intros l1 v l2 El. destruct l1; discriminate.
    - intros v Hv _. apply U2. exact Hv.
    - intros v [].
    - intros u e He Ht. pose proof (U3 u e He) as Ht'. change (etype g1 e) with (etype g e) in Ht. rewrite Ht' in Ht. discriminate.
    - intros u e He Hn. destruct (arc_primary _ _ R P _ _ He) as [Pu Pn]. destruct (arc_twin _ _ R _ _ He) as (_ & He' & _).
      apply es_new; auto; [apply (U3 u e He)|apply (U3 _ _ He')].
    - intros u e He _. apply (U3 u e He).
    - constructor.
    - intros u v d [].
    - intros e u v [].
    - intros v []. }
  pose proof (forest_loop_ok g adj R P ltac:(lia) Hc U5 (S (Z.to_nat (gN g))) g1 [] _ 1 D eq_refl) as W.
  change (1 + Z.of_nat (length (@nil Z))) with 1 in W.
  assert (W' : wp (dfs_forest_loop (S (Z.to_nat (gN g))) g1 1 1) (forest_post g adj)) by (apply W; intros; lia).
  apply wp_inv in W'. destruct W' as (g2 & E2 & ord & ta & D2 & S2 & L2). rewrite E2. cbn [bind].
  pose proof (di_frame _ _ _ _ _ _ _ D2) as F2.
  exists (set_giflags g2 (Z.lor (giflags g2) FLAGS_DFSNUMBERED)).
  split; [reflexivity|]. split; [destruct F2; constructor; auto|]. split; [exact S2|]. split.
  - pose proof (dinv_forest g g2 adj ord ta R P D2 L2) as Q. destruct Q; constructor; auto.
    intros v Hv. destruct (df_roots v Hv) as (r & C1 & C2 & C3 & C4). exists r. do 2 (split; [auto|]).
    assert (CN : forall r v, connected (set_giflags g2 (Z.lor (giflags g2) FLAGS_DFSNUMBERED)) adj r v <-> connected g2 adj r v).
    { intros a b. split; (induction 1 as [|x e H IH He]; [constructor|]).
      - exact (conn_step g2 adj a x e IH He).
      - exact (conn_step (set_giflags g2 (Z.lor (giflags g2) FLAGS_DFSNUMBERED)) adj a x e IH He). }
    rewrite CN. split; [auto|]. intros r' H1 H2 H3. rewrite CN in H3. auto.
  - split; [gsimp; now rewrite (di_if _ _ _ _ _ _ _ D2)|]. intros v Hv. apply (all_visited g g2 adj ord ta D2 L2 v Hv).
Qed.
