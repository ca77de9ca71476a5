(** * C35, C36, C53: the obstruction checks for planarity and outerplanarity. *)
From Coq Require Import ZifyBool.
From Verif Require Import Base BaseP GraphRec GraphM GraphSpec GSimp LinkP GraphP GraphP2 GraphP4 GraphP5 GraphEx
  DFSM DFSSpec DFSP DFSP2 DFSP7 Thm_DFS TestM TestSpec OrbitP TestP TestP3 TestP4 TestP5 Thm_Test
  ObsSpec ObsP ObsP2 ObsP3 ObsP4 ObsP5 ObsP6 ObsP7.

(** ** C35 *)
Theorem C35_kuratowski_check :
  forall g adj, rep g adj -> primary_edges g adj ->
    exists g' r, _CheckKuratowskiSubgraphIntegrity g = Ret (g', r) /\ vertex_marks_only g g' /\ rep g' adj /\
      (r = C_OK \/ r = C_NOTOK) /\
      (r = C_OK <-> complete_subdivision g adj 5 \/ bipartite_subdivision g adj 3 3).
Proof.
  intros g adj R P. destruct (kuratowski_ok g adj R P g (vm_refl g)) as (g' & r & E & V & O & H).
  exists g', r. split; auto. split; auto. split; [eapply vm_rep; eauto|]. auto.
Qed.
Print Assumptions C35_kuratowski_check.

(** K5 and K3,3, each with a subdivided edge and an isolated vertex; K3,3 with an edge replaced by one
    joining two vertices of the same side. *)
Definition k5_graph := built 60 7 (adds [(1, 7); (7, 2); (1, 3); (1, 4); (1, 5); (2, 3); (2, 4); (2, 5); (3, 4); (3, 5); (4, 5)]).
Definition k33_graph := built 60 8 (adds [(1, 2); (1, 7); (7, 4); (1, 6); (3, 2); (3, 4); (3, 6); (5, 2); (5, 4); (5, 6)]).
Definition not_k33_graph := built 60 8 (adds [(1, 2); (1, 7); (7, 4); (1, 3); (6, 2); (3, 4); (3, 6); (5, 2); (5, 4); (5, 6)]).
Example kuratowski_case :
  plain_reach k5_graph /\ plain_reach k33_graph /\ plain_reach not_k33_graph /\
  verdict (_CheckKuratowskiSubgraphIntegrity k5_graph) = C_OK /\
  verdict (_CheckKuratowskiSubgraphIntegrity k33_graph) = C_OK /\
  verdict (_CheckKuratowskiSubgraphIntegrity not_k33_graph) = C_NOTOK.
Proof.
  do 3 (split; [apply built_plain; vm_compute; reflexivity|]). repeat (split; [vm_compute; reflexivity|]). vm_compute; reflexivity.
Qed.

(** ** C36 *)
(** A subdivision has no self-loops; on a graph without self-loops the check is exact. *)
Theorem C36_outerplanar_check :
  forall g adj, rep g adj -> primary_edges g adj ->
    exists g' r, _CheckOuterplanarObstructionIntegrity g = Ret (g', r) /\ vertex_marks_only g g' /\ rep g' adj /\
      (r = C_OK \/ r = C_NOTOK) /\
      (r = C_OK /\ loop_free g adj <-> complete_subdivision g adj 4 \/ bipartite_subdivision g adj 2 3).
Proof.
  intros g adj R P. destruct (outerplanar_ok g adj R P g (vm_refl g)) as (g' & r & E & V & O & H1 & H2).
  exists g', r. split; auto. split; auto. split; [eapply vm_rep; eauto|]. split; auto. split; [intros []; auto|]. intros S. split; auto.
  destruct S as [S|S]; [eapply complete_loop_free; eauto|eapply bipartite_loop_free; eauto].
Qed.
Print Assumptions C36_outerplanar_check.

Definition k4_graph := built 60 6 (adds [(1, 5); (5, 2); (1, 3); (1, 4); (2, 3); (2, 4); (3, 4)]).
Definition k23_graph := built 60 8 (adds [(2, 4); (4, 7); (7, 5); (2, 1); (1, 5); (2, 8); (8, 5)]).
Definition not_k23_graph := built 60 8 (adds [(2, 4); (4, 7); (7, 5); (2, 1); (1, 5); (2, 5)]).
Example outerplanar_case :
  plain_reach k4_graph /\ plain_reach k23_graph /\ plain_reach not_k23_graph /\
  verdict (_CheckOuterplanarObstructionIntegrity k4_graph) = C_OK /\
  verdict (_CheckOuterplanarObstructionIntegrity k23_graph) = C_OK /\
  verdict (_CheckOuterplanarObstructionIntegrity not_k23_graph) = C_NOTOK.
Proof.
  do 3 (split; [apply built_plain; vm_compute; reflexivity|]). repeat (split; [vm_compute; reflexivity|]). vm_compute; reflexivity.
Qed.

(** With self-loops the check accepts graphs that are no obstruction at all: here a path of two edges
    whose ends have self-loops, and a further vertex with a self-loop. *)
Definition looped_graph := built 60 4 (adds [(1, 1); (2, 2); (1, 3); (3, 2); (4, 4)]).
Theorem C36_self_loops_refuted :
  exists g adj, plain_reach g /\ rep g adj /\ primary_edges g adj /\
    verdict (_CheckOuterplanarObstructionIntegrity g) = C_OK /\
    ~ (complete_subdivision g adj 4 \/ bipartite_subdivision g adj 2 3).
Proof.
  assert (PR : plain_reach looped_graph) by (apply built_plain; vm_compute; reflexivity).
  destruct (C17_edited_graphs_qualify looped_graph PR) as (adj & R & P & U).
  exists looped_graph, adj. split; auto. split; auto. split; auto. split; [vm_compute; reflexivity|].
  destruct (C36_outerplanar_check looped_graph adj R P) as (g' & r & _ & _ & _ & _ & H). rewrite <- H. intros [_ L].
  assert (V4 : is_vertex looped_graph 4) by (change (1 <= 4 <= 4 + 4); lia).
  assert (A4 : adj 4 = [10; 11]) by (rewrite (arcs_ok looped_graph adj 4 (rep_chains _ _ R) V4); vm_compute; reflexivity).
  apply (L 4 10); [rewrite A4; now left|]. vm_compute; reflexivity.
Qed.
Print Assumptions C36_self_loops_refuted.

(** ** C53: the check of an obstruction as a whole *)
Theorem C53_obstruction_integrity :
  forall g adj o oadj,
    rep g adj -> primary_edges g adj -> rep o oadj -> primary_edges o oadj -> gN g = gN o ->
    sort_state g -> sort_state o -> (gembed g = EMBEDFLAGS_OUTERPLANAR -> loop_free g adj) ->
    exists g' o' r, gp_TestEmbedResultIntegrity g o C_NONEMBEDDABLE = Ret (g', o', r) /\
      same_but_marks g g' /\ same_but_marks o o' /\ rep g' adj /\ rep o' oadj /\
      (r = C_NONEMBEDDABLE \/ r = C_NOTOK) /\
      (r = C_NONEMBEDDABLE <-> sub_adj g adj o oadj /\
         ((gembed g = EMBEDFLAGS_PLANAR /\ (complete_subdivision g adj 5 \/ bipartite_subdivision g adj 3 3)) \/
          (gembed g = EMBEDFLAGS_OUTERPLANAR /\ (complete_subdivision g adj 4 \/ bipartite_subdivision g adj 2 3)))).
Proof.
  intros g adj o oadj R P Ro Po EN Sg So LF.
  pose proof (test_subgraph_ok g adj o oadj R P Ro Po EN Sg So) as W.
  apply wp_inv in W as (((g1, o1), r1) & E1 & G1 & O1 & B1 & Q1).
  pose proof (sm_rep _ _ _ G1 R) as R1. pose proof (sm_rep _ _ _ O1 Ro) as Ro1.
  pose proof (alike_prim_edges _ _ _ (sm_alike _ _ G1) P) as P1.
  unfold gp_TestEmbedResultIntegrity, _CheckObstructionIntegrity. change (C_NONEMBEDDABLE =? C_OK) with false.
  change (C_NONEMBEDDABLE =? C_NONEMBEDDABLE) with true. cbv iota. rewrite E1. cbn [bind].
  destruct B1 as [-> | ->].
  2:{ change (negb (C_FALSE =? C_TRUE)) with true. cbv iota. cbn [bind]. change (C_NOTOK =? C_OK) with false. cbv iota.
      eexists _, _, _. split; [reflexivity|]. do 4 (split; [auto|]). split; [auto|]. split; [discriminate|]. intros [S _]. apply Q1 in S. discriminate. }
  change (negb (C_TRUE =? C_TRUE)) with false. cbv iota.
  assert (HS : sub_adj g adj o oadj) by (now apply Q1).
  assert (Sub : forall cs E, subdivision g1 adj cs E <-> subdivision g adj cs E).
  { intros cs E. apply subdivision_same. apply (sm_enbr _ _ G1). }
  assert (Cs : forall n, complete_subdivision g1 adj n <-> complete_subdivision g adj n).
  { intros n. unfold complete_subdivision. split; intros (cs & L & S); exists cs; (split; [auto|]); now apply Sub. }
  assert (Bs : forall m n, bipartite_subdivision g1 adj m n <-> bipartite_subdivision g adj m n).
  { intros m n. unfold bipartite_subdivision. split; intros (a & b & L1 & L2 & S); exists a, b; (split; [auto|]); (split; [auto|]); now apply Sub. }
  assert (LF1 : gembed g = EMBEDFLAGS_OUTERPLANAR -> loop_free g1 adj) by (intros Q v e He; rewrite (sm_enbr _ _ G1); apply (LF Q); auto).
  rewrite (sm_embed _ _ G1).
  assert (Done : forall g2 r2, vertex_marks_only g1 g2 -> (r2 = C_OK \/ r2 = C_NOTOK) -> 
    forall Q, (r2 = C_OK <-> Q) -> exists g' o' r, bind (Ret (g2, o1, r2)) (fun '(g, o, RetVal) => Ret (g, o, if RetVal =? C_OK then C_NONEMBEDDABLE else RetVal)) = Ret (g', o', r) /\
      same_but_marks g g' /\ same_but_marks o o' /\ rep g' adj /\ rep o' oadj /\ (r = C_NONEMBEDDABLE \/ r = C_NOTOK) /\ (r = C_NONEMBEDDABLE <-> Q)).
  { intros g2 r2 V2 B2 Q HQ. cbn [bind]. eexists _, _, _. split; [reflexivity|]. split; [eapply sm_trans; [exact G1|now apply vm_same]|]. split; auto.
    split; [eapply vm_rep; eauto|]. split; auto. rewrite <- HQ. destruct B2 as [-> | ->].
    - change (C_OK =? C_OK) with true. cbv iota. tauto.
    - change (C_NOTOK =? C_OK) with false. cbv iota. split; auto. split; discriminate. }
  destruct (Z.eqb_spec (gembed g) EMBEDFLAGS_PLANAR) as [Ep|Np]; [|destruct (Z.eqb_spec (gembed g) EMBEDFLAGS_OUTERPLANAR) as [Eo|No]].
  - destruct (C35_kuratowski_check g1 adj R1 P1) as (g2 & r2 & E2 & V2 & _ & B2 & Q2). rewrite E2. cbn [bind].
    apply (Done g2 r2 V2 B2). rewrite Q2, Cs, Bs. rewrite Ep. unfold EMBEDFLAGS_PLANAR, EMBEDFLAGS_OUTERPLANAR. intuition congruence.
  - destruct (C36_outerplanar_check g1 adj R1 P1) as (g2 & r2 & E2 & V2 & _ & B2 & Q2). rewrite E2. cbn [bind].
    apply (Done g2 r2 V2 B2). rewrite Cs, Bs in Q2. specialize (LF1 Eo). rewrite Eo in Np |- *. intuition congruence.
  - change (exists g' o' r, bind (Ret (g1, o1, C_NOTOK)) (fun '(g, o, RetVal) => Ret (g, o, if RetVal =? C_OK then C_NONEMBEDDABLE else RetVal)) = Ret (g', o', r) /\
      same_but_marks g g' /\ same_but_marks o o' /\ rep g' adj /\ rep o' oadj /\ (r = C_NONEMBEDDABLE \/ r = C_NOTOK) /\ (r = C_NONEMBEDDABLE <->
      sub_adj g adj o oadj /\
         ((gembed g = EMBEDFLAGS_PLANAR /\ (complete_subdivision g adj 5 \/ bipartite_subdivision g adj 3 3)) \/
          (gembed g = EMBEDFLAGS_OUTERPLANAR /\ (complete_subdivision g adj 4 \/ bipartite_subdivision g adj 2 3))))).
    apply (Done g1 C_NOTOK (vm_refl g1)); auto. split; [discriminate|]. tauto.
Qed.
Print Assumptions C53_obstruction_integrity.

(** Any other result is returned as it is. *)
Theorem C53_other_results :
  forall g o r, r <> C_OK -> r <> C_NONEMBEDDABLE -> gp_TestEmbedResultIntegrity g o r = Ret (g, o, r).
Proof.
  intros g o r H1 H2. unfold gp_TestEmbedResultIntegrity. rewrite (proj2 (Z.eqb_neq _ _) H1), (proj2 (Z.eqb_neq _ _) H2). cbn [bind].
  now rewrite (proj2 (Z.eqb_neq _ _) H1).
Qed.
Print Assumptions C53_other_results.

(** A sorted K3,3 subdivision against a graph containing it. *)
Definition with_flags (g : graph) (f : Z) : graph := set_gembed g f.
Definition k33_more := built 60 8 (adds [(1, 2); (1, 7); (7, 4); (1, 6); (3, 2); (3, 4); (3, 6); (5, 2); (5, 4); (5, 6); (1, 8); (2, 4)]).
Example obstruction_case :
  plain_reach k33_more /\
  verdict2 (gp_TestEmbedResultIntegrity (with_flags (sorted_graph k33_graph) EMBEDFLAGS_PLANAR) k33_more C_NONEMBEDDABLE) = C_NONEMBEDDABLE /\
  verdict2 (gp_TestEmbedResultIntegrity (with_flags (sorted_graph k33_graph) EMBEDFLAGS_OUTERPLANAR) k33_more C_NONEMBEDDABLE) = C_NOTOK /\
  verdict2 (gp_TestEmbedResultIntegrity (with_flags (sorted_graph k33_more) EMBEDFLAGS_PLANAR) k33_graph C_NONEMBEDDABLE) = C_NOTOK.
Proof. split; [apply built_plain; vm_compute; reflexivity|]. repeat (split; [vm_compute; reflexivity|]). vm_compute; reflexivity. Qed.
