(** * C11, C12, C13, C48: hiding and restoring. *)
From Coq Require Import ZifyBool.
From Verif Require Import Base BaseP GraphRec GraphM GraphSpec GSimp LinkP GraphP GraphP2 GraphP3 GraphP4 GraphP5 GraphP6 GraphP7 GraphEx.

(** ** C11 *)
Theorem C11_hide_restore_edges :
  forall g adj es, rep g adj -> distinct_edges adj es ->
    exists g1, hide_all g es = Ret g1 /\
      chains g1 (adj_without adj es) /\ frame_links g g1 /\
      exists g2, restore_all g1 (rev es) = Ret g2 /\ geq g2 g.
Proof.
  intros g adj es R D.
  destruct (wp_inv _ _ (hide_all_ok es g adj (rep_chains _ _ R) (rep_twins _ _ R) D)) as (g1 & H1 & C1 & _ & F1 & U).
  exists g1. split; [exact H1|]. split; [exact C1|]. split; [exact F1|].
  destruct (wp_inv _ _ (U g1 (eq_links_refl _) (fl_N _ _ F1) (fl_cap _ _ F1) ltac:(intros; now rewrite (fl_enbr _ _ F1)))) as (g2 & R2 & EL & F2).
  exists g2. split; [exact R2|]. apply frame_geq; [eapply frame_links_trans; eauto|exact EL].
Qed.
Print Assumptions C11_hide_restore_edges.

(** The two-edge form a client sees in the internals: all edges of a vertex other than the first
    and the last are hidden and brought back from the work stack. *)
Theorem C11_hide_restore_internal_edges :
  forall g adj v, rep g adj -> no_loops g adj -> is_vertex g v ->
    Z.of_nat (length (gstack g)) + Z.of_nat (length (adj v)) <= gstackCap g + 2 ->
    exists g1, _HideInternalEdges g v = Ret (g1, C_OK) /\
      (forall a mid b, adj v = a :: mid ++ [b] -> chains g1 (adj_without adj mid)) /\
      ((length (adj v) <= 1)%nat -> g1 = g) /\
      exists g2, _RestoreInternalEdges g1 (Z.of_nat (length (gstack g))) = Ret (g2, C_OK) /\ geq g2 g.
Proof.
  intros g adj v R L Hv Hs.
  destruct (Nat.le_gt_cases (length (adj v)) 1) as [Hl|Hl].
  - exists g. split; [exact (hide_internal_short g adj v (rep_chains _ _ R) Hv Hl)|]. split; [|split; [auto|]].
    + intros a mid b E. rewrite E in Hl. cbn [length] in Hl. rewrite app_length in Hl. cbn [length] in Hl. lia.
    + exists g. split; [|constructor; reflexivity]. unfold _RestoreInternalEdges, _RestoreHiddenEdges. cbn [restore_hidden_loop].
      unfold stk_size. replace (_ >? _) with false by lia. reflexivity.
  - destruct (adj v) as [|a l] eqn:E; [cbn [length] in Hl; lia|].
    destruct (list_snoc l) as [->|(mid & b & ->)]; [cbn [length] in Hl; lia|].
    cbn [length] in Hs. rewrite app_length in Hs. cbn [length] in Hs.
    destruct (hide_internal_ok g adj v a mid b (rep_chains _ _ R) (rep_twins _ _ R) L E) as (g1 & H1 & C1 & _ & H2); [lia|].
    exists g1. split; [exact H1|]. split; [|split; [lia|exact H2]].
    intros a' mid' b' E'. injection E' as _ E'. apply app_inj_tail in E'. destruct E' as [<- _]. exact C1.
Qed.
Print Assumptions C11_hide_restore_internal_edges.

(** ** C12 *)
Theorem C12_hide_restore_vertices :
  forall g adj vs, rep g adj -> no_loops g adj -> (forall v, In v vs -> is_vertex g v) -> gstack g = [] ->
    gM g + 7 * Z.of_nat (length vs) <= gstackCap g ->
    exists g1, hide_vertices g vs = Ret g1 /\
      chains g1 (fold_left (adj_without_vertex g) vs adj) /\
      frame_links g (set_gstack g1 []) /\
      exists g2, gp_RestoreVertices g1 = Ret (g2, C_OK) /\ geq g2 g.
Proof.
  intros g adj vs R L HV Hst Hs.
  destruct (hide_vertices_ok vs g adj [] (rep_chains _ _ R) (rep_twins _ _ R) L HV) as (g1 & s1 & H1 & C1 & F1 & Ln & U).
  { rewrite (all_arcs_length _ _ R). cbn [length]. lia. }
  assert (Eg : set_gstack g [] = g) by (rewrite <- Hst; destruct g; reflexivity). rewrite Eg in H1.
  exists (set_gstack g1 s1). split; [exact H1|]. split; [|split].
  - eapply chains_congr; [..|exact C1]; reflexivity.
  - destruct F1. constructor; gsimp; auto.
  - destruct (U g1 (eq_links_refl _) (fl_N _ _ F1) (fl_cap _ _ F1) ltac:(intros; now rewrite (fl_enbr _ _ F1))) as (h & EL & F2 & RR).
    unfold gp_RestoreVertices. gsimp.
    replace (S (length s1)) with (length vs + S (length s1 - length vs))%nat by lia.
    rewrite RR. cbn [restore_vertices_loop]. gsimp. eexists. split; [reflexivity|].
    apply frame_geq.
    + destruct (frame_links_trans _ _ _ F1 F2). constructor; gsimp; auto.
    + constructor; gsimp; apply EL.
Qed.
Print Assumptions C12_hide_restore_vertices.

(** The wheel with hub 1 and rim 2..5: hiding 1, 3, 1 meets the hypotheses. *)
Definition wheel : graph := built 0 5 (adds [(1, 2); (1, 3); (1, 4); (1, 5); (2, 3); (3, 4); (4, 5); (5, 2)]).
Example wheel_ok : exists adj, rep wheel adj /\ no_loops wheel adj /\ gstack wheel = [] /\
  gM wheel + 7 * Z.of_nat (length [1; 3; 1]) <= gstackCap wheel /\ distinct_edges adj [2; 9; 17].
Proof.
  assert (RR : reach wheel) by (apply built_reach; vm_compute; reflexivity).
  destruct (reach_inv _ RR) as ((adj & R) & _). exists adj. split; [exact R|].
  assert (A : forall v, 1 <= v <= 10 -> adj v = arcs wheel v).
  { intros v Hv. apply arcs_ok; [apply R|]. exact Hv. }
  split; [|split; [reflexivity|split; [vm_compute; discriminate|]]].
  - intros v e He. assert (Hv : is_vertex wheel v) by (eapply ch_isvertex; [apply R|exact He]).
    change (1 <= v <= 10) in Hv. rewrite A in He by auto.
    assert (Hc : v = 1 \/ v = 2 \/ v = 3 \/ v = 4 \/ v = 5 \/ v = 6 \/ v = 7 \/ v = 8 \/ v = 9 \/ v = 10) by lia.
    repeat (destruct Hc as [->|Hc] || subst v); vm_compute in He;
      repeat (destruct He as [<-|He]; [vm_compute; discriminate|]); destruct He.
  - cbn [distinct_edges In]. split; [exists 2; rewrite A by lia; vm_compute; tauto|].
    split; [lia|]. split; [vm_compute; intuition discriminate|].
    split; [exists 1; rewrite A by lia; vm_compute; tauto|].
    split; [lia|]. split; [vm_compute; intuition discriminate|].
    split; [exists 5; rewrite A by lia; vm_compute; tauto|]. tauto.
Qed.

(** ** C48 *)
(** With the default capacity of edge records (6N), or any capacity of at least 14/3 N, hiding up
    to N vertices in any order fits, whatever edits came before. *)
Theorem C48_work_stack_partial :
  forall g adj vs, reach g -> rep g adj -> no_loops g adj -> 14 * gN g <= 3 * gCap g ->
    (forall v, In v vs -> is_vertex g v) -> Z.of_nat (length vs) <= gN g ->
    exists g1, hide_vertices g vs = Ret g1.
Proof.
  intros g adj vs Hr R L Hc HV Hl. destruct (reach_inv g Hr) as (_ & _ & Hst & Hc0 & Hc1).
  pose proof (rep_holes_len _ _ R) as HM.
  destruct (C12_hide_restore_vertices g adj vs R L HV Hst) as (g1 & H & _); [|eauto].
  assert (2 * (gCap g / 2) <= gCap g) by (apply Z.mul_div_le; lia). lia.
Qed.
Print Assumptions C48_work_stack_partial.

(** With a capacity requested below the default the stack overflows: ten vertices, no edge. *)
Theorem C48_work_stack_refuted :
  exists g, reach g /\ gN g = 10 /\ gM g = 0 /\ hide_vertices g [1; 2; 3; 4; 5; 6; 7; 8; 9] = UB.
Proof.
  exists (built 2 10 []). split; [apply built_reach; vm_compute; reflexivity|].
  split; [reflexivity|]. split; vm_compute; reflexivity.
Qed.
Print Assumptions C48_work_stack_refuted.

(** ** C13 *)
(** Identify 1 and 2, each adjacent to two private neighbours, and restore: the links of the
    last arc of 2 are wrong.  Contract an edge and restore: NOTOK. *)
Theorem C13_identify_restore_refuted :
  exists g g1 g2, reach g /\ gp_IdentifyVertices g 1 2 NIL = Ret (g1, C_OK) /\
    gp_RestoreVertices g1 = Ret (g2, C_OK) /\ ~ geq g2 g.
Proof.
  set (g := built 0 6 (adds [(1, 3); (1, 4); (2, 5); (2, 6)])).
  set (g1 := fst (the (g, 0) (gp_IdentifyVertices g 1 2 NIL))).
  set (g2 := fst (the (g, 0) (gp_RestoreVertices g1))).
  exists g, g1, g2. split; [apply built_reach; vm_compute; reflexivity|].
  split; [vm_compute; reflexivity|]. split; [vm_compute; reflexivity|].
  intros E. pose proof (geq_eprev _ _ E (vlast g 2)) as H. vm_compute in H. discriminate.
Qed.
Print Assumptions C13_identify_restore_refuted.
Theorem C13_contract_restore_refuted :
  exists g g1 g2, reach g /\ gp_ContractEdge g 2 = Ret (g1, C_OK) /\ gp_RestoreVertices g1 = Ret (g2, C_NOTOK).
Proof.
  set (g := built 0 3 (adds [(1, 2)])).
  set (g1 := fst (the (g, 0) (gp_ContractEdge g 2))).
  set (g2 := fst (the (g, 0) (gp_RestoreVertices g1))).
  exists g, g1, g2. split; [apply built_reach; vm_compute; reflexivity|].
  split; vm_compute; reflexivity.
Qed.
Print Assumptions C13_contract_restore_refuted.
