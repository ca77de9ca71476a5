(** * C33, C34, C37, C53: the integrity checks of an embedding. *)
From Coq Require Import ZifyBool.
From Verif Require Import Base BaseP GraphRec GraphM GraphSpec GSimp LinkP GraphP GraphP2 GraphP4 GraphP5 GraphEx
  DFSM DFSSpec DFSP DFSP2 DFSP3 DFSP4 DFSP7 Thm_DFS TestM TestSpec OrbitP TestP TestP2 TestP3 TestP4 TestP5.

(** ** C33 *)
(** The stack of a graph has room for all arcs, see [C33_room_in_fresh_graphs]. *)
Theorem C33_facial_integrity :
  forall g adj, rep g adj -> 2 * gM g <= gstackCap g -> one_root_each g adj ->
    exists g' r, _CheckEmbeddingFacialIntegrity g = Ret (g', r) /\
      edge_marks_only g g' /\ rep g' adj /\ gstack g' = [] /\
      (r = C_OK \/ r = C_NOTOK) /\ (r = C_OK <-> euler g adj).
Proof.
  intros g adj R C O. pose proof (facial_ok g adj R C O) as W. apply wp_inv in W as ((g', r) & E & A & B & D & F).
  exists g', r. split; auto. split; auto. split; [eapply em_rep; eauto|]. auto.
Qed.
Print Assumptions C33_facial_integrity.

(** Faces and components are counted unambiguously, so [euler] is a property of the numbers. *)
Theorem C33_counts_unique :
  forall g adj F F' C C', rep g adj -> num_faces g adj F -> num_faces g adj F' ->
    num_components g adj C -> num_components g adj C' -> F = F' /\ C = C'.
Proof. intros. split; [eapply num_faces_unique; eauto|eapply num_components_unique; eauto]. Qed.
Print Assumptions C33_counts_unique.

(** The hypothesis on the roots holds after the depth first search, and after sorting. *)
Theorem C33_search_gives_roots :
  forall g adj, rep g adj -> primary_edges g adj -> unsearched g adj -> ~ sorted g ->
    exists g1 h adj', gp_CreateDFSTree g = Ret (g1, C_OK) /\ gp_SortVertices g1 = Ret (h, C_OK) /\
      rep g1 adj /\ one_root_each g1 adj /\ rep h adj' /\ one_root_each h adj' /\
      (forall v, primary g v -> adj' (vindex g1 v) = adj v).
Proof.
  intros g adj R P U NS.
  destruct (ensure_sorted_ok g adj R P U NS) as (g1 & h & adj' & E1 & E2 & _ & Fr & DF & A1 & A2 & A3 & A4 & A5 & _).
  exists g1, h, adj'. split; auto. split; auto. split; [exact (frame_rep _ _ _ R Fr)|]. split.
  - intros v Hv. apply (df_roots _ _ _ _ DF v Hv).
  - split; auto. split; auto. intros v Hv. apply (df_roots _ _ _ _ A5 v Hv).
Qed.
Print Assumptions C33_search_gives_roots.

Theorem C33_room_in_edited_graphs : forall g, reach g -> 2 * gM g <= gstackCap g.
Proof.
  intros g H. destruct (reach_inv g H) as ((adj & R) & _ & _ & C1 & C2).
  pose proof (rep_holes_len _ _ R). pose proof (Z.mul_div_le (gCap g) 2 eq_refl). lia.
Qed.
Print Assumptions C33_room_in_edited_graphs.

(** K4 with a plane rotation is accepted; the same graph with its arcs in another order is rejected. *)
Definition k4_good := built 40 4 (adds [(1, 2); (1, 3)] ++ [GAdd 2 1 3 0] ++ adds [(1, 4); (3, 4); (2, 4)]).
Definition k4_bad := built 40 4 (adds [(1, 2); (1, 3); (2, 3); (1, 4); (2, 4); (3, 4)]).
Definition searched_graph (g : graph) : graph := fst (the (g, 0) (gp_CreateDFSTree g)).
Definition sorted_graph (g : graph) : graph := fst (the (g, 0) (gp_SortVertices g)).
Definition verdict (m : res (graph * Z)) : Z := snd (the (gp_New, -7) m).
Example facial_case :
  plain_reach k4_good /\ plain_reach k4_bad /\
  verdict (_CheckEmbeddingFacialIntegrity (searched_graph k4_good)) = C_OK /\
  verdict (_CheckEmbeddingFacialIntegrity (searched_graph k4_bad)) = C_NOTOK.
Proof.
  split; [apply built_plain; vm_compute; reflexivity|]. split; [apply built_plain; vm_compute; reflexivity|].
  split; vm_compute; reflexivity.
Qed.
(** The hypotheses of the theorem hold for both. *)
Example facial_case_hypotheses : forall k, k = k4_good \/ k = k4_bad ->
  exists g adj, gp_CreateDFSTree k = Ret (g, C_OK) /\ rep g adj /\ 2 * gM g <= gstackCap g /\ one_root_each g adj.
Proof.
  intros k Hk. assert (PR : plain_reach k) by (destruct Hk as [-> | ->]; [exact (proj1 facial_case)|exact (proj1 (proj2 facial_case))]).
  destruct (C17_edited_graphs_qualify k PR) as (adj & R & P & U).
  destruct (C33_search_gives_roots k adj R P U) as (g & h & adj' & E1 & E2 & R1 & O1 & _).
  { intros H. apply H. destruct Hk as [-> | ->]; vm_compute; reflexivity. }
  exists g, adj. split; auto. split; auto. split; auto.
  destruct (create_dfs_ok k adj R P U) as (g1 & E & Fr & _). assert (g1 = g) by congruence. subst g1.
  rewrite (dff_M _ _ Fr), (dff_stackCap _ _ Fr). apply C33_room_in_edited_graphs. now apply plain_reach_reach.
Qed.

(** ** C34 *)
Theorem C34_test_subgraph :
  forall s sadj g gadj, rep s sadj -> primary_edges s sadj -> rep g gadj -> primary_edges g gadj ->
    gN s = gN g -> sort_state s -> sort_state g ->
    exists s' g' r, _TestSubgraph s g = Ret (s', g', r) /\ same_but_marks s s' /\ same_but_marks g g' /\
      (r = C_TRUE \/ r = C_FALSE) /\ (r = C_TRUE <-> sub_adj s sadj g gadj).
Proof.
  intros s sadj g gadj Rs Ps Rg Pg EN Ss Sg.
  pose proof (test_subgraph_ok s sadj g gadj Rs Ps Rg Pg EN Ss Sg) as W. apply wp_inv in W as (((s', g'), r) & E & H).
  exists s', g', r. auto.
Qed.
Print Assumptions C34_test_subgraph.

(** [sort_state] holds of a graph that was not sorted, and of one that was searched and sorted. *)
Theorem C34_sorting_gives_state :
  forall g adj, rep g adj -> primary_edges g adj -> unsearched g adj -> ~ sorted g ->
    sort_state g /\ exists h adj', gp_SortVertices g = Ret (h, C_OK) /\ rep h adj' /\ primary_edges h adj' /\ gN h = gN g /\
      is_sorted h = true /\ sort_state h.
Proof.
  intros g adj R P U NS. split.
  { intros E. exfalso. apply NS. unfold is_sorted in E. unfold sorted. apply Bool.negb_true_iff, Z.eqb_neq in E. auto. }
  destruct (ensure_sorted_ok g adj R P U NS) as (g1 & h & adj' & E1 & E2 & _ & Fr & DF & A1 & A2 & A3 & A4 & A5 & A6 & A7).
  destruct (C18_sort_searches_first g adj R P U) as (g2 & F1 & F2). assert (g2 = g1) by congruence. subst g2.
  exists h, adj'. split; [congruence|]. split; auto. split; auto. split; [now rewrite (rl_N _ _ _ A1), (dff_N _ _ Fr)|].
  split.
  { unfold is_sorted. apply Bool.negb_true_iff, Z.eqb_neq. exact A7. }
  intros _. split; [exact A6|].
  assert (Num : numbering g1 (vindex g1)) by (split; apply DF).
  destruct (relabelled_numbering g1 h Num A1) as [N1 N2]. split; [auto|]. split; [auto|].
  intros v Hv Hp. now apply (df_parent _ _ _ _ A5 v).
Qed.
Print Assumptions C34_sorting_gives_state.

(** A graph against itself sorted; a graph missing an edge of the other; the test looks at adjacencies
    only, not at multiplicities. *)
Definition verdict2 (m : res (graph * graph * Z)) : Z := snd (the (gp_New, gp_New, -7) m).
Example subgraph_case :
  let g := built 40 5 (adds [(1, 3); (3, 5); (5, 1); (2, 4)]) in
  let s := built 40 5 (adds [(3, 5); (2, 4)]) in
  let d := built 40 5 (adds [(3, 5); (5, 3); (2, 4)]) in
  let h := sorted_graph g in
  plain_reach g /\ plain_reach s /\ plain_reach d /\ map (vindex h) [1; 2; 3; 4; 5] = [1; 3; 5; 2; 4] /\
  verdict2 (_TestSubgraph s h) = C_TRUE /\ verdict2 (_TestSubgraph h s) = C_FALSE /\
  verdict2 (_TestSubgraph h g) = C_TRUE /\ verdict2 (_TestSubgraph d s) = C_TRUE.
Proof.
  cbv zeta. do 3 (split; [apply built_plain; vm_compute; reflexivity|]). repeat (split; [vm_compute; reflexivity|]). vm_compute; reflexivity.
Qed.

(** ** C37 *)
Theorem C37_external_face :
  forall g adj, rep g adj -> primary_edges g adj ->
    exists g' r, _CheckAllVerticesOnExternalFace g = Ret (g', r) /\ vertex_marks_only g g' /\ rep g' adj /\
      (r = C_OK \/ r = C_NOTOK) /\ (r = C_OK <-> all_outer g adj).
Proof.
  intros g adj R P. pose proof (ext_check_ok g adj R P) as W. apply wp_inv in W as ((g', r) & E & A & B & D).
  exists g', r. split; auto. split; auto. split; [eapply vm_rep; eauto|]. auto.
Qed.
Print Assumptions C37_external_face.

(** A 4-cycle with a chord is outerplanar, and one of its rotations shows it; K4 is not. *)
Definition c4_outer := built 40 5 (adds [(1, 4); (2, 3); (1, 3); (3, 4); (1, 2)]).
Example external_face_case :
  plain_reach c4_outer /\
  verdict (_CheckAllVerticesOnExternalFace (searched_graph c4_outer)) = C_OK /\
  verdict (_CheckAllVerticesOnExternalFace (searched_graph k4_good)) = C_NOTOK.
Proof.
  split; [apply built_plain; vm_compute; reflexivity|]. split; vm_compute; reflexivity.
Qed.

(** ** C53: the whole check of an embedding *)
Theorem C53_embedding_integrity :
  forall g adj o oadj,
    rep g adj -> primary_edges g adj -> rep o oadj -> primary_edges o oadj -> gN g = gN o ->
    sort_state g -> sort_state o -> 2 * gM g <= gstackCap g -> one_root_each g adj ->
    exists g' o' r, gp_TestEmbedResultIntegrity g o C_OK = Ret (g', o', r) /\
      rep g' adj /\ (forall e, enbr g' e = enbr g e) /\ rep o' oadj /\ (forall e, enbr o' e = enbr o e) /\
      (r = C_OK \/ r = C_NOTOK) /\
      (r = C_OK <-> sub_adj g adj o oadj /\ sub_adj o oadj g adj /\ euler g adj /\
                    (gembed g = EMBEDFLAGS_OUTERPLANAR -> all_outer g adj)).
Proof.
  intros g adj o oadj R P Ro Po EN Sg So C O.
  pose proof (check_embedding_ok g adj o oadj R P Ro Po EN Sg So C O) as W.
  apply wp_inv in W as (((g', o'), r) & E & H). exists g', o', r.
  unfold gp_TestEmbedResultIntegrity. rewrite Z.eqb_refl, E. cbn [bind].
  split; [|exact H]. destruct H as (_ & _ & _ & _ & [-> | ->] & _); reflexivity.
Qed.
Print Assumptions C53_embedding_integrity.

(** The sorted K4 is checked against the unsorted original. *)
Example embedding_case :
  map (vindex (sorted_graph k4_good)) [1; 2; 3; 4] = [1; 2; 3; 4] /\
  verdict2 (gp_TestEmbedResultIntegrity (sorted_graph k4_good) k4_bad C_OK) = C_OK /\
  verdict2 (gp_TestEmbedResultIntegrity (sorted_graph k4_bad) k4_good C_OK) = C_NOTOK.
Proof. repeat (split; [vm_compute; reflexivity|]). vm_compute; reflexivity. Qed.
