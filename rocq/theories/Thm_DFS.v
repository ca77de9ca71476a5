(** * C17-C19: depth first search, sorting, least ancestors and lowpoints. *)
From Coq Require Import ZifyBool.
From Verif Require Import Base BaseP GraphRec GraphM GraphSpec GSimp LinkP GraphP GraphP4 GraphP5 GraphEx DFSM DFSSpec DFSP DFSP2 DFSP3 DFSP4 DFSP5 DFSP6 DFSP7.

(** The theorems below are about graphs with [rep], [primary_edges] and [unsearched].  Every graph made by
    gp_InitGraph and any history of edge additions, insertions, deletions, capacity changes and
    reinitialisations among the primary vertices is one. *)
Theorem C17_edited_graphs_qualify : forall g, plain_reach g ->
  exists adj, rep g adj /\ primary_edges g adj /\ unsearched g adj.
Proof. exact plain_reach_unsearched. Qed.
Print Assumptions C17_edited_graphs_qualify.

Theorem C17_create_dfs_tree :
  forall g adj, rep g adj -> primary_edges g adj -> unsearched g adj ->
    exists g', gp_CreateDFSTree g = Ret (g', C_OK) /\
      dfs_forest g' adj (par g') (vindex g') /\
      dfs_frame g g' /\ rep g' adj /\ gstack g' = [] /\
      gp_CreateDFSTree g' = Ret (g', C_OK).
Proof.
  intros g adj R P U. destruct (create_dfs_ok g adj R P U) as (g' & E & F & St & DF & Fl & _).
  exists g'. split; [auto|]. split; [auto|]. split; [auto|]. split; [exact (frame_rep _ _ _ R F)|]. split; [auto|].
  unfold gp_CreateDFSTree. rewrite Fl, Z.land_lor_distr_l. destruct (Z.lor _ _ =? 0) eqn:Q; [|reflexivity].
  apply Z.eqb_eq, Z.lor_eq_0_iff in Q. destruct Q as [_ Q]. discriminate.
Qed.
Print Assumptions C17_create_dfs_tree.

(** Consequence for the search forest: an edge never joins two different branches. *)
Theorem C17_no_cross_edges :
  forall g adj g', rep g adj -> primary_edges g adj -> unsearched g adj -> gp_CreateDFSTree g = Ret (g', C_OK) ->
    forall u e, In e (adj u) -> ancestor (par g') u (enbr g e) \/ ancestor (par g') (enbr g e) u.
Proof.
  intros g adj g' R P U E u e He. destruct (create_dfs_ok g adj R P U) as (g1 & E1 & F & St & DF & Fl & _).
  assert (g1 = g') by congruence. subst g1. destruct (Z.eq_dec (enbr g e) u) as [->|N]; [left; constructor|].
  rewrite <- (dff_enbr _ _ F) in *. pose proof (df_edges _ _ _ _ DF u e He N) as Q. cbv zeta in Q.
  destruct (arc_primary _ _ R P _ _ He) as [Pu Pn]. rewrite <- (dff_enbr _ _ F) in Pn.
  destruct Q as [(_ & _ & Q)|[(_ & _ & Q)|[(_ & _ & Q)|(_ & _ & Q)]]]; auto.
  - left. apply anc_step; rewrite Q; [destruct Pu; unfold NIL; lia|constructor].
  - right. apply anc_step; rewrite Q; [destruct Pn; unfold NIL; lia|constructor].
Qed.
Print Assumptions C17_no_cross_edges.

(** A graph with two components, a cycle and a recycled edge slot. *)
Example dfs_case :
  let g := built 40 6 (adds [(1, 3); (3, 5); (5, 1); (4, 6); (4, 5); (5, 2)] ++ [GDel 10 0]) in
  plain_reach g /\ exists g', gp_CreateDFSTree g = Ret (g', C_OK) /\
    map (par g') [1; 2; 3; 4; 5; 6] = [0; 5; 1; 0; 3; 4] /\ map (vindex g') [1; 2; 3; 4; 5; 6] = [1; 4; 2; 5; 3; 6].
Proof.
  cbv zeta. split.
  - apply built_plain; vm_compute; reflexivity.
  - eexists. split; [vm_compute; reflexivity|]. split; vm_compute; reflexivity.
Qed.

(** ** C18 *)
(** [parents_ok] and [numbering] hold after the search, and again after sorting. *)
Theorem C18_sort_vertices :
  forall g adj, rep g adj -> primary_edges g adj -> searched g ->
    (forall v, primary g v -> 1 <= vindex g v <= gN g) ->
    (forall v w, primary g v -> primary g w -> vindex g v = vindex g w -> v = w) ->
    (forall v, primary g v -> par g v <> NIL -> primary g (par g v)) ->
    exists h adj', gp_SortVertices g = Ret (h, C_OK) /\ relabelled (vindex g) g h /\
      giflags h = Z.lxor (giflags g) FLAGS_SORTEDBYDFI /\
      rep h adj' /\ primary_edges h adj' /\ (forall v, primary g v -> adj' (vindex g v) = adj v) /\
      exists k, gp_SortVertices h = Ret (k, C_OK) /\ same_but_visited g k.
Proof.
  intros g adj R P S N1 N2 Po. assert (Num : numbering g (vindex g)) by (split; auto).
  destruct (sort_ok g adj R P S Num Po) as (h & adj' & E & RL & Fl & R' & P' & HA).
  exists h, adj'. do 6 (split; [auto|]).
  assert (Sh : searched h).
  { unfold searched in *. rewrite Fl. intros Q. apply S. rewrite <- Q. apply Z.bits_inj'. intros n Hn. rewrite !Z.land_spec, Z.lxor_spec.
    destruct (Z.eq_dec n 0) as [->|]; [change (Z.testbit FLAGS_SORTEDBYDFI 0) with false; now rewrite xorb_false_r|].
    replace (Z.testbit FLAGS_DFSNUMBERED n) with false; [now rewrite !andb_false_r|]. symmetry. apply Z.bits_above_log2; unfold FLAGS_DFSNUMBERED; cbn; lia. }
  pose proof (relabelled_numbering g h Num RL) as Numh.
  assert (Poh : parents_ok h).
  { intros x Hx Hp. assert (Px : primary g x) by (unfold primary in *; now rewrite <- (rl_N _ _ _ RL)).
    destruct (num_surj g Num x Px) as (v & Hv & <-). rewrite (rl_parent _ _ _ RL v Hv) in *.
    destruct (par g v =? NIL) eqn:Q; [congruence|]. apply Z.eqb_neq in Q. unfold primary. rewrite (rl_N _ _ _ RL). now apply Num, Po. }
  destruct (sort_ok h adj' R' P' Sh Numh Poh) as (k & adj'' & E2 & RL2 & Fl2 & _).
  exists k. split; [auto|]. exact (relabelled_twice g adj h k R P Num Po RL Fl RL2 Fl2).
Qed.
Print Assumptions C18_sort_vertices.

(** The search forest of the sorted graph: labels are the search numbers. *)
Theorem C18_sort_carries_forest :
  forall g adj, rep g adj -> primary_edges g adj -> unsearched g adj -> ~ sorted g ->
    exists g1 h adj', gp_CreateDFSTree g = Ret (g1, C_OK) /\ gp_SortVertices g1 = Ret (h, C_OK) /\
      relabelled (vindex g1) g1 h /\ rep h adj' /\ primary_edges h adj' /\
      (forall v, primary g v -> adj' (vindex g1 v) = adj v) /\
      dfs_forest h adj' (par h) (fun v => v).
Proof.
  intros g adj R P U NS. destruct (ensure_sorted_ok g adj R P U NS) as (g1 & h & adj' & E1 & E2 & _ & _ & _ & A1 & A2 & A3 & A4 & A5 & _).
  exists g1, h, adj'. do 6 (split; [auto|]). auto.
Qed.
Print Assumptions C18_sort_carries_forest.

Theorem C18_sort_searches_first :
  forall g adj, rep g adj -> primary_edges g adj -> unsearched g adj ->
    exists g1, gp_CreateDFSTree g = Ret (g1, C_OK) /\ gp_SortVertices g = gp_SortVertices g1.
Proof.
  intros g adj R P U. destruct (create_dfs_ok g adj R P U) as (g1 & E & F & St & DF & Fl & _).
  exists g1. split; [auto|]. unfold gp_SortVertices. pose proof (us_flag _ _ U) as Q. unfold FLAGS_DFSNUMBERED at 1. rewrite Q, Z.eqb_refl, E. cbn [bind].
  replace (Z.land (giflags g1) FLAGS_DFSNUMBERED =? 0) with false; [reflexivity|].
  symmetry. apply Z.eqb_neq. rewrite Fl, Z.land_lor_distr_l. intros X. apply Z.lor_eq_0_iff in X. destruct X as [_ X]. discriminate.
Qed.
Print Assumptions C18_sort_searches_first.

Example sort_case :
  let g := built 40 6 (adds [(1, 3); (3, 5); (5, 1); (4, 6); (4, 5); (5, 2)] ++ [GDel 10 0]) in
  exists h k, gp_SortVertices g = Ret (h, C_OK) /\ gp_SortVertices h = Ret (k, C_OK) /\
    map (vindex h) [1; 2; 3; 4; 5; 6] = [1; 3; 5; 2; 4; 6] /\ map (par h) [1; 2; 3; 4; 5; 6] = [0; 1; 2; 3; 0; 5] /\
    map (enbr k) [2; 3; 4; 5] = map (enbr g) [2; 3; 4; 5].
Proof. cbv zeta. do 2 eexists. split; [vm_compute; reflexivity|]. split; [vm_compute; reflexivity|]. vm_compute. auto. Qed.

(** ** C19 *)
(** On a sorted graph. The result differs from h in visited flags, least ancestors and lowpoints only. *)
Theorem C19_lowpoint_and_least_ancestor :
  forall h adj, rep h adj -> primary_edges h adj -> dfs_forest h adj (par h) (fun v => v) -> searched h -> sorted h ->
    gN h <= gstackCap h ->
    exists vf la lo,
      gp_LowpointAndLeastAncestor h = Ret (set_gVI (set_vflags (set_gstack h []) vf) (set_viLow (set_viLeast (gVI h) la) lo), C_OK) /\
      (forall v, primary h v -> is_min (la v) (back_reach h adj v) /\ is_min (lo v) (low_reach h adj v)) /\
      (forall v, ~ primary h v -> vf v = vflags h v /\ la v = viLeast (gVI h) v /\ lo v = viLow (gVI h) v) /\
      (forall v, Z.ldiff (vf v) VERTEX_VISITED_MASK = Z.ldiff (vflags h v) VERTEX_VISITED_MASK).
Proof. exact low_sorted. Qed.
Print Assumptions C19_lowpoint_and_least_ancestor.

(** On a graph that has not been searched: the call searches and sorts it first. *)
Theorem C19_lowpoint_from_scratch :
  forall g adj, rep g adj -> primary_edges g adj -> unsearched g adj -> ~ sorted g -> gN g <= gstackCap g ->
    exists g1 h adj' r, gp_CreateDFSTree g = Ret (g1, C_OK) /\ gp_SortVertices g1 = Ret (h, C_OK) /\ rep h adj' /\
      (forall v, primary g v -> adj' (vindex g1 v) = adj v) /\
      gp_LowpointAndLeastAncestor g = Ret (r, C_OK) /\
      (forall v, primary h v -> is_min (viLeast (gVI r) v) (back_reach h adj' v) /\ is_min (viLow (gVI r) v) (low_reach h adj' v)) /\
      enbr r = enbr h /\ enext r = enext h /\ eprev r = eprev h /\ vfirst r = vfirst h /\ vlast r = vlast h /\
      vindex r = vindex h /\ eflags r = eflags h /\ viParent (gVI r) = viParent (gVI h).
Proof.
  intros g adj R P U NS Rm. destruct (ensure_sorted_ok g adj R P U NS) as (g1 & h & adj' & E1 & E2 & E3 & Fr & _ & A1 & A2 & A3 & A4 & A5 & A6 & A7).
  destruct (low_sorted h adj' A2 A3 A5 A6 A7) as (vf & la & lo & E4 & K & _).
  { rewrite (rl_N _ _ _ A1), (rl_stackCap _ _ _ A1), (dff_N _ _ Fr), (dff_stackCap _ _ Fr). auto. }
  destruct (low_ensured g h E3 A6 A7) as [L1 _].
  exists g1, h, adj'. eexists. do 4 (split; [auto|]). split; [rewrite L1; exact E4|]. split; [exact K|]. repeat split; reflexivity.
Qed.
Print Assumptions C19_lowpoint_from_scratch.

(** gp_LeastAncestor relies on the visited flags being clear, and does not clear them. *)
Theorem C19_least_ancestor_partial :
  forall h adj, rep h adj -> primary_edges h adj -> dfs_forest h adj (par h) (fun v => v) -> searched h -> sorted h ->
    gN h <= gstackCap h -> (forall v, primary h v -> Z.land (vflags h v) VERTEX_VISITED_MASK = 0) ->
    exists vf la,
      gp_LeastAncestor h = Ret (set_gVI (set_vflags (set_gstack h []) vf) (set_viLeast (gVI h) la), C_OK) /\
      (forall v, primary h v -> is_min (la v) (back_reach h adj v)) /\
      (forall v, ~ primary h v -> vf v = vflags h v /\ la v = viLeast (gVI h) v) /\
      (forall v, Z.ldiff (vf v) VERTEX_VISITED_MASK = Z.ldiff (vflags h v) VERTEX_VISITED_MASK).
Proof.
  intros h adj R P DF S1 S2 Rm NV. destruct (least_sorted h adj R P DF S1 S2 Rm) as (vf & la & E & K).
  { intros v Hv. unfold visited. now rewrite (NV v Hv). }
  exists vf, la. split; [|exact K]. rewrite E. reflexivity.
Qed.
Print Assumptions C19_least_ancestor_partial.

Lemma least_skip : forall n h v, (forall x, primary h x -> visited h x = true) -> 1 <= v <= gN h + 1 -> gN h + 1 - v < Z.of_nat n ->
  least_forest_loop n h v = Ret h.
Proof.
  induction n as [|n IH]; intros h v V Hv Hn.
  - cbn [least_forest_loop]. lia.
  - cbn [least_forest_loop]. destruct (v <=? gN h) eqn:E; [|reflexivity].
    assert (Pv : primary h v) by (split; lia). destruct (prim_inV h h v eq_refl Pv) as [I _].
    rewrite (get_visited _ _ I). cbn [bind]. pose proof (V v Pv) as Q. unfold visited in Q. rewrite Q. apply IH; [auto|lia|lia].
Qed.

(** Called on a graph that is not sorted yet, it reports success having set no least ancestor at all:
    sorting leaves every vertex marked as visited. *)
Theorem C19_least_ancestor_does_nothing_refuted :
  forall g adj, rep g adj -> primary_edges g adj -> unsearched g adj -> ~ sorted g -> gN g <= gstackCap g ->
    exists h, gp_SortVertices g = Ret (h, C_OK) /\ gp_LeastAncestor g = Ret (set_gstack h [], C_OK).
Proof.
  intros g adj R P U NS Rm. destruct (ensure_sorted_ok g adj R P U NS) as (g1 & h & adj' & E1 & E2 & E3 & Fr & DF & A1 & A2 & A3 & A4 & A5 & A6 & A7).
  exists h. split.
  { destruct (C18_sort_searches_first g adj R P U) as (g2 & F1 & F2). assert (g2 = g1) by congruence. subst g2. now rewrite F2. }
  destruct (low_ensured g h E3 A6 A7) as [_ L2]. rewrite L2. unfold gp_LeastAncestor. rewrite (ensure_sorted_again h A6 A7). cbn [bind].
  rewrite Z.eqb_refl. cbn [negb]. assert (N : gN h = gN g) by (rewrite (rl_N _ _ _ A1), (dff_N _ _ Fr); auto).
  replace (gstackCap h <? gN h) with false by (rewrite (rl_stackCap _ _ _ A1), (dff_stackCap _ _ Fr), N; lia). cbv zeta.
  unfold stk_clear. pose proof (st_N _ _ (rep_storage _ _ A2)). rewrite least_skip; [reflexivity| |gsimp; lia|gsimp; lia].
  intros x Hx. assert (Num : numbering g1 (vindex g1)) by (split; apply DF).
  assert (Px : primary g1 x). { unfold primary in *. rewrite (rl_N _ _ _ A1) in N. gsimp_in Hx. rewrite <- (rl_N _ _ _ A1). exact Hx. }
  destruct (num_surj g1 Num x Px) as (v & Hv & <-). unfold visited. change (vflags (set_gstack h [])) with (vflags h).
  rewrite (rl_vflags _ _ _ A1 v Hv). unfold VERTEX_VISITED_MASK. now rewrite visited_set.
Qed.
Print Assumptions C19_least_ancestor_does_nothing_refuted.

(** A triangle: the stored value is 0, not a vertex. *)
Theorem C19_least_ancestor_refuted :
  exists g h v, reach g /\ gp_LeastAncestor g = Ret (h, C_OK) /\ primary h v /\
    forall adj, rep h adj -> ~ is_min (viLeast (gVI h) v) (back_reach h adj v).
Proof.
  set (g := built 40 3 (adds [(1, 2); (2, 3); (3, 1)])).
  exists g, (fst (the (g, 0) (gp_LeastAncestor g))), 3.
  split; [apply built_reach; vm_compute; reflexivity|]. split; [vm_compute; reflexivity|]. split; [vm_compute; split; discriminate|].
  intros adj R [M _]. replace (viLeast _ 3) with 0 in M by (vm_compute; reflexivity).
  destruct M as [M|(e & H1 & H2 & H3)]; [discriminate|].
  destruct (rep_twins _ _ R _ _ H1) as [_ T]. apply (ch_isvertex _ _ _ _ (rep_chains _ _ R)) in T. rewrite H3 in T. destruct T. lia.
Qed.
Print Assumptions C19_least_ancestor_refuted.

Example low_case :
  let g := built 40 6 (adds [(1, 3); (3, 5); (5, 1); (4, 6); (4, 5); (5, 2)] ++ [GDel 10 0]) in
  gN g <= gstackCap g /\ Z.land (giflags g) FLAGS_SORTEDBYDFI = 0 /\
  exists r, gp_LowpointAndLeastAncestor g = Ret (r, C_OK) /\
    map (viLow (gVI r)) [1; 2; 3; 4; 5; 6] = [1; 1; 1; 4; 5; 6] /\
    exists h, gp_SortVertices g = Ret (h, C_OK) /\
      exists h0, _ClearVertexVisitedFlags h false = Ret h0 /\ exists s, gp_LeastAncestor h0 = Ret (s, C_OK) /\
      map (viLeast (gVI s)) [1; 2; 3; 4; 5; 6] = map (viLeast (gVI r)) [1; 2; 3; 4; 5; 6] .
Proof.
  cbv zeta. split; [vm_compute; discriminate|]. split; [vm_compute; reflexivity|].
  eexists. split; [vm_compute; reflexivity|]. split; [vm_compute; reflexivity|].
  eexists. split; [vm_compute; reflexivity|]. eexists. split; [vm_compute; reflexivity|].
  eexists. split; [vm_compute; reflexivity|]. vm_compute. reflexivity.
Qed.
