(** * C04-C10, C15, C16: graph editing and queries. *)
From Coq Require Import ZifyBool.
From Verif Require Import Base BaseP GraphRec GraphM GraphSpec GSimp LinkP GraphP GraphP2 GraphP3 GraphP4 GraphP5 GraphEx.

(** ** C04 *)
(** Every graph reached by an edit history is well-formed (see [rep] in GraphSpec.v: proper
    doubly linked lists, twins in the lists of both ends, no arc twice, storage partitioned into
    used and recycled slots), the degrees add up to twice the reported edge count, and every
    further valid call runs without leaving any array. *)
Theorem C04_histories_well_formed :
  forall g, reach g ->
    (exists adj, rep g adj /\ sumdeg adj (Z.to_nat (2 * gN g)) = 2 * gM g) /\
    (forall o, gop_valid g o -> exists g' r, gstep g o = Ret (g', r)).
Proof.
  intros g H. pose proof (reach_inv g H) as I. split.
  - destruct I as ((adj & R) & _). exists adj. split; [exact R|exact (rep_sumdeg _ _ R)].
  - intros o Hv. destruct (wp_inv _ _ (gstep_inv g o I Hv)) as ([g' r] & E & _). eauto.
Qed.
Print Assumptions C04_histories_well_formed.

(** The lists of a well-formed graph are determined by the graph, so [adj] can be read as
    "the adjacency lists of g". *)
Theorem C04_lists_unique : forall g adj adj', rep g adj -> rep g adj' -> forall v, adj v = adj' v.
Proof. exact rep_unique. Qed.
Print Assumptions C04_lists_unique.

(** ** C05 *)
Lemma ip_added g g' adj u eu ul v ev vl :
  rep g adj -> gM g < gCap g / 2 -> insert_post g g' adj u eu ul v ev vl ->
  edge_added g g' adj u eu ul v ev vl (twin (snd (take_edge_slot g))).
Proof.
  intros R HM P. destruct (slot_facts g adj R HM) as (_ & _ & F1 & F2).
  pose proof (ip_frame _ _ _ _ _ _ _ _ _ P) as FR. pose proof (ip_enbr _ _ _ _ _ _ _ _ _ P) as NB.
  constructor; try apply FR.
  - intros w. rewrite twin_invol. auto.
  - apply P.
  - rewrite !NB, twin_invol, !Z.eqb_refl. rewrite eqb_false_neq by apply twin_ne. auto.
  - intros x H1 H2. rewrite twin_invol in H2. rewrite NB, !eqb_false_neq by auto. reflexivity.
Qed.

Theorem C05_add_edge_effect :
  forall g adj u ul v vl, rep g adj -> link_ok ul -> link_ok vl ->
    exists g' r, gp_AddEdge g u ul v vl = Ret (g', r) /\
      (~ is_vertex g u \/ ~ is_vertex g v -> g' = g /\ r = C_NOTOK) /\
      (is_vertex g u -> is_vertex g v -> gCap g / 2 <= gM g -> g' = g /\ r = C_NONEMBEDDABLE) /\
      (is_vertex g u -> is_vertex g v -> gM g < gCap g / 2 ->
         r = C_OK /\ exists a, edge_added g g' adj u NIL ul v NIL vl a).
Proof.
  intros g adj u ul v vl R Hu Hv.
  destruct (wp_inv _ _ (add_edge_ok g adj u ul v vl R Hu Hv)) as ([g' r] & E & P). cbn [fst snd] in P.
  exists g', r. split; [exact E|]. unfold add_post, valid_vertex in P. unfold is_vertex.
  split; [|split].
  - intros H. replace (negb _) with true in P by lia. exact P.
  - intros H1 H2 H3. replace (negb _) with false in P by lia. replace (_ <=? _) with true in P by lia. exact P.
  - intros H1 H2 H3. replace (negb _) with false in P by lia. replace (_ <=? _) with false in P by lia.
    destruct P as [-> P]. split; [reflexivity|]. eexists. apply ip_added; eauto.
Qed.
Print Assumptions C05_add_edge_effect.

Theorem C05_insert_edge_effect :
  forall g adj u eu ul v ev vl, rep g adj ->
    (eu = NIL \/ In eu (adj u)) -> (ev = NIL \/ In ev (adj v)) ->
    exists g' r, gp_InsertEdge g u eu ul v ev vl = Ret (g', r) /\
      (~ is_vertex g u \/ ~ is_vertex g v \/ ~ link_ok ul \/ ~ link_ok vl -> g' = g /\ r = C_NOTOK) /\
      (is_vertex g u -> is_vertex g v -> link_ok ul -> link_ok vl -> gCap g / 2 <= gM g ->
         g' = g /\ r = C_NONEMBEDDABLE) /\
      (is_vertex g u -> is_vertex g v -> link_ok ul -> link_ok vl -> gM g < gCap g / 2 ->
         r = C_OK /\ exists a, edge_added g g' adj u eu ul v ev vl a).
Proof.
  intros g adj u eu ul v ev vl R Hu Hv.
  assert (Hu' : eu = NIL \/ arc_of g u eu) by (destruct Hu; auto; right; now apply (rep_arc_of _ _ _ _ R)).
  assert (Hv' : ev = NIL \/ arc_of g v ev) by (destruct Hv; auto; right; now apply (rep_arc_of _ _ _ _ R)).
  destruct (wp_inv _ _ (insert_edge_ok g adj u eu ul v ev vl R Hu' Hv')) as ([g' r] & E & P). cbn [fst snd] in P.
  assert (Bu : eu = NIL \/ 2 <= eu < gp_EdgeInUseIndexBound g).
  { destruct Hu as [H|H]; auto. right. exact (st_used _ _ (rep_storage _ _ R) _ _ H). }
  assert (Bv : ev = NIL \/ 2 <= ev < gp_EdgeInUseIndexBound g).
  { destruct Hv as [H|H]; auto. right. exact (st_used _ _ (rep_storage _ _ R) _ _ H). }
  exists g', r. split; [exact E|]. unfold ins_post, insert_args_ok, valid_vertex, NIL in P.
  unfold is_vertex, link_ok, NIL in *.
  split; [|split].
  - intros H. replace (negb _) with true in P by lia. exact P.
  - intros H1 H2 H3 H4 H5. replace (negb _) with false in P by lia.
    replace (_ <=? _) with true in P by lia. exact P.
  - intros H1 H2 H3 H4 H5. replace (negb _) with false in P by lia.
    replace (_ <=? _) with false in P by lia.
    destruct P as [-> P]. split; [reflexivity|]. eexists. apply ip_added; eauto.
Qed.
Print Assumptions C05_insert_edge_effect.

(** ** C06 *)
Theorem C06_delete_edge_effect :
  forall g adj e link v, rep g adj -> In e (adj v) -> link_ok link ->
    exists g' r, gp_DeleteEdge g e link = Ret (g', r) /\
      edge_deleted g g' adj e /\ next_in (adj v) e link r /\
      (* the slot can be used again *)
      (forall x ul y vl, is_vertex g x -> is_vertex g y -> link_ok ul -> link_ok vl ->
         exists g'', gp_AddEdge g' x ul y vl = Ret (g'', C_OK)).
Proof.
  intros g adj e link v R Hin Hl.
  assert (Hu : in_use g e) by (apply (rep_in_use _ _ _ R); eauto).
  destruct (wp_inv _ _ (delete_edge_ok g adj e link R Hu Hl)) as ([g' r] & E & R' & D & N & _). cbn [fst snd] in *.
  exists g', r. split; [exact E|]. split; [|split].
  - constructor; try apply D; auto.
    intros x H1 H2. rewrite (df_enbr _ _ _ D), (df_eflags _ _ _ D), !eqb_false_neq by auto. auto.
  - destruct (rep_twins _ _ R _ _ Hin) as [T _]. now rewrite T in N.
  - intros x ul y vl Hx Hy H1 H2.
    destruct (C05_add_edge_effect g' (adj_remove adj e) x ul y vl R' H1 H2) as (g'' & r'' & E2 & _ & _ & P).
    exists g''. rewrite E2. destruct P as [-> _]; auto.
    + unfold is_vertex in *. now rewrite (df_N _ _ _ D).
    + unfold is_vertex in *. now rewrite (df_N _ _ _ D).
    + rewrite (df_M _ _ _ D), (df_cap _ _ _ D). pose proof (rep_holes_len _ _ R). lia.
Qed.
Print Assumptions C06_delete_edge_effect.

(** ** C07 *)
Theorem C07_ensure_capacity :
  forall g adj k, rep g adj -> Z.of_nat (length (gstack g)) <= gstackCap g ->
    exists g' r, gp_EnsureArcCapacity g k = Ret (g', r) /\
      (k <= 0 \/ Z.even k = false -> g' = g /\ r = C_NOTOK) /\
      (0 < k -> Z.even k = true ->
         r = C_OK /\ rep g' adj /\ k <= gCap g' /\ gCap g <= gCap g' /\
         (k <= gCap g -> g' = g) /\ (gCap g < k -> grown g g' k)).
Proof.
  intros g adj k R Hs.
  destruct (wp_inv _ _ (ensure_ok g adj k R Hs)) as ([g' r] & E & P & R'). cbn [fst snd] in *.
  exists g', r. split; [exact E|]. unfold ensure_post in P. split.
  - intros H. replace ((k <=? 0) || negb (Z.even k)) with true in P by lia. exact P.
  - intros H0 He. rewrite He in P. replace (k <=? 0) with false in P by lia. cbn [orb negb] in P.
    destruct (k <=? gCap g) eqn:Ek.
    + destruct P as [-> ->]. split; [auto|]. split; [auto|]. split; [lia|]. split; [lia|]. split; [auto|lia].
    + destruct P as [-> G]. pose proof (gr_cap _ _ _ G). split; [auto|]. split; [auto|]. split; [lia|]. split; [lia|].
      split; [lia|auto].
Qed.
Print Assumptions C07_ensure_capacity.

(** Before initialisation the request is remembered and used by gp_InitGraph. *)
Theorem C07_ensure_before_init :
  forall k N, 1 <= N -> exists g, fresh_graph k N = Ret g /\ rep g no_adj /\ gN g = N /\
    gCap g = (if (0 <? k) && Z.even k then k else 6 * N).
Proof.
  intros k N HN. destruct (wp_inv _ _ (fresh_ok k N HN)) as (g & E & R & H1 & _ & _ & H2). eauto.
Qed.
Print Assumptions C07_ensure_before_init.

(** ** C08 *)
(** Exactly the capacities 2 and 4 are mishandled: with any other capacity the edge is added
    as long as fewer than N(N-1)/2 edges are present. *)
Theorem C08_dynamic_add_partial :
  forall g adj u ul v vl, rep g adj -> Z.of_nat (length (gstack g)) <= gstackCap g ->
    link_ok ul -> link_ok vl -> dyn_fits g -> is_vertex g u -> is_vertex g v ->
    2 * gM g < gN g * (gN g - 1) -> (gM g < gCap g / 2 \/ 6 <= gCap g) ->
    exists g1 g' a, gp_DynamicAddEdge g u ul v vl = Ret (g', C_OK) /\
      (g1 = g \/ exists k, gCap g < k /\ grown g g1 k) /\ edge_added g1 g' adj u NIL ul v NIL vl a.
Proof.
  intros g adj u ul v vl R Hs Hul Hvl Hf Hu Hv HM Hcap.
  destruct (wp_inv _ _ (dyn_add_ok g adj u ul v vl R Hs Hul Hvl Hf)) as ([g' r] & E & g1 & r1 & P1 & P).
  cbn [fst snd] in *. rewrite E.
  assert (EV : valid_vertex g u && valid_vertex g v = true) by (unfold valid_vertex, is_vertex in *; lia).
  rewrite EV in P. cbn [negb] in P.
  destruct (gCap g / 2 <=? gM g) eqn:EM; cbn [negb] in P.
  - destruct Hcap as [Hc|Hc]; [lia|]. pose proof (rep_holes_len _ _ R) as HL.
    pose proof (st_even _ _ (rep_storage _ _ R)) as He. rewrite Z.even_spec in He. destruct He as [c Hcc].
    assert (HMc : gM g = c) by (rewrite Hcc, Z.mul_comm, Z.div_mul in *; lia).
    assert (Heven : Z.even (dyn_newcap g) = true).
    { unfold dyn_newcap. destruct ((gCap g - 2) * 2 >? gN g * (gN g - 1)).
      - rewrite Z.even_mul. destruct (even_cases (gN g)) as [[A B]|[A B]]; rewrite A; auto.
        cbn [orb]. rewrite Z.even_sub. rewrite A. reflexivity.
      - rewrite Z.even_mul. cbn. apply orb_true_r. }
    assert (Hgrow : gCap g < dyn_newcap g).
    { unfold dyn_newcap. destruct ((gCap g - 2) * 2 >? gN g * (gN g - 1)); lia. }
    unfold ensure_post in P1. replace (dyn_newcap g <=? 0) with false in P1 by lia.
    rewrite Heven in P1. cbn [negb orb] in P1. replace (dyn_newcap g <=? gCap g) with false in P1 by lia.
    destruct P1 as [-> G]. change (C_OK =? C_OK) with true in P. cbn [negb] in P. destruct P as [R1 P].
    unfold add_post in P.
    assert (EV1 : valid_vertex g1 u && valid_vertex g1 v = true).
    { unfold valid_vertex in *. now rewrite (gr_N _ _ _ G). }
    rewrite EV1 in P. cbn [negb] in P.
    assert (HMg : gM g1 < gCap g1 / 2).
    { rewrite (gr_M _ _ _ G), (gr_cap _ _ _ G), HMc. rewrite Z.even_spec in Heven. destruct Heven as [d Hd].
      rewrite Hd, (Z.mul_comm 2 d), Z.div_mul by lia. lia. }
    replace (gCap g1 / 2 <=? gM g1) with false in P by lia. destruct P as [-> P].
    exists g1, g', (twin (snd (take_edge_slot g1))). split; [reflexivity|]. split; [right; eauto|].
    apply ip_added; auto.
  - unfold add_post in P. rewrite EV, EM in P. cbn [negb] in P. destruct P as [-> P].
    exists g, g', (twin (snd (take_edge_slot g))). split; [reflexivity|]. split; [auto|].
    apply ip_added; auto. lia.
Qed.
Print Assumptions C08_dynamic_add_partial.

(** With capacity 4 (two edges) and four vertices the third edge is refused, with capacity 2
    and three vertices the second edge fails: the full property is false. *)
Theorem C08_dynamic_add_refuted :
  (exists g, reach g /\ gN g = 4 /\ gM g = 2 /\ exists g', gp_DynamicAddEdge g 3 0 4 0 = Ret (g', C_NONEMBEDDABLE)) /\
  (exists g, reach g /\ gN g = 3 /\ gM g = 1 /\ exists g', gp_DynamicAddEdge g 2 0 3 0 = Ret (g', C_NOTOK)).
Proof.
  split.
  - exists (built 4 4 (adds [(1, 2); (2, 3)])). split; [apply built_reach; reflexivity|].
    split; [reflexivity|]. split; [reflexivity|]. eexists. vm_compute. reflexivity.
  - exists (built 2 3 (adds [(1, 2)])). split; [apply built_reach; reflexivity|].
    split; [reflexivity|]. split; [reflexivity|]. eexists. vm_compute. reflexivity.
Qed.
Print Assumptions C08_dynamic_add_refuted.

(** ** C09 *)
(** The maximum number of edges is [gCap g / 2] (C05); the reported capacity is two less than
    twice that, for every initialised graph. *)
Theorem C09_reported_capacity_refuted :
  forall g adj, rep g adj -> gp_GetArcCapacity g = 2 * (gCap g / 2) - 2.
Proof.
  intros g adj R. unfold gp_GetArcCapacity. pose proof (st_even _ _ (rep_storage _ _ R)) as He.
  rewrite Z.even_spec in He. destruct He as [c ->]. rewrite (Z.mul_comm 2 c), Z.div_mul by lia. lia.
Qed.
Print Assumptions C09_reported_capacity_refuted.

(** ** C10 *)
Theorem C10_queries_exact :
  forall g adj u v, rep g adj -> is_vertex g u -> is_vertex g v ->
    (exists b, gp_IsNeighbor g u v = Ret b /\ (b = C_TRUE \/ b = C_FALSE) /\
       (b = C_TRUE <-> exists e, In e (adj u) /\ enbr g e = v /\ Z.land (eflags g e) DIR_MASK <> DIR_INONLY)) /\
    (exists e, gp_GetNeighborEdgeRecord g u v = Ret e /\
       ((e = NIL /\ forall x, In x (adj u) -> enbr g x <> v) \/
        (exists l1 l2, adj u = l1 ++ e :: l2 /\ enbr g e = v /\ forall x, In x l1 -> enbr g x <> v))) /\
    gp_GetVertexDegree g v = Ret (Z.of_nat (length (adj v))) /\
    gp_GetVertexInDegree g v =
      Ret (Z.of_nat (length (filter (fun e => negb (Z.land (eflags g e) DIR_MASK =? DIR_OUTONLY)) (adj v)))) /\
    gp_GetVertexOutDegree g v =
      Ret (Z.of_nat (length (filter (fun e => negb (Z.land (eflags g e) DIR_MASK =? DIR_INONLY)) (adj v)))).
Proof.
  intros g adj u v R Hu Hv. pose proof (rep_chains _ _ R) as C.
  split; [|split; [|exact (degrees_ok _ _ _ C Hv)]].
  - rewrite (is_neighbor_ok _ _ _ _ C Hu). eexists. split; [reflexivity|].
    destruct (existsb (arc_to g v) (adj u)) eqn:E.
    + split; [auto|]. split; [intros _|auto]. apply existsb_exists in E. destruct E as (e & H1 & H2).
      unfold arc_to in H2. exists e. split; [auto|]. lia.
    + split; [auto|]. split; [unfold C_TRUE, C_FALSE; intros; discriminate|]. intros (e & H1 & H2 & H3).
      assert (X : existsb (arc_to g v) (adj u) = true); [|congruence].
      apply existsb_exists. exists e. split; [auto|]. unfold arc_to. lia.
  - rewrite (neighbor_rec_ok _ _ _ _ C Hu) by (unfold is_vertex, NIL in *; lia).
    eexists. split; [reflexivity|]. clear. induction (adj u) as [|a l IH]; [left; split; auto|].
    cbn [filter]. destruct (Z.eqb_spec (enbr g a) v) as [Ea|Ea].
    + right. exists [], l. split; [reflexivity|]. split; [auto|]. intros x [].
    + destruct IH as [[H1 H2]|(l1 & l2 & H1 & H2 & H3)].
      * left. split; [auto|]. intros x [<-|Hx]; auto.
      * right. exists (a :: l1), l2. split; [cbn [app]; now rewrite <- H1|]. split; [auto|].
        intros x [<-|Hx]; auto.
Qed.
Print Assumptions C10_queries_exact.

(** ** C15 *)
(** On every reachable graph (histories include arbitrary marking of edges in use) a new edge
    has an empty flag word: not visited, no DFS type, not inverted, no direction. *)
Theorem C15_new_edge_unmarked_partial :
  forall g u ul v vl g', reach g -> link_ok ul -> link_ok vl ->
    gp_AddEdge g u ul v vl = Ret (g', C_OK) ->
    exists adj a, rep g adj /\ edge_added g g' adj u NIL ul v NIL vl a /\ eflags g' a = 0 /\ eflags g' (twin a) = 0.
Proof.
  intros g u ul v vl g' H Hul Hvl E. destruct (reach_inv g H) as ((adj & R) & Cl & _).
  pose proof (add_edge_ok g adj u ul v vl R Hul Hvl) as W. rewrite E in W. cbn [wp fst snd] in W.
  unfold add_post in W. destruct (valid_vertex g u && valid_vertex g v) eqn:EV; cbn [negb] in W; [|destruct W; discriminate].
  destruct (gCap g / 2 <=? gM g) eqn:EM; [destruct W; discriminate|]. destruct W as [_ P].
  exists adj, (twin (snd (take_edge_slot g))). split; [exact R|]. split; [apply ip_added; auto; lia|].
  rewrite twin_invol. unfold valid_vertex in EV.
  assert (HM : gM g < gCap g / 2) by lia.
  assert (Vu : is_vertex g u) by (unfold is_vertex; lia). assert (Vv : is_vertex g v) by (unfold is_vertex; lia).
  destruct (proj2 (insert_clean g g' adj u NIL ul v NIL vl R Cl P Vu Vv) HM). auto.
Qed.
Print Assumptions C15_new_edge_unmarked_partial.

Theorem C15_inserted_edge_unmarked_partial :
  forall g u eu ul v ev vl g', reach g -> (eu = NIL \/ arc_of g u eu) -> (ev = NIL \/ arc_of g v ev) ->
    gp_InsertEdge g u eu ul v ev vl = Ret (g', C_OK) ->
    exists adj a, rep g adj /\ edge_added g g' adj u eu ul v ev vl a /\ eflags g' a = 0 /\ eflags g' (twin a) = 0.
Proof.
  intros g u eu ul v ev vl g' H Hu Hv E. destruct (reach_inv g H) as ((adj & R) & Cl & _).
  pose proof (insert_edge_ok g adj u eu ul v ev vl R Hu Hv) as W. rewrite E in W. cbn [wp fst snd] in W.
  unfold ins_post in W. destruct (insert_args_ok g u eu ul v ev vl) eqn:EV; cbn [negb] in W; [|destruct W; discriminate].
  destruct (gCap g / 2 <=? gM g) eqn:EM; [destruct W; discriminate|]. destruct W as [_ P].
  assert (HM : gM g < gCap g / 2) by lia.
  exists adj, (twin (snd (take_edge_slot g))). split; [exact R|]. split; [apply ip_added; auto|].
  rewrite twin_invol. unfold insert_args_ok, valid_vertex in EV.
  assert (Vu : is_vertex g u) by (unfold is_vertex; lia). assert (Vv : is_vertex g v) by (unfold is_vertex; lia).
  destruct (proj2 (insert_clean g g' adj u eu ul v ev vl R Cl P Vu Vv) HM). auto.
Qed.
Print Assumptions C15_inserted_edge_unmarked_partial.

(** After copying a graph into one with a larger capacity, marks of the overwritten graph
    survive beyond the copied records and a later gp_AddEdge exposes them. *)
Theorem C15_new_edge_unmarked_refuted :
  exists src dst copy g' e,
    reach src /\ reach dst /\ gp_CopyGraph dst src = Ret (copy, C_OK) /\
    gp_AddEdge copy 1 0 2 0 = Ret (g', C_OK) /\ in_use g' e /\ ~ in_use copy e /\ eflags g' e <> 0.
Proof.
  set (src := built 2 2 (adds [(1, 2)])).
  set (dst := built 4 2 (adds [(1, 2); (1, 2)] ++ [GMark 4 1])).
  set (copy := fst (the (src, 0) (gp_CopyGraph dst src))).
  exists src, dst, copy, (fst (the (src, 0) (gp_AddEdge copy 1 0 2 0))), 4.
  split; [apply built_reach; reflexivity|]. split; [apply built_reach; reflexivity|].
  split; [vm_compute; reflexivity|]. split; [vm_compute; reflexivity|].
  split; [vm_compute; repeat split; discriminate|].
  split; [intros ((_ & H) & _); vm_compute in H; discriminate|]. vm_compute. discriminate.
Qed.
Print Assumptions C15_new_edge_unmarked_refuted.

(** ** C16 *)
Definition dir_of (g : graph) (e : Z) : Z := Z.land (eflags g e) DIR_MASK.
Definition opposite (d : Z) : Z :=
  if d =? DIR_INONLY then DIR_OUTONLY else if d =? DIR_OUTONLY then DIR_INONLY else 0.
(** What is missing: the case where the edge already has the opposite direction (next theorem). *)
Theorem C16_set_direction_partial :
  forall g adj e d, rep g adj -> in_use g e -> d = 0 \/ d = DIR_INONLY \/ d = DIR_OUTONLY ->
    d = 0 \/ (dir_of g e = 0 \/ dir_of g e = d) /\ (dir_of g (twin e) = 0 \/ dir_of g (twin e) = opposite d) ->
    exists g', gp_SetDirection g e d = Ret g' /\ rep g' adj /\
      dir_of g' e = d /\ dir_of g' (twin e) = opposite d /\
      (forall x, x <> e -> x <> twin e -> eflags g' x = eflags g x) /\
      (forall x k, Z.testbit DIR_MASK k = false -> Z.testbit (eflags g' x) k = Z.testbit (eflags g x) k).
Proof.
  intros g adj e d R (H1 & H2) Hd Hp.
  assert (I1 : inE g e = true).
  { apply inE_true. pose proof (st_cap _ _ (rep_storage _ _ R)). lia. }
  assert (I2 : inE g (twin e) = true) by (apply (twin_inE g adj (enbr g (twin e)) e R), (rep_arc_of _ _ _ _ R); split; auto).
  destruct (wp_inv _ _ (set_direction_ok g e d I1 I2)) as (g' & E & f & -> & F1 & F2 & F3).
  exists (set_eflags g f). split; [exact E|].
  assert (K : forall x k, Z.testbit DIR_MASK k = false -> Z.testbit (f x) k = Z.testbit (eflags g x) k).
  { intros x k Hk.
    assert (B1 : Z.testbit DIR_INONLY k = false /\ Z.testbit DIR_OUTONLY k = false).
    { change DIR_MASK with (Z.lor DIR_INONLY DIR_OUTONLY) in Hk. rewrite Z.lor_spec in Hk.
      now apply orb_false_iff in Hk. }
    destruct B1 as [B1 B2].
    destruct (Z.eq_dec x e) as [->|N1]; [|destruct (Z.eq_dec x (twin e)) as [->|N2]].
    - rewrite F1. destruct (d =? DIR_INONLY); [|destruct (d =? DIR_OUTONLY)];
        rewrite ?Z.lor_spec, ?Z.ldiff_spec, ?B1, ?B2, ?Hk; cbn [negb]; now rewrite ?orb_false_r, ?andb_true_r.
    - rewrite F2. destruct (d =? DIR_INONLY); [|destruct (d =? DIR_OUTONLY)];
        rewrite ?Z.lor_spec, ?Z.ldiff_spec, ?B1, ?B2, ?Hk; cbn [negb]; now rewrite ?orb_false_r, ?andb_true_r.
    - now rewrite F3. }
  split; [|split; [|split; [|split; [exact F3|exact K]]]].
  - constructor; [apply (chains_congr g); try reflexivity; exact (rep_chains _ _ R)|exact (rep_twins _ _ R)|].
    destruct (rep_storage _ _ R). constructor; auto.
  - unfold dir_of in *. gsimp. rewrite F1.
    destruct Hd as [-> | [-> | ->]].
    + change (0 =? DIR_INONLY) with false. change (0 =? DIR_OUTONLY) with false. cbv iota.
      rewrite Z.ldiff_land, <- Z.land_assoc. change (Z.land (Z.lnot DIR_MASK) DIR_MASK) with 0. apply Z.land_0_r.
    + destruct Hp as [Hp|[Hp _]]; [discriminate|]. change (DIR_INONLY =? DIR_INONLY) with true. cbv iota.
      rewrite Z.land_lor_distr_l. destruct Hp as [-> | ->]; reflexivity.
    + destruct Hp as [Hp|[Hp _]]; [discriminate|]. change (DIR_OUTONLY =? DIR_INONLY) with false.
      change (DIR_OUTONLY =? DIR_OUTONLY) with true. cbv iota.
      rewrite Z.land_lor_distr_l. destruct Hp as [-> | ->]; reflexivity.
  - unfold dir_of in *. gsimp. rewrite F2. unfold opposite in *.
    destruct Hd as [-> | [-> | ->]].
    + change (0 =? DIR_INONLY) with false. change (0 =? DIR_OUTONLY) with false. cbv iota.
      rewrite Z.ldiff_land, <- Z.land_assoc. change (Z.land (Z.lnot DIR_MASK) DIR_MASK) with 0. apply Z.land_0_r.
    + destruct Hp as [Hp|[_ Hp]]; [discriminate|]. change (DIR_INONLY =? DIR_INONLY) with true in *. cbv iota in *.
      rewrite Z.land_lor_distr_l. destruct Hp as [-> | ->]; reflexivity.
    + destruct Hp as [Hp|[_ Hp]]; [discriminate|]. change (DIR_OUTONLY =? DIR_INONLY) with false in *.
      change (DIR_OUTONLY =? DIR_OUTONLY) with true in *. cbv iota in *.
      rewrite Z.land_lor_distr_l. destruct Hp as [-> | ->]; reflexivity.
Qed.
Print Assumptions C16_set_direction_partial.

(** Turning an edge around leaves both directions set, on every graph with an edge. *)
Theorem C16_set_direction_refuted :
  exists g g1 g2 e, reach g /\ in_use g e /\ dir_of g e = 0 /\ gp_SetDirection g e DIR_INONLY = Ret g1 /\
    gp_SetDirection g1 e DIR_OUTONLY = Ret g2 /\ dir_of g2 e <> DIR_OUTONLY.
Proof.
  set (g := built 0 2 (adds [(1, 2)])).
  set (g1 := the g (gp_SetDirection g 2 DIR_INONLY)). set (g2 := the g (gp_SetDirection g1 2 DIR_OUTONLY)).
  exists g, g1, g2, 2. split; [apply built_reach; reflexivity|].
  split; [split; [vm_compute; repeat split; discriminate|vm_compute; discriminate]|]. split; [reflexivity|].
  split; [vm_compute; reflexivity|]. split; [vm_compute; reflexivity|]. vm_compute. discriminate.
Qed.
Print Assumptions C16_set_direction_refuted.

(** ** A concrete history meeting the hypotheses of the theorems above *)
(** K4 with an edge deleted, an edge inserted at an anchor, marks, growth and a virtual vertex. *)
Definition ex_ops : list gop :=
  adds [(1, 2); (1, 3); (1, 4); (2, 3); (2, 4)] ++
  [GMark 4 33; GDel 4 0; GIns 1 3 1 3 8 0; GEnsure 40; GDyn 3 1 4 0; GAdd 5 1 4 1].
Definition ex_graph : graph := built 0 4 ex_ops.
Example ex_reach : reach ex_graph.
Proof. apply built_reach. vm_compute. reflexivity. Qed.
Example ex_rep : exists adj, rep ex_graph adj /\ adj 1 = [7; 5; 3] /\ gM ex_graph = 7 /\ gCap ex_graph = 40.
Proof.
  destruct (reach_inv _ ex_reach) as ((adj & R) & _). exists adj. split; [exact R|].
  split; [|split; vm_compute; reflexivity].
  rewrite (arcs_ok _ _ _ (rep_chains _ _ R)) by (split; vm_compute; discriminate). vm_compute. reflexivity.
Qed.
