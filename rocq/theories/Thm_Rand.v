(** * C20-C21: random graphs. *)
From Coq Require Import ZifyBool.
From Verif Require Import Base BaseP GraphRec GraphM GraphSpec GSimp LinkP GraphP GraphP2 GraphP3 GraphP4 GraphP5 GraphEx DFSSpec DFSP DFSP7 RandM RandSpec RandP RandP2 RandP3 RandP4.

(** ** C20 *)
(** Every number drawn for a range lies in it: for all values of rand() but those for which mixing
    the bits overflows int. *)
Theorem C20_number_in_range :
  forall r lo hi, draw_ok r -> lo <= hi -> hi - lo < INT_MAX ->
    exists x, _GetRandomNumber r lo hi = Ret x /\ x = pick r lo hi /\ lo <= x <= hi.
Proof.
  intros r lo hi D H1 H2. exists (pick r lo hi). split; [apply random_ok; auto|]. split; [auto|apply pick_range; auto].
Qed.
Print Assumptions C20_number_in_range.

(** There are values of rand() for which it does overflow. *)
Theorem C20_number_refuted : exists r, 0 <= r <= INT_MAX /\ _GetRandomNumber r 1 2 = UB.
Proof. exists 2147450880. split; [unfold INT_MAX; lia|reflexivity]. Qed.
Print Assumptions C20_number_refuted.

(** Graphs the generators can start from: any history of edge additions and deletions that ends
    without edges, in particular a graph just initialised. *)
Theorem C20_edgeless_graphs_qualify : forall g, plain_reach g -> gM g = 0 -> empty_graph g.
Proof.
  intros g H M0. destruct (plain_reach_unsearched g H) as (adj & R & P & U).
  assert (NE : forall v, adj v = no_adj v).
  { intros v. destruct (adj v) as [|e l] eqn:E; [reflexivity|]. pose proof (rep_M_pos g adj v e R ltac:(rewrite E; simpl; auto)). lia. }
  destruct (reach_inv g (plain_reach_reach g H)) as (_ & Cl & _).
  constructor.
  - destruct R as [C T S]. constructor; [eapply chains_ext; eauto|intros v e []|].
    destruct S as [S1 S2 S3 S4 S5 S6 S7 S8 S9]. constructor; auto.
    + intros v e [].
    + intros e He. destruct (S9 e He) as [X|X]; auto. rewrite NE in X. auto.
  - intros e He. apply Cl; auto. intros I. apply (rep_in_use _ _ _ R) in I. destruct I as [v I]. rewrite NE in I. destruct I.
  - apply U.
Qed.
Print Assumptions C20_edgeless_graphs_qualify.

(** Whatever the random numbers: when the generator returns, it returns OK and a connected graph
    without loops or parallel edges, on the same vertices, with as many edges as the draw asked for. *)
Theorem C20_create_random_graph :
  forall g rnd fuel, empty_graph g -> stream_ok rnd -> gN g - 1 <= gCap g / 2 ->
    gN g * (gN g - 1) <= INT_MAX -> 7 * gN g <= INT_MAX -> gCap g / 2 < INT_MAX ->
    gp_CreateRandomGraph fuel rnd g = OOF \/
    exists g' adj, gp_CreateRandomGraph fuel rnd g = Ret (g', C_OK) /\
      rep g' adj /\ gN g' = gN g /\ primary_edges g' adj /\ simple g' adj /\ all_connected g' adj /\
      gM g' = Z.max (gN g - 1)
                (Z.min (pick (rnd (Z.to_nat (gN g - 1))) (7 * gN g / 8) (gCap g / 2)) (gN g * (gN g - 1) / 2)).
Proof.
  intros g rnd fuel Eg St Hc H1 H2 H3. pose proof (create_random_pc fuel rnd g Eg St H1 H3 H2 Hc) as P.
  destruct (gp_CreateRandomGraph fuel rnd g) as [[g' r]| |]; cbn [pc] in P; [|contradiction|auto].
  right. destruct P as (Er & adj & I & M). cbn [fst snd] in *. subst r. exists g', adj.
  split; [auto|]. split; [apply I|]. split; [apply I|]. split; [apply I|]. split; [apply I|]. split; [|exact M].
  intros u v Hu Hv. unfold primary in Hu, Hv. rewrite (ri_N _ _ _ I) in Hu, Hv.
  apply connected_trans with 1; [apply connected_sym; [apply I|]|]; apply I; auto.
Qed.
Print Assumptions C20_create_random_graph.

(** It does return if the stream is fair: every pair keeps coming up. *)
Theorem C20_create_random_graph_terminates :
  forall g rnd, empty_graph g -> stream_ok rnd -> gN g - 1 <= gCap g / 2 ->
    gN g * (gN g - 1) <= INT_MAX -> 7 * gN g <= INT_MAX -> gCap g / 2 < INT_MAX ->
    fair (gN g) (Z.to_nat (gN g)) rnd ->
    exists fuel p, forall fuel', (fuel <= fuel')%nat -> gp_CreateRandomGraph fuel' rnd g = Ret p.
Proof. intros. apply create_random_term; auto. Qed.
Print Assumptions C20_create_random_graph_terminates.

(** A fair stream, and a case that meets all the hypotheses. *)
Definition rnd_demo (k : nat) : Z := nth ((k + 2) mod 6) [0; 0; 1; 1; 0; 0] 0.
Lemma rnd_demo_per k n : rnd_demo (k + 6 * n) = rnd_demo k.
Proof.
  unfold rnd_demo. replace (k + 6 * n + 2)%nat with (k + 2 + n * 6)%nat by lia.
  rewrite Nat.mod_add by lia. reflexivity.
Qed.
Example random_case :
  let g := built 6 3 [] in
  empty_graph g /\ stream_ok rnd_demo /\ fair (gN g) (Z.to_nat (gN g)) rnd_demo /\ gN g - 1 <= gCap g / 2 /\
  gN g * (gN g - 1) <= INT_MAX /\ 7 * gN g <= INT_MAX /\ gCap g / 2 < INT_MAX /\
  exists g', gp_CreateRandomGraph 9 rnd_demo g = Ret (g', C_OK) /\ gM g' = 2.
Proof.
  cbv zeta. split; [|split; [|split; [|repeat split; try (vm_compute; congruence)]]].
  - apply C20_edgeless_graphs_qualify; [apply built_plain; vm_compute; reflexivity|vm_compute; reflexivity].
  - intros k. assert (X : rnd_demo k = 0 \/ rnd_demo k = 1).
    { unfold rnd_demo. assert (Hk : ((k + 2) mod 6 < 6)%nat) by (apply Nat.mod_upper_bound; lia).
      destruct ((k + 2) mod 6)%nat as [|[|[|[|[|[|n]]]]]]; cbn [nth]; auto; lia. }
    destruct X as [->| ->]; unfold draw_ok, INT_MAX; split; try lia; left; [change (0 / 65536) with 0|change (1 / 65536) with 0]; lia.
  - change (gN (built 6 3 [])) with 3. change (Z.to_nat 3) with 3%nat. intros u v Hu Hv j.
    assert (C : (u = 1 /\ v = 2) \/ (u = 1 /\ v = 3) \/ (u = 2 /\ v = 3)) by lia.
    assert (S1 : forall a, (3 + 2 * (a + 3 * j) = (3 + 2 * a) + 6 * j)%nat) by lia.
    assert (S2 : forall a, (3 + 2 * (a + 3 * j) + 1 = (3 + 2 * a + 1) + 6 * j)%nat) by lia.
    destruct C as [[-> ->]|[[-> ->]|[-> ->]]].
    + exists (0 + 3 * j)%nat. split; [lia|]. rewrite S2, S1, !rnd_demo_per. split; reflexivity.
    + exists (1 + 3 * j)%nat. split; [lia|]. rewrite S2, S1, !rnd_demo_per. split; reflexivity.
    + exists (2 + 3 * j)%nat. split; [lia|]. rewrite S2, S1, !rnd_demo_per. split; reflexivity.
  - eexists. split; vm_compute; reflexivity.
Qed.

(** The number of vertices has to be small: N(N-1) is computed in int, so from 46342 vertices on the
    behaviour is undefined, whatever the random numbers. *)
Theorem C20_create_random_graph_refuted :
  (forall g rnd fuel, empty_graph g -> stream_ok rnd -> gN g - 1 <= gCap g / 2 ->
     7 * gN g <= INT_MAX -> gCap g / 2 < INT_MAX -> INT_MAX < gN g * (gN g - 1) ->
     gp_CreateRandomGraph fuel rnd g = UB) /\
  exists g rnd, empty_graph g /\ stream_ok rnd /\ gN g = 46342 /\ gN g - 1 <= gCap g / 2 /\
    forall fuel, gp_CreateRandomGraph fuel rnd g = UB.
Proof.
  assert (X : forall g rnd fuel, empty_graph g -> stream_ok rnd -> gN g - 1 <= gCap g / 2 ->
     7 * gN g <= INT_MAX -> gCap g / 2 < INT_MAX -> INT_MAX < gN g * (gN g - 1) ->
     gp_CreateRandomGraph fuel rnd g = UB).
  { intros g rnd fuel Eg St Hc H7 Hcap Hbig. pose proof (st_N _ _ (rep_storage _ _ (eg_rep _ Eg))) as HN.
    destruct (tree_edges_ok rnd g St ltac:(unfold INT_MAX in *; lia) Hc (Z.to_nat (gN g - 1)) 0 g no_adj 2) as (g1 & adj1 & E & T & Fl); auto; try lia.
    { apply tree_inv_start; [apply Eg|apply empty_M, Eg]. }
    unfold gp_CreateRandomGraph. cbv zeta. rewrite E, bind_ret. cbn [negb C_OK Z.eqb Pos.eqb].
    rewrite guard_true by (unfold int_ok, INT_MAX in *; lia). rewrite (ti_cap _ _ _ _ T).
    rewrite random_ok, bind_ret.
    2: apply St.
    2: { pose proof (Z.div_pos (7 * gN g) 8 ltac:(lia) ltac:(lia)). lia. }
    unfold guard, int_ok. replace (gN g * (gN g - 1) <=? INT_MAX) with false by lia. rewrite andb_false_r. reflexivity. }
  split; [exact X|].
  destruct (wp_inv _ _ (fresh_ok 0 46342 ltac:(lia))) as (g & E & R & HN & _ & _ & HC). change (0 <? 0) with false in HC. cbn [andb] in HC.
  assert (C2 : gCap g / 2 = 139026) by (rewrite HC; reflexivity).
  assert (Eg : empty_graph g).
  { apply C20_edgeless_graphs_qualify; [eapply pr_init; [|exact E]; lia|apply empty_M; auto]. }
  assert (St : stream_ok (fun _ => 0)) by (intros k; unfold draw_ok, INT_MAX; split; [lia|left; change (0 / 65536) with 0; lia]).
  exists g, (fun _ => 0). split; [auto|]. split; [auto|]. split; [auto|]. split; [lia|].
  intros fuel. apply X; auto; rewrite ?C2, ?HN; unfold INT_MAX; lia.
Qed.
Print Assumptions C20_create_random_graph_refuted.

(** ** C21 *)
(** The full claim would be: the number of edges is max(N-1, min(m, capacity)), always OK.  What holds: *)
Theorem C21_create_random_graph_ex_partial :
  forall g rnd m fuel, empty_graph g -> stream_ok rnd -> 2 <= gN g -> 3 * gN g <= INT_MAX -> gN g - 1 <= gCap g / 2 ->
    gN g + 1 <= Z.of_nat fuel ->
    let want := Z.min m (gCap g / 2) in
    gp_CreateRandomGraphEx fuel rnd g m = OOF \/
    (exists g' adj, gp_CreateRandomGraphEx fuel rnd g m = Ret (g', C_OK) /\
       rep g' adj /\ gN g' = gN g /\ primary_edges g' adj /\ all_connected g' adj /\
       (forall e, 2 <= e < gp_EdgeIndexBound g' -> eflags g' e = 0) /\ (forall v, primary g' v -> par g' v = NIL) /\
       Z.max (gN g - 1) want <= gM g' <= Z.max (Z.max (gN g - 1) want) (3 * gN g - 6) /\
       (want <= gN g - 1 \/ 3 * gN g - 6 <= want -> gM g' = Z.max (gN g - 1) want)) \/
    (exists g' adj, gp_CreateRandomGraphEx fuel rnd g m = Ret (g', C_NOTOK) /\
       rep g' adj /\ gN g - 1 < want /\ gM g' = gCap g / 2 /\ gCap g / 2 < 3 * gN g - 6).
Proof.
  intros g rnd m fuel Eg St H2 H3 Hc Hf want. pose proof (ex_pc g rnd m fuel Eg St H2 H3 Hc Hf) as P.
  destruct (gp_CreateRandomGraphEx fuel rnd g m) as [[g' r]| |]; cbn [pc] in P; [|contradiction|auto].
  right. destruct P as [(Er & (adj & X) & A & B & C & D & E)|(Er & (adj & X) & A & B & C)]; cbn [fst snd] in *; subst r.
  - left. exists g', adj. split; [auto|]. split; [apply X|]. split; [apply X|]. split; [apply X|]. split; [apply X|].
    split; [apply X|]. split; [apply X|]. unfold asked in *. fold want in A, B, C, D, E. lia.
  - right. exists g', adj. split; [auto|]. split; [auto|]. auto.
Qed.
Print Assumptions C21_create_random_graph_ex_partial.

(** With room for 3N-6 edges it never fails, and it terminates for fair streams if at most N(N-1)/2
    edges are wanted. *)
Theorem C21_create_random_graph_ex_terminates :
  forall g rnd m, empty_graph g -> stream_ok rnd -> 2 <= gN g -> 3 * gN g <= INT_MAX -> gN g - 1 <= gCap g / 2 ->
    Z.min m (gCap g / 2) <= gN g * (gN g - 1) / 2 -> fair_ex (gN g) (Z.to_nat (gN g - 1)) rnd ->
    exists fuel0, forall fuel, (fuel0 <= fuel)%nat ->
      exists g' r, gp_CreateRandomGraphEx fuel rnd g m = Ret (g', r) /\ (3 * gN g - 6 <= gCap g / 2 -> r = C_OK).
Proof.
  intros g rnd m Eg St H2 H3 Hc Hm Fr. destruct (ex_term g rnd m Eg St H2 H3 Hc Hm Fr) as (f0 & H). exists f0.
  intros fuel Hf. destruct (wp_inv _ _ (H fuel Hf)) as ([g' r] & E & P). exists g', r. split; [auto|].
  intros Hcap. destruct P as [(Er & _)|(_ & _ & _ & _ & X)]; [auto|lia].
Qed.
Print Assumptions C21_create_random_graph_ex_terminates.

(** A tree 1-3, 1-2, 3-4: asking for 5 edges gives 6. *)
Definition rnd_over (k : nat) : Z := match k with O => 0 | 1%nat => 0 | _ => 2 end.
Definition ends_of (g : graph) : list (list Z) := map (fun v => map (enbr g) (arcs g v)) [1; 2; 3; 4].
Theorem C21_too_many_edges_refuted :
  exists g rnd fuel g', empty_graph g /\ stream_ok rnd /\ gN g = 4 /\ gN g + 1 <= Z.of_nat fuel /\ 5 <= gCap g / 2 /\
    gp_CreateRandomGraphEx fuel rnd g 5 = Ret (g', C_OK) /\ gM g' = 6.
Proof.
  exists (built 0 4 []), rnd_over, 8%nat. eexists. split; [|split; [|split; [reflexivity|split; [vm_compute; congruence|split; [vm_compute; congruence|split; [vm_compute; reflexivity|reflexivity]]]]]].
  - apply C20_edgeless_graphs_qualify; [apply built_plain; vm_compute; reflexivity|vm_compute; reflexivity].
  - intros [|[|k]]; cbn [rnd_over]; unfold draw_ok, INT_MAX; (split; [lia|left]); [change (0 / 65536) with 0|change (0 / 65536) with 0|change (2 / 65536) with 0]; lia.
Qed.
Print Assumptions C21_too_many_edges_refuted.

(** With a capacity of exactly the 5 edges asked for, the call fails. *)
Theorem C21_exact_capacity_refuted :
  exists g rnd fuel g', empty_graph g /\ stream_ok rnd /\ gN g = 4 /\ gN g + 1 <= Z.of_nat fuel /\ gCap g / 2 = 5 /\
    gp_CreateRandomGraphEx fuel rnd g 5 = Ret (g', C_NOTOK).
Proof.
  exists (built 10 4 []), rnd_over, 8%nat. eexists. split; [|split; [|split; [reflexivity|split; [vm_compute; congruence|split; [vm_compute; reflexivity|vm_compute; reflexivity]]]]].
  - apply C20_edgeless_graphs_qualify; [apply built_plain; vm_compute; reflexivity|vm_compute; reflexivity].
  - intros [|[|k]]; cbn [rnd_over]; unfold draw_ok, INT_MAX; (split; [lia|left]); [change (0 / 65536) with 0|change (0 / 65536) with 0|change (2 / 65536) with 0]; lia.
Qed.
Print Assumptions C21_exact_capacity_refuted.

(** Asking for more edges than a simple graph can have never ends: here one edge on one vertex,
    for every stream of random numbers and every number of iterations. *)
Theorem C21_divergence_refuted :
  exists g, empty_graph g /\ gN g = 1 /\ 1 <= gCap g / 2 /\
    forall rnd fuel, stream_ok rnd -> gp_CreateRandomGraphEx fuel rnd g 1 = OOF.
Proof.
  exists (built 0 1 []). split; [|split; [reflexivity|split; [vm_compute; congruence|]]].
  - apply C20_edgeless_graphs_qualify; [apply built_plain; vm_compute; reflexivity|vm_compute; reflexivity].
  - intros rnd fuel St. unfold gp_CreateRandomGraphEx. cbv zeta.
    set (g := built 0 1 []). change (gN g) with 1. change (Z.to_nat (1 - 1)) with O. cbn [typed_tree_edges bind].
    change (negb (C_OK =? C_OK)) with false. cbv iota. change (int_ok (3 * 1)) with true. cbn [guard].
    change (_getUnprocessedChild g 1) with (Ret (g, NIL)). cbn [bind].
    change (if 1 >? gCap g / 2 then gCap g / 2 else 1) with 1. change (if 1 <=? 3 * 1 - 6 then 1 else 3 * 1 - 6) with (-3).
    assert (Mo : forall n k, more_edges n rnd k g 1 = OOF).
    { induction n as [|n IH]; intros k; cbn [more_edges]; [reflexivity|]. change (gM g <? 1) with true. cbv iota.
      change (gN g) with 1. rewrite !random_ok, !bind_ret by (first [apply St | unfold INT_MAX; lia]).
      pose proof (pick_range (rnd k) 1 1 ltac:(lia)). pose proof (pick_range (rnd (S k)) 1 1 ltac:(lia)).
      replace (pick (rnd k) 1 1) with 1 by lia. replace (pick (rnd (S k)) 1 1) with 1 by lia. cbn [Z.eqb Pos.eqb negb]. apply IH. }
    destruct fuel as [|fuel]; [reflexivity|]. cbn [triangulate]. change (gM g <? -3) with false. rewrite andb_false_r. cbn [bind].
    change (negb (C_OK =? C_OK)) with false. cbv iota. rewrite Mo. reflexivity.
Qed.
Print Assumptions C21_divergence_refuted.

(** Cases that meet the hypotheses of the two positive theorems: exact counts above and below. *)
Example ex_case :
  exists g, empty_graph g /\ 2 <= gN g /\ 3 * gN g <= INT_MAX /\ gN g - 1 <= gCap g / 2 /\
    (exists g', gp_CreateRandomGraphEx 8 rnd_over g 6 = Ret (g', C_OK) /\ gM g' = 6 /\
       ends_of g' = [[3; 4; 2]; [1; 3; 4]; [1; 4; 2]; [3; 1; 2]]) /\
    (exists g', gp_CreateRandomGraphEx 8 rnd_over g 3 = Ret (g', C_OK) /\ gM g' = 3).
Proof.
  exists (built 0 4 []). split; [|repeat split; try (vm_compute; congruence)].
  - apply C20_edgeless_graphs_qualify; [apply built_plain; vm_compute; reflexivity|vm_compute; reflexivity].
  - eexists. split; [vm_compute; reflexivity|]. split; vm_compute; reflexivity.
  - eexists. split; vm_compute; reflexivity.
Qed.

Definition rnd_demo2 (k : nat) : Z := nth ((k + 7) mod 8) [0; 0; 0; 1; 1; 0; 1; 1] 0.
Lemma rnd_demo2_per k n : rnd_demo2 (k + 8 * n) = rnd_demo2 k.
Proof.
  unfold rnd_demo2. replace (k + 8 * n + 7)%nat with (k + 7 + n * 8)%nat by lia.
  rewrite Nat.mod_add by lia. reflexivity.
Qed.
Example fair_case : fair_ex 2 1 rnd_demo2 /\ stream_ok rnd_demo2.
Proof.
  split.
  - intros u v Hu Hv j.
    assert (S1 : forall a, (1 + 2 * (a + 4 * j) = (1 + 2 * a) + 8 * j)%nat) by lia.
    assert (S2 : forall a, (1 + 2 * (a + 4 * j) + 1 = (1 + 2 * a + 1) + 8 * j)%nat) by lia.
    assert (C : (u = 1 \/ u = 2) /\ (v = 1 \/ v = 2)) by lia.
    destruct C as [[-> | ->] [-> | ->]].
    + exists (0 + 4 * j)%nat. split; [lia|]. rewrite S2, S1, !rnd_demo2_per. split; reflexivity.
    + exists (1 + 4 * j)%nat. split; [lia|]. rewrite S2, S1, !rnd_demo2_per. split; reflexivity.
    + exists (2 + 4 * j)%nat. split; [lia|]. rewrite S2, S1, !rnd_demo2_per. split; reflexivity.
    + exists (3 + 4 * j)%nat. split; [lia|]. rewrite S2, S1, !rnd_demo2_per. split; reflexivity.
  - intros k. assert (X : rnd_demo2 k = 0 \/ rnd_demo2 k = 1).
    { unfold rnd_demo2. assert (Hk : ((k + 7) mod 8 < 8)%nat) by (apply Nat.mod_upper_bound; lia).
      destruct ((k + 7) mod 8)%nat as [|[|[|[|[|[|[|[|n]]]]]]]]; cbn [nth]; auto; lia. }
    destruct X as [-> | ->]; unfold draw_ok, INT_MAX; split; try lia; left; [change (0 / 65536) with 0|change (1 / 65536) with 0]; lia.
Qed.
