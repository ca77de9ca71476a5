(** * Thm_Draw: drawings: the check, the computed extents, the rendition (C38, C39, C40). *)
From Coq Require Import ZifyBool.
From Verif Require Import Base BaseP GraphRec GraphM GraphSpec GSimp LinkP GraphP GraphP2 GraphP5 GraphEx StrBufM
  DFSSpec DFSP DFSP7 TestP TestP3 DrawM DrawSpec DrawP DrawP2 DrawP3.

(** ** C38 *)
Lemma rows_checked : forall n v c c', check_vertices n v c = Ret (c', true) ->
  (forall u, 1 <= u < v -> visited (dG c) (row c u + 1) = true) -> 1 <= v ->
  (forall u w, 1 <= u < v -> 1 <= w < v -> row c u = row c w -> u = w) ->
  forall u w, 1 <= u < v + Z.of_nat n -> 1 <= w < v + Z.of_nat n -> row c u = row c w -> u = w.
Proof.
  induction n as [|n IH]; intros v c c' E HI Hv D u w Hu Hw Er.
  - apply D; auto; lia.
  - cbn [check_vertices] in E. unfold rd_dV in E.
    destruct (inVI (dG c) v); cbn [guard bind] in E; [|discriminate].
    destruct ((0 <? gM (dG c)) && _); [discriminate|].
    destruct (inV (dG c) (dpos (dV c v) + 1)) eqn:EI.
    2: { unfold gp_GetVertexVisited, rd_vflags in E. rewrite EI in E. discriminate. }
    rewrite get_visited in E by exact EI. cbn [bind] in E.
    change (negb (Z.land (vflags (dG c) (dpos (dV c v) + 1)) VERTEX_VISITED_MASK =? 0)) with (visited (dG c) (row c v + 1)) in E.
    destruct (visited (dG c) (row c v + 1)) eqn:EV; [discriminate|].
    rewrite set_visited_ok in E by exact EI. cbn [bind] in E.
    assert (ND : forall x, 1 <= x < v -> row c x <> row c v). { intros x Hx K. rewrite <- K, HI in EV by auto. discriminate. }
    apply (IH (v + 1) _ _ E); try lia; auto.
    + intros x Hx. change (visited (mark_v (dG c) (row c v + 1) true) (row c x + 1) = true). rewrite visited_markv.
      destruct (row c x + 1 =? row c v + 1) eqn:K; [reflexivity|]. apply HI.
      assert (x <> v) by (intros ->; lia). lia.
    + intros x y Hx Hy K. change (row c x = row c y) in K.
      destruct (Z.eq_dec x v) as [->|Nx]; destruct (Z.eq_dec y v) as [->|Ny]; auto.
      * exfalso. apply (ND y); [lia|auto].
      * exfalso. apply (ND x); [lia|auto].
      * apply D; auto; lia.
Qed.

(** C38.  Whatever positions are stored, if the check returns OK then they are a visibility
    representation of the graph. *)
Theorem C38_accepted_drawings : forall c adj c',
  rep (dG c) adj -> primary_edges (dG c) adj ->
  _CheckVisibilityRepresentationIntegrity c = Ret (c', C_OK) -> visibility c.
Proof.
  intros c adj c' R P E. pose proof (rep_storage _ _ R) as S.
  pose proof (st_N _ _ S) as S1. pose proof (st_M _ _ S) as S2.
  destruct (gholes (dG c)) as [|h l] eqn:HH.
  2: { unfold _CheckVisibilityRepresentationIntegrity in E. rewrite HH in E. discriminate. }
  pose proof (arcs_fit _ _ R HH) as HC.
  assert (HV : forall e, arc (dG c) e -> primary (dG c) (enbr (dG c) e)) by (intros; eapply arc_primary; eauto).
  destruct (Z.eq_dec (gM (dG c)) 0) as [M0|M0].
  - unfold _CheckVisibilityRepresentationIntegrity in E. rewrite HH in E.
    destruct (clear_flags (dG c) ltac:(lia) ltac:(lia) HH HC) as (f & f' & E1 & _). rewrite E1 in E. cbn [bind] in E.
    change (gN (fl (dG c) f f')) with (gN (dG c)) in E.
    destruct (check_vertices _ 1 _) as [[c1 ok]| |] eqn:E2; cbn [bind] in E; try discriminate.
    destruct ok; [|discriminate].
    assert (NA : forall e, ~ arc (dG c) e) by (unfold arc; intros; lia).
    constructor; try (intros; exfalso; eapply NA; eassumption).
    intros u v Hu Hv Er. unfold primary in *. apply (rows_checked _ _ _ _ E2); try lia; auto; intros; lia.
  - assert (HN : 0 <= gN (dG c)) by lia. assert (HM : 0 <= gM (dG c)) by lia. assert (HM' : 0 < gM (dG c)) by lia.
    pose proof (check_visibility_ok c HN HM HH HC HV (or_introl HM')) as W. rewrite E in W.
    destruct W as (_ & _ & W). apply W. reflexivity.
Qed.
Print Assumptions C38_accepted_drawings.

(** C38, exactly.  On a graph without deleted edges the check runs safely, changes only
    visited flags, and returns OK exactly for the visibility representations that fit into
    the picture (for a loop, an end of its segment has to be at the row of its vertex).  If
    the graph has no edge the rows must be rows of the picture for this, since the check
    then tests no range. *)
Theorem C38_check_exact : forall c adj,
  rep (dG c) adj -> primary_edges (dG c) adj -> gholes (dG c) = [] ->
  0 < gM (dG c) \/ (forall v, primary (dG c) v -> 0 <= row c v < gN (dG c)) ->
  wp (_CheckVisibilityRepresentationIntegrity c) (fun '(c', r) =>
    flags_only c c' /\ (r = C_OK \/ r = C_NOTOK) /\
    (r = C_OK <-> visibility c /\ (0 < gM (dG c) -> in_picture c) /\ loops_ok c)).
Proof.
  intros c adj R P HH HP. pose proof (rep_storage _ _ R) as S.
  pose proof (st_N _ _ S) as S1. pose proof (st_M _ _ S) as S2.
  apply check_visibility_ok; auto; try lia.
  - eapply arcs_fit; eauto.
  - intros; eapply arc_primary; eauto.
Qed.
Print Assumptions C38_check_exact.

(** Without that condition the check itself can leave its arrays: one vertex at row 5 of an
    edgeless graph. *)
Theorem C38_safety_refuted : exists c adj, rep (dG c) adj /\ primary_edges (dG c) adj /\ gholes (dG c) = [] /\
  _CheckVisibilityRepresentationIntegrity c = UB.
Proof.
  assert (PR : plain_reach (built 6 1 [])) by (apply built_plain; vm_compute; reflexivity).
  destruct (plain_reach_unsearched _ PR) as (adj & R & P & _).
  exists (mkC (built 6 1 []) (fun _ => mkD 5 0 0) (fun _ => mkD 0 0 0)), adj. cbn [dG].
  split; [exact R|]. split; [exact P|]. split; vm_compute; reflexivity.
Qed.
Print Assumptions C38_safety_refuted.

(** ** C39 *)
Theorem C39_vertex_extents : forall c adj,
  rep (dG c) adj -> (forall v e, In e (adj v) -> 0 <= col c e <= gM (dG c)) ->
  wp (_ComputeVertexRanges c) (fun '(c', r) =>
    r = C_OK /\ dG c' = dG c /\ dE c' = dE c /\ (forall v, row c' v = row c v) /\
    (forall v, ~ primary (dG c) v -> dV c' v = dV c v) /\
    (forall v, primary (dG c) v ->
       match adj v with
       | [] => dstart (dV c' v) = 0 /\ dend (dV c' v) = 0
       | l => range_of (col c) l (dstart (dV c' v)) (dend (dV c' v))
       end)).
Proof. exact vertex_ranges_ok. Qed.
Print Assumptions C39_vertex_extents.

Theorem C39_edge_extents : forall c adj,
  rep (dG c) adj -> gholes (dG c) = [] -> primary_edges (dG c) adj ->
  wp (_ComputeEdgeRanges c) (fun '(c', r) =>
    r = C_OK /\ dG c' = dG c /\ dV c' = dV c /\ (forall e, col c' e = col c e) /\
    (forall e, ~ arc (dG c) e -> dE c' e = dE c e) /\
    (forall e, arc (dG c) e ->
       dstart (dE c' e) = Z.min (row c (enbr (dG c) e)) (row c (enbr (dG c) (twin e))) /\
       dend (dE c' e) = Z.max (row c (enbr (dG c) e)) (row c (enbr (dG c) (twin e))))).
Proof. exact edge_ranges_ok. Qed.
Print Assumptions C39_edge_extents.

(** ** C40 *)
Lemma in_picture_flags c c' : flags_only c c' -> in_picture c -> in_picture c'.
Proof.
  destruct c as [g V E], c' as [g' V' E']. intros (E1 & E2 & f & f' & E3). cbn [dG dV dE] in *. subst. intros [A B].
  constructor; [exact A|exact B].
Qed.

(** C40, the part that holds.  A drawing of a graph with at least one edge that the check
    accepts is rendered inside the buffer, provided the size of the buffer is an int; the
    result is a string of that size in which every edge is drawn; and if the labels have
    at most two digits every line has M characters and its newline.
    Missing: edgeless graphs and longer labels (both refuted below). *)
Theorem C40_render_partial : forall junk c adj c',
  rep (dG c) adj -> primary_edges (dG c) adj -> 0 < gM (dG c) ->
  _CheckVisibilityRepresentationIntegrity c = Ret (c', C_OK) ->
  picture_size (dG c) <= INT_MAX ->
  wp (gp_DrawPlanar_RenderToString junk c') (fun '(r, o) => r = C_OK /\ exists b, o = Some b /\
    bsz b = picture_size (dG c) /\ bdat b (bsz b - 1) = 0 /\
    (gN (dG c) - label_offset (dG c) <= 99 -> line_structure (gN (dG c)) (gM (dG c)) b) /\
    (forall k, 1 <= k <= gM (dG c) -> segment_drawn c b (2 * k))).
Proof.
  intros junk c adj c' R P HM E HS. pose proof (rep_storage _ _ R) as S.
  pose proof (st_N _ _ S) as S1. pose proof (st_M _ _ S) as S2.
  destruct (gholes (dG c)) as [|h l] eqn:HH.
  2: { unfold _CheckVisibilityRepresentationIntegrity in E. rewrite HH in E. discriminate. }
  pose proof (C38_check_exact c adj R P HH (or_introl HM)) as W. rewrite E in W. cbn [wp] in W.
  destruct W as (FO & _ & W). destruct W as (W & _). destruct (W eq_refl) as (_ & IP & _). specialize (IP HM).
  pose proof (in_picture_flags _ _ FO IP) as IP'.
  destruct FO as (E1 & E2 & f & f' & E3).
  assert (N1 : 1 <= gN (dG c)).
  { pose proof (arc_primary _ _ 2 R HH P) as K. unfold primary in K.
    assert (arc (dG c) 2) by (unfold arc; lia). specialize (K H). lia. }
  unfold gp_DrawPlanar_RenderToString.
  assert (HH' : gholes (dG c') = []) by (rewrite E3; exact HH). rewrite HH'.
  apply wp_bind. eapply wp_mono.
  - apply (render_ok c' (label_offset (dG c'))); auto.
    + rewrite E3; exact N1.
    + rewrite E3; exact HM.
    + unfold label_offset. destruct (_ =? _); lia.
    + rewrite E3. exact (arcs_fit _ _ R HH).
    + rewrite E3. exact HS.
  - intros o (b & -> & B1 & B2 & B3 & B4). cbn [wp]. split; [reflexivity|]. exists b. split; [reflexivity|].
    rewrite E3 in B1, B2, B3, B4. split; [exact B1|]. split; [rewrite B1; exact B2|]. split; [exact B3|].
    intros k Hk. destruct (B4 k Hk) as (X & Y). unfold col in X, Y. rewrite E3, E2 in X, Y. split; assumption.
Qed.
Print Assumptions C40_render_partial.

(** The size of the buffer is computed in int: for larger pictures the behaviour is undefined. *)
Theorem C40_size_overflow : forall junk c, 0 <= gN (dG c) -> 0 <= gM (dG c) -> gholes (dG c) = [] ->
  INT_MAX < picture_size (dG c) -> gp_DrawPlanar_RenderToString junk c = UB.
Proof.
  intros junk c HN HM HH HS. unfold gp_DrawPlanar_RenderToString, _RenderToString, imul, iadd, picture_size in *. rewrite HH.
  destruct (int_ok ((gM (dG c) + 1) * 2)) eqn:E1; cbn [guard bind]; [|reflexivity].
  destruct (int_ok ((gM (dG c) + 1) * 2 * gN (dG c))) eqn:E2; cbn [guard bind]; [|reflexivity].
  replace (int_ok ((gM (dG c) + 1) * 2 * gN (dG c) + 1)) with false; [reflexivity|]. symmetry. unfold int_ok. lia.
Qed.
Print Assumptions C40_size_overflow.

(** the outcome of checking and then rendering *)
Definition checked (c : dctx) : bool :=
  match _CheckVisibilityRepresentationIntegrity c with Ret (_, r) => r =? C_OK | _ => false end.
Definition after_check (c : dctx) : dctx :=
  match _CheckVisibilityRepresentationIntegrity c with Ret (c', _) => c' | _ => c end.
Lemma checked_ok c : checked c = true -> _CheckVisibilityRepresentationIntegrity c = Ret (after_check c, C_OK).
Proof.
  unfold checked, after_check. destruct (_CheckVisibilityRepresentationIntegrity c) as [[c' r]| |]; try discriminate.
  intros E. apply Z.eqb_eq in E. now subst.
Qed.
Definition picture (c : dctx) : option blk :=
  match gp_DrawPlanar_RenderToString (fun _ => 0) c with Ret (_, o) => o | _ => None end.
Definition chars (o : option blk) : list Z :=
  match o with Some b => map (bdat b) (map Z.of_nat (seq 0 (Z.to_nat (bsz b)))) | None => [] end.

(** A path with three vertices: extents computed, accepted, rendered. *)
Definition path_graph : graph := built 40 3 (adds [(1, 2); (2, 3)]).
Definition path_drawing : dctx :=
  mkC path_graph (fun v => mkD (v - 1) 0 (if v =? 1 then 0 else 1)) (fun e => mkD (if e <? 4 then 0 else 1) (if e <? 4 then 0 else 1) (if e <? 4 then 1 else 2)).
Definition path_drawing' : dctx :=
  mkC path_graph (fun v => mkD (v - 1) (if v =? 3 then 1 else 0) (if v =? 1 then 0 else 1)) (dE path_drawing).
Example draw_case : plain_reach path_graph /\ checked path_drawing = true /\ checked path_drawing' = true /\
  0 < gM path_graph /\ picture_size path_graph <= INT_MAX /\ gN path_graph - label_offset path_graph <= 99 /\
  chars (picture path_drawing') = [49;32;10; 124;32;10; 50;45;10; 32;124;10; 32;51;10; 32;32;10; 0].
Proof.
  split; [apply built_plain; vm_compute; reflexivity|]. split; [vm_compute; reflexivity|]. split; [vm_compute; reflexivity|].
  split; [vm_compute; reflexivity|]. split; [vm_compute; discriminate|]. split; [vm_compute; discriminate|].
  vm_compute. reflexivity.
Qed.
Example draw_case_hypotheses : exists adj, rep (dG path_drawing') adj /\ primary_edges (dG path_drawing') adj /\
  _CheckVisibilityRepresentationIntegrity path_drawing' = Ret (after_check path_drawing', C_OK).
Proof.
  destruct draw_case as (PR & _ & K & _). destruct (plain_reach_unsearched _ PR) as (adj & R & P & _).
  exists adj. split; [exact R|]. split; [exact P|]. apply checked_ok. exact K.
Qed.
(** The ranges computed for it. *)
Example extents_case :
  match _ComputeVertexRanges path_drawing with Ret (c', _) => map (fun v => (dstart (dV c' v), dend (dV c' v))) [1; 2; 3] | _ => [] end
    = [(0, 0); (0, 1); (1, 1)] /\
  match _ComputeEdgeRanges path_drawing with Ret (c', _) => map (fun e => (dstart (dE c' e), dend (dE c' e))) [2; 3; 4; 5] | _ => [] end
    = [(0, 1); (0, 1); (1, 2); (1, 2)].
Proof. split; vm_compute; reflexivity. Qed.

(** what a client sees of a run: compute the extents, check, render *)
Definition draw_run (c0 : dctx) (f : dctx -> option blk -> bool) : bool :=
  match _ComputeVertexRanges c0 with
  | Ret (c, r) => (r =? C_OK) && checked c &&
      match gp_DrawPlanar_RenderToString (fun _ => 0) (after_check c) with
      | Ret (r, o) => (r =? C_OK) && f c o
      | _ => false
      end
  | _ => false
  end.
Lemma draw_run_ok c0 f : draw_run c0 f = true -> exists c o,
  _ComputeVertexRanges c0 = Ret (c, C_OK) /\ _CheckVisibilityRepresentationIntegrity c = Ret (after_check c, C_OK) /\
  gp_DrawPlanar_RenderToString (fun _ => 0) (after_check c) = Ret (C_OK, o) /\ f c o = true.
Proof.
  unfold draw_run. destruct (_ComputeVertexRanges c0) as [[c r]| |]; try discriminate.
  intros H. apply andb_prop in H. destruct H as (H & H3). apply andb_prop in H. destruct H as (H1 & H2).
  destruct (gp_DrawPlanar_RenderToString _ _) as [[r' o]| |] eqn:E; try discriminate.
  apply andb_prop in H3. destruct H3 as (H3 & H4). apply Z.eqb_eq in H1, H3. subst. apply checked_ok in H2.
  exists c, o. auto.
Qed.
Definition newline_lost (c : dctx) (o : option blk) : bool :=
  match o with Some b => negb (cell (gM (dG c)) b 0 (gM (dG c)) =? 10) | None => false end.
Lemma newline_lost_ok c o : newline_lost c o = true -> exists b, o = Some b /\ cell (gM (dG c)) b 0 (gM (dG c)) <> 10.
Proof. destruct o as [b|]; [|discriminate]. cbn [newline_lost]. intros H. exists b. split; [reflexivity|]. apply negb_true_iff, Z.eqb_neq in H. exact H. Qed.

(** C40 is false of the code as stated.  An edgeless graph, with the extents that the code
    itself computes: the label of the vertex replaces the newline of its line. *)
Theorem C40_edgeless_refuted : exists c0 adj c c' b, rep (dG c0) adj /\ primary_edges (dG c0) adj /\
  gN (dG c0) = 1 /\ gM (dG c0) = 0 /\ row c0 1 = 0 /\
  _ComputeVertexRanges c0 = Ret (c, C_OK) /\
  _CheckVisibilityRepresentationIntegrity c = Ret (c', C_OK) /\
  gp_DrawPlanar_RenderToString (fun _ => 0) c' = Ret (C_OK, Some b) /\
  cell (gM (dG c)) b 0 (gM (dG c)) <> 10.
Proof.
  assert (PR : plain_reach (built 6 1 [])) by (apply built_plain; vm_compute; reflexivity).
  destruct (plain_reach_unsearched _ PR) as (adj & R & P & _).
  set (c0 := mkC (built 6 1 []) (fun _ => mkD 0 0 0) (fun _ => mkD 0 0 0)).
  destruct (draw_run_ok c0 newline_lost) as (c & o & E1 & E2 & E3 & E4); [vm_compute; reflexivity|].
  destruct (newline_lost_ok _ _ E4) as (b & -> & K).
  exists c0, adj, c, (after_check c), b. split; [exact R|]. split; [exact P|].
  split; [vm_compute; reflexivity|]. split; [vm_compute; reflexivity|]. split; [reflexivity|]. auto.
Qed.
Print Assumptions C40_edgeless_refuted.

(** The check accepts any extents of the vertices of an edgeless graph; rendering then
    leaves the buffer. *)
Theorem C40_bounds_refuted : exists c adj c', rep (dG c) adj /\ primary_edges (dG c) adj /\ row c 1 = 0 /\ gN (dG c) = 1 /\
  _CheckVisibilityRepresentationIntegrity c = Ret (c', C_OK) /\
  gp_DrawPlanar_RenderToString (fun _ => 0) c' = UB.
Proof.
  assert (PR : plain_reach (built 6 1 [])) by (apply built_plain; vm_compute; reflexivity).
  destruct (plain_reach_unsearched _ PR) as (adj & R & P & _).
  set (c := mkC (built 6 1 []) (fun _ => mkD 0 5 5) (fun _ => mkD 0 0 0)).
  exists c, adj, (after_check c). split; [exact R|]. split; [exact P|]. split; [reflexivity|].
  split; [vm_compute; reflexivity|]. split; [apply checked_ok; vm_compute; reflexivity|]. vm_compute. reflexivity.
Qed.
Print Assumptions C40_bounds_refuted.

(** Labels of three digits: the bar of vertex 100 spans the three columns of the picture, its
    label starts in the middle of the bar and replaces the newline. *)
Definition star_graph : graph := built 600 100 (adds [(100, 1); (100, 2); (100, 3)]).
Definition star_drawing : dctx :=
  mkC star_graph (fun v => mkD (if v =? 100 then 0 else v) 0 0) (fun e => mkD (e / 2 - 1) 0 (e / 2)).
Theorem C40_labels_refuted : exists c0 adj c c' b, rep (dG c0) adj /\ primary_edges (dG c0) adj /\ gM (dG c0) = 3 /\
  _ComputeVertexRanges c0 = Ret (c, C_OK) /\
  _CheckVisibilityRepresentationIntegrity c = Ret (c', C_OK) /\
  gp_DrawPlanar_RenderToString (fun _ => 0) c' = Ret (C_OK, Some b) /\
  cell (gM (dG c)) b 0 (gM (dG c)) <> 10.
Proof.
  assert (PR : plain_reach star_graph) by (apply built_plain; vm_compute; reflexivity).
  destruct (plain_reach_unsearched _ PR) as (adj & R & P & _).
  destruct (draw_run_ok star_drawing newline_lost) as (c & o & E1 & E2 & E3 & E4); [vm_compute; reflexivity|].
  destruct (newline_lost_ok _ _ E4) as (b & -> & K).
  exists star_drawing, adj, c, (after_check c), b. split; [exact R|]. split; [exact P|].
  split; [vm_compute; reflexivity|]. auto.
Qed.
Print Assumptions C40_labels_refuted.
