(** * ReadyP: the functions that read a graph leave everything that only the searches and the embedder use
    as it is in a new graph. *)
From Coq Require Import ZifyBool.
From Verif Require Import Base BaseP GraphRec GraphM GraphSpec GSimp DFSM DFSSpec EmbM EmbedSpec G6M IOM.

(** The type and the inversion of an edge. *)
Definition EMB_MASK : Z := Z.lor EDGE_TYPE_MASK EDGEFLAG_INVERTED_MASK.
Record ready (g : graph) : Prop := {
  rd_flags : forall e, Z.land (eflags g e) EMB_MASK = 0;
  rd_out : forall e, gp_EdgeIndexBound g <= e -> eflags g e = 0;
  rd_searched : Z.land (giflags g) 1 = 0;
  rd_par : forall v, par g v = NIL;
  rd_pe : forall x, viPertEdge (gVI g) x = NIL;
  rd_pr : forall x, viPertRoots (gVI g) x = NIL;
  rd_sdc : forall x, viSDC (gVI g) x = NIL;
  rd_fwd : forall x, viFwd (gVI g) x = NIL;
  rd_brl : brlPrev (gX g) NIL = NIL;
  rd_sdl : sdlPrev (gX g) NIL = NIL;
  rd_room : 1 <= gN g -> 2 * gCap g <= gstackCap g;
  rd_stack : 1 <= gN g -> 2 <= gstackCap g;
  rd_cap : 1 <= gN g -> 0 < gCap g;
  rd_base : giflags g = 0 \/ giflags g = 8 }.

(** The property, for whatever a function takes or returns. *)
Class HasD (X : Type) := isD : X -> Prop.
#[export] Instance D_graph : HasD graph | 0 := ready.
#[export] Instance D_prod X Y {hx : HasD X} {hy : HasD Y} : HasD (X * Y) | 1 := fun p => isD (fst p) /\ isD (snd p).
#[export] Instance D_res X {hx : HasD X} : HasD (res X) | 1 := fun m => match m with Ret x => isD x | _ => True end.
#[export] Instance D_fun X Y {hx : HasD X} {hy : HasD Y} : HasD (X -> Y) | 1 := fun f => forall x, isD x -> isD (f x).
#[export] Instance D_any X : HasD X | 100 := fun _ => True.

Lemma app_D {X Y} {hx : HasD X} {hy : HasD Y} (f : X -> Y) x : isD f -> isD x -> isD (f x).
Proof. intros H. apply H. Qed.
Lemma bind_D {X Y} {hx : HasD X} {hy : HasD Y} (m : res X) (k : X -> res Y) : isD m -> isD k -> isD (bind m k).
Proof. intros H K. destruct m; [apply K, H|exact I|exact I]. Qed.
Lemma guard_D {X} {hx : HasD X} b (m : res X) : isD m -> isD (guard b m).
Proof. destruct b; [auto|intros; exact I]. Qed.
Lemma ret_D {X} {hx : HasD X} (x : X) : isD x -> isD (Ret x).
Proof. auto. Qed.
Lemma pair_D {X Y} {hx : HasD X} {hy : HasD Y} (x : X) (y : Y) : isD x -> isD y -> isD (x, y).
Proof. split; auto. Qed.
Lemma triv_res_D {X} (m : res X) : @isD (res X) (@D_res X (D_any X)) m.
Proof. destruct m; exact I. Qed.
Lemma triv_res2_D {X Y} (m : res (X * Y)) : @isD _ (@D_res _ (@D_prod X Y (D_any X) (D_any Y))) m.
Proof. destruct m; repeat split. Qed.
Lemma triv_res3_D {X Y V} (m : res (X * Y * V)) : @isD _ (@D_res _ (@D_prod _ V (@D_prod X Y (D_any X) (D_any Y)) (D_any V))) m.
Proof. destruct m; repeat split. Qed.
Lemma for_up_D {X} {hx : HasD X} (body : Z -> X -> res X) : isD body -> forall n i s, isD s -> isD (for_up n i body s).
Proof. intros Hb. induction n as [|n IH]; intros i s Hs; cbn [for_up]; [exact Hs|]. apply bind_D; [now apply Hb|]. intros s' Hs'. now apply IH. Qed.
Lemma for_down_D {X} {hx : HasD X} (body : Z -> X -> res X) : isD body -> forall n i s, isD s -> isD (for_down n i body s).
Proof. intros Hb. induction n as [|n IH]; intros i s Hs; cbn [for_down]; [exact Hs|]. apply bind_D; [now apply Hb|]. intros s' Hs'. now apply IH. Qed.
Create HintDb dd discriminated.
#[export] Hint Constants Opaque : dd.

Lemma wr_eflags_D g e x : isD g -> Z.land x EMB_MASK = 0 -> isD (wr_eflags g e x).
Proof.
  intros H Hx. unfold wr_eflags, guard. destruct (inE g e) eqn:Ei; [|exact I]. destruct H. constructor; auto.
  - intros e'. change (Z.land (upd (eflags g) e x e') EMB_MASK = 0). unfold upd. destruct (e' =? e); [exact Hx|auto].
  - intros e' He'. change (upd (eflags g) e x e' = 0). change (gp_EdgeIndexBound g <= e') in He'. unfold upd, inE in *. destruct (e' =? e) eqn:E1; [lia|auto].
Qed.
Lemma flags_step g e (f : Z -> Z) : isD g -> (forall x, Z.land x EMB_MASK = 0 -> Z.land (f x) EMB_MASK = 0) -> isD (x <- rd_eflags g e ;; wr_eflags g e (f x)).
Proof. intros H Hf. unfold rd_eflags, guard at 1. destruct (inE g e); [|exact I]. cbn [bind]. apply wr_eflags_D; [exact H|]. apply Hf, H. Qed.
Lemma dir_lor x t : Z.land x EMB_MASK = 0 -> Z.land t EMB_MASK = 0 -> Z.land (Z.lor x t) EMB_MASK = 0.
Proof. intros H1 H2. rewrite Z.land_lor_distr_l, H1, H2. reflexivity. Qed.
Lemma dir_ldiff x t : Z.land x EMB_MASK = 0 -> Z.land (Z.ldiff x t) EMB_MASK = 0.
Proof. intros H. apply Z.bits_inj'. intros n _. apply (f_equal (fun z => Z.testbit z n)) in H. rewrite Z.land_spec, Z.ldiff_spec, Z.bits_0 in *. destruct (Z.testbit x n), (Z.testbit EMB_MASK n), (Z.testbit t n); auto. Qed.
Lemma dir_lxor x t : Z.land x EMB_MASK = 0 -> Z.land t EMB_MASK = 0 -> Z.land (Z.lxor x t) EMB_MASK = 0.
Proof. intros H H2. apply Z.bits_inj'. intros n _. apply (f_equal (fun z => Z.testbit z n)) in H, H2. rewrite Z.land_spec, Z.bits_0 in *. rewrite Z.lxor_spec. destruct (Z.testbit x n), (Z.testbit EMB_MASK n), (Z.testbit t n); auto. Qed.
Lemma gp_SetDirection_D : isD gp_SetDirection.
Proof.
  intros g Hg e _ d _. unfold gp_SetDirection.
  assert (B : forall (f1 f2 : Z -> Z) a b, (forall x, Z.land x EMB_MASK = 0 -> Z.land (f1 x) EMB_MASK = 0) -> (forall x, Z.land x EMB_MASK = 0 -> Z.land (f2 x) EMB_MASK = 0) ->
    isD (f <- rd_eflags g a ;; g <- wr_eflags g a (f1 f) ;; f <- rd_eflags g b ;; wr_eflags g b (f2 f))).
  { intros f1 f2 a b H1 H2. unfold rd_eflags at 1, guard. destruct (inE g a); [|exact I]. cbn [bind]. apply bind_D; [apply wr_eflags_D; [exact Hg|apply H1, Hg]|].
    intros g1 Hg1. now apply flags_step. }
  destruct (d =? DIR_INONLY); [|destruct (d =? DIR_OUTONLY)]; apply B; intros x Hx; (apply dir_lor || apply dir_ldiff); auto.
Qed.
#[export] Hint Resolve gp_SetDirection_D : dd.
Lemma new_D : isD gp_New.
Proof. constructor; try reflexivity; cbn; lia. Qed.
Lemma gp_InitGraph_D : isD gp_InitGraph.
Proof.
  intros g Hg N _. unfold gp_InitGraph. destruct (N <=? 0) eqn:E1; [split; [exact Hg|exact I]|]. destruct (negb (gN g =? 0)) eqn:E2; [split; [exact Hg|exact I]|].
  destruct Hg. split; [|exact I]. cbn [fst _InitGraph]. unfold _InitGraph. cbv zeta. cbn [fst].
  constructor; try reflexivity; [exact rd_searched0| | | |exact rd_base0];
    unfold _InitIsolatorContext, _InitEdges, _InitVertices, lists_reset, gp_EdgeIndexBound; gsimp; intros; try (match goal with |- context [?a <? ?b] => destruct (a <? b) eqn:E end); destruct (gCap g >? 0) eqn:E3; lia.
Qed.
#[export] Hint Resolve gp_InitGraph_D : dd.
Lemma gp_ReinitializeGraph_D : isD gp_ReinitializeGraph.
Proof.
  intros g Hg. unfold gp_ReinitializeGraph. destruct (gN g <=? 0); [exact Hg|]. destruct Hg. unfold _ReinitializeGraph, _InitIsolatorContext, _InitEdges, _InitVertices, lists_reset. constructor; try reflexivity; try assumption; now left.
Qed.
#[export] Hint Resolve gp_ReinitializeGraph_D : dd.
Lemma flag8_D g : isD g -> isD (set_giflags g (Z.lor (giflags g) 8)).
Proof.
  intros []. constructor; auto.
  - change (Z.land (Z.lor (giflags g) 8) 1 = 0). rewrite Z.land_lor_distr_l, rd_searched0. reflexivity.
  - change (Z.lor (giflags g) 8 = 0 \/ Z.lor (giflags g) 8 = 8). destruct rd_base0 as [-> | ->]; right; reflexivity.
Qed.

Ltac mk_ready := match goal with H : @isD graph _ ?g |- @isD graph _ _ => destruct H; constructor; assumption end.
Ltac dgraph := match goal with H : @isD graph _ _ |- _ => solve [exact H | destruct H; constructor; assumption] end.
Ltac dhyp := match goal with H : @isD _ _ ?f |- @isD _ _ ?f => exact H end.
Ltac dstep :=
  cbv beta;
  lazymatch goal with
  | |- @isD _ (D_any _) _ => exact I
  | |- @isD _ _ (fun _ => _) => let x := fresh "x" in let H := fresh "H" in intros x H
  | |- @isD (res _) (@D_res _ (D_any _)) _ => apply triv_res_D
  | |- @isD _ (@D_res _ (@D_prod _ _ (D_any _) (D_any _))) _ => apply triv_res2_D
  | |- @isD _ (@D_res _ (@D_prod _ _ (@D_prod _ _ (D_any _) (D_any _)) (D_any _))) _ => apply triv_res3_D
  | |- @isD _ _ (bind _ _) => apply bind_D
  | |- @isD _ _ (guard _ _) => apply guard_D
  | |- @isD _ _ (Ret _) => apply ret_D
  | |- @isD _ _ UB => exact I
  | |- @isD _ _ OOF => exact I
  | |- @isD _ _ (_, _) => apply pair_D
  | |- @isD _ _ (for_up _ _ _ _) => apply for_up_D
  | |- @isD _ _ (for_down _ _ _ _) => apply for_down_D
  | |- @isD _ _ (wr_eflags _ _ _) => apply wr_eflags_D; [|reflexivity]
  | |- @isD _ _ (match ?x with _ => _ end) =>
      first [is_var x; lazymatch goal with H : @isD _ (D_prod _ _) x |- _ => destruct x as [? ?]; destruct H as [? ?]; cbn [fst snd] in * end | let T := fresh "T" in lazymatch type of x with prod _ _ => pose proof (ltac:(repeat dstep) : isD x) as T end; destruct x; destruct T; cbn [fst snd] in *
            | destruct x]
  | |- @isD graph _ (set_giflags ?g (Z.lor (giflags ?g) 8)) => apply flag8_D
  | |- @isD graph _ _ => first [dgraph | typeclasses eauto with dd | dapp]
  | |- _ => first [dhyp | solve [typeclasses eauto with dd] | dapp]
  end
with dapp := lazymatch goal with |- @isD _ _ (?f ?x) => apply (app_D f x) end.
Ltac dsolve := cbv zeta; repeat dstep.
Ltac dnon f := unfold f; dsolve.
Ltac dfix f := let n := fresh "n" in let IH := fresh "IH" in intros n _; induction n as [|n IH]; cbn [f]; dsolve.

(** ** GraphM *)
Lemma gp_SetNextArc_D : isD gp_SetNextArc. Proof. dnon gp_SetNextArc. Qed.
#[export] Hint Resolve gp_SetNextArc_D : dd.
Lemma gp_SetPrevArc_D : isD gp_SetPrevArc. Proof. dnon gp_SetPrevArc. Qed.
#[export] Hint Resolve gp_SetPrevArc_D : dd.
Lemma gp_SetAdjacentArc_D : isD gp_SetAdjacentArc. Proof. dnon gp_SetAdjacentArc. Qed.
#[export] Hint Resolve gp_SetAdjacentArc_D : dd.
Lemma gp_SetNeighbor_D : isD gp_SetNeighbor. Proof. dnon gp_SetNeighbor. Qed.
#[export] Hint Resolve gp_SetNeighbor_D : dd.
Lemma gp_SetFirstArc_D : isD gp_SetFirstArc. Proof. dnon gp_SetFirstArc. Qed.
#[export] Hint Resolve gp_SetFirstArc_D : dd.
Lemma gp_SetLastArc_D : isD gp_SetLastArc. Proof. dnon gp_SetLastArc. Qed.
#[export] Hint Resolve gp_SetLastArc_D : dd.
Lemma gp_SetArc_D : isD gp_SetArc. Proof. dnon gp_SetArc. Qed.
#[export] Hint Resolve gp_SetArc_D : dd.
Lemma gp_SetVertexIndex_D : isD gp_SetVertexIndex. Proof. dnon gp_SetVertexIndex. Qed.
#[export] Hint Resolve gp_SetVertexIndex_D : dd.
Lemma gp_SetVertexVisitedInfo_D : isD gp_SetVertexVisitedInfo. Proof. dnon gp_SetVertexVisitedInfo. Qed.
#[export] Hint Resolve gp_SetVertexVisitedInfo_D : dd.
Lemma _InitEdgeRec_D : isD _InitEdgeRec. Proof. dnon _InitEdgeRec. Qed.
#[export] Hint Resolve _InitEdgeRec_D : dd.
Lemma _EnsureArcCapacity_D : isD _EnsureArcCapacity.
Proof.
  intros g Hg req _. unfold _EnsureArcCapacity. cbv zeta. destruct (2 + req <=? gp_EdgeIndexBound g) eqn:E1; [dsolve|]. apply bind_D; [|dsolve]. apply for_up_D; [dsolve|].
  destruct Hg. unfold gp_EdgeIndexBound in *. destruct (gstackCap g <? 2 * req) eqn:E2; constructor; try assumption; unfold gp_EdgeIndexBound in *; gsimp; intros; try (apply rd_out0; lia); try (destruct (_ <? 6 * gN g) eqn:E3); lia.
Qed.
#[export] Hint Resolve _EnsureArcCapacity_D : dd.
Lemma gp_EnsureArcCapacity_D : isD gp_EnsureArcCapacity.
Proof.
  intros g Hg req _. unfold gp_EnsureArcCapacity. destruct (req <=? 0); [dsolve|]. destruct (negb _); [dsolve|]. destruct (_ >=? _) eqn:E1; [dsolve|]. destruct (gN g =? 0) eqn:E0.
  { apply ret_D. split; [|exact I]. destruct Hg. constructor; try assumption; unfold gp_EdgeIndexBound in *; gsimp; intros; try apply rd_out0; lia. }
  now apply _EnsureArcCapacity_D.
Qed.
#[export] Hint Resolve gp_EnsureArcCapacity_D : dd.
Lemma gp_AttachArc_D : isD gp_AttachArc. Proof. dnon gp_AttachArc. Qed.
#[export] Hint Resolve gp_AttachArc_D : dd.
Lemma take_edge_slot_D : isD take_edge_slot. Proof. dnon take_edge_slot. Qed.
#[export] Hint Resolve take_edge_slot_D : dd.
Lemma gp_AddEdge_D : isD gp_AddEdge.
Proof. intros g Hg. unfold gp_AddEdge, take_edge_slot. destruct (gholes g); cbv beta iota zeta; dsolve. Qed.
#[export] Hint Resolve gp_AddEdge_D : dd.
Lemma gp_DynamicAddEdge_D : isD gp_DynamicAddEdge. Proof. dnon gp_DynamicAddEdge. Qed.
#[export] Hint Resolve gp_DynamicAddEdge_D : dd.
Lemma gp_BindFirstArc_D : isD gp_BindFirstArc. Proof. dnon gp_BindFirstArc. Qed.
#[export] Hint Resolve gp_BindFirstArc_D : dd.
Lemma gp_BindLastArc_D : isD gp_BindLastArc. Proof. dnon gp_BindLastArc. Qed.
#[export] Hint Resolve gp_BindLastArc_D : dd.
Lemma gp_AttachFirstArc_D : isD gp_AttachFirstArc. Proof. dnon gp_AttachFirstArc. Qed.
#[export] Hint Resolve gp_AttachFirstArc_D : dd.
Lemma gp_AttachLastArc_D : isD gp_AttachLastArc. Proof. dnon gp_AttachLastArc. Qed.
#[export] Hint Resolve gp_AttachLastArc_D : dd.
(** ** G6M *)
Lemma set_zero_based_D : isD set_zero_based. Proof. intros g Hg. now apply flag8_D. Qed.
#[export] Hint Resolve set_zero_based_D : dd.
Lemma _beginG6ReadIteration_D : isD _beginG6ReadIteration. Proof. dnon _beginG6ReadIteration. Qed.
#[export] Hint Resolve _beginG6ReadIteration_D : dd.
Lemma begin_read_file_D : isD begin_read_file. Proof. dnon begin_read_file. Qed.
#[export] Hint Resolve begin_read_file_D : dd.
Lemma begin_read_str_D : isD begin_read_str. Proof. dnon begin_read_str. Qed.
#[export] Hint Resolve begin_read_str_D : dd.
Lemma decode_bits_D : isD decode_bits. Proof. dfix decode_bits. Qed.
#[export] Hint Resolve decode_bits_D : dd.
Lemma decode_chars_D : isD decode_chars. Proof. dfix decode_chars. Qed.
#[export] Hint Resolve decode_chars_D : dd.
Lemma _decodeGraph_D : isD _decodeGraph. Proof. dnon _decodeGraph. Qed.
#[export] Hint Resolve _decodeGraph_D : dd.
Lemma readGraphUsingG6ReadIterator_D : isD readGraphUsingG6ReadIterator. Proof. dnon readGraphUsingG6ReadIterator. Qed.
#[export] Hint Resolve readGraphUsingG6ReadIterator_D : dd.
Lemma read_graph_with_D : isD read_graph_with. Proof. dnon read_graph_with. Qed.
#[export] Hint Resolve read_graph_with_D : dd.
Lemma _ReadGraphFromG6FilePointer_D : isD _ReadGraphFromG6FilePointer. Proof. dnon _ReadGraphFromG6FilePointer. Qed.
#[export] Hint Resolve _ReadGraphFromG6FilePointer_D : dd.
Lemma _ReadGraphFromG6String_D : isD _ReadGraphFromG6String. Proof. dnon _ReadGraphFromG6String. Qed.
#[export] Hint Resolve _ReadGraphFromG6String_D : dd.
(** ** IOM *)
Lemma matrix_row_D : isD matrix_row. Proof. dfix matrix_row. Qed.
#[export] Hint Resolve matrix_row_D : dd.
Lemma matrix_rows_D : isD matrix_rows. Proof. dfix matrix_rows. Qed.
#[export] Hint Resolve matrix_rows_D : dd.
Lemma _ReadAdjMatrix_D : isD _ReadAdjMatrix. Proof. dnon _ReadAdjMatrix. Qed.
#[export] Hint Resolve _ReadAdjMatrix_D : dd.
Lemma mark_arcs_D : isD mark_arcs. Proof. dfix mark_arcs. Qed.
#[export] Hint Resolve mark_arcs_D : dd.
Lemma take_list_D : isD take_list. Proof. dnon take_list. Qed.
#[export] Hint Resolve take_list_D : dd.
Lemma unlink_circular_D : isD unlink_circular. Proof. dnon unlink_circular. Qed.
#[export] Hint Resolve unlink_circular_D : dd.
Lemma pull_arc_D : isD pull_arc. Proof. dnon pull_arc. Qed.
#[export] Hint Resolve pull_arc_D : dd.
Lemma read_list_D : isD read_list. Proof. dfix read_list. Qed.
#[export] Hint Resolve read_list_D : dd.
Lemma rest_arcs_D : isD rest_arcs. Proof. dfix rest_arcs. Qed.
#[export] Hint Resolve rest_arcs_D : dd.
Lemma read_lists_D : isD read_lists. Proof. intros fuel _ n _. induction n as [|n IH]; cbn [read_lists]; dsolve. Qed.
#[export] Hint Resolve read_lists_D : dd.
Lemma _ReadAdjList_D : isD _ReadAdjList. Proof. dnon _ReadAdjList. Qed.
#[export] Hint Resolve _ReadAdjList_D : dd.
Lemma leda_edges_D : isD leda_edges. Proof. dfix leda_edges. Qed.
#[export] Hint Resolve leda_edges_D : dd.
Lemma _ReadLEDAGraph_D : isD _ReadLEDAGraph. Proof. dnon _ReadLEDAGraph. Qed.
#[export] Hint Resolve _ReadLEDAGraph_D : dd.
Lemma gp_Read_D : isD gp_Read. Proof. dnon gp_Read. Qed.
#[export] Hint Resolve gp_Read_D : dd.
Lemma gp_ReadFromString_D : isD gp_ReadFromString. Proof. dnon gp_ReadFromString. Qed.
#[export] Hint Resolve gp_ReadFromString_D : dd.
