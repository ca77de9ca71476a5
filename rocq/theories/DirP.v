(** * DirP: the embedder, the isolators and the sorting of the vertices leave the directions of edges
    alone: if no edge record carries a direction before, none does afterwards. *)
From Coq Require Import ZifyBool.
From Verif Require Import Base BaseP GraphRec GraphM GraphSpec ListM DFSM TestM EmbM IsoM IsoKM G6M EndSpec.

(** The property, for whatever a function takes or returns. *)
Class HasD (X : Type) := isD : X -> Prop.
#[export] Instance D_graph : HasD graph | 0 := no_directions.
#[export] Instance D_prod X Y {hx : HasD X} {hy : HasD Y} : HasD (X * Y) | 1 := fun p => isD (fst p) /\ isD (snd p).
#[export] Instance D_res X {hx : HasD X} : HasD (res X) | 1 := fun m => match m with Ret x => isD x | _ => True end.
#[export] Instance D_fun X Y {hx : HasD X} {hy : HasD Y} : HasD (X -> Y) | 1 := fun f => forall x, isD x -> isD (f x).
#[export] Instance D_any X : HasD X | 100 := fun _ => True.

Lemma app_D {X Y} {hx : HasD X} {hy : HasD Y} (f : X -> Y) x : isD f -> isD x -> isD (f x).
Proof. intros H. apply H. Qed.
Lemma bind_D {X Y} {hx : HasD X} {hy : HasD Y} (m : res X) (k : X -> res Y) : isD m -> isD k -> isD (bind m k).
Proof. intros H K. destruct m; [apply K, H|exact I|exact I]. Qed.
Lemma guard_D {X} {hx : HasD X} b (m : res X) : isD m -> isD (guard b m).
Proof. destruct b; [auto|intros; exact I]. Qed.
Lemma ret_D {X} {hx : HasD X} (x : X) : isD x -> isD (Ret x).
Proof. auto. Qed.
Lemma pair_D {X Y} {hx : HasD X} {hy : HasD Y} (x : X) (y : Y) : isD x -> isD y -> isD (x, y).
Proof. split; auto. Qed.
Lemma triv_res_D {X} (m : res X) : @isD (res X) (@D_res X (D_any X)) m.
Proof. destruct m; exact I. Qed.
Lemma triv_res2_D {X Y} (m : res (X * Y)) : @isD _ (@D_res _ (@D_prod X Y (D_any X) (D_any Y))) m.
Proof. destruct m; repeat split. Qed.
Lemma triv_res3_D {X Y V} (m : res (X * Y * V)) : @isD _ (@D_res _ (@D_prod _ V (@D_prod X Y (D_any X) (D_any Y)) (D_any V))) m.
Proof. destruct m; repeat split. Qed.
Lemma for_up_D {X} {hx : HasD X} (body : Z -> X -> res X) : isD body -> forall n i s, isD s -> isD (for_up n i body s).
Proof. intros Hb. induction n as [|n IH]; intros i s Hs; cbn [for_up]; [exact Hs|]. apply bind_D; [now apply Hb|]. intros s' Hs'. now apply IH. Qed.
Lemma for_down_D {X} {hx : HasD X} (body : Z -> X -> res X) : isD body -> forall n i s, isD s -> isD (for_down n i body s).
Proof. intros Hb. induction n as [|n IH]; intros i s Hs; cbn [for_down]; [exact Hs|]. apply bind_D; [now apply Hb|]. intros s' Hs'. now apply IH. Qed.
Create HintDb dd discriminated.
#[export] Hint Constants Opaque : dd.

Lemma wr_eflags_D g e x : isD g -> Z.land x DIR_MASK = 0 -> isD (wr_eflags g e x).
Proof. intros H Hx. apply guard_D. intros e' He'. change (Z.land (upd (eflags g) e x e') DIR_MASK = 0). unfold upd. destruct (e' =? e); [exact Hx|now apply H]. Qed.
Lemma flags_step g e (f : Z -> Z) : isD g -> (forall x, Z.land x DIR_MASK = 0 -> Z.land (f x) DIR_MASK = 0) -> isD (x <- rd_eflags g e ;; wr_eflags g e (f x)).
Proof.
  intros H Hf. unfold rd_eflags, guard at 1. destruct (inE g e); [|exact I]. cbn [bind]. apply guard_D. intros e' He'. change (Z.land (upd (eflags g) e (f (eflags g e)) e') DIR_MASK = 0).
  unfold upd. destruct (Z.eqb_spec e' e) as [->|_]; [apply Hf, H, He'|now apply H].
Qed.
Lemma dir_lor x t : Z.land x DIR_MASK = 0 -> Z.land t DIR_MASK = 0 -> Z.land (Z.lor x t) DIR_MASK = 0.
Proof. intros H1 H2. rewrite Z.land_lor_distr_l, H1, H2. reflexivity. Qed.
Lemma dir_ldiff x t : Z.land x DIR_MASK = 0 -> Z.land (Z.ldiff x t) DIR_MASK = 0.
Proof. intros H. apply Z.bits_inj'. intros n _. apply (f_equal (fun z => Z.testbit z n)) in H. rewrite Z.land_spec, Z.ldiff_spec, Z.bits_0 in *. destruct (Z.testbit x n), (Z.testbit DIR_MASK n), (Z.testbit t n); auto. Qed.
Lemma dir_lxor x t : Z.land x DIR_MASK = 0 -> Z.land t DIR_MASK = 0 -> Z.land (Z.lxor x t) DIR_MASK = 0.
Proof. intros H H2. apply Z.bits_inj'. intros n _. apply (f_equal (fun z => Z.testbit z n)) in H, H2. rewrite Z.land_spec, Z.bits_0 in *. rewrite Z.lxor_spec. destruct (Z.testbit x n), (Z.testbit DIR_MASK n), (Z.testbit t n); auto. Qed.
Ltac dflags := intros g Hg e _; apply flags_step; [exact Hg|]; intros x Hx; repeat (apply dir_lor || apply dir_ldiff || apply dir_lxor); auto.
Lemma gp_ClearEdgeVisited_D : isD gp_ClearEdgeVisited. Proof. dflags. Qed.
Lemma gp_SetEdgeVisited_D : isD gp_SetEdgeVisited. Proof. dflags. Qed.
Lemma gp_ClearEdgeType_D : isD gp_ClearEdgeType. Proof. dflags. Qed.
Lemma gp_ClearEdgeFlagInverted_D : isD gp_ClearEdgeFlagInverted. Proof. dflags. Qed.
Lemma gp_SetEdgeFlagInverted_D : isD gp_SetEdgeFlagInverted. Proof. dflags. Qed.
Lemma gp_XorEdgeFlagInverted_D : isD gp_XorEdgeFlagInverted. Proof. dflags. Qed.
Lemma gp_SetEdgeType_D g e t : isD g -> Z.land t DIR_MASK = 0 -> isD (gp_SetEdgeType g e t).
Proof. intros Hg Ht. apply flags_step; [exact Hg|]. intros x Hx. now apply dir_lor. Qed.
Lemma gp_ResetEdgeType_D g e t : isD g -> Z.land t DIR_MASK = 0 -> isD (gp_ResetEdgeType g e t).
Proof. intros Hg Ht. apply flags_step; [exact Hg|]. intros x Hx. apply dir_lor; [now apply dir_ldiff|exact Ht]. Qed.
#[export] Hint Resolve gp_ClearEdgeVisited_D gp_SetEdgeVisited_D gp_ClearEdgeType_D gp_ClearEdgeFlagInverted_D gp_SetEdgeFlagInverted_D gp_XorEdgeFlagInverted_D : dd.

Ltac dgraph := match goal with H : @isD graph _ _ |- _ => exact H end.
Ltac dhyp := match goal with H : @isD _ _ ?f |- @isD _ _ ?f => exact H end.
Ltac dstep :=
  cbv beta;
  lazymatch goal with
  | |- @isD _ (D_any _) _ => exact I
  | |- @isD _ _ (fun _ => _) => let x := fresh "x" in let H := fresh "H" in intros x H
  | |- @isD (res _) (@D_res _ (D_any _)) _ => apply triv_res_D
  | |- @isD _ (@D_res _ (@D_prod _ _ (D_any _) (D_any _))) _ => apply triv_res2_D
  | |- @isD _ (@D_res _ (@D_prod _ _ (@D_prod _ _ (D_any _) (D_any _)) (D_any _))) _ => apply triv_res3_D
  | |- @isD _ _ (bind _ _) => apply bind_D
  | |- @isD _ _ (guard _ _) => apply guard_D
  | |- @isD _ _ (Ret _) => apply ret_D
  | |- @isD _ _ UB => exact I
  | |- @isD _ _ OOF => exact I
  | |- @isD _ _ (_, _) => apply pair_D
  | |- @isD _ _ (for_up _ _ _ _) => apply for_up_D
  | |- @isD _ _ (for_down _ _ _ _) => apply for_down_D
  | |- @isD _ _ (wr_eflags _ _ _) => apply wr_eflags_D; [|reflexivity]
  | |- @isD _ _ (gp_SetEdgeType _ _ _) => apply gp_SetEdgeType_D; [|reflexivity]
  | |- @isD _ _ (gp_ResetEdgeType _ _ _) => apply gp_ResetEdgeType_D; [|reflexivity]
  | |- @isD _ _ (match ?x with _ => _ end) =>
      first [is_var x; lazymatch goal with H : @isD _ (D_prod _ _) x |- _ => destruct x as [? ?]; destruct H as [? ?]; cbn [fst snd] in * end | let T := fresh "T" in lazymatch type of x with prod _ _ => pose proof (ltac:(repeat dstep) : isD x) as T end; destruct x; destruct T; cbn [fst snd] in *
            | destruct x]
  | |- @isD graph _ _ => first [dgraph | typeclasses eauto with dd | dapp]
  | |- _ => first [dhyp | solve [typeclasses eauto with dd] | dapp]
  end
with dapp := lazymatch goal with |- @isD _ _ (?f ?x) => apply (app_D f x) end.
Ltac dsolve := cbv zeta; repeat dstep.
Ltac dnon f := unfold f; dsolve.
Ltac dfix f := let n := fresh "n" in let IH := fresh "IH" in intros n _; induction n as [|n IH]; cbn [f]; dsolve.

(** ** GraphM *)
Lemma _InitEdges_D : isD _InitEdges. Proof. intros g Hg e _. reflexivity. Qed.
#[export] Hint Resolve _InitEdges_D : dd.
Lemma gp_New_D : isD gp_New. Proof. intros e _. reflexivity. Qed.
#[export] Hint Resolve gp_New_D : dd.
Lemma gp_ReinitializeGraph_D : isD gp_ReinitializeGraph. Proof. intros g Hg. unfold gp_ReinitializeGraph. destruct (gN g <=? 0); [exact Hg|]. intros e _. reflexivity. Qed.
#[export] Hint Resolve gp_ReinitializeGraph_D : dd.
Lemma gp_SetNextArc_D : isD gp_SetNextArc. Proof. dnon gp_SetNextArc. Qed.
#[export] Hint Resolve gp_SetNextArc_D : dd.
Lemma gp_SetPrevArc_D : isD gp_SetPrevArc. Proof. dnon gp_SetPrevArc. Qed.
#[export] Hint Resolve gp_SetPrevArc_D : dd.
Lemma gp_SetAdjacentArc_D : isD gp_SetAdjacentArc. Proof. dnon gp_SetAdjacentArc. Qed.
#[export] Hint Resolve gp_SetAdjacentArc_D : dd.
Lemma gp_SetNeighbor_D : isD gp_SetNeighbor. Proof. dnon gp_SetNeighbor. Qed.
#[export] Hint Resolve gp_SetNeighbor_D : dd.
Lemma gp_SetFirstArc_D : isD gp_SetFirstArc. Proof. dnon gp_SetFirstArc. Qed.
#[export] Hint Resolve gp_SetFirstArc_D : dd.
Lemma gp_SetLastArc_D : isD gp_SetLastArc. Proof. dnon gp_SetLastArc. Qed.
#[export] Hint Resolve gp_SetLastArc_D : dd.
Lemma gp_SetArc_D : isD gp_SetArc. Proof. dnon gp_SetArc. Qed.
#[export] Hint Resolve gp_SetArc_D : dd.
Lemma gp_SetVertexIndex_D : isD gp_SetVertexIndex. Proof. dnon gp_SetVertexIndex. Qed.
#[export] Hint Resolve gp_SetVertexIndex_D : dd.
Lemma wr_vflags_D : isD wr_vflags. Proof. dnon wr_vflags. Qed.
#[export] Hint Resolve wr_vflags_D : dd.
Lemma gp_ClearVertexVisited_D : isD gp_ClearVertexVisited. Proof. dnon gp_ClearVertexVisited. Qed.
#[export] Hint Resolve gp_ClearVertexVisited_D : dd.
Lemma gp_SetVertexVisited_D : isD gp_SetVertexVisited. Proof. dnon gp_SetVertexVisited. Qed.
#[export] Hint Resolve gp_SetVertexVisited_D : dd.
Lemma gp_ClearVertexObstructionType_D : isD gp_ClearVertexObstructionType. Proof. dnon gp_ClearVertexObstructionType. Qed.
#[export] Hint Resolve gp_ClearVertexObstructionType_D : dd.
Lemma gp_SetVertexParent_D : isD gp_SetVertexParent. Proof. dnon gp_SetVertexParent. Qed.
#[export] Hint Resolve gp_SetVertexParent_D : dd.
Lemma gp_SetVertexLeastAncestor_D : isD gp_SetVertexLeastAncestor. Proof. dnon gp_SetVertexLeastAncestor. Qed.
#[export] Hint Resolve gp_SetVertexLeastAncestor_D : dd.
Lemma gp_SetVertexLowpoint_D : isD gp_SetVertexLowpoint. Proof. dnon gp_SetVertexLowpoint. Qed.
#[export] Hint Resolve gp_SetVertexLowpoint_D : dd.
Lemma gp_SetVertexVisitedInfo_D : isD gp_SetVertexVisitedInfo. Proof. dnon gp_SetVertexVisitedInfo. Qed.
#[export] Hint Resolve gp_SetVertexVisitedInfo_D : dd.
Lemma gp_SetVertexPertinentEdge_D : isD gp_SetVertexPertinentEdge. Proof. dnon gp_SetVertexPertinentEdge. Qed.
#[export] Hint Resolve gp_SetVertexPertinentEdge_D : dd.
Lemma gp_SetVertexPertinentRootsList_D : isD gp_SetVertexPertinentRootsList. Proof. dnon gp_SetVertexPertinentRootsList. Qed.
#[export] Hint Resolve gp_SetVertexPertinentRootsList_D : dd.
Lemma gp_SetVertexFuturePertinentChild_D : isD gp_SetVertexFuturePertinentChild. Proof. dnon gp_SetVertexFuturePertinentChild. Qed.
#[export] Hint Resolve gp_SetVertexFuturePertinentChild_D : dd.
Lemma gp_SetVertexSortedDFSChildList_D : isD gp_SetVertexSortedDFSChildList. Proof. dnon gp_SetVertexSortedDFSChildList. Qed.
#[export] Hint Resolve gp_SetVertexSortedDFSChildList_D : dd.
Lemma gp_SetVertexFwdArcList_D : isD gp_SetVertexFwdArcList. Proof. dnon gp_SetVertexFwdArcList. Qed.
#[export] Hint Resolve gp_SetVertexFwdArcList_D : dd.
Lemma gp_SetExtFaceVertex_D : isD gp_SetExtFaceVertex. Proof. dnon gp_SetExtFaceVertex. Qed.
#[export] Hint Resolve gp_SetExtFaceVertex_D : dd.
Lemma stk_push_D : isD stk_push. Proof. dnon stk_push. Qed.
#[export] Hint Resolve stk_push_D : dd.
Lemma stk_pop_D : isD stk_pop. Proof. dnon stk_pop. Qed.
#[export] Hint Resolve stk_pop_D : dd.
Lemma stk_set_D : isD stk_set. Proof. dnon stk_set. Qed.
#[export] Hint Resolve stk_set_D : dd.
Lemma holes_push_D : isD holes_push. Proof. dnon holes_push. Qed.
#[export] Hint Resolve holes_push_D : dd.
Lemma _InitVertices_D : isD _InitVertices. Proof. dnon _InitVertices. Qed.
#[export] Hint Resolve _InitVertices_D : dd.
Lemma _InitIsolatorContext_D : isD _InitIsolatorContext. Proof. dnon _InitIsolatorContext. Qed.
#[export] Hint Resolve _InitIsolatorContext_D : dd.
Lemma lists_reset_D : isD lists_reset. Proof. dnon lists_reset. Qed.
#[export] Hint Resolve lists_reset_D : dd.
Lemma _InitGraph_D : isD _InitGraph. Proof. dnon _InitGraph. Qed.
#[export] Hint Resolve _InitGraph_D : dd.
Lemma gp_InitGraph_D : isD gp_InitGraph. Proof. dnon gp_InitGraph. Qed.
#[export] Hint Resolve gp_InitGraph_D : dd.
Lemma _InitEdgeRec_D : isD _InitEdgeRec. Proof. dnon _InitEdgeRec. Qed.
#[export] Hint Resolve _InitEdgeRec_D : dd.
Lemma _EnsureArcCapacity_D : isD _EnsureArcCapacity.
Proof. intros g Hg req _. unfold _EnsureArcCapacity. cbv zeta. destruct (gstackCap g <? 2 * req); dsolve. Qed.
#[export] Hint Resolve _EnsureArcCapacity_D : dd.
Lemma gp_EnsureArcCapacity_D : isD gp_EnsureArcCapacity. Proof. dnon gp_EnsureArcCapacity. Qed.
#[export] Hint Resolve gp_EnsureArcCapacity_D : dd.
Lemma gp_AttachArc_D : isD gp_AttachArc. Proof. dnon gp_AttachArc. Qed.
#[export] Hint Resolve gp_AttachArc_D : dd.
Lemma gp_DetachArc_D : isD gp_DetachArc. Proof. dnon gp_DetachArc. Qed.
#[export] Hint Resolve gp_DetachArc_D : dd.
Lemma take_edge_slot_D : isD take_edge_slot. Proof. dnon take_edge_slot. Qed.
#[export] Hint Resolve take_edge_slot_D : dd.
Lemma gp_AddEdge_D : isD gp_AddEdge.
Proof. intros g Hg. unfold gp_AddEdge, take_edge_slot. destruct (gholes g); cbv beta iota zeta; dsolve. Qed.
#[export] Hint Resolve gp_AddEdge_D : dd.
Lemma gp_DynamicAddEdge_D : isD gp_DynamicAddEdge. Proof. dnon gp_DynamicAddEdge. Qed.
#[export] Hint Resolve gp_DynamicAddEdge_D : dd.
Lemma gp_InsertEdge_D : isD gp_InsertEdge.
Proof. intros g Hg. unfold gp_InsertEdge, take_edge_slot. destruct (gholes g); cbv beta iota zeta; dsolve. Qed.
#[export] Hint Resolve gp_InsertEdge_D : dd.
Lemma gp_DeleteEdge_D : isD gp_DeleteEdge. Proof. dnon gp_DeleteEdge. Qed.
#[export] Hint Resolve gp_DeleteEdge_D : dd.
Lemma _RestoreArc_D : isD _RestoreArc. Proof. dnon _RestoreArc. Qed.
#[export] Hint Resolve _RestoreArc_D : dd.
Lemma gp_HideEdge_D : isD gp_HideEdge. Proof. dnon gp_HideEdge. Qed.
#[export] Hint Resolve gp_HideEdge_D : dd.
Lemma gp_RestoreEdge_D : isD gp_RestoreEdge. Proof. dnon gp_RestoreEdge. Qed.
#[export] Hint Resolve gp_RestoreEdge_D : dd.
Lemma hide_internal_loop_D : isD hide_internal_loop. Proof. dfix hide_internal_loop. Qed.
#[export] Hint Resolve hide_internal_loop_D : dd.
Lemma _HideInternalEdges_D : isD _HideInternalEdges. Proof. dnon _HideInternalEdges. Qed.
#[export] Hint Resolve _HideInternalEdges_D : dd.
Lemma restore_hidden_loop_D : isD restore_hidden_loop. Proof. dfix restore_hidden_loop. Qed.
#[export] Hint Resolve restore_hidden_loop_D : dd.
Lemma _RestoreHiddenEdges_D : isD _RestoreHiddenEdges. Proof. dnon _RestoreHiddenEdges. Qed.
#[export] Hint Resolve _RestoreHiddenEdges_D : dd.
Lemma _RestoreInternalEdges_D : isD _RestoreInternalEdges. Proof. exact _RestoreHiddenEdges_D. Qed.
#[export] Hint Resolve _RestoreInternalEdges_D : dd.
Lemma hide_vertex_loop_D : isD hide_vertex_loop. Proof. dfix hide_vertex_loop. Qed.
#[export] Hint Resolve hide_vertex_loop_D : dd.
Lemma _HideVertex_D : isD _HideVertex. Proof. dnon _HideVertex. Qed.
#[export] Hint Resolve _HideVertex_D : dd.
Lemma gp_HideVertex_D : isD gp_HideVertex. Proof. dnon gp_HideVertex. Qed.
#[export] Hint Resolve gp_HideVertex_D : dd.
Lemma _ClearVertexVisitedFlags_D : isD _ClearVertexVisitedFlags. Proof. dnon _ClearVertexVisitedFlags. Qed.
#[export] Hint Resolve _ClearVertexVisitedFlags_D : dd.
Lemma _ClearEdgeVisitedFlags_D : isD _ClearEdgeVisitedFlags. Proof. dnon _ClearEdgeVisitedFlags. Qed.
#[export] Hint Resolve _ClearEdgeVisitedFlags_D : dd.
Lemma _ClearVisitedFlags_D : isD _ClearVisitedFlags. Proof. dnon _ClearVisitedFlags. Qed.
#[export] Hint Resolve _ClearVisitedFlags_D : dd.
Lemma gp_BindFirstArc_D : isD gp_BindFirstArc. Proof. dnon gp_BindFirstArc. Qed.
#[export] Hint Resolve gp_BindFirstArc_D : dd.
Lemma gp_BindLastArc_D : isD gp_BindLastArc. Proof. dnon gp_BindLastArc. Qed.
#[export] Hint Resolve gp_BindLastArc_D : dd.
Lemma gp_AttachFirstArc_D : isD gp_AttachFirstArc. Proof. dnon gp_AttachFirstArc. Qed.
#[export] Hint Resolve gp_AttachFirstArc_D : dd.
Lemma gp_AttachLastArc_D : isD gp_AttachLastArc. Proof. dnon gp_AttachLastArc. Qed.
#[export] Hint Resolve gp_AttachLastArc_D : dd.
Lemma gp_MoveArcToFirst_D : isD gp_MoveArcToFirst. Proof. dnon gp_MoveArcToFirst. Qed.
#[export] Hint Resolve gp_MoveArcToFirst_D : dd.
Lemma gp_MoveArcToLast_D : isD gp_MoveArcToLast. Proof. dnon gp_MoveArcToLast. Qed.
#[export] Hint Resolve gp_MoveArcToLast_D : dd.
(** ** DFSM *)
Lemma stk_push2_D : isD stk_push2. Proof. dnon stk_push2. Qed.
#[export] Hint Resolve stk_push2_D : dd.
Lemma stk_pop2_D : isD stk_pop2. Proof. dnon stk_pop2. Qed.
#[export] Hint Resolve stk_pop2_D : dd.
Lemma stk_clear_D : isD stk_clear. Proof. dnon stk_clear. Qed.
#[export] Hint Resolve stk_clear_D : dd.
Lemma dfs_push_loop_D : isD dfs_push_loop. Proof. dfix dfs_push_loop. Qed.
#[export] Hint Resolve dfs_push_loop_D : dd.
Lemma dfs_tree_loop_D : isD dfs_tree_loop. Proof. dfix dfs_tree_loop. Qed.
#[export] Hint Resolve dfs_tree_loop_D : dd.
Lemma dfs_forest_loop_D : isD dfs_forest_loop. Proof. dfix dfs_forest_loop. Qed.
#[export] Hint Resolve dfs_forest_loop_D : dd.
Lemma gp_CreateDFSTree_D : isD gp_CreateDFSTree. Proof. dnon gp_CreateDFSTree. Qed.
#[export] Hint Resolve gp_CreateDFSTree_D : dd.
Lemma gp_SwapVertexRec_D : isD gp_SwapVertexRec. Proof. dnon gp_SwapVertexRec. Qed.
#[export] Hint Resolve gp_SwapVertexRec_D : dd.
Lemma gp_SwapVertexInfo_D : isD gp_SwapVertexInfo. Proof. dnon gp_SwapVertexInfo. Qed.
#[export] Hint Resolve gp_SwapVertexInfo_D : dd.
Lemma relabel_edge_D : isD relabel_edge. Proof. dnon relabel_edge. Qed.
#[export] Hint Resolve relabel_edge_D : dd.
Lemma relabel_parent_D : isD relabel_parent. Proof. dnon relabel_parent. Qed.
#[export] Hint Resolve relabel_parent_D : dd.
Lemma cycle_loop_D : isD cycle_loop. Proof. dfix cycle_loop. Qed.
#[export] Hint Resolve cycle_loop_D : dd.
Lemma gp_SortVertices_D : isD gp_SortVertices. Proof. dnon gp_SortVertices. Qed.
#[export] Hint Resolve gp_SortVertices_D : dd.
Lemma push_children_loop_D : isD push_children_loop. Proof. dfix push_children_loop. Qed.
#[export] Hint Resolve push_children_loop_D : dd.
Lemma low_tree_loop_D : isD low_tree_loop. Proof. dfix low_tree_loop. Qed.
#[export] Hint Resolve low_tree_loop_D : dd.
Lemma low_forest_loop_D : isD low_forest_loop. Proof. dfix low_forest_loop. Qed.
#[export] Hint Resolve low_forest_loop_D : dd.
Lemma ensure_sorted_D : isD ensure_sorted. Proof. dnon ensure_sorted. Qed.
#[export] Hint Resolve ensure_sorted_D : dd.
Lemma gp_LowpointAndLeastAncestor_D : isD gp_LowpointAndLeastAncestor. Proof. dnon gp_LowpointAndLeastAncestor. Qed.
#[export] Hint Resolve gp_LowpointAndLeastAncestor_D : dd.
Lemma least_loop_D : isD least_loop. Proof. dfix least_loop. Qed.
#[export] Hint Resolve least_loop_D : dd.
Lemma least_tree_loop_D : isD least_tree_loop. Proof. dfix least_tree_loop. Qed.
#[export] Hint Resolve least_tree_loop_D : dd.
Lemma least_forest_loop_D : isD least_forest_loop. Proof. dfix least_forest_loop. Qed.
#[export] Hint Resolve least_forest_loop_D : dd.
Lemma gp_LeastAncestor_D : isD gp_LeastAncestor. Proof. dnon gp_LeastAncestor. Qed.
#[export] Hint Resolve gp_LeastAncestor_D : dd.
(** ** EmbM0 *)
Lemma put_brl_D : isD put_brl. Proof. dnon put_brl. Qed.
#[export] Hint Resolve put_brl_D : dd.
Lemma put_sdl_D : isD put_sdl. Proof. dnon put_sdl. Qed.
#[export] Hint Resolve put_sdl_D : dd.
Lemma gp_DeleteVertexPertinentRoot_D : isD gp_DeleteVertexPertinentRoot. Proof. dnon gp_DeleteVertexPertinentRoot. Qed.
#[export] Hint Resolve gp_DeleteVertexPertinentRoot_D : dd.
Lemma gp_PrependVertexPertinentRoot_D : isD gp_PrependVertexPertinentRoot. Proof. dnon gp_PrependVertexPertinentRoot. Qed.
#[export] Hint Resolve gp_PrependVertexPertinentRoot_D : dd.
Lemma gp_AppendVertexPertinentRoot_D : isD gp_AppendVertexPertinentRoot. Proof. dnon gp_AppendVertexPertinentRoot. Qed.
#[export] Hint Resolve gp_AppendVertexPertinentRoot_D : dd.
Lemma gp_StoreAppendDFSChild_D : isD gp_StoreAppendDFSChild. Proof. dnon gp_StoreAppendDFSChild. Qed.
#[export] Hint Resolve gp_StoreAppendDFSChild_D : dd.
Lemma update_fpc_D : isD update_fpc. Proof. dfix update_fpc. Qed.
#[export] Hint Resolve update_fpc_D : dd.
Lemma gp_UpdateVertexFuturePertinentChild_D : isD gp_UpdateVertexFuturePertinentChild. Proof. dnon gp_UpdateVertexFuturePertinentChild. Qed.
#[export] Hint Resolve gp_UpdateVertexFuturePertinentChild_D : dd.
Lemma _InitVertexRec_D : isD _InitVertexRec. Proof. dnon _InitVertexRec. Qed.
#[export] Hint Resolve _InitVertexRec_D : dd.
Lemma invert_loop_D : isD invert_loop. Proof. dfix invert_loop. Qed.
#[export] Hint Resolve invert_loop_D : dd.
Lemma _InvertVertex_D : isD _InvertVertex. Proof. dnon _InvertVertex. Qed.
#[export] Hint Resolve _InvertVertex_D : dd.
Lemma merge_loop_D : isD merge_loop. Proof. dfix merge_loop. Qed.
#[export] Hint Resolve merge_loop_D : dd.
Lemma _MergeVertex_D : isD _MergeVertex. Proof. dnon _MergeVertex. Qed.
#[export] Hint Resolve _MergeVertex_D : dd.
Lemma join_step_D : isD join_step. Proof. dnon join_step. Qed.
#[export] Hint Resolve join_step_D : dd.
Lemma _JoinBicomps_D : isD _JoinBicomps. Proof. dnon _JoinBicomps. Qed.
#[export] Hint Resolve _JoinBicomps_D : dd.
Lemma orient_push_loop_D : isD orient_push_loop. Proof. dfix orient_push_loop. Qed.
#[export] Hint Resolve orient_push_loop_D : dd.
Lemma orient_loop_D : isD orient_loop. Proof. dfix orient_loop. Qed.
#[export] Hint Resolve orient_loop_D : dd.
Lemma _OrientVerticesInBicomp_D : isD _OrientVerticesInBicomp. Proof. dnon _OrientVerticesInBicomp. Qed.
#[export] Hint Resolve _OrientVerticesInBicomp_D : dd.
Lemma orient_step_D : isD orient_step. Proof. dnon orient_step. Qed.
#[export] Hint Resolve orient_step_D : dd.
Lemma _OrientVerticesInEmbedding_D : isD _OrientVerticesInEmbedding. Proof. dnon _OrientVerticesInEmbedding. Qed.
#[export] Hint Resolve _OrientVerticesInEmbedding_D : dd.
Lemma _EmbedPostprocess_D : isD _EmbedPostprocess. Proof. dnon _EmbedPostprocess. Qed.
#[export] Hint Resolve _EmbedPostprocess_D : dd.
Lemma add_end_D : isD add_end. Proof. dnon add_end. Qed.
#[export] Hint Resolve add_end_D : dd.
Lemma take_fwd_D : isD take_fwd. Proof. dnon take_fwd. Qed.
#[export] Hint Resolve take_fwd_D : dd.
Lemma _EmbedBackEdgeToDescendant_D : isD _EmbedBackEdgeToDescendant. Proof. dnon _EmbedBackEdgeToDescendant. Qed.
#[export] Hint Resolve _EmbedBackEdgeToDescendant_D : dd.
Lemma flip_sign_loop_D : isD flip_sign_loop. Proof. dfix flip_sign_loop. Qed.
#[export] Hint Resolve flip_sign_loop_D : dd.
Lemma merge_one_D : isD merge_one. Proof. dnon merge_one. Qed.
#[export] Hint Resolve merge_one_D : dd.
Lemma merge_bicomps_D : isD merge_bicomps. Proof. dfix merge_bicomps. Qed.
#[export] Hint Resolve merge_bicomps_D : dd.
Lemma _MergeBicomps_D : isD _MergeBicomps. Proof. dnon _MergeBicomps. Qed.
#[export] Hint Resolve _MergeBicomps_D : dd.
Lemma walkup_loop_D : isD walkup_loop. Proof. dfix walkup_loop. Qed.
#[export] Hint Resolve walkup_loop_D : dd.
Lemma _WalkUp_D : isD _WalkUp. Proof. dnon _WalkUp. Qed.
#[export] Hint Resolve _WalkUp_D : dd.
(** ** IsoM *)
Lemma gp_ResetVertexObstructionType_D : isD gp_ResetVertexObstructionType. Proof. dnon gp_ResetVertexObstructionType. Qed.
#[export] Hint Resolve gp_ResetVertexObstructionType_D : dd.
Lemma bicomp_push_loop_D : isD bicomp_push_loop. Proof. dfix bicomp_push_loop. Qed.
#[export] Hint Resolve bicomp_push_loop_D : dd.
Lemma bicomp_loop_D : isD bicomp_loop. Proof. dfix bicomp_loop. Qed.
#[export] Hint Resolve bicomp_loop_D : dd.
Lemma _ClearVisitedFlagsInBicomp_D : isD _ClearVisitedFlagsInBicomp. Proof. dnon _ClearVisitedFlagsInBicomp. Qed.
#[export] Hint Resolve _ClearVisitedFlagsInBicomp_D : dd.
Lemma _ClearVertexTypeInBicomp_D : isD _ClearVertexTypeInBicomp. Proof. dnon _ClearVertexTypeInBicomp. Qed.
#[export] Hint Resolve _ClearVertexTypeInBicomp_D : dd.
Lemma set_types_loop_D : isD set_types_loop. Proof. dfix set_types_loop. Qed.
#[export] Hint Resolve set_types_loop_D : dd.
Lemma _SetVertexTypesForMarkingXYPath_D : isD _SetVertexTypesForMarkingXYPath. Proof. dnon _SetVertexTypesForMarkingXYPath. Qed.
#[export] Hint Resolve _SetVertexTypesForMarkingXYPath_D : dd.
Lemma _InitializeNonplanarityContext_D : isD _InitializeNonplanarityContext. Proof. dnon _InitializeNonplanarityContext. Qed.
#[export] Hint Resolve _InitializeNonplanarityContext_D : dd.
Lemma pop_unmark_D : isD pop_unmark. Proof. dfix pop_unmark. Qed.
#[export] Hint Resolve pop_unmark_D : dd.
Lemma _PopAndUnmarkVerticesAndEdges_D : isD _PopAndUnmarkVerticesAndEdges. Proof. dnon _PopAndUnmarkVerticesAndEdges. Qed.
#[export] Hint Resolve _PopAndUnmarkVerticesAndEdges_D : dd.
Lemma stk_shrink_D : isD stk_shrink. Proof. dnon stk_shrink. Qed.
#[export] Hint Resolve stk_shrink_D : dd.
Lemma xy_loop_D : isD xy_loop. Proof. dfix xy_loop. Qed.
#[export] Hint Resolve xy_loop_D : dd.
Lemma _MarkHighestXYPath_D : isD _MarkHighestXYPath. Proof. dnon _MarkHighestXYPath. Qed.
#[export] Hint Resolve _MarkHighestXYPath_D : dd.
Lemma mark_face_loop_D : isD mark_face_loop. Proof. dfix mark_face_loop. Qed.
#[export] Hint Resolve mark_face_loop_D : dd.
Lemma _MarkPathAlongBicompExtFace_D : isD _MarkPathAlongBicompExtFace. Proof. dnon _MarkPathAlongBicompExtFace. Qed.
#[export] Hint Resolve _MarkPathAlongBicompExtFace_D : dd.
Lemma mark_dfs_loop_D : isD mark_dfs_loop. Proof. dfix mark_dfs_loop. Qed.
#[export] Hint Resolve mark_dfs_loop_D : dd.
Lemma _MarkDFSPath_D : isD _MarkDFSPath. Proof. dnon _MarkDFSPath. Qed.
#[export] Hint Resolve _MarkDFSPath_D : dd.
Lemma push_front_D : isD push_front. Proof. dnon push_front. Qed.
#[export] Hint Resolve push_front_D : dd.
Lemma take_off_D : isD take_off. Proof. dnon take_off. Qed.
#[export] Hint Resolve take_off_D : dd.
Lemma _AddBackEdge_D : isD _AddBackEdge. Proof. dnon _AddBackEdge. Qed.
#[export] Hint Resolve _AddBackEdge_D : dd.
Lemma _AddAndMarkEdge_D : isD _AddAndMarkEdge. Proof. dnon _AddAndMarkEdge. Qed.
#[export] Hint Resolve _AddAndMarkEdge_D : dd.
Lemma add_rest_loop_D : isD add_rest_loop. Proof. dfix add_rest_loop. Qed.
#[export] Hint Resolve add_rest_loop_D : dd.
Lemma delete_unmarked_loop_D : isD delete_unmarked_loop. Proof. dfix delete_unmarked_loop. Qed.
#[export] Hint Resolve delete_unmarked_loop_D : dd.
Lemma _DeleteUnmarkedVerticesAndEdges_D : isD _DeleteUnmarkedVerticesAndEdges. Proof. dnon _DeleteUnmarkedVerticesAndEdges. Qed.
#[export] Hint Resolve _DeleteUnmarkedVerticesAndEdges_D : dd.
Lemma isolate_minor_D : isD isolate_minor. Proof. dnon isolate_minor. Qed.
#[export] Hint Resolve isolate_minor_D : dd.
Lemma _IsolateOuterplanarObstruction_D : isD _IsolateOuterplanarObstruction. Proof. dnon _IsolateOuterplanarObstruction. Qed.
#[export] Hint Resolve _IsolateOuterplanarObstruction_D : dd.
(** ** IsoKM *)
Lemma find_active_loop_D : isD find_active_loop. Proof. dfix find_active_loop. Qed.
#[export] Hint Resolve find_active_loop_D : dd.
Lemma _FindActiveVerticesK_D : isD _FindActiveVerticesK. Proof. dnon _FindActiveVerticesK. Qed.
#[export] Hint Resolve _FindActiveVerticesK_D : dd.
Lemma _InitializeNonplanarityContextK_D : isD _InitializeNonplanarityContextK. Proof. dnon _InitializeNonplanarityContextK. Qed.
#[export] Hint Resolve _InitializeNonplanarityContextK_D : dd.
Lemma z_mark_loop_D : isD z_mark_loop. Proof. dfix z_mark_loop. Qed.
#[export] Hint Resolve z_mark_loop_D : dd.
Lemma _MarkZtoRPath_D : isD _MarkZtoRPath. Proof. dnon _MarkZtoRPath. Qed.
#[export] Hint Resolve _MarkZtoRPath_D : dd.
Lemma fp_below_loop_D : isD fp_below_loop. Proof. dfix fp_below_loop. Qed.
#[export] Hint Resolve fp_below_loop_D : dd.
Lemma _FindFuturePertinenceBelowXYPath_D : isD _FindFuturePertinenceBelowXYPath. Proof. dnon _FindFuturePertinenceBelowXYPath. Qed.
#[export] Hint Resolve _FindFuturePertinenceBelowXYPath_D : dd.
Lemma choose_minor_D : isD choose_minor. Proof. dnon choose_minor. Qed.
#[export] Hint Resolve choose_minor_D : dd.
Lemma seq_ok_D : isD seq_ok. Proof. dnon seq_ok. Qed.
#[export] Hint Resolve seq_ok_D : dd.
Lemma _MarkDFSPathsToDescendants_D : isD _MarkDFSPathsToDescendants. Proof. dnon _MarkDFSPathsToDescendants. Qed.
#[export] Hint Resolve _MarkDFSPathsToDescendants_D : dd.
Lemma _AddAndMarkUnembeddedEdges_D : isD _AddAndMarkUnembeddedEdges. Proof. dnon _AddAndMarkUnembeddedEdges. Qed.
#[export] Hint Resolve _AddAndMarkUnembeddedEdges_D : dd.
Lemma finish_minor_D : isD finish_minor. Proof. dnon finish_minor. Qed.
#[export] Hint Resolve finish_minor_D : dd.
Lemma _IsolateMinorA_D : isD _IsolateMinorA. Proof. dnon _IsolateMinorA. Qed.
#[export] Hint Resolve _IsolateMinorA_D : dd.
Lemma _IsolateMinorB_D : isD _IsolateMinorB. Proof. dnon _IsolateMinorB. Qed.
#[export] Hint Resolve _IsolateMinorB_D : dd.
Lemma _IsolateMinorC_D : isD _IsolateMinorC. Proof. dnon _IsolateMinorC. Qed.
#[export] Hint Resolve _IsolateMinorC_D : dd.
Lemma _IsolateMinorD_D : isD _IsolateMinorD. Proof. dnon _IsolateMinorD. Qed.
#[export] Hint Resolve _IsolateMinorD_D : dd.
Lemma _IsolateMinorE1_D : isD _IsolateMinorE1. Proof. dnon _IsolateMinorE1. Qed.
#[export] Hint Resolve _IsolateMinorE1_D : dd.
Lemma _IsolateMinorE2_D : isD _IsolateMinorE2. Proof. dnon _IsolateMinorE2. Qed.
#[export] Hint Resolve _IsolateMinorE2_D : dd.
Lemma _IsolateMinorE3_D : isD _IsolateMinorE3. Proof. dnon _IsolateMinorE3. Qed.
#[export] Hint Resolve _IsolateMinorE3_D : dd.
Lemma _IsolateMinorE4_D : isD _IsolateMinorE4. Proof. dnon _IsolateMinorE4. Qed.
#[export] Hint Resolve _IsolateMinorE4_D : dd.
Lemma _IsolateMinorE_D : isD _IsolateMinorE. Proof. dnon _IsolateMinorE. Qed.
#[export] Hint Resolve _IsolateMinorE_D : dd.
Lemma _IsolateKuratowskiSubgraph_D : isD _IsolateKuratowskiSubgraph. Proof. dnon _IsolateKuratowskiSubgraph. Qed.
#[export] Hint Resolve _IsolateKuratowskiSubgraph_D : dd.
(** ** EmbM *)
Lemma _HandleBlockedBicomp_D : isD _HandleBlockedBicomp. Proof. dnon _HandleBlockedBicomp. Qed.
#[export] Hint Resolve _HandleBlockedBicomp_D : dd.
Lemma walkdown_choose_D : isD walkdown_choose. Proof. dnon walkdown_choose. Qed.
#[export] Hint Resolve walkdown_choose_D : dd.
Lemma walkdown_stop_D : isD walkdown_stop. Proof. dnon walkdown_stop. Qed.
#[export] Hint Resolve walkdown_stop_D : dd.
Lemma walkdown_loop_D : isD walkdown_loop. Proof. dfix walkdown_loop. Qed.
#[export] Hint Resolve walkdown_loop_D : dd.
Lemma walkdown_side_D : isD walkdown_side. Proof. dnon walkdown_side. Qed.
#[export] Hint Resolve walkdown_side_D : dd.
Lemma _WalkDown_D : isD _WalkDown. Proof. dnon _WalkDown. Qed.
#[export] Hint Resolve _WalkDown_D : dd.
Lemma einit_arcs_loop_D : isD einit_arcs_loop. Proof. dfix einit_arcs_loop. Qed.
#[export] Hint Resolve einit_arcs_loop_D : dd.
Lemma einit_tree_loop_D : isD einit_tree_loop. Proof. dfix einit_tree_loop. Qed.
#[export] Hint Resolve einit_tree_loop_D : dd.
Lemma einit_forest_loop_D : isD einit_forest_loop. Proof. dfix einit_forest_loop. Qed.
#[export] Hint Resolve einit_forest_loop_D : dd.
Lemma einit_vertex_D : isD einit_vertex. Proof. dnon einit_vertex. Qed.
#[export] Hint Resolve einit_vertex_D : dd.
Lemma _EmbeddingInitialize_D : isD _EmbeddingInitialize. Proof. dnon _EmbeddingInitialize. Qed.
#[export] Hint Resolve _EmbeddingInitialize_D : dd.
Lemma walkups_loop_D : isD walkups_loop. Proof. dfix walkups_loop. Qed.
#[export] Hint Resolve walkups_loop_D : dd.
Lemma walkdowns_loop_D : isD walkdowns_loop. Proof. dfix walkdowns_loop. Qed.
#[export] Hint Resolve walkdowns_loop_D : dd.
Lemma embed_step_D : isD embed_step. Proof. dnon embed_step. Qed.
#[export] Hint Resolve embed_step_D : dd.
Lemma embed_loop_D : isD embed_loop. Proof. dfix embed_loop. Qed.
#[export] Hint Resolve embed_loop_D : dd.
Lemma gp_Embed_D : isD gp_Embed. Proof. dnon gp_Embed. Qed.
#[export] Hint Resolve gp_Embed_D : dd.
(** ** G6M *)
Lemma set_zero_based_D : isD set_zero_based. Proof. dnon set_zero_based. Qed.
#[export] Hint Resolve set_zero_based_D : dd.
Lemma _beginG6ReadIteration_D : isD _beginG6ReadIteration. Proof. dnon _beginG6ReadIteration. Qed.
#[export] Hint Resolve _beginG6ReadIteration_D : dd.
Lemma begin_read_file_D : isD begin_read_file. Proof. dnon begin_read_file. Qed.
#[export] Hint Resolve begin_read_file_D : dd.
Lemma begin_read_str_D : isD begin_read_str. Proof. dnon begin_read_str. Qed.
#[export] Hint Resolve begin_read_str_D : dd.
Lemma decode_bits_D : isD decode_bits. Proof. dfix decode_bits. Qed.
#[export] Hint Resolve decode_bits_D : dd.
Lemma decode_chars_D : isD decode_chars. Proof. dfix decode_chars. Qed.
#[export] Hint Resolve decode_chars_D : dd.
Lemma _decodeGraph_D : isD _decodeGraph. Proof. dnon _decodeGraph. Qed.
#[export] Hint Resolve _decodeGraph_D : dd.
Lemma readGraphUsingG6ReadIterator_D : isD readGraphUsingG6ReadIterator. Proof. dnon readGraphUsingG6ReadIterator. Qed.
#[export] Hint Resolve readGraphUsingG6ReadIterator_D : dd.
Lemma read_graph_with_D : isD read_graph_with. Proof. dnon read_graph_with. Qed.
#[export] Hint Resolve read_graph_with_D : dd.
Lemma _ReadGraphFromG6FilePointer_D : isD _ReadGraphFromG6FilePointer. Proof. dnon _ReadGraphFromG6FilePointer. Qed.
#[export] Hint Resolve _ReadGraphFromG6FilePointer_D : dd.
Lemma _ReadGraphFromG6String_D : isD _ReadGraphFromG6String. Proof. dnon _ReadGraphFromG6String. Qed.
#[export] Hint Resolve _ReadGraphFromG6String_D : dd.

(** ** As statements *)
Lemma embed_sort_dir g fl h r k r' : no_directions g -> gp_Embed g fl = Ret (h, r) -> gp_SortVertices h = Ret (k, r') -> no_directions k.
Proof.
  intros H E1 E2. pose proof (gp_Embed_D g H fl I) as D1. rewrite E1 in D1. destruct D1 as [D1 _]. pose proof (gp_SortVertices_D h D1) as D2. rewrite E2 in D2. exact (proj1 D2).
Qed.
Lemma gstep_dir g o g' r : no_directions g -> match o with GMark _ f => Z.land f DIR_MASK = 0 | _ => True end -> gstep g o = Ret (g', r) -> no_directions g'.
Proof.
  intros H Ho E. assert (D : isD (gstep g o)).
  { destruct o; cbn [gstep]; [| | | | | |apply bind_D; [now apply wr_eflags_D|intros x Hx; split; [exact Hx|exact I]]].
    - now apply gp_AddEdge_D.
    - now apply gp_DynamicAddEdge_D.
    - now apply gp_InsertEdge_D.
    - now apply gp_DeleteEdge_D.
    - now apply gp_EnsureArcCapacity_D.
    - split; [now apply gp_ReinitializeGraph_D|exact I]. }
  rewrite E in D. exact (proj1 D).
Qed.
Lemma fresh_dir req N g : fresh_graph req N = Ret g -> no_directions g.
Proof.
  intros E. assert (D : isD (fresh_graph req N)).
  { unfold fresh_graph. apply bind_D; [apply gp_EnsureArcCapacity_D; [exact gp_New_D|exact I]|]. intros [g0 r0] [H0 _]. cbn [fst] in H0. exact (proj1 (gp_InitGraph_D g0 H0 N I)). }
  rewrite E in D. exact D.
Qed.
