(** * RoomP: the embedder, the isolators and the sorting of the vertices leave the capacities alone. *)
From Coq Require Import ZifyBool.
From Verif Require Import Base BaseP GraphRec GraphM GraphSpec ListM DFSM TestM EmbM IsoM IsoKM GraphP4.


(** The property, for whatever a function takes or returns. *)
Class HasD (X : Type) := isD : X -> Prop.
#[export] Instance D_prod X Y {hx : HasD X} {hy : HasD Y} : HasD (X * Y) | 1 := fun p => isD (fst p) /\ isD (snd p).
#[export] Instance D_res X {hx : HasD X} : HasD (res X) | 1 := fun m => match m with Ret x => isD x | _ => True end.
#[export] Instance D_fun X Y {hx : HasD X} {hy : HasD Y} : HasD (X -> Y) | 1 := fun f => forall x, isD x -> isD (f x).
#[export] Instance D_any X : HasD X | 100 := fun _ => True.

Lemma app_D {X Y} {hx : HasD X} {hy : HasD Y} (f : X -> Y) x : isD f -> isD x -> isD (f x).
Proof. intros H. apply H. Qed.
Lemma bind_D {X Y} {hx : HasD X} {hy : HasD Y} (m : res X) (k : X -> res Y) : isD m -> isD k -> isD (bind m k).
Proof. intros H K. destruct m; [apply K, H|exact I|exact I]. Qed.
Lemma guard_D {X} {hx : HasD X} b (m : res X) : isD m -> isD (guard b m).
Proof. destruct b; [auto|intros; exact I]. Qed.
Lemma ret_D {X} {hx : HasD X} (x : X) : isD x -> isD (Ret x).
Proof. auto. Qed.
Lemma pair_D {X Y} {hx : HasD X} {hy : HasD Y} (x : X) (y : Y) : isD x -> isD y -> isD (x, y).
Proof. split; auto. Qed.
Lemma triv_res_D {X} (m : res X) : @isD (res X) (@D_res X (D_any X)) m.
Proof. destruct m; exact I. Qed.
Lemma triv_res2_D {X Y} (m : res (X * Y)) : @isD _ (@D_res _ (@D_prod X Y (D_any X) (D_any Y))) m.
Proof. destruct m; repeat split. Qed.
Lemma triv_res3_D {X Y V} (m : res (X * Y * V)) : @isD _ (@D_res _ (@D_prod _ V (@D_prod X Y (D_any X) (D_any Y)) (D_any V))) m.
Proof. destruct m; repeat split. Qed.
Lemma for_up_D {X} {hx : HasD X} (body : Z -> X -> res X) : isD body -> forall n i s, isD s -> isD (for_up n i body s).
Proof. intros Hb. induction n as [|n IH]; intros i s Hs; cbn [for_up]; [exact Hs|]. apply bind_D; [now apply Hb|]. intros s' Hs'. now apply IH. Qed.
Lemma for_down_D {X} {hx : HasD X} (body : Z -> X -> res X) : isD body -> forall n i s, isD s -> isD (for_down n i body s).
Proof. intros Hb. induction n as [|n IH]; intros i s Hs; cbn [for_down]; [exact Hs|]. apply bind_D; [now apply Hb|]. intros s' Hs'. now apply IH. Qed.
Section Room.
Variable P0 : Z -> Z -> Z -> Prop.
Definition caps (g : graph) : Prop := P0 (gN g) (gCap g) (gstackCap g).
Instance D_graph : HasD graph | 0 := caps.
Create HintDb dd discriminated.
Hint Constants Opaque : dd.

Ltac dgraph := match goal with H : @isD graph _ _ |- _ => exact H end.
Ltac dhyp := match goal with H : @isD _ _ ?f |- @isD _ _ ?f => exact H end.
Ltac dstep :=
  cbv beta;
  lazymatch goal with
  | |- @isD _ (D_any _) _ => exact I
  | |- @isD _ _ (fun _ => _) => let x := fresh "x" in let H := fresh "H" in intros x H
  | |- @isD (res _) (@D_res _ (D_any _)) _ => apply triv_res_D
  | |- @isD _ (@D_res _ (@D_prod _ _ (D_any _) (D_any _))) _ => apply triv_res2_D
  | |- @isD _ (@D_res _ (@D_prod _ _ (@D_prod _ _ (D_any _) (D_any _)) (D_any _))) _ => apply triv_res3_D
  | |- @isD _ _ (bind _ _) => apply bind_D
  | |- @isD _ _ (guard _ _) => apply guard_D
  | |- @isD _ _ (Ret _) => apply ret_D
  | |- @isD _ _ UB => exact I
  | |- @isD _ _ OOF => exact I
  | |- @isD _ _ (_, _) => apply pair_D
  | |- @isD _ _ (for_up _ _ _ _) => apply for_up_D
  | |- @isD _ _ (for_down _ _ _ _) => apply for_down_D
  | |- @isD _ _ (match ?x with _ => _ end) =>
      first [is_var x; lazymatch goal with H : @isD _ (D_prod _ _) x |- _ => destruct x as [? ?]; destruct H as [? ?]; cbn [fst snd] in * end | let T := fresh "T" in lazymatch type of x with prod _ _ => pose proof (ltac:(repeat dstep) : isD x) as T end; destruct x; destruct T; cbn [fst snd] in *
            | destruct x]
  | |- @isD graph _ _ => first [dgraph | typeclasses eauto with dd | dapp]
  | |- _ => first [dhyp | solve [typeclasses eauto with dd] | dapp]
  end
with dapp := lazymatch goal with |- @isD _ _ (?f ?x) => apply (app_D f x) end.
Ltac dsolve := cbv zeta; repeat dstep.
Ltac dnon f := unfold f; dsolve.
Ltac dfix f := let n := fresh "n" in let IH := fresh "IH" in intros n _; induction n as [|n IH]; cbn [f]; dsolve.

(** ** GraphM *)
Lemma gp_SetNextArc_D : isD gp_SetNextArc. Proof. dnon gp_SetNextArc. Qed.
Hint Resolve gp_SetNextArc_D : dd.
Lemma gp_SetPrevArc_D : isD gp_SetPrevArc. Proof. dnon gp_SetPrevArc. Qed.
Hint Resolve gp_SetPrevArc_D : dd.
Lemma gp_SetAdjacentArc_D : isD gp_SetAdjacentArc. Proof. dnon gp_SetAdjacentArc. Qed.
Hint Resolve gp_SetAdjacentArc_D : dd.
Lemma gp_SetNeighbor_D : isD gp_SetNeighbor. Proof. dnon gp_SetNeighbor. Qed.
Hint Resolve gp_SetNeighbor_D : dd.
Lemma wr_eflags_D : isD wr_eflags. Proof. dnon wr_eflags. Qed.
Hint Resolve wr_eflags_D : dd.
Lemma gp_ClearEdgeVisited_D : isD gp_ClearEdgeVisited. Proof. dnon gp_ClearEdgeVisited. Qed.
Hint Resolve gp_ClearEdgeVisited_D : dd.
Lemma gp_SetEdgeVisited_D : isD gp_SetEdgeVisited. Proof. dnon gp_SetEdgeVisited. Qed.
Hint Resolve gp_SetEdgeVisited_D : dd.
Lemma gp_ClearEdgeType_D : isD gp_ClearEdgeType. Proof. dnon gp_ClearEdgeType. Qed.
Hint Resolve gp_ClearEdgeType_D : dd.
Lemma gp_SetEdgeType_D : isD gp_SetEdgeType. Proof. dnon gp_SetEdgeType. Qed.
Hint Resolve gp_SetEdgeType_D : dd.
Lemma gp_ResetEdgeType_D : isD gp_ResetEdgeType. Proof. dnon gp_ResetEdgeType. Qed.
Hint Resolve gp_ResetEdgeType_D : dd.
Lemma gp_ClearEdgeFlagInverted_D : isD gp_ClearEdgeFlagInverted. Proof. dnon gp_ClearEdgeFlagInverted. Qed.
Hint Resolve gp_ClearEdgeFlagInverted_D : dd.
Lemma gp_SetEdgeFlagInverted_D : isD gp_SetEdgeFlagInverted. Proof. dnon gp_SetEdgeFlagInverted. Qed.
Hint Resolve gp_SetEdgeFlagInverted_D : dd.
Lemma gp_XorEdgeFlagInverted_D : isD gp_XorEdgeFlagInverted. Proof. dnon gp_XorEdgeFlagInverted. Qed.
Hint Resolve gp_XorEdgeFlagInverted_D : dd.
Lemma gp_SetDirection_D : isD gp_SetDirection. Proof. dnon gp_SetDirection. Qed.
Hint Resolve gp_SetDirection_D : dd.
Lemma gp_SetFirstArc_D : isD gp_SetFirstArc. Proof. dnon gp_SetFirstArc. Qed.
Hint Resolve gp_SetFirstArc_D : dd.
Lemma gp_SetLastArc_D : isD gp_SetLastArc. Proof. dnon gp_SetLastArc. Qed.
Hint Resolve gp_SetLastArc_D : dd.
Lemma gp_SetArc_D : isD gp_SetArc. Proof. dnon gp_SetArc. Qed.
Hint Resolve gp_SetArc_D : dd.
Lemma gp_SetVertexIndex_D : isD gp_SetVertexIndex. Proof. dnon gp_SetVertexIndex. Qed.
Hint Resolve gp_SetVertexIndex_D : dd.
Lemma wr_vflags_D : isD wr_vflags. Proof. dnon wr_vflags. Qed.
Hint Resolve wr_vflags_D : dd.
Lemma gp_ClearVertexVisited_D : isD gp_ClearVertexVisited. Proof. dnon gp_ClearVertexVisited. Qed.
Hint Resolve gp_ClearVertexVisited_D : dd.
Lemma gp_SetVertexVisited_D : isD gp_SetVertexVisited. Proof. dnon gp_SetVertexVisited. Qed.
Hint Resolve gp_SetVertexVisited_D : dd.
Lemma gp_ClearVertexObstructionType_D : isD gp_ClearVertexObstructionType. Proof. dnon gp_ClearVertexObstructionType. Qed.
Hint Resolve gp_ClearVertexObstructionType_D : dd.
Lemma gp_SetVertexParent_D : isD gp_SetVertexParent. Proof. dnon gp_SetVertexParent. Qed.
Hint Resolve gp_SetVertexParent_D : dd.
Lemma gp_SetVertexLeastAncestor_D : isD gp_SetVertexLeastAncestor. Proof. dnon gp_SetVertexLeastAncestor. Qed.
Hint Resolve gp_SetVertexLeastAncestor_D : dd.
Lemma gp_SetVertexLowpoint_D : isD gp_SetVertexLowpoint. Proof. dnon gp_SetVertexLowpoint. Qed.
Hint Resolve gp_SetVertexLowpoint_D : dd.
Lemma gp_SetVertexVisitedInfo_D : isD gp_SetVertexVisitedInfo. Proof. dnon gp_SetVertexVisitedInfo. Qed.
Hint Resolve gp_SetVertexVisitedInfo_D : dd.
Lemma gp_SetVertexPertinentEdge_D : isD gp_SetVertexPertinentEdge. Proof. dnon gp_SetVertexPertinentEdge. Qed.
Hint Resolve gp_SetVertexPertinentEdge_D : dd.
Lemma gp_SetVertexPertinentRootsList_D : isD gp_SetVertexPertinentRootsList. Proof. dnon gp_SetVertexPertinentRootsList. Qed.
Hint Resolve gp_SetVertexPertinentRootsList_D : dd.
Lemma gp_SetVertexFuturePertinentChild_D : isD gp_SetVertexFuturePertinentChild. Proof. dnon gp_SetVertexFuturePertinentChild. Qed.
Hint Resolve gp_SetVertexFuturePertinentChild_D : dd.
Lemma gp_SetVertexSortedDFSChildList_D : isD gp_SetVertexSortedDFSChildList. Proof. dnon gp_SetVertexSortedDFSChildList. Qed.
Hint Resolve gp_SetVertexSortedDFSChildList_D : dd.
Lemma gp_SetVertexFwdArcList_D : isD gp_SetVertexFwdArcList. Proof. dnon gp_SetVertexFwdArcList. Qed.
Hint Resolve gp_SetVertexFwdArcList_D : dd.
Lemma gp_SetExtFaceVertex_D : isD gp_SetExtFaceVertex. Proof. dnon gp_SetExtFaceVertex. Qed.
Hint Resolve gp_SetExtFaceVertex_D : dd.
Lemma stk_push_D : isD stk_push. Proof. dnon stk_push. Qed.
Hint Resolve stk_push_D : dd.
Lemma stk_pop_D : isD stk_pop. Proof. dnon stk_pop. Qed.
Hint Resolve stk_pop_D : dd.
Lemma stk_set_D : isD stk_set. Proof. dnon stk_set. Qed.
Hint Resolve stk_set_D : dd.
Lemma holes_push_D : isD holes_push. Proof. dnon holes_push. Qed.
Hint Resolve holes_push_D : dd.
Lemma _InitVertices_D : isD _InitVertices. Proof. dnon _InitVertices. Qed.
Hint Resolve _InitVertices_D : dd.
Lemma _InitIsolatorContext_D : isD _InitIsolatorContext. Proof. dnon _InitIsolatorContext. Qed.
Hint Resolve _InitIsolatorContext_D : dd.
Lemma lists_reset_D : isD lists_reset. Proof. dnon lists_reset. Qed.
Hint Resolve lists_reset_D : dd.
Lemma _InitEdgeRec_D : isD _InitEdgeRec. Proof. dnon _InitEdgeRec. Qed.
Hint Resolve _InitEdgeRec_D : dd.
Lemma gp_AttachArc_D : isD gp_AttachArc. Proof. dnon gp_AttachArc. Qed.
Hint Resolve gp_AttachArc_D : dd.
Lemma gp_DetachArc_D : isD gp_DetachArc. Proof. dnon gp_DetachArc. Qed.
Hint Resolve gp_DetachArc_D : dd.
Lemma take_edge_slot_D : isD take_edge_slot. Proof. dnon take_edge_slot. Qed.
Hint Resolve take_edge_slot_D : dd.
Lemma gp_AddEdge_D : isD gp_AddEdge.
Proof. intros g Hg. unfold gp_AddEdge, take_edge_slot. destruct (gholes g); cbv beta iota zeta; dsolve. Qed.
Hint Resolve gp_AddEdge_D : dd.
Lemma gp_InsertEdge_D : isD gp_InsertEdge.
Proof. intros g Hg. unfold gp_InsertEdge, take_edge_slot. destruct (gholes g); cbv beta iota zeta; dsolve. Qed.
Hint Resolve gp_InsertEdge_D : dd.
Lemma gp_DeleteEdge_D : isD gp_DeleteEdge. Proof. dnon gp_DeleteEdge. Qed.
Hint Resolve gp_DeleteEdge_D : dd.
Lemma _RestoreArc_D : isD _RestoreArc. Proof. dnon _RestoreArc. Qed.
Hint Resolve _RestoreArc_D : dd.
Lemma gp_HideEdge_D : isD gp_HideEdge. Proof. dnon gp_HideEdge. Qed.
Hint Resolve gp_HideEdge_D : dd.
Lemma gp_RestoreEdge_D : isD gp_RestoreEdge. Proof. dnon gp_RestoreEdge. Qed.
Hint Resolve gp_RestoreEdge_D : dd.
Lemma hide_internal_loop_D : isD hide_internal_loop. Proof. dfix hide_internal_loop. Qed.
Hint Resolve hide_internal_loop_D : dd.
Lemma _HideInternalEdges_D : isD _HideInternalEdges. Proof. dnon _HideInternalEdges. Qed.
Hint Resolve _HideInternalEdges_D : dd.
Lemma restore_hidden_loop_D : isD restore_hidden_loop. Proof. dfix restore_hidden_loop. Qed.
Hint Resolve restore_hidden_loop_D : dd.
Lemma _RestoreHiddenEdges_D : isD _RestoreHiddenEdges. Proof. dnon _RestoreHiddenEdges. Qed.
Hint Resolve _RestoreHiddenEdges_D : dd.
Lemma _RestoreInternalEdges_D : isD _RestoreInternalEdges. Proof. exact _RestoreHiddenEdges_D. Qed.
Hint Resolve _RestoreInternalEdges_D : dd.
Lemma hide_vertex_loop_D : isD hide_vertex_loop. Proof. dfix hide_vertex_loop. Qed.
Hint Resolve hide_vertex_loop_D : dd.
Lemma _HideVertex_D : isD _HideVertex. Proof. dnon _HideVertex. Qed.
Hint Resolve _HideVertex_D : dd.
Lemma gp_HideVertex_D : isD gp_HideVertex. Proof. dnon gp_HideVertex. Qed.
Hint Resolve gp_HideVertex_D : dd.
Lemma copy_vrec_D : isD copy_vrec. Proof. dnon copy_vrec. Qed.
Hint Resolve copy_vrec_D : dd.
Lemma copy_vinfo_D : isD copy_vinfo. Proof. dnon copy_vinfo. Qed.
Hint Resolve copy_vinfo_D : dd.
Lemma copy_erec_D : isD copy_erec. Proof. dnon copy_erec. Qed.
Hint Resolve copy_erec_D : dd.
Lemma _ClearVertexVisitedFlags_D : isD _ClearVertexVisitedFlags. Proof. dnon _ClearVertexVisitedFlags. Qed.
Hint Resolve _ClearVertexVisitedFlags_D : dd.
Lemma _ClearEdgeVisitedFlags_D : isD _ClearEdgeVisitedFlags. Proof. dnon _ClearEdgeVisitedFlags. Qed.
Hint Resolve _ClearEdgeVisitedFlags_D : dd.
Lemma _ClearVisitedFlags_D : isD _ClearVisitedFlags. Proof. dnon _ClearVisitedFlags. Qed.
Hint Resolve _ClearVisitedFlags_D : dd.
Lemma gp_BindFirstArc_D : isD gp_BindFirstArc. Proof. dnon gp_BindFirstArc. Qed.
Hint Resolve gp_BindFirstArc_D : dd.
Lemma gp_BindLastArc_D : isD gp_BindLastArc. Proof. dnon gp_BindLastArc. Qed.
Hint Resolve gp_BindLastArc_D : dd.
Lemma gp_AttachFirstArc_D : isD gp_AttachFirstArc. Proof. dnon gp_AttachFirstArc. Qed.
Hint Resolve gp_AttachFirstArc_D : dd.
Lemma gp_AttachLastArc_D : isD gp_AttachLastArc. Proof. dnon gp_AttachLastArc. Qed.
Hint Resolve gp_AttachLastArc_D : dd.
Lemma gp_MoveArcToFirst_D : isD gp_MoveArcToFirst. Proof. dnon gp_MoveArcToFirst. Qed.
Hint Resolve gp_MoveArcToFirst_D : dd.
Lemma gp_MoveArcToLast_D : isD gp_MoveArcToLast. Proof. dnon gp_MoveArcToLast. Qed.
Hint Resolve gp_MoveArcToLast_D : dd.
(** ** DFSM *)
Lemma stk_push2_D : isD stk_push2. Proof. dnon stk_push2. Qed.
Hint Resolve stk_push2_D : dd.
Lemma stk_pop2_D : isD stk_pop2. Proof. dnon stk_pop2. Qed.
Hint Resolve stk_pop2_D : dd.
Lemma stk_clear_D : isD stk_clear. Proof. dnon stk_clear. Qed.
Hint Resolve stk_clear_D : dd.
Lemma dfs_push_loop_D : isD dfs_push_loop. Proof. dfix dfs_push_loop. Qed.
Hint Resolve dfs_push_loop_D : dd.
Lemma dfs_tree_loop_D : isD dfs_tree_loop. Proof. dfix dfs_tree_loop. Qed.
Hint Resolve dfs_tree_loop_D : dd.
Lemma dfs_forest_loop_D : isD dfs_forest_loop. Proof. dfix dfs_forest_loop. Qed.
Hint Resolve dfs_forest_loop_D : dd.
Lemma gp_CreateDFSTree_D : isD gp_CreateDFSTree. Proof. dnon gp_CreateDFSTree. Qed.
Hint Resolve gp_CreateDFSTree_D : dd.
Lemma gp_SwapVertexRec_D : isD gp_SwapVertexRec. Proof. dnon gp_SwapVertexRec. Qed.
Hint Resolve gp_SwapVertexRec_D : dd.
Lemma gp_SwapVertexInfo_D : isD gp_SwapVertexInfo. Proof. dnon gp_SwapVertexInfo. Qed.
Hint Resolve gp_SwapVertexInfo_D : dd.
Lemma relabel_edge_D : isD relabel_edge. Proof. dnon relabel_edge. Qed.
Hint Resolve relabel_edge_D : dd.
Lemma relabel_parent_D : isD relabel_parent. Proof. dnon relabel_parent. Qed.
Hint Resolve relabel_parent_D : dd.
Lemma cycle_loop_D : isD cycle_loop. Proof. dfix cycle_loop. Qed.
Hint Resolve cycle_loop_D : dd.
Lemma gp_SortVertices_D : isD gp_SortVertices. Proof. dnon gp_SortVertices. Qed.
Hint Resolve gp_SortVertices_D : dd.
Lemma push_children_loop_D : isD push_children_loop. Proof. dfix push_children_loop. Qed.
Hint Resolve push_children_loop_D : dd.
Lemma low_tree_loop_D : isD low_tree_loop. Proof. dfix low_tree_loop. Qed.
Hint Resolve low_tree_loop_D : dd.
Lemma low_forest_loop_D : isD low_forest_loop. Proof. dfix low_forest_loop. Qed.
Hint Resolve low_forest_loop_D : dd.
Lemma ensure_sorted_D : isD ensure_sorted. Proof. dnon ensure_sorted. Qed.
Hint Resolve ensure_sorted_D : dd.
Lemma gp_LowpointAndLeastAncestor_D : isD gp_LowpointAndLeastAncestor. Proof. dnon gp_LowpointAndLeastAncestor. Qed.
Hint Resolve gp_LowpointAndLeastAncestor_D : dd.
Lemma least_loop_D : isD least_loop. Proof. dfix least_loop. Qed.
Hint Resolve least_loop_D : dd.
Lemma least_tree_loop_D : isD least_tree_loop. Proof. dfix least_tree_loop. Qed.
Hint Resolve least_tree_loop_D : dd.
Lemma least_forest_loop_D : isD least_forest_loop. Proof. dfix least_forest_loop. Qed.
Hint Resolve least_forest_loop_D : dd.
Lemma gp_LeastAncestor_D : isD gp_LeastAncestor. Proof. dnon gp_LeastAncestor. Qed.
Hint Resolve gp_LeastAncestor_D : dd.
(** ** EmbM0 *)
Lemma put_brl_D : isD put_brl. Proof. dnon put_brl. Qed.
Hint Resolve put_brl_D : dd.
Lemma put_sdl_D : isD put_sdl. Proof. dnon put_sdl. Qed.
Hint Resolve put_sdl_D : dd.
Lemma gp_DeleteVertexPertinentRoot_D : isD gp_DeleteVertexPertinentRoot. Proof. dnon gp_DeleteVertexPertinentRoot. Qed.
Hint Resolve gp_DeleteVertexPertinentRoot_D : dd.
Lemma gp_PrependVertexPertinentRoot_D : isD gp_PrependVertexPertinentRoot. Proof. dnon gp_PrependVertexPertinentRoot. Qed.
Hint Resolve gp_PrependVertexPertinentRoot_D : dd.
Lemma gp_AppendVertexPertinentRoot_D : isD gp_AppendVertexPertinentRoot. Proof. dnon gp_AppendVertexPertinentRoot. Qed.
Hint Resolve gp_AppendVertexPertinentRoot_D : dd.
Lemma gp_StoreAppendDFSChild_D : isD gp_StoreAppendDFSChild. Proof. dnon gp_StoreAppendDFSChild. Qed.
Hint Resolve gp_StoreAppendDFSChild_D : dd.
Lemma update_fpc_D : isD update_fpc. Proof. dfix update_fpc. Qed.
Hint Resolve update_fpc_D : dd.
Lemma gp_UpdateVertexFuturePertinentChild_D : isD gp_UpdateVertexFuturePertinentChild. Proof. dnon gp_UpdateVertexFuturePertinentChild. Qed.
Hint Resolve gp_UpdateVertexFuturePertinentChild_D : dd.
Lemma _InitVertexRec_D : isD _InitVertexRec. Proof. dnon _InitVertexRec. Qed.
Hint Resolve _InitVertexRec_D : dd.
Lemma invert_loop_D : isD invert_loop. Proof. dfix invert_loop. Qed.
Hint Resolve invert_loop_D : dd.
Lemma _InvertVertex_D : isD _InvertVertex. Proof. dnon _InvertVertex. Qed.
Hint Resolve _InvertVertex_D : dd.
Lemma merge_loop_D : isD merge_loop. Proof. dfix merge_loop. Qed.
Hint Resolve merge_loop_D : dd.
Lemma _MergeVertex_D : isD _MergeVertex. Proof. dnon _MergeVertex. Qed.
Hint Resolve _MergeVertex_D : dd.
Lemma join_step_D : isD join_step. Proof. dnon join_step. Qed.
Hint Resolve join_step_D : dd.
Lemma _JoinBicomps_D : isD _JoinBicomps. Proof. dnon _JoinBicomps. Qed.
Hint Resolve _JoinBicomps_D : dd.
Lemma orient_push_loop_D : isD orient_push_loop. Proof. dfix orient_push_loop. Qed.
Hint Resolve orient_push_loop_D : dd.
Lemma orient_loop_D : isD orient_loop. Proof. dfix orient_loop. Qed.
Hint Resolve orient_loop_D : dd.
Lemma _OrientVerticesInBicomp_D : isD _OrientVerticesInBicomp. Proof. dnon _OrientVerticesInBicomp. Qed.
Hint Resolve _OrientVerticesInBicomp_D : dd.
Lemma orient_step_D : isD orient_step. Proof. dnon orient_step. Qed.
Hint Resolve orient_step_D : dd.
Lemma _OrientVerticesInEmbedding_D : isD _OrientVerticesInEmbedding. Proof. dnon _OrientVerticesInEmbedding. Qed.
Hint Resolve _OrientVerticesInEmbedding_D : dd.
Lemma _EmbedPostprocess_D : isD _EmbedPostprocess. Proof. dnon _EmbedPostprocess. Qed.
Hint Resolve _EmbedPostprocess_D : dd.
Lemma add_end_D : isD add_end. Proof. dnon add_end. Qed.
Hint Resolve add_end_D : dd.
Lemma take_fwd_D : isD take_fwd. Proof. dnon take_fwd. Qed.
Hint Resolve take_fwd_D : dd.
Lemma _EmbedBackEdgeToDescendant_D : isD _EmbedBackEdgeToDescendant. Proof. dnon _EmbedBackEdgeToDescendant. Qed.
Hint Resolve _EmbedBackEdgeToDescendant_D : dd.
Lemma flip_sign_loop_D : isD flip_sign_loop. Proof. dfix flip_sign_loop. Qed.
Hint Resolve flip_sign_loop_D : dd.
Lemma merge_one_D : isD merge_one. Proof. dnon merge_one. Qed.
Hint Resolve merge_one_D : dd.
Lemma merge_bicomps_D : isD merge_bicomps. Proof. dfix merge_bicomps. Qed.
Hint Resolve merge_bicomps_D : dd.
Lemma _MergeBicomps_D : isD _MergeBicomps. Proof. dnon _MergeBicomps. Qed.
Hint Resolve _MergeBicomps_D : dd.
Lemma walkup_loop_D : isD walkup_loop. Proof. dfix walkup_loop. Qed.
Hint Resolve walkup_loop_D : dd.
Lemma _WalkUp_D : isD _WalkUp. Proof. dnon _WalkUp. Qed.
Hint Resolve _WalkUp_D : dd.
(** ** IsoM *)
Lemma gp_ResetVertexObstructionType_D : isD gp_ResetVertexObstructionType. Proof. dnon gp_ResetVertexObstructionType. Qed.
Hint Resolve gp_ResetVertexObstructionType_D : dd.
Lemma bicomp_push_loop_D : isD bicomp_push_loop. Proof. dfix bicomp_push_loop. Qed.
Hint Resolve bicomp_push_loop_D : dd.
Lemma bicomp_loop_D : isD bicomp_loop. Proof. dfix bicomp_loop. Qed.
Hint Resolve bicomp_loop_D : dd.
Lemma _ClearVisitedFlagsInBicomp_D : isD _ClearVisitedFlagsInBicomp. Proof. dnon _ClearVisitedFlagsInBicomp. Qed.
Hint Resolve _ClearVisitedFlagsInBicomp_D : dd.
Lemma _ClearVertexTypeInBicomp_D : isD _ClearVertexTypeInBicomp. Proof. dnon _ClearVertexTypeInBicomp. Qed.
Hint Resolve _ClearVertexTypeInBicomp_D : dd.
Lemma set_types_loop_D : isD set_types_loop. Proof. dfix set_types_loop. Qed.
Hint Resolve set_types_loop_D : dd.
Lemma _SetVertexTypesForMarkingXYPath_D : isD _SetVertexTypesForMarkingXYPath. Proof. dnon _SetVertexTypesForMarkingXYPath. Qed.
Hint Resolve _SetVertexTypesForMarkingXYPath_D : dd.
Lemma _InitializeNonplanarityContext_D : isD _InitializeNonplanarityContext. Proof. dnon _InitializeNonplanarityContext. Qed.
Hint Resolve _InitializeNonplanarityContext_D : dd.
Lemma pop_unmark_D : isD pop_unmark. Proof. dfix pop_unmark. Qed.
Hint Resolve pop_unmark_D : dd.
Lemma _PopAndUnmarkVerticesAndEdges_D : isD _PopAndUnmarkVerticesAndEdges. Proof. dnon _PopAndUnmarkVerticesAndEdges. Qed.
Hint Resolve _PopAndUnmarkVerticesAndEdges_D : dd.
Lemma stk_shrink_D : isD stk_shrink. Proof. dnon stk_shrink. Qed.
Hint Resolve stk_shrink_D : dd.
Lemma xy_loop_D : isD xy_loop. Proof. dfix xy_loop. Qed.
Hint Resolve xy_loop_D : dd.
Lemma _MarkHighestXYPath_D : isD _MarkHighestXYPath. Proof. dnon _MarkHighestXYPath. Qed.
Hint Resolve _MarkHighestXYPath_D : dd.
Lemma mark_face_loop_D : isD mark_face_loop. Proof. dfix mark_face_loop. Qed.
Hint Resolve mark_face_loop_D : dd.
Lemma _MarkPathAlongBicompExtFace_D : isD _MarkPathAlongBicompExtFace. Proof. dnon _MarkPathAlongBicompExtFace. Qed.
Hint Resolve _MarkPathAlongBicompExtFace_D : dd.
Lemma mark_dfs_loop_D : isD mark_dfs_loop. Proof. dfix mark_dfs_loop. Qed.
Hint Resolve mark_dfs_loop_D : dd.
Lemma _MarkDFSPath_D : isD _MarkDFSPath. Proof. dnon _MarkDFSPath. Qed.
Hint Resolve _MarkDFSPath_D : dd.
Lemma push_front_D : isD push_front. Proof. dnon push_front. Qed.
Hint Resolve push_front_D : dd.
Lemma take_off_D : isD take_off. Proof. dnon take_off. Qed.
Hint Resolve take_off_D : dd.
Lemma _AddBackEdge_D : isD _AddBackEdge. Proof. dnon _AddBackEdge. Qed.
Hint Resolve _AddBackEdge_D : dd.
Lemma _AddAndMarkEdge_D : isD _AddAndMarkEdge. Proof. dnon _AddAndMarkEdge. Qed.
Hint Resolve _AddAndMarkEdge_D : dd.
Lemma add_rest_loop_D : isD add_rest_loop. Proof. dfix add_rest_loop. Qed.
Hint Resolve add_rest_loop_D : dd.
Lemma delete_unmarked_loop_D : isD delete_unmarked_loop. Proof. dfix delete_unmarked_loop. Qed.
Hint Resolve delete_unmarked_loop_D : dd.
Lemma _DeleteUnmarkedVerticesAndEdges_D : isD _DeleteUnmarkedVerticesAndEdges. Proof. dnon _DeleteUnmarkedVerticesAndEdges. Qed.
Hint Resolve _DeleteUnmarkedVerticesAndEdges_D : dd.
Lemma isolate_minor_D : isD isolate_minor. Proof. dnon isolate_minor. Qed.
Hint Resolve isolate_minor_D : dd.
Lemma _IsolateOuterplanarObstruction_D : isD _IsolateOuterplanarObstruction. Proof. dnon _IsolateOuterplanarObstruction. Qed.
Hint Resolve _IsolateOuterplanarObstruction_D : dd.
(** ** IsoKM *)
Lemma find_active_loop_D : isD find_active_loop. Proof. dfix find_active_loop. Qed.
Hint Resolve find_active_loop_D : dd.
Lemma _FindActiveVerticesK_D : isD _FindActiveVerticesK. Proof. dnon _FindActiveVerticesK. Qed.
Hint Resolve _FindActiveVerticesK_D : dd.
Lemma _InitializeNonplanarityContextK_D : isD _InitializeNonplanarityContextK. Proof. dnon _InitializeNonplanarityContextK. Qed.
Hint Resolve _InitializeNonplanarityContextK_D : dd.
Lemma z_mark_loop_D : isD z_mark_loop. Proof. dfix z_mark_loop. Qed.
Hint Resolve z_mark_loop_D : dd.
Lemma _MarkZtoRPath_D : isD _MarkZtoRPath. Proof. dnon _MarkZtoRPath. Qed.
Hint Resolve _MarkZtoRPath_D : dd.
Lemma fp_below_loop_D : isD fp_below_loop. Proof. dfix fp_below_loop. Qed.
Hint Resolve fp_below_loop_D : dd.
Lemma _FindFuturePertinenceBelowXYPath_D : isD _FindFuturePertinenceBelowXYPath. Proof. dnon _FindFuturePertinenceBelowXYPath. Qed.
Hint Resolve _FindFuturePertinenceBelowXYPath_D : dd.
Lemma choose_minor_D : isD choose_minor. Proof. dnon choose_minor. Qed.
Hint Resolve choose_minor_D : dd.
Lemma seq_ok_D : isD seq_ok. Proof. dnon seq_ok. Qed.
Hint Resolve seq_ok_D : dd.
Lemma _MarkDFSPathsToDescendants_D : isD _MarkDFSPathsToDescendants. Proof. dnon _MarkDFSPathsToDescendants. Qed.
Hint Resolve _MarkDFSPathsToDescendants_D : dd.
Lemma _AddAndMarkUnembeddedEdges_D : isD _AddAndMarkUnembeddedEdges. Proof. dnon _AddAndMarkUnembeddedEdges. Qed.
Hint Resolve _AddAndMarkUnembeddedEdges_D : dd.
Lemma finish_minor_D : isD finish_minor. Proof. dnon finish_minor. Qed.
Hint Resolve finish_minor_D : dd.
Lemma _IsolateMinorA_D : isD _IsolateMinorA. Proof. dnon _IsolateMinorA. Qed.
Hint Resolve _IsolateMinorA_D : dd.
Lemma _IsolateMinorB_D : isD _IsolateMinorB. Proof. dnon _IsolateMinorB. Qed.
Hint Resolve _IsolateMinorB_D : dd.
Lemma _IsolateMinorC_D : isD _IsolateMinorC. Proof. dnon _IsolateMinorC. Qed.
Hint Resolve _IsolateMinorC_D : dd.
Lemma _IsolateMinorD_D : isD _IsolateMinorD. Proof. dnon _IsolateMinorD. Qed.
Hint Resolve _IsolateMinorD_D : dd.
Lemma _IsolateMinorE1_D : isD _IsolateMinorE1. Proof. dnon _IsolateMinorE1. Qed.
Hint Resolve _IsolateMinorE1_D : dd.
Lemma _IsolateMinorE2_D : isD _IsolateMinorE2. Proof. dnon _IsolateMinorE2. Qed.
Hint Resolve _IsolateMinorE2_D : dd.
Lemma _IsolateMinorE3_D : isD _IsolateMinorE3. Proof. dnon _IsolateMinorE3. Qed.
Hint Resolve _IsolateMinorE3_D : dd.
Lemma _IsolateMinorE4_D : isD _IsolateMinorE4. Proof. dnon _IsolateMinorE4. Qed.
Hint Resolve _IsolateMinorE4_D : dd.
Lemma _IsolateMinorE_D : isD _IsolateMinorE. Proof. dnon _IsolateMinorE. Qed.
Hint Resolve _IsolateMinorE_D : dd.
Lemma _IsolateKuratowskiSubgraph_D : isD _IsolateKuratowskiSubgraph. Proof. dnon _IsolateKuratowskiSubgraph. Qed.
Hint Resolve _IsolateKuratowskiSubgraph_D : dd.
(** ** TestM *)
Lemma face_push_loop_D : isD face_push_loop. Proof. dfix face_push_loop. Qed.
Hint Resolve face_push_loop_D : dd.
Lemma face_walk_loop_D : isD face_walk_loop. Proof. dfix face_walk_loop. Qed.
Hint Resolve face_walk_loop_D : dd.
Lemma faces_loop_D : isD faces_loop. Proof. dfix faces_loop. Qed.
Hint Resolve faces_loop_D : dd.
Lemma _CheckEmbeddingFacialIntegrity_D : isD _CheckEmbeddingFacialIntegrity. Proof. dnon _CheckEmbeddingFacialIntegrity. Qed.
Hint Resolve _CheckEmbeddingFacialIntegrity_D : dd.
Lemma test_mark_face_loop_D : isD TestM.mark_face_loop. Proof. dfix TestM.mark_face_loop. Qed.
Hint Resolve test_mark_face_loop_D : dd.
Lemma _MarkExternalFaceVertices_D : isD _MarkExternalFaceVertices. Proof. dnon _MarkExternalFaceVertices. Qed.
Hint Resolve _MarkExternalFaceVertices_D : dd.
Lemma _CheckAllVerticesOnExternalFace_D : isD _CheckAllVerticesOnExternalFace. Proof. dnon _CheckAllVerticesOnExternalFace. Qed.
Hint Resolve _CheckAllVerticesOnExternalFace_D : dd.
Lemma sub_mark_loop_D : isD sub_mark_loop. Proof. dfix sub_mark_loop. Qed.
Hint Resolve sub_mark_loop_D : dd.
Lemma sub_unmark_loop_D : isD sub_unmark_loop. Proof. dfix sub_unmark_loop. Qed.
Hint Resolve sub_unmark_loop_D : dd.
Lemma sub_vertex_loop_D : isD sub_vertex_loop. Proof. dfix sub_vertex_loop. Qed.
Hint Resolve sub_vertex_loop_D : dd.
Lemma _TestSubgraph_D : isD _TestSubgraph. Proof. dnon _TestSubgraph. Qed.
Hint Resolve _TestSubgraph_D : dd.
Lemma _CheckEmbeddingIntegrity_D : isD _CheckEmbeddingIntegrity. Proof. dnon _CheckEmbeddingIntegrity. Qed.
Hint Resolve _CheckEmbeddingIntegrity_D : dd.
Lemma mark_path_loop_D : isD mark_path_loop. Proof. dfix mark_path_loop. Qed.
Hint Resolve mark_path_loop_D : dd.
Lemma _MarkPath_D : isD _MarkPath. Proof. dnon _MarkPath. Qed.
Hint Resolve _MarkPath_D : dd.
Lemma test_path_loop_D : isD test_path_loop. Proof. dfix test_path_loop. Qed.
Hint Resolve test_path_loop_D : dd.
Lemma _TestPath_D : isD _TestPath. Proof. dnon _TestPath. Qed.
Hint Resolve _TestPath_D : dd.
Lemma test_pairs_D : isD test_pairs. Proof.
  intros g Hg imgs _ ps _. revert g Hg. induction ps as [|[i j] ps IH]; intros g Hg; cbn [test_pairs]; [repeat dstep|].
  repeat dstep.
Qed.
Hint Resolve test_pairs_D : dd.
Lemma _TestForCompleteGraphObstruction_D : isD _TestForCompleteGraphObstruction. Proof. dnon _TestForCompleteGraphObstruction. Qed.
Hint Resolve _TestForCompleteGraphObstruction_D : dd.
Lemma k33_find_loop_D : isD k33_find_loop. Proof. dfix k33_find_loop. Qed.
Hint Resolve k33_find_loop_D : dd.
Lemma _TestForK33GraphObstruction_D : isD _TestForK33GraphObstruction. Proof. dnon _TestForK33GraphObstruction. Qed.
Hint Resolve _TestForK33GraphObstruction_D : dd.
Lemma _CheckKuratowskiSubgraphIntegrity_D : isD _CheckKuratowskiSubgraphIntegrity. Proof. dnon _CheckKuratowskiSubgraphIntegrity. Qed.
Hint Resolve _CheckKuratowskiSubgraphIntegrity_D : dd.
Lemma k23_paths_D : isD k23_paths. Proof. dfix k23_paths. Qed.
Hint Resolve k23_paths_D : dd.
Lemma _TestForK23GraphObstruction_D : isD _TestForK23GraphObstruction. Proof. dnon _TestForK23GraphObstruction. Qed.
Hint Resolve _TestForK23GraphObstruction_D : dd.
Lemma _CheckOuterplanarObstructionIntegrity_D : isD _CheckOuterplanarObstructionIntegrity. Proof. dnon _CheckOuterplanarObstructionIntegrity. Qed.
Hint Resolve _CheckOuterplanarObstructionIntegrity_D : dd.
Lemma _CheckObstructionIntegrity_D : isD _CheckObstructionIntegrity. Proof. dnon _CheckObstructionIntegrity. Qed.
Hint Resolve _CheckObstructionIntegrity_D : dd.
Lemma gp_TestEmbedResultIntegrity_D : isD gp_TestEmbedResultIntegrity. Proof. dnon gp_TestEmbedResultIntegrity. Qed.
Hint Resolve gp_TestEmbedResultIntegrity_D : dd.
(** ** EmbM *)
Lemma _HandleBlockedBicomp_D : isD _HandleBlockedBicomp. Proof. dnon _HandleBlockedBicomp. Qed.
Hint Resolve _HandleBlockedBicomp_D : dd.
Lemma walkdown_choose_D : isD walkdown_choose. Proof. dnon walkdown_choose. Qed.
Hint Resolve walkdown_choose_D : dd.
Lemma walkdown_stop_D : isD walkdown_stop. Proof. dnon walkdown_stop. Qed.
Hint Resolve walkdown_stop_D : dd.
Lemma walkdown_loop_D : isD walkdown_loop. Proof. dfix walkdown_loop. Qed.
Hint Resolve walkdown_loop_D : dd.
Lemma walkdown_side_D : isD walkdown_side. Proof. dnon walkdown_side. Qed.
Hint Resolve walkdown_side_D : dd.
Lemma _WalkDown_D : isD _WalkDown. Proof. dnon _WalkDown. Qed.
Hint Resolve _WalkDown_D : dd.
Lemma einit_arcs_loop_D : isD einit_arcs_loop. Proof. dfix einit_arcs_loop. Qed.
Hint Resolve einit_arcs_loop_D : dd.
Lemma einit_tree_loop_D : isD einit_tree_loop. Proof. dfix einit_tree_loop. Qed.
Hint Resolve einit_tree_loop_D : dd.
Lemma einit_forest_loop_D : isD einit_forest_loop. Proof. dfix einit_forest_loop. Qed.
Hint Resolve einit_forest_loop_D : dd.
Lemma einit_vertex_D : isD einit_vertex. Proof. dnon einit_vertex. Qed.
Hint Resolve einit_vertex_D : dd.
Lemma _EmbeddingInitialize_D : isD _EmbeddingInitialize. Proof. dnon _EmbeddingInitialize. Qed.
Hint Resolve _EmbeddingInitialize_D : dd.
Lemma walkups_loop_D : isD walkups_loop. Proof. dfix walkups_loop. Qed.
Hint Resolve walkups_loop_D : dd.
Lemma walkdowns_loop_D : isD walkdowns_loop. Proof. dfix walkdowns_loop. Qed.
Hint Resolve walkdowns_loop_D : dd.
Lemma embed_step_D : isD embed_step. Proof. dnon embed_step. Qed.
Hint Resolve embed_step_D : dd.
Lemma embed_loop_D : isD embed_loop. Proof. dfix embed_loop. Qed.
Hint Resolve embed_loop_D : dd.
Lemma gp_Embed_D : isD gp_Embed. Proof. dnon gp_Embed. Qed.
Hint Resolve gp_Embed_D : dd.

Lemma copy_caps d g c r : caps g -> (forall d1 r1, gp_EnsureArcCapacity d (gCap g) = Ret (d1, r1) -> caps d1) ->
  (forall x, caps x -> Z.of_nat (length (gstack g)) <= gstackCap x) -> caps d ->
  gp_CopyGraph d g = Ret (c, r) -> caps c.
Proof.
  intros Hg HE Hs Hd E. unfold gp_CopyGraph in E. destruct (negb _ || _); [injection E as <- _; exact Hd|].
  destruct (gp_EnsureArcCapacity d (gCap g)) as [[d0 r0]| |]; try discriminate. specialize (HE d0 r0 eq_refl). cbn [bind] in E.
  destruct (negb (r0 =? C_OK)); [injection E as <- _; exact HE|]. change (isD d0) in HE. change (isD g) in Hg.
  match type of E with bind ?m ?k = _ => assert (D : isD m) by (repeat dstep); destruct m as [d1| |]; try discriminate; change (isD d1) in D; cbn [bind] in E end.
  match type of E with bind ?m ?k = _ => assert (D2 : isD m) by (repeat dstep); destruct m as [d2| |]; try discriminate; change (isD d2) in D2; cbn [bind] in E end.
  match type of E with bind ?m ?k = _ => assert (D3 : isD m) by (repeat dstep); destruct m as [d3| |]; try discriminate; cbn [bind] in E end.
  change (caps d3) in D3. pose proof (Hs d3 D3) as Q. injection E as <- _. unfold caps. cbn. unfold sp_copy_cap.
  replace (gstackCap d3 <? Z.of_nat (length (gstack g))) with false by lia. exact D3.
Qed.
End Room.

(** ** As statements *)
Definition same_room (N c s : Z) : Z -> Z -> Z -> Prop := fun N' c' s' => N' = N /\ c' = c /\ s' = s.
Lemma embed_room g fl h r : gp_Embed g fl = Ret (h, r) -> gN h = gN g /\ gCap h = gCap g /\ gstackCap h = gstackCap g.
Proof. intros E. pose proof (gp_Embed_D (same_room (gN g) (gCap g) (gstackCap g)) g (conj eq_refl (conj eq_refl eq_refl)) fl I) as D. rewrite E in D. exact (proj1 D). Qed.
Lemma sort_room g h r : gp_SortVertices g = Ret (h, r) -> gN h = gN g /\ gCap h = gCap g /\ gstackCap h = gstackCap g.
Proof. intros E. pose proof (gp_SortVertices_D (same_room (gN g) (gCap g) (gstackCap g)) g (conj eq_refl (conj eq_refl eq_refl))) as D. rewrite E in D. exact (proj1 D). Qed.
Lemma copy_room d g c r : gN d = gN g -> gCap d = gCap g -> gstackCap d = gstackCap g -> 0 < gCap g -> Z.land (gCap g) 1 = 0 -> Z.of_nat (length (gstack g)) <= gstackCap g ->
  gp_CopyGraph d g = Ret (c, r) -> gN c = gN g /\ gCap c = gCap g /\ gstackCap c = gstackCap g.
Proof.
  intros H0 H1 H2 H3 H4 H5 E. assert (Hd : caps (same_room (gN g) (gCap g) (gstackCap g)) d) by (split; auto).
  apply (copy_caps (same_room (gN g) (gCap g) (gstackCap g)) d g c r (conj eq_refl (conj eq_refl eq_refl))); auto.
  - intros d1 r1. unfold gp_EnsureArcCapacity. replace (gCap g <=? 0) with false by lia. rewrite H4. replace (gCap d >=? gCap g) with true by lia.
    cbn [negb Z.eqb]. intros Q. injection Q as <- _. exact Hd.
  - intros x (_ & _ & ->). exact H5.
Qed.
(** What holds of the capacities of both graphs holds after the check; it may sort the second graph too. *)
Lemma check_caps P0 g o x h p r : caps P0 g -> caps P0 o -> gp_TestEmbedResultIntegrity g o x = Ret (h, p, r) -> caps P0 h /\ caps P0 p.
Proof. intros H1 H2 E. pose proof (gp_TestEmbedResultIntegrity_D P0 g H1 o H2 x I) as D. rewrite E in D. exact (proj1 D). Qed.
Lemma check_room g o x h p r : gN o = gN g -> gCap o = gCap g -> gstackCap o = gstackCap g -> gp_TestEmbedResultIntegrity g o x = Ret (h, p, r) ->
  (gN h = gN g /\ gCap h = gCap g /\ gstackCap h = gstackCap g) /\ gN p = gN g /\ gCap p = gCap g /\ gstackCap p = gstackCap g.
Proof. intros E0 E1 E2. exact (check_caps (same_room (gN g) (gCap g) (gstackCap g)) g o x h p r (conj eq_refl (conj eq_refl eq_refl)) (conj E0 (conj E1 E2))). Qed.

(** ** The stack is large enough for the arcs *)
Definition fit_room (n C : Z) : Z -> Z -> Z -> Prop := fun N c s => N = n /\ 4 < c <= C /\ 2 * c <= s.
Lemma ensure_fit n C g req h r : 1 <= n -> caps (fit_room n C) g -> req <= C -> gp_EnsureArcCapacity g req = Ret (h, r) -> caps (fit_room n C) h.
Proof.
  intros Hn H HR E. unfold gp_EnsureArcCapacity in E. destruct (req <=? 0); [injection E as <- _; exact H|]. destruct (negb _); [injection E as <- _; exact H|].
  destruct (gCap g >=? req) eqn:EC; [injection E as <- _; exact H|]. destruct H as (EN & HC & HS). replace (gN g =? 0) with false in E by lia.
  unfold _EnsureArcCapacity in E. cbv zeta in E. unfold gp_EdgeIndexBound in E. replace (2 + req <=? 2 + gCap g) with false in E by lia.
  match type of E with bind (for_up ?m ?i ?b ?g1) _ = _ =>
    assert (H1 : caps (fit_room n C) g1) by (destruct (gstackCap g <? 2 * req) eqn:E1; unfold caps, fit_room; cbn; try destruct (_ <? 6 * gN g) eqn:E2; lia);
    assert (D : @isD _ (@D_res graph (D_graph (fit_room n C))) (for_up m i b g1)) by (apply (@for_up_D graph (D_graph (fit_room n C))); [intros e _ x Hx; exact (_InitEdgeRec_D (fit_room n C) x Hx e I)|exact H1]);
    destruct (for_up m i b g1) as [d| |]; try discriminate; cbn [bind] in E; injection E as <- _; exact D end.
Qed.
Lemma copy_fit n C d g c r : 1 <= n -> caps (fit_room n C) d -> caps (fit_room n C) g -> gstack g = [] -> gp_CopyGraph d g = Ret (c, r) -> caps (fit_room n C) c.
Proof.
  intros Hn Hd Hg Hs E. apply (copy_caps (fit_room n C) d g c r Hg); auto.
  - intros d1 r1. apply ensure_fit; auto. apply Hg.
  - intros x (_ & Hx & Hy). rewrite Hs. cbn [length]. lia.
Qed.
Lemma embed_fit n C g fl h r : caps (fit_room n C) g -> gp_Embed g fl = Ret (h, r) -> caps (fit_room n C) h.
Proof. intros H E. destruct (embed_room g fl h r E) as (E1 & E2 & E3). unfold caps. rewrite E1, E2, E3. exact H. Qed.
