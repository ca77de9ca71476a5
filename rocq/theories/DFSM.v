(** * DFSM: model of c/graphLib/graphDFSUtils.c (depth first search, vertex sorting, least
    ancestors and lowpoints).  gp_SortVertices calls the base function. *)
From Verif Require Import Base GraphRec GraphM.

(** graphStructures.h:592-593 *)
Definition FLAGS_DFSNUMBERED : Z := 1.
Definition FLAGS_SORTEDBYDFI : Z := 2.

(** stack.h:78, 83 *)
Definition stk_push2 (g : graph) (a b : Z) : res graph := g <- stk_push g a ;; stk_push g b.
Definition stk_pop2 (g : graph) : res (graph * Z * Z) :=
  '(g, b) <- stk_pop g ;; '(g, a) <- stk_pop g ;; Ret (g, a, b).
(** stack.h:70-72 *)
Definition stk_clear (g : graph) : graph := set_gstack g [].
Definition stk_empty (g : graph) : bool := match gstack g with [] => true | _ => false end.

(** graphDFSUtils.c:87-93: push the arcs of u that lead to unvisited vertices *)
Fixpoint dfs_push_loop (n : nat) (g : graph) (u e : Z) : res graph :=
  match n with
  | O => OOF
  | S n' =>
    if e =? NIL then Ret g
    else
      w <- gp_GetNeighbor g e ;;
      vis <- gp_GetVertexVisited g w ;;
      g <- (if vis =? 0 then stk_push2 g u e else Ret g) ;;
      e' <- gp_GetNextArc g e ;;
      dfs_push_loop n' g u e'
  end.

(** graphDFSUtils.c:66-103: the loop for one tree, with root v *)
Fixpoint dfs_tree_loop (n : nat) (g : graph) (DFI v : Z) : res (graph * Z) :=
  match n with
  | O => OOF
  | S n' =>
    if stk_empty g then Ret (g, DFI)
    else
      '(g, uparent, e) <- stk_pop2 g ;;
      u <- (if uparent =? NIL then Ret v else gp_GetNeighbor g e) ;;
      vis <- gp_GetVertexVisited g u ;;
      if vis =? 0 then
        g <- gp_SetVertexVisited g u ;;
        g <- gp_SetVertexIndex g u DFI ;;
        g <- gp_SetVertexParent g u uparent ;;
        g <- (if negb (e =? NIL) then
                g <- gp_SetEdgeType g e EDGE_TYPE_CHILD ;;
                gp_SetEdgeType g (gp_GetTwinArc e) EDGE_TYPE_PARENT
              else Ret g) ;;
        e0 <- gp_GetFirstArc g u ;;
        g <- dfs_push_loop (efuel g) g u e0 ;;
        dfs_tree_loop n' g (DFI + 1) v
      else
        g <- gp_SetEdgeType g e EDGE_TYPE_FORWARD ;;
        g <- gp_SetEdgeType g (gp_GetTwinArc e) EDGE_TYPE_BACK ;;
        dfs_tree_loop n' g DFI v
  end.

(** Fuel for a traversal: more than (vertices) * (edge records). *)
Definition tfuel (g : graph) : nat := S (S (Z.to_nat (gN g + 1)) * S (Z.to_nat (gp_EdgeIndexBound g))).

(** graphDFSUtils.c:60-104: the loop over the vertices *)
Fixpoint dfs_forest_loop (n : nat) (g : graph) (DFI v : Z) : res graph :=
  match n with
  | O => OOF
  | S n' =>
    if DFI <=? gN g then
      p <- gp_GetVertexParent g v ;;
      if negb (p =? NIL) then dfs_forest_loop n' g DFI (v + 1)
      else
        g <- stk_push2 g NIL NIL ;;
        '(g, DFI) <- dfs_tree_loop (tfuel g) g DFI v ;;
        dfs_forest_loop n' g DFI (v + 1)
    else Ret g
  end.

(** gp_CreateDFSTree, graphDFSUtils.c:29-118 *)
Definition gp_CreateDFSTree (g : graph) : res (graph * Z) :=
  if negb (Z.land (giflags g) FLAGS_DFSNUMBERED =? 0) then Ret (g, C_OK)
  else if gstackCap g <? 2 * gp_GetArcCapacity g then Ret (g, C_NOTOK)
  else
    let g := stk_clear g in
    g <- _ClearVertexVisitedFlags g false ;;
    g <- dfs_forest_loop (S (Z.to_nat (gN g))) g 1 1 ;;
    Ret (set_giflags g (Z.lor (giflags g) FLAGS_DFSNUMBERED), C_OK).

(** gp_SwapVertexRec and gp_SwapVertexInfo, graphStructures.h:318-323, 479-484 *)
Definition swapf (f : Z -> Z) (a b : Z) : Z -> Z := upd (upd f a (f b)) b (f a).
Definition gp_SwapVertexRec (g : graph) (a b : Z) : res graph :=
  guard (inV g a && inV g b)
    (Ret (set_vflags (set_vindex (set_vlast (set_vfirst g (swapf (vfirst g) a b))
       (swapf (vlast g) a b)) (swapf (vindex g) a b)) (swapf (vflags g) a b))).
Definition gp_SwapVertexInfo (g : graph) (a b : Z) : res graph :=
  guard (inVI g a && inVI g b)
    (let i := gVI g in
     Ret (set_gVI g (mkVI (swapf (viParent i) a b) (swapf (viLeast i) a b) (swapf (viLow i) a b)
       (swapf (viVisited i) a b) (swapf (viPertEdge i) a b) (swapf (viPertRoots i) a b)
       (swapf (viFPChild i) a b) (swapf (viSDC i) a b) (swapf (viFwd i) a b)))).

(** graphDFSUtils.c:164-172: relabel the two records of one edge *)
Definition relabel_edge (g : graph) (e : Z) : res graph :=
  n <- gp_GetNeighbor g e ;;
  if negb (n =? NIL) then
    i <- gp_GetVertexIndex g n ;;
    g <- gp_SetNeighbor g e i ;;
    n <- gp_GetNeighbor g (e + 1) ;;
    i <- gp_GetVertexIndex g n ;;
    gp_SetNeighbor g (e + 1) i
  else Ret g.
(** graphDFSUtils.c:176-178: relabel the parent of one vertex *)
Definition relabel_parent (g : graph) (v : Z) : res graph :=
  p <- gp_GetVertexParent g v ;;
  if negb (p =? NIL) then i <- gp_GetVertexIndex g p ;; gp_SetVertexParent g v i else Ret g.
(** graphDFSUtils.c:198-211: the inner loop *)
Fixpoint cycle_loop (n : nat) (g : graph) (v srcPos : Z) : res graph :=
  match n with
  | O => OOF
  | S n' =>
    vis <- gp_GetVertexVisited g v ;;
    if negb (vis =? 0) then Ret g
    else
      dstPos <- gp_GetVertexIndex g v ;;
      g <- gp_SwapVertexRec g dstPos v ;;
      g <- gp_SwapVertexInfo g dstPos v ;;
      g <- gp_SetVertexVisited g dstPos ;;
      g <- gp_SetVertexIndex g dstPos srcPos ;;
      cycle_loop n' g v dstPos
  end.

(** _SortVertices, graphDFSUtils.c:141-224; the edge loop visits the first record of each edge
    below the bound *)
Definition gp_SortVertices (g : graph) : res (graph * Z) :=
  '(g, r) <- (if Z.land (giflags g) FLAGS_DFSNUMBERED =? 0 then gp_CreateDFSTree g else Ret (g, C_OK)) ;;
  if negb (r =? C_OK) then Ret (g, C_NOTOK)
  else
    g <- for_up (Z.to_nat ((gp_EdgeInUseIndexBound g - 2) / 2)) 0 (fun i g => relabel_edge g (2 + 2 * i)) g ;;
    g <- for_up (Z.to_nat (gN g)) 1 (fun v g => relabel_parent g v) g ;;
    g <- _ClearVertexVisitedFlags g false ;;
    g <- for_up (Z.to_nat (gN g)) 1 (fun v g => cycle_loop (S (S (Z.to_nat (gN g)))) g v v) g ;;
    Ret (set_giflags g (Z.lxor (giflags g) FLAGS_SORTEDBYDFI), C_OK).

(** graphDFSUtils.c:299-309: push the DFS children of u *)
Fixpoint push_children_loop (n : nat) (g : graph) (e : Z) : res graph :=
  match n with
  | O => OOF
  | S n' =>
    if e =? NIL then Ret g
    else
      t <- gp_GetEdgeType g e ;;
      g <- (if t =? EDGE_TYPE_CHILD then w <- gp_GetNeighbor g e ;; stk_push g w else Ret g) ;;
      e' <- gp_GetNextArc g e ;;
      push_children_loop n' g e'
  end.
(** graphDFSUtils.c:319-336: least ancestor and least lowpoint of the children *)
Fixpoint low_loop (n : nat) (g : graph) (e leastAncestor L : Z) : res (Z * Z) :=
  match n with
  | O => OOF
  | S n' =>
    if e =? NIL then Ret (leastAncestor, L)
    else
      w <- gp_GetNeighbor g e ;;
      t <- gp_GetEdgeType g e ;;
      '(leastAncestor, L) <-
        (if t =? EDGE_TYPE_CHILD then
           l <- gp_GetVertexLowpoint g w ;; Ret (leastAncestor, if L >? l then l else L)
         else if t =? EDGE_TYPE_BACK then Ret (if leastAncestor >? w then w else leastAncestor, L)
         else Ret (leastAncestor, L)) ;;
      e' <- gp_GetNextArc g e ;;
      low_loop n' g e' leastAncestor L
  end.
(** graphDFSUtils.c:286-342: one tree; returns the graph and v *)
Fixpoint low_tree_loop (n : nat) (g : graph) (v : Z) : res (graph * Z) :=
  match n with
  | O => OOF
  | S n' =>
    if stk_empty g then Ret (g, v)
    else
      '(g, u) <- stk_pop g ;;
      vis <- gp_GetVertexVisited g u ;;
      if vis =? 0 then
        g <- gp_SetVertexVisited g u ;;
        g <- stk_push g u ;;
        e <- gp_GetFirstArc g u ;;
        g <- push_children_loop (efuel g) g e ;;
        low_tree_loop n' g (v + 1)
      else
        e <- gp_GetFirstArc g u ;;
        '(la, L) <- low_loop (efuel g) g e u u ;;
        g <- gp_SetVertexLeastAncestor g u la ;;
        g <- gp_SetVertexLowpoint g u (if la <? L then la else L) ;;
        low_tree_loop n' g v
  end.
(** graphDFSUtils.c:277-343 *)
Fixpoint low_forest_loop (n : nat) (g : graph) (v : Z) : res graph :=
  match n with
  | O => OOF
  | S n' =>
    if v <=? gN g then
      vis <- gp_GetVertexVisited g v ;;
      if negb (vis =? 0) then low_forest_loop n' g (v + 1)
      else
        g <- stk_push g v ;;
        '(g, v) <- low_tree_loop (tfuel g) g v ;;
        low_forest_loop n' g v
    else Ret g
  end.
(** The calls both functions start with, graphDFSUtils.c:259-265, 387-393 *)
Definition ensure_sorted (g : graph) : res (graph * Z) :=
  '(g, r) <- (if Z.land (giflags g) FLAGS_DFSNUMBERED =? 0 then gp_CreateDFSTree g else Ret (g, C_OK)) ;;
  if negb (r =? C_OK) then Ret (g, C_NOTOK)
  else if Z.land (giflags g) FLAGS_SORTEDBYDFI =? 0 then gp_SortVertices g else Ret (g, C_OK).

(** gp_LowpointAndLeastAncestor, graphDFSUtils.c:251-358 *)
Definition gp_LowpointAndLeastAncestor (g : graph) : res (graph * Z) :=
  '(g, r) <- ensure_sorted g ;;
  if negb (r =? C_OK) then Ret (g, C_NOTOK)
  else if gstackCap g <? gN g then Ret (g, C_NOTOK)
  else
    let g := stk_clear g in
    g <- _ClearVertexVisitedFlags g false ;;
    g <- low_forest_loop (S (S (Z.to_nat (gN g)))) g 1 ;;
    Ret (g, C_OK).

(** graphDFSUtils.c:420-436: least ancestor of u; children are pushed *)
Fixpoint least_loop (n : nat) (g : graph) (e leastAncestor : Z) : res (graph * Z) :=
  match n with
  | O => OOF
  | S n' =>
    if e =? NIL then Ret (g, leastAncestor)
    else
      w <- gp_GetNeighbor g e ;;
      t <- gp_GetEdgeType g e ;;
      '(g, leastAncestor) <-
        (if t =? EDGE_TYPE_CHILD then g <- stk_push g w ;; Ret (g, leastAncestor)
         else if t =? EDGE_TYPE_BACK then Ret (g, if leastAncestor >? w then w else leastAncestor)
         else Ret (g, leastAncestor)) ;;
      e' <- gp_GetNextArc g e ;;
      least_loop n' g e' leastAncestor
  end.
(** graphDFSUtils.c:409-441 *)
Fixpoint least_tree_loop (n : nat) (g : graph) (v : Z) : res (graph * Z) :=
  match n with
  | O => OOF
  | S n' =>
    if stk_empty g then Ret (g, v)
    else
      '(g, u) <- stk_pop g ;;
      vis <- gp_GetVertexVisited g u ;;
      if vis =? 0 then
        g <- gp_SetVertexVisited g u ;;
        e <- gp_GetFirstArc g u ;;
        '(g, la) <- least_loop (efuel g) g e u ;;
        g <- gp_SetVertexLeastAncestor g u la ;;
        least_tree_loop n' g (v + 1)
      else least_tree_loop n' g v
  end.
(** graphDFSUtils.c:400-442 *)
Fixpoint least_forest_loop (n : nat) (g : graph) (v : Z) : res graph :=
  match n with
  | O => OOF
  | S n' =>
    if v <=? gN g then
      vis <- gp_GetVertexVisited g v ;;
      if negb (vis =? 0) then least_forest_loop n' g (v + 1)
      else
        g <- stk_push g v ;;
        '(g, v) <- least_tree_loop (tfuel g) g v ;;
        least_forest_loop n' g v
    else Ret g
  end.
(** gp_LeastAncestor, graphDFSUtils.c:379-457: the visited flags are not cleared *)
Definition gp_LeastAncestor (g : graph) : res (graph * Z) :=
  '(g, r) <- ensure_sorted g ;;
  if negb (r =? C_OK) then Ret (g, C_NOTOK)
  else if gstackCap g <? gN g then Ret (g, C_NOTOK)
  else
    let g := stk_clear g in
    g <- least_forest_loop (S (S (Z.to_nat (gN g)))) g 1 ;;
    Ret (g, C_OK).
