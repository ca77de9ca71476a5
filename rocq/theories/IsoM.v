(** * IsoM: model of the isolator of outerplanarity obstructions: graphOuterplanarObstruction.c and
    the functions of graphNonplanar.c, graphIsolator.c and graphUtils.c it calls.

    The isolator context (graph.IC) is a set of local variables here: it is written anew by each
    call and read by nothing else. *)
From Verif Require Import Base GraphRec GraphM ListM DFSM TestM EmbM0.

(** graphStructures.h:294-315 *)
Definition OBS_HIGH_RXW : Z := 10.
Definition OBS_LOW_RXW : Z := 2.
Definition OBS_HIGH_RYW : Z := 14.
Definition OBS_LOW_RYW : Z := 6.
Definition gp_GetVertexObstructionType (g : graph) (v : Z) : res Z :=
  f <- rd_vflags g v ;; Ret (Z.land f VERTEX_OBSTRUCTIONTYPE_MASK).
Definition gp_ResetVertexObstructionType (g : graph) (v type : Z) : res graph :=
  f <- rd_vflags g v ;; wr_vflags g v (Z.lor (Z.ldiff f VERTEX_OBSTRUCTIONTYPE_MASK) type).
(** graphStructures.h:432 *)
Definition gp_GetVertexLastPertinentRootChild (g : graph) (v : Z) : res Z :=
  h <- gp_GetVertexPertinentRootsList g v ;; mLCGetPrev (brl g) h NIL.

(** ** Walks over one bicomp *)
(** graphUtils.c:605-613, 818-824: clear the visited flag of each arc of a list (if [edges]) and push
    the DFS children found in it *)
Fixpoint bicomp_push_loop (n : nat) (edges : bool) (g : graph) (e : Z) : res graph :=
  match n with
  | O => OOF
  | S n' =>
    if e =? NIL then Ret g
    else
      g <- (if edges then gp_ClearEdgeVisited g e else Ret g) ;;
      t <- gp_GetEdgeType g e ;;
      g <- (if t =? EDGE_TYPE_CHILD then w <- gp_GetNeighbor g e ;; stk_push g w else Ret g) ;;
      e' <- gp_GetNextArc g e ;;
      bicomp_push_loop n' edges g e'
  end.
(** graphUtils.c:599-614, 812-825 *)
Fixpoint bicomp_loop (n : nat) (edges : bool) (act : graph -> Z -> res graph) (g : graph) (bottom : Z) : res graph :=
  match n with
  | O => OOF
  | S n' =>
    if stk_size g <=? bottom then Ret g
    else
      '(g, v) <- stk_pop g ;;
      g <- act g v ;;
      e <- gp_GetFirstArc g v ;;
      g <- bicomp_push_loop (efuel g) edges g e ;;
      bicomp_loop n' edges act g bottom
  end.
(** _ClearVisitedFlagsInBicomp, graphUtils.c:593-616; it always returns OK *)
Definition _ClearVisitedFlagsInBicomp (g : graph) (root : Z) : res graph :=
  let bottom := stk_size g in
  g <- stk_push g root ;;
  bicomp_loop (S (S (Z.to_nat (2 * gN g)))) true gp_ClearVertexVisited g bottom.
(** _ClearVertexTypeInBicomp, graphUtils.c:806-827; it always returns OK *)
Definition _ClearVertexTypeInBicomp (g : graph) (root : Z) : res graph :=
  let bottom := stk_size g in
  g <- stk_push g root ;;
  bicomp_loop (S (S (Z.to_nat (2 * gN g)))) false gp_ClearVertexObstructionType g bottom.

(** ** The external face of a bicomp *)
(** _GetNeighborOnExtFace, graphNonplanar.c:219-243: the next vertex and the new prev link *)
Definition _GetNeighborOnExtFace (g : graph) (curVertex prevLink : Z) : res (Z * Z) :=
  arc <- gp_GetArc g curVertex (Z.lxor 1 prevLink) ;;
  nextVertex <- gp_GetNeighbor g arc ;;
  f <- gp_GetFirstArc g nextVertex ;;
  l <- gp_GetLastArc g nextVertex ;;
  Ret (nextVertex, if negb (f =? l) then (if gp_GetTwinArc arc =? f then 0 else 1) else prevLink).

(** _FindActiveVertices, graphNonplanar.c:253-280, for outerplanarity *)
Definition _FindActiveVertices (g : graph) (R : Z) : res (Z * Z) :=
  '(X, _) <- _GetNeighborOnExtFace g R 1 ;;
  '(Y, _) <- _GetNeighborOnExtFace g R 0 ;;
  Ret (X, Y).

(** _FindPertinentVertex, graphNonplanar.c:290-305 *)
Fixpoint find_pert_loop (n : nat) (g : graph) (Y W WPrevLink : Z) : res Z :=
  match n with
  | O => OOF
  | S n' =>
    if W =? Y then Ret NIL
    else
      p <- PERTINENT g W ;;
      if p then Ret W
      else '(W, WPrevLink) <- _GetNeighborOnExtFace g W WPrevLink ;; find_pert_loop n' g Y W WPrevLink
  end.
Definition _FindPertinentVertex (g : graph) (X Y : Z) : res Z :=
  '(W, WPrevLink) <- _GetNeighborOnExtFace g X 1 ;;
  find_pert_loop (S (S (Z.to_nat (2 * gN g)))) g Y W WPrevLink.

(** _SetVertexTypesForMarkingXYPath, graphNonplanar.c:314-357 *)
Fixpoint set_types_loop (n : nat) (g : graph) (low X W Z ZPrevLink ZType : Z) : res graph :=
  match n with
  | O => OOF
  | S n' =>
    if Z =? W then Ret g
    else
      let ZType := if Z =? X then low else ZType in
      g <- gp_ResetVertexObstructionType g Z ZType ;;
      '(Z, ZPrevLink) <- _GetNeighborOnExtFace g Z ZPrevLink ;;
      set_types_loop n' g low X W Z ZPrevLink ZType
  end.
Definition _SetVertexTypesForMarkingXYPath (g : graph) (R X Y W : Z) : res (graph * Z) :=
  if (R =? NIL) || (X =? NIL) || (Y =? NIL) || (W =? NIL) then Ret (g, C_NOTOK)
  else
    g <- _ClearVertexTypeInBicomp g R ;;
    '(Z, ZPrevLink) <- _GetNeighborOnExtFace g R 1 ;;
    g <- set_types_loop (S (S (Z.to_nat (2 * gN g)))) g OBS_LOW_RXW X W Z ZPrevLink OBS_HIGH_RXW ;;
    '(Z, ZPrevLink) <- _GetNeighborOnExtFace g R 0 ;;
    g <- set_types_loop (S (S (Z.to_nat (2 * gN g)))) g OBS_LOW_RYW Y W Z ZPrevLink OBS_HIGH_RYW ;;
    Ret (g, C_OK).

(** _InitializeNonplanarityContext, graphNonplanar.c:147-192, for outerplanarity: the graph, the
    result and IC.r, IC.x, IC.y, IC.w *)
Definition _InitializeNonplanarityContext (g : graph) (R : Z) : res (graph * Z * (Z * Z * Z * Z)) :=
  '(g, R) <- (if stk_empty g then Ret (g, R) else '(g, R, _) <- stk_pop2 g ;; Ret (g, R)) ;;
  g <- _OrientVerticesInBicomp g R true ;;
  g <- _ClearVisitedFlagsInBicomp g R ;;
  '(X, Y) <- _FindActiveVertices g R ;;
  W <- _FindPertinentVertex g X Y ;;
  '(g, r) <- _SetVertexTypesForMarkingXYPath g R X Y W ;;
  Ret (g, r, (R, X, Y, W)).

(** ** The X-Y path *)
(** _PopAndUnmarkVerticesAndEdges, graphNonplanar.c:369-396; it always returns OK *)
Fixpoint pop_unmark (n : nat) (g : graph) (Z bottom : Z) : res graph :=
  match n with
  | O => OOF
  | S n' =>
    if stk_size g <=? bottom then Ret g
    else
      '(g, V) <- stk_pop g ;;
      if V =? Z then stk_push g V
      else
        '(g, e) <- stk_pop g ;;
        g <- gp_ClearVertexVisited g V ;;
        g <- gp_ClearEdgeVisited g e ;;
        g <- gp_ClearEdgeVisited g (gp_GetTwinArc e) ;;
        pop_unmark n' g Z bottom
  end.
Definition _PopAndUnmarkVerticesAndEdges (g : graph) (Z bottom : Z) : res graph :=
  pop_unmark (S (length (gstack g))) g Z bottom.
(** sp_SetCurrentSize, stack.h: only used to shrink the stack *)
Definition stk_shrink (g : graph) (size : Z) : graph :=
  set_gstack g (skipn (length (gstack g) - Z.to_nat size) (gstack g)).

Definition is_RXW (t : Z) : bool := (t =? OBS_HIGH_RXW) || (t =? OBS_LOW_RXW).
Definition is_RYW (t : Z) : bool := (t =? OBS_HIGH_RYW) || (t =? OBS_LOW_RYW).
(** graphNonplanar.c:596-674, with target vertex R: the graph, px and py *)
Fixpoint xy_loop (n : nat) (g : graph) (W bottom z e px : Z) : res (graph * Z * Z) :=
  match n with
  | O => OOF
  | S n' =>
    t <- gp_GetVertexObstructionType g z ;;
    if is_RYW t then Ret (g, px, NIL)
    else
      e <- gp_GetPrevArcCircular g e ;;
      z <- gp_GetNeighbor g e ;;
      let e := gp_GetTwinArc e in
      vis <- gp_GetVertexVisited g z ;;
      if negb (vis =? 0) then
        g <- _PopAndUnmarkVerticesAndEdges g z bottom ;;
        xy_loop n' g W bottom z e px
      else if z =? W then
        g <- _PopAndUnmarkVerticesAndEdges g NIL bottom ;;
        Ret (g, px, NIL)
      else
        t <- gp_GetVertexObstructionType g z ;;
        '(g, px) <- (if is_RXW t then
                       g <- _PopAndUnmarkVerticesAndEdges g NIL bottom ;; Ret (g, z)
                     else Ret (g, px)) ;;
        g <- stk_push g e ;;
        g <- stk_push g z ;;
        g <- gp_SetVertexVisited g z ;;
        g <- (if negb (z =? px) then
                g <- gp_SetEdgeVisited g e ;; gp_SetEdgeVisited g (gp_GetTwinArc e)
              else Ret g) ;;
        if is_RYW t then Ret (g, px, z) else xy_loop n' g W bottom z e px
  end.
(** _MarkHighestXYPath, graphNonplanar.c:419-422, that is _MarkClosestXYPath (547-693) with target
    vertex R: the graph, the result, px and py *)
Definition _MarkHighestXYPath (g : graph) (R W : Z) : res (graph * Z * Z * Z) :=
  let bottom1 := stk_size g in
  '(g, r) <- _HideInternalEdges g R ;;
  if negb (r =? C_OK) then Ret (g, C_NOTOK, NIL, NIL)
  else
    let bottom2 := stk_size g in
    e <- gp_GetLastArc g R ;;
    '(g, px, py) <- xy_loop (efuel g) g W bottom2 R e NIL ;;
    '(g, r) <- _RestoreInternalEdges (stk_shrink g bottom2) bottom1 ;;
    if negb (r =? C_OK) then Ret (g, C_NOTOK, px, py)
    else Ret (g, C_OK, if py =? NIL then NIL else px, py).

(** ** The edge to the current vertex *)
(** graphIsolator.c:525-539: the least neighbour in the forward arc list that is at least [root] *)
Fixpoint least_desc_loop (n : nat) (g : graph) (ancestor root e d : Z) : res Z :=
  match n with
  | O => OOF
  | S n' =>
    if e =? NIL then Ret d
    else
      w <- gp_GetNeighbor g e ;;
      let d := if root <=? w then (if (d =? NIL) || (w <? d) then w else d) else d in
      e' <- gp_GetNextArc g e ;;
      h <- gp_GetVertexFwdArcList g ancestor ;;
      least_desc_loop n' g ancestor root (if e' =? h then NIL else e') d
  end.
(** graphIsolator.c:546-553 *)
Fixpoint descends_loop (n : nat) (g : graph) (root Z : Z) : res bool :=
  match n with
  | O => OOF
  | S n' =>
    if Z =? root then Ret true
    else
      p <- gp_GetVertexParent g Z ;;
      if (p =? NIL) || (p =? Z) then Ret false else descends_loop n' g root p
  end.
(** _FindUnembeddedEdgeToSubtree, graphIsolator.c:512-558; [None] stands for FALSE *)
Definition _FindUnembeddedEdgeToSubtree (g : graph) (ancestor SubtreeRoot : Z) : res (option Z) :=
  let root := if gp_IsVirtualVertex g SubtreeRoot then gp_GetDFSChildFromRoot g SubtreeRoot else SubtreeRoot in
  e <- gp_GetVertexFwdArcList g ancestor ;;
  d <- least_desc_loop (efuel g) g ancestor root e NIL ;;
  if d =? NIL then Ret None
  else b <- descends_loop (S (Z.to_nat (gN g))) g root d ;; Ret (if b then Some d else None).
(** _FindUnembeddedEdgeToCurVertex, graphIsolator.c:488-503 *)
Definition _FindUnembeddedEdgeToCurVertex (g : graph) (v cutVertex : Z) : res (option Z) :=
  e <- gp_GetVertexPertinentEdge g cutVertex ;;
  if negb (e =? NIL) then Ret (Some cutVertex)
  else s <- gp_GetVertexPertinentRootsList g cutVertex ;; _FindUnembeddedEdgeToSubtree g v s.

(** ** Marking *)
(** _MarkPathAlongBicompExtFace, graphIsolator.c:568-594; it always returns OK *)
Fixpoint mark_face_loop (n : nat) (g : graph) (endVert Z ZPrevLink : Z) : res graph :=
  match n with
  | O => OOF
  | S n' =>
    '(Z, ZPrevLink) <- _GetNeighborOnExtFace g Z ZPrevLink ;;
    a <- gp_GetArc g Z ZPrevLink ;;
    g <- gp_SetEdgeVisited g a ;;
    g <- gp_SetEdgeVisited g (gp_GetTwinArc a) ;;
    g <- gp_SetVertexVisited g Z ;;
    if Z =? endVert then Ret g else mark_face_loop n' g endVert Z ZPrevLink
  end.
Definition _MarkPathAlongBicompExtFace (g : graph) (startVert endVert : Z) : res graph :=
  g <- gp_SetVertexVisited g startVert ;;
  mark_face_loop (S (S (Z.to_nat (2 * gN g)))) g endVert startVert 1.
(** graphIsolator.c:637-647: the arc to the DFS parent, NIL if none *)
Fixpoint parent_arc_loop (n : nat) (g : graph) (e : Z) : res Z :=
  match n with
  | O => OOF
  | S n' =>
    if e =? NIL then Ret NIL
    else
      t <- gp_GetEdgeType g e ;;
      if t =? EDGE_TYPE_PARENT then Ret e
      else e' <- gp_GetNextArc g e ;; parent_arc_loop n' g e'
  end.
(** _MarkDFSPath, graphIsolator.c:611-664 *)
Fixpoint mark_dfs_loop (n : nat) (g : graph) (ancestor descendant : Z) : res (graph * Z) :=
  match n with
  | O => OOF
  | S n' =>
    if descendant =? ancestor then Ret (g, C_OK)
    else if descendant =? NIL then Ret (g, C_NOTOK)
    else if gp_IsVirtualVertex g descendant then
      parent <- gp_GetPrimaryVertexFromRoot g descendant ;;
      g <- gp_SetVertexVisited g parent ;;
      mark_dfs_loop n' g ancestor parent
    else
      e <- gp_GetFirstArc g descendant ;;
      e <- parent_arc_loop (efuel g) g e ;;
      if e =? NIL then Ret (g, C_NOTOK)
      else
        parent <- gp_GetNeighbor g e ;;
        if parent =? NIL then Ret (g, C_NOTOK)
        else
          g <- gp_SetEdgeVisited g e ;;
          g <- gp_SetEdgeVisited g (gp_GetTwinArc e) ;;
          g <- gp_SetVertexVisited g parent ;;
          mark_dfs_loop n' g ancestor parent
  end.
Definition _MarkDFSPath (g : graph) (ancestor descendant : Z) : res (graph * Z) :=
  d <- (if gp_IsVirtualVertex g descendant then gp_GetPrimaryVertexFromRoot g descendant else Ret descendant) ;;
  g <- gp_SetVertexVisited g d ;;
  mark_dfs_loop (S (S (Z.to_nat (2 * gN g)))) g ancestor d.

(** ** The remaining edges *)
(** graphIsolator.c:756-765: the forward arc to [descendant], NIL if none *)
Fixpoint fwd_arc_loop (n : nat) (g : graph) (ancestor descendant e : Z) : res Z :=
  match n with
  | O => OOF
  | S n' =>
    if e =? NIL then Ret NIL
    else
      w <- gp_GetNeighbor g e ;;
      if w =? descendant then Ret e
      else
        e' <- gp_GetNextArc g e ;;
        h <- gp_GetVertexFwdArcList g ancestor ;;
        fwd_arc_loop n' g ancestor descendant (if e' =? h then NIL else e')
  end.
(** graphIsolator.c:784-787, 790-793: put [e] in front of the list of [v] *)
Definition push_front (g : graph) (v e : Z) : res graph :=
  g <- gp_SetPrevArc g e NIL ;;
  f <- gp_GetFirstArc g v ;;
  g <- gp_SetNextArc g e f ;;
  f <- gp_GetFirstArc g v ;;
  g <- gp_SetPrevArc g f e ;;
  gp_SetFirstArc g v e.
(** graphIsolator.c:768-781: take the forward arc off the list of [ancestor] *)
Definition take_off (g : graph) (ancestor fwdArc : Z) : res graph :=
  h <- gp_GetVertexFwdArcList g ancestor ;;
  g <- (if h =? fwdArc then
          n <- gp_GetNextArc g fwdArc ;;
          gp_SetVertexFwdArcList g ancestor (if n =? fwdArc then NIL else n)
        else Ret g) ;;
  p <- gp_GetPrevArc g fwdArc ;;
  n <- gp_GetNextArc g fwdArc ;;
  g <- gp_SetNextArc g p n ;;
  n <- gp_GetNextArc g fwdArc ;;
  p <- gp_GetPrevArc g fwdArc ;;
  gp_SetPrevArc g n p.
(** _AddBackEdge, graphIsolator.c:750-796 *)
Definition _AddBackEdge (g : graph) (ancestor descendant : Z) : res graph :=
  e <- gp_GetVertexFwdArcList g ancestor ;;
  fwdArc <- fwd_arc_loop (efuel g) g ancestor descendant e ;;
  if fwdArc =? NIL then Ret g
  else
    let backArc := gp_GetTwinArc fwdArc in
    g <- take_off g ancestor fwdArc ;;
    g <- push_front g ancestor fwdArc ;;
    g <- push_front g descendant backArc ;;
    gp_SetNeighbor g backArc ancestor.
(** _AddAndMarkEdge, graphIsolator.c:729-741; it always returns OK *)
Definition _AddAndMarkEdge (g : graph) (ancestor descendant : Z) : res graph :=
  g <- _AddBackEdge g ancestor descendant ;;
  g <- gp_SetVertexVisited g ancestor ;;
  e <- gp_GetFirstArc g ancestor ;;
  g <- gp_SetEdgeVisited g e ;;
  e <- gp_GetFirstArc g descendant ;;
  g <- gp_SetEdgeVisited g e ;;
  gp_SetVertexVisited g descendant.

(** graphIsolator.c:813-817: embed all edges left in the forward arc list of v *)
Fixpoint add_rest_loop (n : nat) (g : graph) (v : Z) : res graph :=
  match n with
  | O => OOF
  | S n' =>
    e <- gp_GetVertexFwdArcList g v ;;
    if e =? NIL then Ret g
    else
      w <- gp_GetNeighbor g e ;;
      g <- _AddBackEdge g v w ;;
      add_rest_loop n' g v
  end.
(** graphIsolator.c:824-831: delete the unmarked edges of one vertex *)
Fixpoint delete_unmarked_loop (n : nat) (g : graph) (e : Z) : res graph :=
  match n with
  | O => OOF
  | S n' =>
    if e =? NIL then Ret g
    else
      m <- gp_GetEdgeVisited g e ;;
      if negb (m =? 0) then e' <- gp_GetNextArc g e ;; delete_unmarked_loop n' g e'
      else '(g, e') <- gp_DeleteEdge g e 0 ;; delete_unmarked_loop n' g e'
  end.
(** _DeleteUnmarkedVerticesAndEdges, graphIsolator.c:804-833; it always returns OK *)
Definition _DeleteUnmarkedVerticesAndEdges (g : graph) : res graph :=
  g <- for_up (Z.to_nat (gN g)) 1 (fun v g => add_rest_loop (efuel g) g v) g ;;
  for_up (Z.to_nat (gN g)) 1 (fun v g => e <- gp_GetFirstArc g v ;; delete_unmarked_loop (efuel g) g e) g.

(** ** The isolator *)
(** graphOuterplanarObstruction.c:145-196: the isolators of the three kinds of obstruction, which
    differ only in the path from v to r that minor A needs *)
Definition isolate_minor (g : graph) (minorA : bool) (v r w dw : Z) : res (graph * Z) :=
  g <- _MarkPathAlongBicompExtFace g r r ;;
  '(g, ret) <- (if minorA then _MarkDFSPath g v r else Ret (g, C_OK)) ;;
  if negb (ret =? C_OK) then Ret (g, C_NOTOK)
  else
    '(g, ret) <- _MarkDFSPath g w dw ;;
    if negb (ret =? C_OK) then Ret (g, C_NOTOK)
    else
      '(g, ret) <- _JoinBicomps g ;;
      if negb (ret =? C_OK) then Ret (g, C_NOTOK)
      else g <- _AddAndMarkEdge g v dw ;; Ret (g, C_OK).
(** _IsolateOuterplanarObstruction, graphOuterplanarObstruction.c:84-139, with
    _ChooseTypeOfNonOuterplanarityMinor (48-78) *)
Definition _IsolateOuterplanarObstruction (g : graph) (v R : Z) : res (graph * Z) :=
  g <- _ClearVisitedFlags g ;;
  '(g, ret, (r, x, y, w)) <- _InitializeNonplanarityContext g R ;;
  if negb (ret =? C_OK) then Ret (g, C_NOTOK)
  else
    p <- gp_GetPrimaryVertexFromRoot g r ;;
    let minorA := negb (p =? v) in
    minorB <- (if minorA then Ret false else h <- gp_GetVertexPertinentRootsList g w ;; Ret (negb (h =? NIL))) ;;
    o <- (if minorB then s <- gp_GetVertexLastPertinentRootChild g w ;; _FindUnembeddedEdgeToSubtree g v s
          else _FindUnembeddedEdgeToCurVertex g v w) ;;
    match o with
    | None => Ret (g, C_NOTOK)
    | Some dw =>
      '(g, ok) <- (if minorA || minorB then Ret (g, true)
                   else '(g, ret, _, py) <- _MarkHighestXYPath g r w ;; Ret (g, (ret =? C_OK) && negb (py =? NIL))) ;;
      if negb ok then Ret (g, C_NOTOK)
      else
        '(g, ret) <- isolate_minor g minorA v r w dw ;;
        if negb (ret =? C_OK) then Ret (g, ret)
        else g <- _DeleteUnmarkedVerticesAndEdges g ;; Ret (g, C_OK)
    end.
