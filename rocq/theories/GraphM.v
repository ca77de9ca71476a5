(** * GraphM: executable model of the graph data structure.

    Models c/graphLib/graphStructures.h (accessor macros) and
    c/graphLib/graphUtils.c (graph utilities).  Build configuration: SPEED_MACROS
    (unchecked macros), NIL == 0.  Allocation is assumed to succeed here (failure
    is modelled in InitM.v).  Calls through the function table are resolved to the
    base functions (extensions are modelled in ExtM.v). *)
From Verif Require Import Base GraphRec.

(** ** Bounds (graphStructures.h:80-81, 230-231) *)
Definition gp_VertexIndexBound (g : graph) : Z := 1 + gN g + gN g.
Definition gp_PrimaryVertexIndexBound (g : graph) : Z := 1 + gN g.
Definition gp_EdgeIndexBound (g : graph) : Z := 2 + gCap g.
Definition gp_EdgeInUseIndexBound (g : graph) : Z :=
  2 + 2 * (gM g + Z.of_nat (length (gholes g))).
Definition gp_GetLastVirtualVertex (g : graph) : Z := gN g + gN g.

Definition inV (g : graph) (v : Z) : bool := (0 <=? v) && (v <? gp_VertexIndexBound g).
Definition inVI (g : graph) (v : Z) : bool := (0 <=? v) && (v <? gp_PrimaryVertexIndexBound g).
Definition inE (g : graph) (e : Z) : bool := (0 <=? e) && (e <? gp_EdgeIndexBound g).

(** ** Edge record accessors (graphStructures.h:85-119) *)
(** graphStructures.h:85 *)
Definition gp_GetTwinArc (e : Z) : Z := Z.lxor e 1.
(** graphStructures.h:88-90 *)
Definition gp_GetNextArc (g : graph) (e : Z) : res Z := guard (inE g e) (Ret (enext g e)).
Definition gp_GetPrevArc (g : graph) (e : Z) : res Z := guard (inE g e) (Ret (eprev g e)).
Definition gp_GetAdjacentArc (g : graph) (e link : Z) : res Z :=
  if link =? 0 then gp_GetNextArc g e else if link =? 1 then gp_GetPrevArc g e else UB.
(** graphStructures.h:92-94 *)
Definition gp_SetNextArc (g : graph) (e x : Z) : res graph :=
  guard (inE g e) (Ret (set_enext g (upd (enext g) e x))).
Definition gp_SetPrevArc (g : graph) (e x : Z) : res graph :=
  guard (inE g e) (Ret (set_eprev g (upd (eprev g) e x))).
Definition gp_SetAdjacentArc (g : graph) (e link x : Z) : res graph :=
  if link =? 0 then gp_SetNextArc g e x else if link =? 1 then gp_SetPrevArc g e x else UB.
(** graphStructures.h:97-98 *)
Definition gp_GetNeighbor (g : graph) (e : Z) : res Z := guard (inE g e) (Ret (enbr g e)).
Definition gp_SetNeighbor (g : graph) (e x : Z) : res graph :=
  guard (inE g e) (Ret (set_enbr g (upd (enbr g) e x))).
(** graphStructures.h:101-107 *)
Definition rd_eflags (g : graph) (e : Z) : res Z := guard (inE g e) (Ret (eflags g e)).
Definition wr_eflags (g : graph) (e x : Z) : res graph :=
  guard (inE g e) (Ret (set_eflags g (upd (eflags g) e x))).
Definition EDGE_VISITED_MASK : Z := 1.
Definition gp_GetEdgeVisited (g : graph) (e : Z) : res Z :=
  f <- rd_eflags g e ;; Ret (Z.land f EDGE_VISITED_MASK).
Definition gp_ClearEdgeVisited (g : graph) (e : Z) : res graph :=
  f <- rd_eflags g e ;; wr_eflags g e (Z.ldiff f EDGE_VISITED_MASK).
Definition gp_SetEdgeVisited (g : graph) (e : Z) : res graph :=
  f <- rd_eflags g e ;; wr_eflags g e (Z.lor f EDGE_VISITED_MASK).
(** graphStructures.h:110-133 *)
Definition EDGE_TYPE_MASK : Z := 14.
Definition EDGE_TYPE_CHILD : Z := 14.
Definition EDGE_TYPE_FORWARD : Z := 10.
Definition EDGE_TYPE_PARENT : Z := 6.
Definition EDGE_TYPE_BACK : Z := 2.
Definition EDGE_TYPE_NOTDEFINED : Z := 0.
Definition EDGE_TYPE_RANDOMTREE : Z := 4.
Definition gp_GetEdgeType (g : graph) (e : Z) : res Z :=
  f <- rd_eflags g e ;; Ret (Z.land f EDGE_TYPE_MASK).
Definition gp_ClearEdgeType (g : graph) (e : Z) : res graph :=
  f <- rd_eflags g e ;; wr_eflags g e (Z.ldiff f EDGE_TYPE_MASK).
Definition gp_SetEdgeType (g : graph) (e t : Z) : res graph :=
  f <- rd_eflags g e ;; wr_eflags g e (Z.lor f t).
Definition gp_ResetEdgeType (g : graph) (e t : Z) : res graph :=
  f <- rd_eflags g e ;; wr_eflags g e (Z.lor (Z.ldiff f EDGE_TYPE_MASK) t).
(** graphStructures.h:135-139 *)
Definition EDGEFLAG_INVERTED_MASK : Z := 16.
Definition gp_GetEdgeFlagInverted (g : graph) (e : Z) : res Z :=
  f <- rd_eflags g e ;; Ret (Z.land f EDGEFLAG_INVERTED_MASK).
Definition gp_ClearEdgeFlagInverted (g : graph) (e : Z) : res graph :=
  f <- rd_eflags g e ;; wr_eflags g e (Z.ldiff f EDGEFLAG_INVERTED_MASK).
Definition gp_SetEdgeFlagInverted (g : graph) (e : Z) : res graph :=
  f <- rd_eflags g e ;; wr_eflags g e (Z.lor f EDGEFLAG_INVERTED_MASK).
Definition gp_XorEdgeFlagInverted (g : graph) (e : Z) : res graph :=
  f <- rd_eflags g e ;; wr_eflags g e (Z.lxor f EDGEFLAG_INVERTED_MASK).
(** graphStructures.h:141-146 *)
Definition DIR_INONLY : Z := 32.
Definition DIR_OUTONLY : Z := 64.
Definition DIR_MASK : Z := 96.
Definition gp_GetDirection (g : graph) (e : Z) : res Z :=
  f <- rd_eflags g e ;; Ret (Z.land f DIR_MASK).
(** graphStructures.h:149-166 *)
Definition gp_SetDirection (g : graph) (e d : Z) : res graph :=
  if d =? DIR_INONLY then
    f <- rd_eflags g e ;;
    g <- wr_eflags g e (Z.lor f DIR_INONLY) ;;
    f <- rd_eflags g (gp_GetTwinArc e) ;;
    wr_eflags g (gp_GetTwinArc e) (Z.lor f DIR_OUTONLY)
  else if d =? DIR_OUTONLY then
    f <- rd_eflags g e ;;
    g <- wr_eflags g e (Z.lor f DIR_OUTONLY) ;;
    f <- rd_eflags g (gp_GetTwinArc e) ;;
    wr_eflags g (gp_GetTwinArc e) (Z.lor f DIR_INONLY)
  else
    f <- rd_eflags g e ;;
    g <- wr_eflags g e (Z.ldiff f (Z.lor DIR_INONLY DIR_OUTONLY)) ;;
    f <- rd_eflags g (gp_GetTwinArc e) ;;
    wr_eflags g (gp_GetTwinArc e) (Z.ldiff f DIR_MASK).

(** ** Vertex record accessors (graphStructures.h:213-219, 270-300) *)
Definition gp_GetFirstArc (g : graph) (v : Z) : res Z := guard (inV g v) (Ret (vfirst g v)).
Definition gp_GetLastArc (g : graph) (v : Z) : res Z := guard (inV g v) (Ret (vlast g v)).
Definition gp_GetArc (g : graph) (v link : Z) : res Z :=
  if link =? 0 then gp_GetFirstArc g v else if link =? 1 then gp_GetLastArc g v else UB.
Definition gp_SetFirstArc (g : graph) (v x : Z) : res graph :=
  guard (inV g v) (Ret (set_vfirst g (upd (vfirst g) v x))).
Definition gp_SetLastArc (g : graph) (v x : Z) : res graph :=
  guard (inV g v) (Ret (set_vlast g (upd (vlast g) v x))).
Definition gp_SetArc (g : graph) (v link x : Z) : res graph :=
  if link =? 0 then gp_SetFirstArc g v x else if link =? 1 then gp_SetLastArc g v x else UB.
Definition gp_GetVertexIndex (g : graph) (v : Z) : res Z := guard (inV g v) (Ret (vindex g v)).
Definition gp_SetVertexIndex (g : graph) (v x : Z) : res graph :=
  guard (inV g v) (Ret (set_vindex g (upd (vindex g) v x))).
Definition rd_vflags (g : graph) (v : Z) : res Z := guard (inV g v) (Ret (vflags g v)).
Definition wr_vflags (g : graph) (v x : Z) : res graph :=
  guard (inV g v) (Ret (set_vflags g (upd (vflags g) v x))).
Definition VERTEX_VISITED_MASK : Z := 1.
Definition gp_GetVertexVisited (g : graph) (v : Z) : res Z :=
  f <- rd_vflags g v ;; Ret (Z.land f VERTEX_VISITED_MASK).
Definition gp_ClearVertexVisited (g : graph) (v : Z) : res graph :=
  f <- rd_vflags g v ;; wr_vflags g v (Z.ldiff f VERTEX_VISITED_MASK).
Definition gp_SetVertexVisited (g : graph) (v : Z) : res graph :=
  f <- rd_vflags g v ;; wr_vflags g v (Z.lor f VERTEX_VISITED_MASK).
Definition VERTEX_OBSTRUCTIONTYPE_MASK : Z := 14.
Definition gp_ClearVertexObstructionType (g : graph) (v : Z) : res graph :=
  f <- rd_vflags g v ;; wr_vflags g v (Z.ldiff f VERTEX_OBSTRUCTIONTYPE_MASK).

(** ** Vertex info accessors (graphStructures.h:411-474) *)
Definition rd_vi (fld : vinfo -> Z -> Z) (g : graph) (v : Z) : res Z :=
  guard (inVI g v) (Ret (fld (gVI g) v)).
Definition gp_GetVertexParent := rd_vi viParent.
Definition gp_GetVertexLeastAncestor := rd_vi viLeast.
Definition gp_GetVertexLowpoint := rd_vi viLow.
Definition gp_GetVertexVisitedInfo := rd_vi viVisited.
Definition gp_GetVertexPertinentEdge := rd_vi viPertEdge.
Definition gp_GetVertexPertinentRootsList := rd_vi viPertRoots.
Definition gp_GetVertexFuturePertinentChild := rd_vi viFPChild.
Definition gp_GetVertexSortedDFSChildList := rd_vi viSDC.
Definition gp_GetVertexFwdArcList := rd_vi viFwd.
Definition gp_SetVertexParent (g : graph) (v x : Z) : res graph :=
  guard (inVI g v) (Ret (set_gVI g (set_viParent (gVI g) (upd (viParent (gVI g)) v x)))).
Definition gp_SetVertexLeastAncestor (g : graph) (v x : Z) : res graph :=
  guard (inVI g v) (Ret (set_gVI g (set_viLeast (gVI g) (upd (viLeast (gVI g)) v x)))).
Definition gp_SetVertexLowpoint (g : graph) (v x : Z) : res graph :=
  guard (inVI g v) (Ret (set_gVI g (set_viLow (gVI g) (upd (viLow (gVI g)) v x)))).
Definition gp_SetVertexVisitedInfo (g : graph) (v x : Z) : res graph :=
  guard (inVI g v) (Ret (set_gVI g (set_viVisited (gVI g) (upd (viVisited (gVI g)) v x)))).
Definition gp_SetVertexPertinentEdge (g : graph) (v x : Z) : res graph :=
  guard (inVI g v) (Ret (set_gVI g (set_viPertEdge (gVI g) (upd (viPertEdge (gVI g)) v x)))).
Definition gp_SetVertexPertinentRootsList (g : graph) (v x : Z) : res graph :=
  guard (inVI g v) (Ret (set_gVI g (set_viPertRoots (gVI g) (upd (viPertRoots (gVI g)) v x)))).
Definition gp_SetVertexFuturePertinentChild (g : graph) (v x : Z) : res graph :=
  guard (inVI g v) (Ret (set_gVI g (set_viFPChild (gVI g) (upd (viFPChild (gVI g)) v x)))).
Definition gp_SetVertexSortedDFSChildList (g : graph) (v x : Z) : res graph :=
  guard (inVI g v) (Ret (set_gVI g (set_viSDC (gVI g) (upd (viSDC (gVI g)) v x)))).
Definition gp_SetVertexFwdArcList (g : graph) (v x : Z) : res graph :=
  guard (inVI g v) (Ret (set_gVI g (set_viFwd (gVI g) (upd (viFwd (gVI g)) v x)))).

(** graphStructures.h:346-347 *)
Definition gp_GetExtFaceVertex (g : graph) (v link : Z) : res Z :=
  guard (inV g v)
    (if link =? 0 then Ret (ext0 (gX g) v) else if link =? 1 then Ret (ext1 (gX g) v) else UB).
Definition gp_SetExtFaceVertex (g : graph) (v link x : Z) : res graph :=
  guard (inV g v)
    (if link =? 0 then Ret (set_gX g (set_ext0 (gX g) (upd (ext0 (gX g)) v x)))
     else if link =? 1 then Ret (set_gX g (set_ext1 (gX g) (upd (ext1 (gX g)) v x))) else UB).

(** ** The graph's own stack and edge-hole stack: unchecked SPEED_MACROS pushes and
    pops (lowLevelUtils/stack.h:52-83); an overflow or underflow is UB. *)
Definition stk_push (g : graph) (x : Z) : res graph :=
  guard (Z.of_nat (length (gstack g)) <? gstackCap g) (Ret (set_gstack g (x :: gstack g))).
Definition stk_pop (g : graph) : res (graph * Z) :=
  match gstack g with
  | [] => UB
  | x :: s => Ret (set_gstack g s, x)
  end.
Definition stk_size (g : graph) : Z := Z.of_nat (length (gstack g)).
(** sp_Get/sp_Set: index 0 is the bottom; reading above the top (stale or
    uninitialised memory) is UB in the model. *)
Definition stk_get (g : graph) (i : Z) : res Z :=
  guard ((0 <=? i) && (i <? stk_size g)) (Ret (nth (Z.to_nat (stk_size g - 1 - i)) (gstack g) 0)).
Fixpoint list_set (l : list Z) (n : nat) (x : Z) : list Z :=
  match l, n with
  | [], _ => []
  | _ :: l', O => x :: l'
  | y :: l', S n' => y :: list_set l' n' x
  end.
Definition stk_set (g : graph) (i x : Z) : res graph :=
  guard ((0 <=? i) && (i <? stk_size g))
    (Ret (set_gstack g (list_set (gstack g) (Z.to_nat (stk_size g - 1 - i)) x))).
Definition holes_push (g : graph) (x : Z) : res graph :=
  guard (Z.of_nat (length (gholes g)) <? gholesCap g) (Ret (set_gholes g (x :: gholes g))).

(** ** Construction *)
Definition zfun : Z -> Z := fun _ => 0.
Definition ic_init : isoctx := mkIC 0 0 0 0 0 0 0 0 0 0 0 0 0 0 0 0.
Definition vi_init : vinfo := mkVI zfun zfun zfun zfun zfun zfun zfun zfun zfun.
Definition ex_init : embx := mkEX zfun zfun zfun zfun zfun zfun ic_init.

(** gp_New, graphUtils.c:90-116 with _ClearGraph 835-876: no vertices, no storage. *)
Definition gp_New : graph :=
  mkG 0 0 0 zfun zfun zfun zfun zfun zfun zfun zfun [] 0 [] 0 0 0 vi_init ex_init.

(** _InitVertices, graphUtils.c:245-284 (memset of V, VI, extFace) *)
Definition _InitVertices (g : graph) : graph :=
  let g := set_vfirst (set_vlast (set_vindex (set_vflags g zfun) zfun) zfun) zfun in
  set_gX (set_gVI g vi_init) (set_ext1 (set_ext0 (gX g) zfun) zfun).
(** _InitEdges, graphUtils.c:289-309 (memset of E) *)
Definition _InitEdges (g : graph) : graph :=
  set_enext (set_eprev (set_enbr (set_eflags g zfun) zfun) zfun) zfun.
(** _InitIsolatorContext, graphUtils.c:532-539 *)
Definition _InitIsolatorContext (g : graph) : graph := set_gX g (set_exIC (gX g) ic_init).
(** LCReset of both list collections, listcoll.h:58 *)
Definition lists_reset (g : graph) : graph :=
  set_gX g (set_sdlNext (set_sdlPrev (set_brlNext (set_brlPrev (gX g) zfun) zfun) zfun) zfun).

(** _InitGraph, graphUtils.c:203-240 *)
Definition _InitGraph (g : graph) (N : Z) : graph * Z :=
  let g := set_gN g N in
  let g := set_gCap g (if gCap g >? 0 then gCap g else 2 * 3 * N) in
  let Esize := gp_EdgeIndexBound g in
  let stackSize := 2 * Esize in
  let stackSize := if stackSize <? 6 * N then 6 * N else stackSize in
  let g := lists_reset g in
  let g := set_gstackCap (set_gstack g []) stackSize in
  let g := set_gholesCap (set_gholes g []) (Esize / 2) in
  (_InitIsolatorContext (_InitEdges (_InitVertices g)), C_OK).

(** gp_InitGraph, graphUtils.c:190-201 *)
Definition gp_InitGraph (g : graph) (N : Z) : graph * Z :=
  if N <=? 0 then (g, C_NOTOK)
  else if negb (gN g =? 0) then (g, C_NOTOK)
  else _InitGraph g N.

(** gp_ReinitializeGraph and _ReinitializeGraph, graphUtils.c:314-335 *)
Definition _ReinitializeGraph (g : graph) : graph :=
  let g := set_gM g 0 in
  let g := set_gembed (set_giflags g 0) 0 in
  let g := _InitIsolatorContext (_InitEdges (_InitVertices g)) in
  let g := lists_reset g in
  set_gholes (set_gstack g []) [].
Definition gp_ReinitializeGraph (g : graph) : graph :=
  if gN g <=? 0 then g else _ReinitializeGraph g.

(** gp_GetArcCapacity, graphUtils.c:342-345 *)
Definition gp_GetArcCapacity (g : graph) : Z := gCap g - 2.

(** _InitEdgeRec, graphUtils.c:520-526 *)
Definition _InitEdgeRec (g : graph) (e : Z) : res graph :=
  g <- gp_SetNeighbor g e NIL ;;
  g <- gp_SetPrevArc g e NIL ;;
  g <- gp_SetNextArc g e NIL ;;
  wr_eflags g e 0.

(** _EnsureArcCapacity, graphUtils.c:424-481.  realloc makes the new edge records
    accessible before they are initialised, so the bound is raised first; the C code
    stores arcCapacity only afterwards, which no intermediate step can observe. *)
Definition _EnsureArcCapacity (g : graph) (req : Z) : res (graph * Z) :=
  let Esize := gp_EdgeIndexBound g in
  let newEsize := 2 + req in
  if newEsize <=? Esize then Ret (g, C_OK)
  else
    let g :=
      if gstackCap g <? 2 * req then
        let stackSize := 2 * req in
        let stackSize := if stackSize <? 6 * gN g then 6 * gN g else stackSize in
        (* sp_CopyContent keeps nothing when it does not fit, stack.c:50-60 *)
        let content := if stackSize <? Z.of_nat (length (gstack g)) then [] else gstack g in
        set_gstackCap (set_gstack g content) stackSize
      else g in
    let holes := if req / 2 <? Z.of_nat (length (gholes g)) then [] else gholes g in
    let g := set_gholesCap (set_gholes g holes) (req / 2) in
    let g := set_gCap g req in
    g <- for_up (Z.to_nat (newEsize - Esize)) Esize (fun e g => _InitEdgeRec g e) g ;;
    Ret (g, C_OK).

(** gp_EnsureArcCapacity, graphUtils.c:398-422 *)
Definition gp_EnsureArcCapacity (g : graph) (req : Z) : res (graph * Z) :=
  if req <=? 0 then Ret (g, C_NOTOK)
  else if negb (Z.land req 1 =? 0) then Ret (g, C_NOTOK)
  else if gCap g >=? req then Ret (g, C_OK)
  else if gN g =? 0 then Ret (set_gCap g req, C_OK)
  else _EnsureArcCapacity g req.

(** ** Adjacency list surgery *)
(** gp_AttachArc, graphUtils.c:1534-1570 *)
Definition gp_AttachArc (g : graph) (v e link newArc : Z) : res graph :=
  if negb (e =? NIL) then
    e2 <- gp_GetAdjacentArc g e link ;;
    g <- gp_SetAdjacentArc g e link newArc ;;
    g <- gp_SetAdjacentArc g newArc (Z.lxor 1 link) e ;;
    g <- gp_SetAdjacentArc g newArc link e2 ;;
    if negb (e2 =? NIL) then gp_SetAdjacentArc g e2 (Z.lxor 1 link) newArc
    else gp_SetArc g v (Z.lxor 1 link) newArc
  else
    e2 <- gp_GetArc g v link ;;
    g <- gp_SetArc g v link newArc ;;
    g <- gp_SetAdjacentArc g newArc (Z.lxor 1 link) NIL ;;
    g <- gp_SetAdjacentArc g newArc link e2 ;;
    if negb (e2 =? NIL) then gp_SetAdjacentArc g e2 (Z.lxor 1 link) newArc
    else gp_SetArc g v (Z.lxor 1 link) newArc.

(** gp_DetachArc, graphUtils.c:1592-1606 *)
Definition gp_DetachArc (g : graph) (arc : Z) : res graph :=
  nextArc <- gp_GetNextArc g arc ;;
  prevArc <- gp_GetPrevArc g arc ;;
  g <- (if negb (nextArc =? NIL) then gp_SetPrevArc g nextArc prevArc
        else v <- gp_GetNeighbor g (gp_GetTwinArc arc) ;; gp_SetLastArc g v prevArc) ;;
  if negb (prevArc =? NIL) then gp_SetNextArc g prevArc nextArc
  else v <- gp_GetNeighbor g (gp_GetTwinArc arc) ;; gp_SetFirstArc g v nextArc.

(** The slot choice shared by gp_AddEdge and gp_InsertEdge, graphUtils.c:1638-1645, 1722-1729 *)
Definition take_edge_slot (g : graph) : graph * Z :=
  match gholes g with
  | h :: hs => (set_gholes g hs, h)
  | [] => (g, gp_EdgeInUseIndexBound g)
  end.

(** gp_AddEdge, graphUtils.c:1625-1654 *)
Definition gp_AddEdge (g : graph) (u ulink v vlink : Z) : res (graph * Z) :=
  if (u <? 1) || (v <? 1) || negb (u <=? gN g + gN g) || negb (v <=? gN g + gN g) then Ret (g, C_NOTOK)
  else if gM g >=? gCap g / 2 then Ret (g, C_NONEMBEDDABLE)
  else
    let '(g, vpos) := take_edge_slot g in
    let upos := gp_GetTwinArc vpos in
    g <- gp_SetNeighbor g upos v ;;
    g <- gp_AttachArc g u NIL ulink upos ;;
    g <- gp_SetNeighbor g vpos u ;;
    g <- gp_AttachArc g v NIL vlink vpos ;;
    Ret (set_gM g (gM g + 1), C_OK).

(** gp_DynamicAddEdge, graphUtils.c:1664-1688; overflow of the two products is UB *)
Definition gp_DynamicAddEdge (g : graph) (u ulink v vlink : Z) : res (graph * Z) :=
  if (u <? 1) || (v <? 1) || negb (u <=? gN g + gN g) || negb (v <=? gN g + gN g) then Ret (g, C_NOTOK)
  else
    '(g, r) <- gp_AddEdge g u ulink v vlink ;;
    if r =? C_NONEMBEDDABLE then
      guard (int_ok (gp_GetArcCapacity g * 2) && int_ok (gN g * (gN g - 1))) (
      let candidate := gp_GetArcCapacity g * 2 in
      let newcap := if candidate >? gN g * (gN g - 1) then gN g * (gN g - 1) else candidate in
      '(g, r) <- gp_EnsureArcCapacity g newcap ;;
      if negb (r =? C_OK) then Ret (g, r) else gp_AddEdge g u ulink v vlink)
    else Ret (g, r).

(** gp_InsertEdge, graphUtils.c:1704-1739 *)
Definition gp_InsertEdge (g : graph) (u e_u e_ulink v e_v e_vlink : Z) : res (graph * Z) :=
  let vertMax := gp_GetLastVirtualVertex g in
  let edgeMax := gp_EdgeInUseIndexBound g - 1 in
  if (u <? 1) || (v <? 1) || (u >? vertMax) || (v >? vertMax) ||
     (e_u >? edgeMax) || ((e_u <? 2) && negb (e_u =? NIL)) ||
     (e_v >? edgeMax) || ((e_v <? 2) && negb (e_v =? NIL)) ||
     (e_ulink <? 0) || (e_ulink >? 1) || (e_vlink <? 0) || (e_vlink >? 1) then Ret (g, C_NOTOK)
  else if gM g >=? gCap g / 2 then Ret (g, C_NONEMBEDDABLE)
  else
    let '(g, vpos) := take_edge_slot g in
    let upos := gp_GetTwinArc vpos in
    g <- gp_SetNeighbor g upos v ;;
    g <- gp_AttachArc g u e_u e_ulink upos ;;
    g <- gp_SetNeighbor g vpos u ;;
    g <- gp_AttachArc g v e_v e_vlink vpos ;;
    Ret (set_gM g (gM g + 1), C_OK).

(** gp_DeleteEdge, graphUtils.c:1752-1783.  The memset clears both records of the pair. *)
Definition gp_DeleteEdge (g : graph) (e nextLink : Z) : res (graph * Z) :=
  nextArc <- gp_GetAdjacentArc g e nextLink ;;
  g <- gp_DetachArc g e ;;
  g <- gp_DetachArc g (gp_GetTwinArc e) ;;
  let lo := Z.ldiff e 1 in
  g <- _InitEdgeRec g lo ;;
  g <- _InitEdgeRec g (lo + 1) ;;
  let g := set_gM g (gM g - 1) in
  g <- (if e <? gp_EdgeInUseIndexBound g then holes_push g e else Ret g) ;;
  Ret (g, nextArc).

(** ** Hiding and restoring *)
(** _RestoreArc, graphUtils.c:1796-1810 *)
Definition _RestoreArc (g : graph) (arc : Z) : res graph :=
  nextArc <- gp_GetNextArc g arc ;;
  prevArc <- gp_GetPrevArc g arc ;;
  g <- (if negb (nextArc =? NIL) then gp_SetPrevArc g nextArc arc
        else v <- gp_GetNeighbor g (gp_GetTwinArc arc) ;; gp_SetLastArc g v arc) ;;
  if negb (prevArc =? NIL) then gp_SetNextArc g prevArc arc
  else v <- gp_GetNeighbor g (gp_GetTwinArc arc) ;; gp_SetFirstArc g v arc.

(** _HideEdge, graphUtils.c:1832-1836 *)
Definition gp_HideEdge (g : graph) (e : Z) : res graph :=
  g <- gp_DetachArc g e ;; gp_DetachArc g (gp_GetTwinArc e).

(** _RestoreEdge, graphUtils.c:1860-1864 *)
Definition gp_RestoreEdge (g : graph) (e : Z) : res graph :=
  g <- _RestoreArc g (gp_GetTwinArc e) ;; _RestoreArc g e.

(** Fuel for a loop that walks an adjacency list. *)
Definition efuel (g : graph) : nat := S (Z.to_nat (gp_EdgeIndexBound g)).

(** _HideInternalEdges, graphUtils.c:1880-1903 *)
Fixpoint hide_internal_loop (n : nat) (g : graph) (vertex e : Z) : res graph :=
  match n with
  | O => OOF
  | S n' =>
      l <- gp_GetLastArc g vertex ;;
      if e =? l then Ret g
      else
        g <- stk_push g e ;;
        g <- gp_HideEdge g e ;;
        e' <- gp_GetNextArc g e ;;
        hide_internal_loop n' g vertex e'
  end.
Definition _HideInternalEdges (g : graph) (vertex : Z) : res (graph * Z) :=
  e <- gp_GetFirstArc g vertex ;;
  l <- gp_GetLastArc g vertex ;;
  if e =? l then Ret (g, C_OK)
  else
    e <- gp_GetNextArc g e ;;
    g <- hide_internal_loop (efuel g) g vertex e ;;
    Ret (g, C_OK).

(** _RestoreHiddenEdges, graphUtils.c:1925-1938.  Fuel: one unit per stack element. *)
Fixpoint restore_hidden_loop (n : nat) (g : graph) (bottom : Z) : res (graph * Z) :=
  match n with
  | O => OOF
  | S n' =>
      if stk_size g >? bottom then
        '(g, e) <- stk_pop g ;;
        if e =? NIL then Ret (g, C_NOTOK)
        else g <- gp_RestoreEdge g e ;; restore_hidden_loop n' g bottom
      else Ret (g, C_OK)
  end.
Definition _RestoreHiddenEdges (g : graph) (bottom : Z) : res (graph * Z) :=
  restore_hidden_loop (S (length (gstack g))) g bottom.
(** _RestoreInternalEdges, graphUtils.c:1909-1912 *)
Definition _RestoreInternalEdges := _RestoreHiddenEdges.

(** _HideVertex, graphUtils.c:1959-1982 *)
Fixpoint hide_vertex_loop (n : nat) (g : graph) (e : Z) : res graph :=
  match n with
  | O => OOF
  | S n' =>
      if e =? NIL then Ret g
      else
        g <- stk_push g e ;;
        g <- gp_HideEdge g e ;;
        e' <- gp_GetNextArc g e ;;
        hide_vertex_loop n' g e'
  end.
Definition _HideVertex (g : graph) (vertex : Z) : res (graph * Z) :=
  let bottom := stk_size g in
  e <- gp_GetFirstArc g vertex ;;
  g <- hide_vertex_loop (efuel g) g e ;;
  g <- stk_push g bottom ;;
  g <- stk_push g NIL ;;
  g <- stk_push g NIL ;;
  g <- stk_push g NIL ;;
  g <- stk_push g NIL ;;
  g <- stk_push g NIL ;;
  g <- stk_push g vertex ;;
  Ret (g, C_OK).
(** gp_HideVertex, graphUtils.c:1951-1957 *)
Definition gp_HideVertex (g : graph) (vertex : Z) : res (graph * Z) :=
  if vertex =? NIL then Ret (g, C_NOTOK) else _HideVertex g vertex.

(** gp_GetNeighborEdgeRecord, graphUtils.c:1395-1412 *)
Fixpoint nbr_rec_loop (n : nat) (g : graph) (v e : Z) : res Z :=
  match n with
  | O => OOF
  | S n' =>
      if e =? NIL then Ret NIL
      else
        w <- gp_GetNeighbor g e ;;
        if w =? v then Ret e
        else e' <- gp_GetNextArc g e ;; nbr_rec_loop n' g v e'
  end.
Definition gp_GetNeighborEdgeRecord (g : graph) (u v : Z) : res Z :=
  if (u =? NIL) || (v =? NIL) then Ret NIL
  else e <- gp_GetFirstArc g u ;; nbr_rec_loop (efuel g) g v e.

(** gp_IsNeighbor, graphUtils.c:1364-1378 *)
Fixpoint is_nbr_loop (n : nat) (g : graph) (v e : Z) : res Z :=
  match n with
  | O => OOF
  | S n' =>
      if e =? NIL then Ret C_FALSE
      else
        w <- gp_GetNeighbor g e ;;
        d <- gp_GetDirection g e ;;
        if (w =? v) && negb (d =? DIR_INONLY) then Ret C_TRUE
        else e' <- gp_GetNextArc g e ;; is_nbr_loop n' g v e'
  end.
Definition gp_IsNeighbor (g : graph) (u v : Z) : res Z :=
  e <- gp_GetFirstArc g u ;; is_nbr_loop (efuel g) g v e.

(** gp_GetVertexDegree/InDegree/OutDegree, graphUtils.c:1429-1514: count the arcs whose
    direction is not [skip] (a direction value never equals -1). *)
Fixpoint degree_loop (n : nat) (g : graph) (skip e deg : Z) : res Z :=
  match n with
  | O => OOF
  | S n' =>
      if e =? NIL then Ret deg
      else
        d <- gp_GetDirection g e ;;
        e' <- gp_GetNextArc g e ;;
        degree_loop n' g skip e' (if d =? skip then deg else deg + 1)
  end.
Definition gp_GetVertexDegree (g : graph) (v : Z) : res Z :=
  if v =? NIL then Ret 0 else e <- gp_GetFirstArc g v ;; degree_loop (efuel g) g (-1) e 0.
Definition gp_GetVertexInDegree (g : graph) (v : Z) : res Z :=
  if v =? NIL then Ret 0 else e <- gp_GetFirstArc g v ;; degree_loop (efuel g) g DIR_OUTONLY e 0.
Definition gp_GetVertexOutDegree (g : graph) (v : Z) : res Z :=
  if v =? NIL then Ret 0 else e <- gp_GetFirstArc g v ;; degree_loop (efuel g) g DIR_INONLY e 0.

(** ** Vertex identification and edge contraction *)
(** first loop of _IdentifyVertices, graphUtils.c:2092-2101; [None] = return NOTOK *)
Fixpoint ident_mark_loop (n : nat) (g : graph) (e : Z) : res (graph * bool) :=
  match n with
  | O => OOF
  | S n' =>
      if e =? NIL then Ret (g, true)
      else
        w <- gp_GetNeighbor g e ;;
        vis <- gp_GetVertexVisited g w ;;
        if negb (vis =? 0) then Ret (g, false)
        else
          g <- gp_SetVertexVisited g w ;;
          e' <- gp_GetNextArc g e ;;
          ident_mark_loop n' g e'
  end.
(** second loop, graphUtils.c:2103-2114 *)
Fixpoint ident_hide_loop (n : nat) (g : graph) (e : Z) : res graph :=
  match n with
  | O => OOF
  | S n' =>
      if e =? NIL then Ret g
      else
        w <- gp_GetNeighbor g e ;;
        vis <- gp_GetVertexVisited g w ;;
        g <- (if negb (vis =? 0) then g <- stk_push g e ;; gp_HideEdge g e else Ret g) ;;
        e' <- gp_GetNextArc g e ;;
        ident_hide_loop n' g e'
  end.
(** third loop, graphUtils.c:2116-2122 *)
Fixpoint ident_clear_loop (n : nat) (g : graph) (e : Z) : res graph :=
  match n with
  | O => OOF
  | S n' =>
      if e =? NIL then Ret g
      else
        w <- gp_GetNeighbor g e ;;
        g <- gp_ClearVertexVisited g w ;;
        e' <- gp_GetNextArc g e ;;
        ident_clear_loop n' g e'
  end.
(** loop reassigning neighbours, graphUtils.c:2145-2152 *)
Fixpoint ident_reassign_loop (n : nat) (g : graph) (u e : Z) : res graph :=
  match n with
  | O => OOF
  | S n' =>
      if e =? NIL then Ret g
      else
        g <- gp_SetNeighbor g (gp_GetTwinArc e) u ;;
        e' <- gp_GetNextArc g e ;;
        ident_reassign_loop n' g u e'
  end.

(** _IdentifyVertices for non-adjacent u, v, graphUtils.c:2086-2190 *)
Definition identify_nonadjacent (g : graph) (u v eBefore : Z) : res (graph * Z) :=
  let bottom := stk_size g in
  e <- gp_GetFirstArc g u ;;
  '(g, ok) <- ident_mark_loop (efuel g) g e ;;
  if negb ok then Ret (g, C_NOTOK)
  else
    e <- gp_GetFirstArc g v ;;
    g <- ident_hide_loop (efuel g) g e ;;
    e <- gp_GetFirstArc g u ;;
    g <- ident_clear_loop (efuel g) g e ;;
    g <- stk_push g bottom ;;
    eBeforePred <- (if negb (eBefore =? NIL) then gp_GetPrevArc g eBefore else gp_GetLastArc g u) ;;
    lv <- gp_GetLastArc g v ;;
    fv <- gp_GetFirstArc g v ;;
    g <- stk_push g eBefore ;;
    g <- stk_push g lv ;;
    g <- stk_push g fv ;;
    g <- stk_push g eBeforePred ;;
    g <- stk_push g u ;;
    g <- stk_push g v ;;
    g <- ident_reassign_loop (efuel g) g u fv ;;
    if negb (fv =? NIL) then
      g <- (if negb (eBeforePred =? NIL) then
              g <- gp_SetNextArc g eBeforePred fv ;; gp_SetPrevArc g fv eBeforePred
            else gp_SetFirstArc g u fv) ;;
      g <- (if negb (eBefore =? NIL) then
              if negb (lv =? NIL) then
                g <- gp_SetNextArc g lv eBefore ;; gp_SetPrevArc g eBefore lv
              else Ret g
            else gp_SetLastArc g u lv) ;;
      g <- gp_SetFirstArc g v NIL ;;
      g <- gp_SetLastArc g v NIL ;;
      Ret (g, C_OK)
    else Ret (g, C_OK).

(** _IdentifyVertices and _ContractEdge, graphUtils.c:2006-2190, which call each other:
    every adjacent level hides one u-v edge. Fuel: one unit per level. *)
Fixpoint identify_fuel (n : nat) (g : graph) (u v eBefore : Z) : res (graph * Z) :=
  match n with
  | O => OOF
  | S n' =>
      e <- gp_GetNeighborEdgeRecord g u v ;;
      if negb (e =? NIL) then
        (* gp_ContractEdge(theGraph, e), graphUtils.c:2006-2017 *)
        cu <- gp_GetNeighbor g (gp_GetTwinArc e) ;;
        cv <- gp_GetNeighbor g e ;;
        eB <- gp_GetNextArc g e ;;
        g <- stk_push g e ;;
        g <- gp_HideEdge g e ;;
        '(g, result) <- identify_fuel n' g cu cv eB ;;
        (* graphUtils.c:2075-2083 *)
        let idx := stk_size g - 7 in
        b <- stk_get g idx ;;
        g <- stk_set g idx (b - 1) ;;
        Ret (g, result)
      else identify_nonadjacent g u v eBefore
  end.
Definition gp_IdentifyVertices (g : graph) (u v eBefore : Z) : res (graph * Z) :=
  identify_fuel (efuel g) g u v eBefore.

(** gp_ContractEdge, graphUtils.c:1994-2017 *)
Definition gp_ContractEdge (g : graph) (e : Z) : res (graph * Z) :=
  if e =? NIL then Ret (g, C_NOTOK)
  else
    u <- gp_GetNeighbor g (gp_GetTwinArc e) ;;
    v <- gp_GetNeighbor g e ;;
    eBefore <- gp_GetNextArc g e ;;
    g <- stk_push g e ;;
    g <- gp_HideEdge g e ;;
    gp_IdentifyVertices g u v eBefore.

(** loop of _RestoreVertex, graphUtils.c:2290-2297 *)
Fixpoint restore_reassign_loop (n : nat) (g : graph) (v last e : Z) : res graph :=
  match n with
  | O => OOF
  | S n' =>
      if e =? NIL then Ret g
      else
        g <- gp_SetNeighbor g (gp_GetTwinArc e) v ;;
        e' <- (if e =? last then Ret NIL else gp_GetNextArc g e) ;;
        restore_reassign_loop n' g v last e'
  end.

(** _RestoreVertex, graphUtils.c:2234-2303 *)
Definition gp_RestoreVertex (g : graph) : res (graph * Z) :=
  if stk_size g <? 7 then Ret (g, C_NOTOK)
  else
    '(g, v) <- stk_pop g ;;
    '(g, u) <- stk_pop g ;;
    '(g, e_u_pred) <- stk_pop g ;;
    '(g, e_v_first) <- stk_pop g ;;
    '(g, e_v_last) <- stk_pop g ;;
    '(g, e_u_succ) <- stk_pop g ;;
    g <- (if negb (u =? NIL) then
            g <- (if negb (e_u_pred =? NIL) then
                    g <- gp_SetNextArc g e_u_pred e_u_succ ;;
                    if negb (e_u_succ =? NIL) then gp_SetPrevArc g e_u_succ e_u_pred
                    else gp_SetLastArc g u e_u_pred
                  else if negb (e_u_succ =? NIL) then
                    g <- gp_SetPrevArc g e_u_succ NIL ;; gp_SetFirstArc g u e_u_succ
                  else
                    g <- gp_SetFirstArc g u NIL ;; gp_SetLastArc g u NIL) ;;
            g <- gp_SetFirstArc g v e_v_first ;;
            g <- gp_SetLastArc g v e_v_last ;;
            g <- (if negb (e_v_first =? NIL) then gp_SetPrevArc g e_v_first NIL else Ret g) ;;
            g <- (if negb (e_v_last =? NIL) then gp_SetPrevArc g e_v_last NIL else Ret g) ;;
            restore_reassign_loop (efuel g) g v e_v_last e_v_first
          else Ret g) ;;
    '(g, HESB) <- stk_pop g ;;
    _RestoreHiddenEdges g HESB.

(** gp_RestoreVertices, graphUtils.c:2319-2328 *)
Fixpoint restore_vertices_loop (n : nat) (g : graph) : res (graph * Z) :=
  match n with
  | O => OOF
  | S n' =>
      match gstack g with
      | [] => Ret (g, C_OK)
      | _ =>
          '(g, r) <- gp_RestoreVertex g ;;
          if negb (r =? C_OK) then Ret (g, C_NOTOK) else restore_vertices_loop n' g
      end
  end.
Definition gp_RestoreVertices (g : graph) : res (graph * Z) :=
  restore_vertices_loop (S (length (gstack g))) g.

(** ** Copying *)
(** sp_Copy on list-modelled stacks, stack.c:81-103: content and capacity of the result. *)
Definition sp_copy_cap (dstCap : Z) (srcContent : list Z) (srcCap : Z) : Z :=
  if dstCap <? Z.of_nat (length srcContent) then srcCap else dstCap.

(** gp_CopyAdjacencyLists, graphUtils.c:909-943 *)
Definition gp_CopyAdjacencyLists (dst src : graph) : res (graph * Z) :=
  if negb (gN dst =? gN src) || (gN dst =? 0) then Ret (dst, C_NOTOK)
  else
    '(dst, r) <- gp_EnsureArcCapacity dst (gCap src) ;;
    if negb (r =? C_OK) then Ret (dst, C_NOTOK)
    else
      dst <- for_up (Z.to_nat (gN src)) 1 (fun v dst =>
               f <- gp_GetFirstArc src v ;;
               dst <- gp_SetFirstArc dst v f ;;
               l <- gp_GetLastArc src v ;;
               gp_SetLastArc dst v l) dst ;;
      dst <- for_up (Z.to_nat (gp_EdgeInUseIndexBound src - 2)) 2 (fun e dst =>
               x <- gp_GetNeighbor src e ;;
               dst <- gp_SetNeighbor dst e x ;;
               x <- gp_GetNextArc src e ;;
               dst <- gp_SetNextArc dst e x ;;
               x <- gp_GetPrevArc src e ;;
               gp_SetPrevArc dst e x) dst ;;
      let dst := set_gM dst (gM src) in
      let dst := set_gholesCap (set_gholes dst (gholes src))
                   (sp_copy_cap (gholesCap dst) (gholes src) (gholesCap src)) in
      Ret (dst, C_OK).

(** gp_CopyGraph, graphUtils.c:954-1037, without the extensions (ExtM.v). *)
Definition copy_vrec (dst src : graph) (v : Z) : res graph :=
  guard (inV dst v && inV src v)
    (let d := set_vfirst dst (upd (vfirst dst) v (vfirst src v)) in
     let d := set_vlast d (upd (vlast d) v (vlast src v)) in
     let d := set_vindex d (upd (vindex d) v (vindex src v)) in
     let d := set_vflags d (upd (vflags d) v (vflags src v)) in
     let x := set_ext0 (gX d) (upd (ext0 (gX d)) v (ext0 (gX src) v)) in
     let x := set_ext1 x (upd (ext1 x) v (ext1 (gX src) v)) in
     Ret (set_gX d x)).
Definition copy_vinfo (dst src : graph) (v : Z) : res graph :=
  guard (inVI dst v && inVI src v)
    (let i := gVI dst in let s := gVI src in
     Ret (set_gVI dst
       (mkVI (upd (viParent i) v (viParent s v)) (upd (viLeast i) v (viLeast s v))
             (upd (viLow i) v (viLow s v)) (upd (viVisited i) v (viVisited s v))
             (upd (viPertEdge i) v (viPertEdge s v)) (upd (viPertRoots i) v (viPertRoots s v))
             (upd (viFPChild i) v (viFPChild s v)) (upd (viSDC i) v (viSDC s v))
             (upd (viFwd i) v (viFwd s v))))).
Definition copy_erec (dst src : graph) (e : Z) : res graph :=
  guard (inE dst e && inE src e)
    (let d := set_enext dst (upd (enext dst) e (enext src e)) in
     let d := set_eprev d (upd (eprev d) e (eprev src e)) in
     let d := set_enbr d (upd (enbr d) e (enbr src e)) in
     Ret (set_eflags d (upd (eflags d) e (eflags src e)))).
(** LCCopy of both collections copies src->N = N+1 nodes, listcoll.h:62 *)
Definition lc_copy (n : Z) (d s : Z -> Z) : Z -> Z := fun i => if (0 <=? i) && (i <? n) then s i else d i.
Definition gp_CopyGraph (dst src : graph) : res (graph * Z) :=
  if negb (gN dst =? gN src) || (gN dst =? 0) then Ret (dst, C_NOTOK)
  else
    '(dst, r) <- gp_EnsureArcCapacity dst (gCap src) ;;
    if negb (r =? C_OK) then Ret (dst, C_NOTOK)
    else
      dst <- for_up (Z.to_nat (gN src)) 1 (fun v dst =>
               dst <- copy_vrec dst src v ;; copy_vinfo dst src v) dst ;;
      dst <- for_up (Z.to_nat (gN src)) (gN src + 1) (fun v dst => copy_vrec dst src v) dst ;;
      dst <- for_up (Z.to_nat (gp_EdgeIndexBound src - 2)) 2 (fun e dst => copy_erec dst src e) dst ;;
      let dst := set_gM dst (gM src) in
      let dst := set_gembed (set_giflags dst (giflags src)) (gembed src) in
      let x := set_exIC (gX dst) (exIC (gX src)) in
      let n := gp_PrimaryVertexIndexBound src in
      let x := set_brlPrev x (lc_copy n (brlPrev x) (brlPrev (gX src))) in
      let x := set_brlNext x (lc_copy n (brlNext x) (brlNext (gX src))) in
      let x := set_sdlPrev x (lc_copy n (sdlPrev x) (sdlPrev (gX src))) in
      let x := set_sdlNext x (lc_copy n (sdlNext x) (sdlNext (gX src))) in
      let dst := set_gX dst x in
      let dst := set_gstackCap (set_gstack dst (gstack src))
                   (sp_copy_cap (gstackCap dst) (gstack src) (gstackCap src)) in
      let dst := set_gholesCap (set_gholes dst (gholes src))
                   (sp_copy_cap (gholesCap dst) (gholes src) (gholesCap src)) in
      Ret (dst, C_OK).

(** gp_DupGraph, graphUtils.c:1043-1059; [None] stands for the NULL result. *)
Definition gp_DupGraph (g : graph) : res (option graph) :=
  let '(d, r) := gp_InitGraph gp_New (gN g) in
  if negb (r =? C_OK) then Ret None
  else
    '(d, r) <- gp_CopyGraph d g ;;
    if negb (r =? C_OK) then Ret None else Ret (Some d).

(** ** Visited flags *)
(** _ClearVertexVisitedFlags, graphUtils.c:555-565 *)
Definition _ClearVertexVisitedFlags (g : graph) (includeVirtual : bool) : res graph :=
  g <- for_up (Z.to_nat (gN g)) 1 (fun v g => gp_ClearVertexVisited g v) g ;;
  if includeVirtual then for_up (Z.to_nat (gN g)) (gN g + 1) (fun v g => gp_ClearVertexVisited g v) g
  else Ret g.
(** _ClearEdgeVisitedFlags, graphUtils.c:571-579 *)
Definition _ClearEdgeVisitedFlags (g : graph) : res graph :=
  for_up (Z.to_nat (gp_EdgeInUseIndexBound g - 2)) 2 (fun e g => gp_ClearEdgeVisited g e) g.
(** _ClearVisitedFlags, graphUtils.c:545-549 *)
Definition _ClearVisitedFlags (g : graph) : res graph :=
  g <- _ClearVertexVisitedFlags g true ;; _ClearEdgeVisitedFlags g.

(** ** Circular access and list-end macros (graphStructures.h:604-700) *)
Definition gp_GetNextArcCircular (g : graph) (e : Z) : res Z :=
  n <- gp_GetNextArc g e ;;
  if negb (n =? NIL) then Ret n
  else v <- gp_GetNeighbor g (gp_GetTwinArc e) ;; gp_GetFirstArc g v.
Definition gp_GetPrevArcCircular (g : graph) (e : Z) : res Z :=
  n <- gp_GetPrevArc g e ;;
  if negb (n =? NIL) then Ret n
  else v <- gp_GetNeighbor g (gp_GetTwinArc e) ;; gp_GetLastArc g v.
Definition gp_BindFirstArc (g : graph) (v arc : Z) : res graph :=
  g <- gp_SetPrevArc g arc NIL ;; gp_SetFirstArc g v arc.
Definition gp_BindLastArc (g : graph) (v arc : Z) : res graph :=
  g <- gp_SetNextArc g arc NIL ;; gp_SetLastArc g v arc.
Definition gp_AttachFirstArc (g : graph) (v arc : Z) : res graph :=
  f <- gp_GetFirstArc g v ;;
  g <- (if negb (f =? NIL) then g <- gp_SetNextArc g arc f ;; gp_SetPrevArc g f arc
        else gp_BindLastArc g v arc) ;;
  gp_BindFirstArc g v arc.
Definition gp_AttachLastArc (g : graph) (v arc : Z) : res graph :=
  l <- gp_GetLastArc g v ;;
  g <- (if negb (l =? NIL) then g <- gp_SetPrevArc g arc l ;; gp_SetNextArc g l arc
        else gp_BindFirstArc g v arc) ;;
  gp_BindLastArc g v arc.
(** gp_MoveArcToFirst, graphStructures.h:652-675 *)
Definition gp_MoveArcToFirst (g : graph) (v arc : Z) : res graph :=
  f <- gp_GetFirstArc g v ;;
  if arc =? f then Ret g
  else
    l <- gp_GetLastArc g v ;;
    p <- gp_GetPrevArc g arc ;;
    g <- (if arc =? l then g <- gp_SetNextArc g p NIL ;; gp_SetLastArc g v p
          else
            n <- gp_GetNextArc g arc ;;
            g <- gp_SetNextArc g p n ;;
            p' <- gp_GetPrevArc g arc ;;
            gp_SetPrevArc g n p') ;;
    f <- gp_GetFirstArc g v ;;
    g <- gp_SetNextArc g arc f ;;
    g <- gp_SetPrevArc g f arc ;;
    gp_BindFirstArc g v arc.
(** gp_MoveArcToLast, graphStructures.h:678-701 *)
Definition gp_MoveArcToLast (g : graph) (v arc : Z) : res graph :=
  l <- gp_GetLastArc g v ;;
  if arc =? l then Ret g
  else
    f <- gp_GetFirstArc g v ;;
    n <- gp_GetNextArc g arc ;;
    g <- (if arc =? f then g <- gp_SetPrevArc g n NIL ;; gp_SetFirstArc g v n
          else
            p <- gp_GetPrevArc g arc ;;
            g <- gp_SetNextArc g p n ;;
            n' <- gp_GetNextArc g arc ;;
            gp_SetPrevArc g n' p) ;;
    l <- gp_GetLastArc g v ;;
    g <- gp_SetPrevArc g arc l ;;
    g <- gp_SetNextArc g l arc ;;
    gp_BindLastArc g v arc.
