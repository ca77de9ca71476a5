(** * IsoKM: model of the isolator of Kuratowski subgraphs: graphIsolator.c and the functions of
    graphNonplanar.c it calls.  What it shares with the isolator of outerplanarity obstructions is
    in IsoM. *)
From Verif Require Import Base GraphRec GraphM ListM DFSM TestM EmbM0 IsoM.

(** INACTIVE, graphStructures.h:786-788 *)
Definition INACTIVE (g : graph) (w v : Z) : res bool :=
  p <- PERTINENT g w ;;
  if p then Ret false else f <- FUTUREPERTINENT g w v ;; Ret (negb f).

(** _FindActiveVertices, graphNonplanar.c:253-280, for planarity: the loop of lines 265-269, 271-276 *)
Fixpoint find_active_loop (n : nat) (g : graph) (v X XPrevLink : Z) : res (graph * Z) :=
  match n with
  | O => OOF
  | S n' =>
    g <- gp_UpdateVertexFuturePertinentChild g X v ;;
    i <- INACTIVE g X v ;;
    if i then '(X, XPrevLink) <- _GetNeighborOnExtFace g X XPrevLink ;; find_active_loop n' g v X XPrevLink
    else Ret (g, X)
  end.
Definition _FindActiveVerticesK (g : graph) (v R : Z) : res (graph * Z * Z) :=
  '(X, XPrevLink) <- _GetNeighborOnExtFace g R 1 ;;
  '(Y, YPrevLink) <- _GetNeighborOnExtFace g R 0 ;;
  '(g, X) <- find_active_loop (S (S (Z.to_nat (2 * gN g)))) g v X XPrevLink ;;
  '(g, Y) <- find_active_loop (S (S (Z.to_nat (2 * gN g)))) g v Y YPrevLink ;;
  Ret (g, X, Y).

(** _InitializeNonplanarityContext, graphNonplanar.c:147-192, for planarity: the graph, the result
    and IC.r, IC.x, IC.y, IC.w *)
Definition _InitializeNonplanarityContextK (g : graph) (v R : Z) : res (graph * Z * (Z * Z * Z * Z)) :=
  '(g, R) <- (if stk_empty g then Ret (g, R) else '(g, R, _) <- stk_pop2 g ;; Ret (g, R)) ;;
  g <- _OrientVerticesInBicomp g R true ;;
  g <- _ClearVisitedFlagsInBicomp g R ;;
  '(g, X, Y) <- _FindActiveVerticesK g v R ;;
  W <- _FindPertinentVertex g X Y ;;
  '(g, r) <- _SetVertexTypesForMarkingXYPath g R X Y W ;;
  Ret (g, r, (R, X, Y, W)).

(** ** The path from the X-Y path to the root *)
(** graphNonplanar.c:737-744: the arc of px on the X-Y path *)
Fixpoint px_arc_loop (n : nat) (g : graph) (e first : Z) : res Z :=
  match n with
  | O => OOF
  | S n' =>
    if e =? first then Ret e
    else
      m <- gp_GetEdgeVisited g e ;;
      if negb (m =? 0) then Ret e
      else e' <- gp_GetPrevArc g e ;; px_arc_loop n' g e' first
  end.
(** graphNonplanar.c:751-755: along the X-Y path to the first exit that is not on it *)
Fixpoint z_exit_loop (n : nat) (g : graph) (e : Z) : res Z :=
  match n with
  | O => OOF
  | S n' =>
    m <- gp_GetEdgeVisited g e ;;
    if m =? 0 then Ret e
    else e' <- gp_GetPrevArcCircular g (gp_GetTwinArc e) ;; z_exit_loop n' g e'
  end.
(** graphNonplanar.c:772-796 *)
Fixpoint z_mark_loop (n : nat) (g : graph) (R z ZNextArc ZPrevArc : Z) : res (graph * Z) :=
  match n with
  | O => OOF
  | S n' =>
    if z =? R then Ret (g, C_OK)
    else
      t <- gp_GetVertexObstructionType g z ;;
      if negb (t =? 0) then Ret (g, C_NOTOK)
      else
        z <- gp_GetNeighbor g ZNextArc ;;
        g <- gp_SetEdgeVisited g ZNextArc ;;
        g <- gp_SetEdgeVisited g ZPrevArc ;;
        g <- gp_SetVertexVisited g z ;;
        ZNextArc <- gp_GetPrevArcCircular g ZPrevArc ;;
        z_mark_loop n' g R z ZNextArc (gp_GetTwinArc ZNextArc)
  end.
(** _MarkZtoRPath, graphNonplanar.c:721-801: the graph, the result and IC.z *)
Definition _MarkZtoRPath (g : graph) (R px py : Z) : res (graph * Z * Z) :=
  e <- gp_GetLastArc g px ;;
  f <- gp_GetFirstArc g px ;;
  e <- px_arc_loop (efuel g) g e f ;;
  m <- gp_GetEdgeVisited g e ;;
  if m =? 0 then Ret (g, C_NOTOK, NIL)
  else
    e <- z_exit_loop (efuel g) g e ;;
    z <- gp_GetNeighbor g (gp_GetTwinArc e) ;;
    if z =? py then Ret (g, C_OK, NIL)
    else '(g, r) <- z_mark_loop (efuel g) g R z e (gp_GetTwinArc e) ;; Ret (g, r, z).

(** _FindFuturePertinenceBelowXYPath, graphNonplanar.c:812-829 *)
Fixpoint fp_below_loop (n : nat) (g : graph) (v py z ZPrevLink : Z) : res (graph * Z) :=
  match n with
  | O => OOF
  | S n' =>
    if z =? py then Ret (g, NIL)
    else
      g <- gp_UpdateVertexFuturePertinentChild g z v ;;
      f <- FUTUREPERTINENT g z v ;;
      if f then Ret (g, z)
      else '(z, ZPrevLink) <- _GetNeighborOnExtFace g z ZPrevLink ;; fp_below_loop n' g v py z ZPrevLink
  end.
Definition _FindFuturePertinenceBelowXYPath (g : graph) (v px py : Z) : res (graph * Z) :=
  '(z, ZPrevLink) <- _GetNeighborOnExtFace g px 1 ;;
  fp_below_loop (S (S (Z.to_nat (2 * gN g)))) g v py z ZPrevLink.

(** ** The isolator context *)
(** isolatorContext, graphStructures.h: the fields used here.  A part not yet known is NIL. *)
Record icx := mkIC { iv : Z; ir : Z; ix : Z; iy : Z; iw : Z; ipx : Z; ipy : Z; iz : Z;
                     iux : Z; iuy : Z; iuz : Z; idx : Z; idy : Z; idw : Z; idz : Z }.
Inductive minor := MinorA | MinorB | MinorC | MinorD | MinorE.

(** _ChooseTypeOfNonplanarityMinor, graphNonplanar.c:43-121, given the initial context: the graph
    and, unless the result is NOTOK, the type and IC.px, IC.py, IC.z *)
Definition choose_minor (g : graph) (v r x y w : Z) : res (graph * option (minor * (Z * Z * Z))) :=
  p <- gp_GetPrimaryVertexFromRoot g r ;;
  if negb (p =? v) then Ret (g, Some (MinorA, (NIL, NIL, NIL)))
  else
    h <- gp_GetVertexPertinentRootsList g w ;;
    b <- (if h =? NIL then Ret false
          else s <- gp_GetVertexLastPertinentRootChild g w ;; l <- gp_GetVertexLowpoint g s ;; Ret (l <? v)) ;;
    if b then Ret (g, Some (MinorB, (NIL, NIL, NIL)))
    else
      '(g, ret, px, py) <- _MarkHighestXYPath g r w ;;
      if negb (ret =? C_OK) || (py =? NIL) then Ret (g, None)
      else
        tx <- gp_GetVertexObstructionType g px ;;
        ty <- gp_GetVertexObstructionType g py ;;
        if (tx =? OBS_HIGH_RXW) || (ty =? OBS_HIGH_RYW) then Ret (g, Some (MinorC, (px, py, NIL)))
        else
          '(g, ret, z) <- _MarkZtoRPath g r px py ;;
          if negb (ret =? C_OK) then Ret (g, None)
          else if negb (z =? NIL) then Ret (g, Some (MinorD, (px, py, z)))
          else
            '(g, z) <- _FindFuturePertinenceBelowXYPath g v px py ;;
            Ret (g, if negb (z =? NIL) then Some (MinorE, (px, py, z)) else None).

(** graphIsolator.c:455-466: the least ancestor reached from the separated children, and the child *)
Fixpoint least_child_loop (n : nat) (g : graph) (cutVertex child ancestor foundChild : Z) : res (Z * Z) :=
  match n with
  | O => OOF
  | S n' =>
    if child =? NIL then Ret (ancestor, foundChild)
    else
      f <- gp_VirtualVertexInUse g (gp_GetRootFromDFSChild g child) ;;
      l <- gp_GetVertexLowpoint g child ;;
      let b := f && (l <? ancestor) in
      child' <- gp_GetVertexNextDFSChild g cutVertex child ;;
      least_child_loop n' g cutVertex child' (if b then l else ancestor) (if b then child else foundChild)
  end.
(** _FindUnembeddedEdgeToAncestor, graphIsolator.c:447-478: the ancestor and the descendant; [None]
    stands for FALSE *)
Definition _FindUnembeddedEdgeToAncestor (g : graph) (cutVertex : Z) : res (option (Z * Z)) :=
  least <- gp_GetVertexLeastAncestor g cutVertex ;;
  child <- gp_GetVertexFuturePertinentChild g cutVertex ;;
  '(ancestor, foundChild) <- least_child_loop (S (Z.to_nat (gN g))) g cutVertex child least NIL ;;
  if ancestor =? least then Ret (Some (ancestor, cutVertex))
  else o <- _FindUnembeddedEdgeToSubtree g ancestor foundChild ;;
       Ret (match o with Some d => Some (ancestor, d) | None => None end).

(** _InitializeIsolatorContext, graphIsolator.c:105-147; [None] stands for NOTOK *)
Definition _InitializeIsolatorContext (g : graph) (t : minor) (v r x y w px py z : Z) : res (option icx) :=
  ox <- _FindUnembeddedEdgeToAncestor g x ;;
  oy <- _FindUnembeddedEdgeToAncestor g y ;;
  match ox, oy with
  | Some (ux, dx), Some (uy, dy) =>
    match t with
    | MinorB =>
      s <- gp_GetVertexLastPertinentRootChild g w ;;
      uz <- gp_GetVertexLowpoint g s ;;
      ow <- _FindUnembeddedEdgeToSubtree g v s ;;
      oz <- _FindUnembeddedEdgeToSubtree g uz s ;;
      Ret (match ow, oz with
           | Some dw, Some dz => Some (mkIC v r x y w px py z ux uy uz dx dy dw dz)
           | _, _ => None
           end)
    | _ =>
      ow <- _FindUnembeddedEdgeToCurVertex g v w ;;
      match ow with
      | None => Ret None
      | Some dw =>
        match t with
        | MinorE =>
          oz <- _FindUnembeddedEdgeToAncestor g z ;;
          Ret (match oz with
               | Some (uz, dz) => Some (mkIC v r x y w px py z ux uy uz dx dy dw dz)
               | None => None
               end)
        | _ => Ret (Some (mkIC v r x y w px py z ux uy NIL dx dy dw NIL))
        end
      end
    end
  | _, _ => Ret None
  end.

(** ** Isolating one minor *)
(** Run [k] on the graph if the result so far is OK. *)
Definition seq_ok (m : res (graph * Z)) (k : graph -> res (graph * Z)) : res (graph * Z) :=
  '(g, r) <- m ;; if r =? C_OK then k g else Ret (g, C_NOTOK).
(** _MarkDFSPathsToDescendants, graphIsolator.c:673-691 *)
Definition _MarkDFSPathsToDescendants (g : graph) (i : icx) : res (graph * Z) :=
  seq_ok (_MarkDFSPath g (ix i) (idx i)) (fun g =>
  seq_ok (_MarkDFSPath g (iy i) (idy i)) (fun g =>
  seq_ok (if idw i =? NIL then Ret (g, C_OK) else _MarkDFSPath g (iw i) (idw i)) (fun g =>
  if idz i =? NIL then Ret (g, C_OK) else _MarkDFSPath g (iw i) (idz i)))).
(** _AddAndMarkUnembeddedEdges, graphIsolator.c:697-715; it always returns OK *)
Definition _AddAndMarkUnembeddedEdges (g : graph) (i : icx) : res graph :=
  g <- _AddAndMarkEdge g (iux i) (idx i) ;;
  g <- _AddAndMarkEdge g (iuy i) (idy i) ;;
  g <- (if idw i =? NIL then Ret g else _AddAndMarkEdge g (iv i) (idw i)) ;;
  if idz i =? NIL then Ret g else _AddAndMarkEdge g (iuz i) (idz i).
(** The common part of the isolators: a path in the DFS tree, the paths to the descendants, joining
    the bicomps and the unembedded edges.  Minor C marks the paths to the descendants first; the
    marks are the same. *)
Definition finish_minor (g : graph) (i : icx) (top bottom : Z) : res (graph * Z) :=
  seq_ok (_MarkDFSPath g top bottom) (fun g =>
  seq_ok (_MarkDFSPathsToDescendants g i) (fun g =>
  seq_ok (_JoinBicomps g) (fun g =>
  g <- _AddAndMarkUnembeddedEdges g i ;; Ret (g, C_OK)))).
Definition MIN3 (a b c : Z) : Z := Z.min a (Z.min b c).
Definition MAX3 (a b c : Z) : Z := Z.max a (Z.max b c).
(** _IsolateMinorA, graphIsolator.c:153-165 *)
Definition _IsolateMinorA (g : graph) (i : icx) : res (graph * Z) :=
  g <- _MarkPathAlongBicompExtFace g (ir i) (ir i) ;;
  finish_minor g i (Z.min (iux i) (iuy i)) (ir i).
(** _IsolateMinorB, graphIsolator.c:171-184 *)
Definition _IsolateMinorB (g : graph) (i : icx) : res (graph * Z) :=
  g <- _MarkPathAlongBicompExtFace g (ir i) (ir i) ;;
  finish_minor g i (MIN3 (iux i) (iuy i) (iuz i)) (MAX3 (iux i) (iuy i) (iuz i)).
(** _IsolateMinorC, graphIsolator.c:190-218 *)
Definition _IsolateMinorC (g : graph) (i : icx) : res (graph * Z) :=
  tx <- gp_GetVertexObstructionType g (ipx i) ;;
  g <- (if tx =? OBS_HIGH_RXW then
          ty <- gp_GetVertexObstructionType g (ipy i) ;;
          _MarkPathAlongBicompExtFace g (ir i) (if ty =? OBS_HIGH_RYW then ipy i else iy i)
        else _MarkPathAlongBicompExtFace g (ix i) (ir i)) ;;
  finish_minor g i (Z.min (iux i) (iuy i)) (ir i).
(** _IsolateMinorD, graphIsolator.c:224-237 *)
Definition _IsolateMinorD (g : graph) (i : icx) : res (graph * Z) :=
  g <- _MarkPathAlongBicompExtFace g (ix i) (iy i) ;;
  finish_minor g i (Z.min (iux i) (iuy i)) (ir i).
(** _IsolateMinorE1, graphIsolator.c:290-320 *)
Definition _IsolateMinorE1 (g : graph) (i : icx) : res (graph * Z) :=
  tz <- gp_GetVertexObstructionType g (iz i) ;;
  if tz =? OBS_LOW_RXW then
    g <- gp_ResetVertexObstructionType g (ipx i) OBS_HIGH_RXW ;;
    _IsolateMinorC g (mkIC (iv i) (ir i) (iz i) (iy i) (iw i) (ipx i) (ipy i) NIL (iuz i) (iuy i) NIL (idz i) (idy i) (idw i) NIL)
  else if tz =? OBS_LOW_RYW then
    g <- gp_ResetVertexObstructionType g (ipy i) OBS_HIGH_RYW ;;
    _IsolateMinorC g (mkIC (iv i) (ir i) (ix i) (iz i) (iw i) (ipx i) (ipy i) NIL (iux i) (iuz i) NIL (idx i) (idz i) (idw i) NIL)
  else Ret (g, C_NOTOK).
(** _IsolateMinorE2, graphIsolator.c:329-346 *)
Definition _IsolateMinorE2 (g : graph) (i : icx) : res (graph * Z) :=
  g <- _ClearVisitedFlags g ;;
  _IsolateMinorA g (mkIC (iuz i) (ir i) (ix i) (iy i) (iw i) (ipx i) (ipy i) NIL (iux i) (iuy i) NIL (idx i) (idy i) (idz i) NIL).
(** _IsolateMinorE3, graphIsolator.c:352-379 *)
Definition _IsolateMinorE3 (g : graph) (i : icx) : res (graph * Z) :=
  g <- (if iux i <? iuy i then
          g <- _MarkPathAlongBicompExtFace g (ir i) (ipx i) ;; _MarkPathAlongBicompExtFace g (iw i) (iy i)
        else
          g <- _MarkPathAlongBicompExtFace g (ix i) (iw i) ;; _MarkPathAlongBicompExtFace g (ipy i) (ir i)) ;;
  finish_minor g i (MIN3 (iux i) (iuy i) (iuz i)) (ir i).
(** _IsolateMinorE4, graphIsolator.c:385-413 *)
Definition _IsolateMinorE4 (g : graph) (i : icx) : res (graph * Z) :=
  g <- (if negb (ipx i =? ix i) then
          g <- _MarkPathAlongBicompExtFace g (ir i) (iw i) ;; _MarkPathAlongBicompExtFace g (ipy i) (ir i)
        else
          g <- _MarkPathAlongBicompExtFace g (ir i) (ipx i) ;; _MarkPathAlongBicompExtFace g (iw i) (ir i)) ;;
  finish_minor g i (MIN3 (iux i) (iuy i) (iuz i)) (MAX3 (iux i) (iuy i) (iuz i)).
(** _IsolateMinorE, graphIsolator.c:243-280 *)
Definition _IsolateMinorE (g : graph) (i : icx) : res (graph * Z) :=
  if negb (iz i =? iw i) then _IsolateMinorE1 g i
  else if Z.max (iux i) (iuy i) <? iuz i then _IsolateMinorE2 g i
  else if (iuz i <? Z.max (iux i) (iuy i)) && negb (iux i =? iuy i) then _IsolateMinorE3 g i
  else if negb (ix i =? ipx i) || negb (iy i =? ipy i) then _IsolateMinorE4 g i
  else
    g <- _MarkPathAlongBicompExtFace g (ir i) (ir i) ;;
    finish_minor g i (MIN3 (iux i) (iuy i) (iuz i)) (ir i).

(** _IsolateKuratowskiSubgraph, graphIsolator.c:58-99 *)
Definition _IsolateKuratowskiSubgraph (g : graph) (v R : Z) : res (graph * Z) :=
  g <- _ClearVisitedFlags g ;;
  '(g, ret, (r, x, y, w)) <- _InitializeNonplanarityContextK g v R ;;
  if negb (ret =? C_OK) then Ret (g, C_NOTOK)
  else
    '(g, o) <- choose_minor g v r x y w ;;
    match o with
    | None => Ret (g, C_NOTOK)
    | Some (t, (px, py, z)) =>
      oi <- _InitializeIsolatorContext g t v r x y w px py z ;;
      match oi with
      | None => Ret (g, C_NOTOK)
      | Some i =>
        '(g, ret) <- (match t with
                      | MinorA => _IsolateMinorA g i
                      | MinorB => _IsolateMinorB g i
                      | MinorC => _IsolateMinorC g i
                      | MinorD => _IsolateMinorD g i
                      | MinorE => _IsolateMinorE g i
                      end) ;;
        if negb (ret =? C_OK) then Ret (g, ret)
        else g <- _DeleteUnmarkedVerticesAndEdges g ;; Ret (g, C_OK)
      end
    end.
