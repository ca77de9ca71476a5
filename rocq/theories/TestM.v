(** * TestM: model of c/graphLib/planarityRelated/graphTests.c (result integrity checks).

    The function-table calls of gp_TestEmbedResultIntegrity are resolved to the base
    functions; the overloads of the extensions are not modelled here. *)
From Verif Require Import Base GraphRec GraphM DFSM.

(** ** Facial walk *)
(** graphTests.c:183-194: push the two arcs of every edge in use and unmark them *)
Fixpoint face_push_loop (n : nat) (g : graph) (e : Z) : res graph :=
  match n with
  | O => OOF
  | S n' =>
    if e <? gp_EdgeInUseIndexBound g then
      w <- gp_GetNeighbor g e ;;
      g <- (if negb (w =? NIL) then   (* gp_EdgeInUse(e), graphStructures.h:76 *)
              g <- stk_push g e ;;
              g <- gp_ClearEdgeVisited g e ;;
              g <- stk_push g (gp_GetTwinArc e) ;;
              gp_ClearEdgeVisited g (gp_GetTwinArc e)
            else Ret g) ;;
      face_push_loop n' g (e + 2)
    else Ret g
  end.

(** graphTests.c:209-217: walk one face; [false] = return NOTOK *)
Fixpoint face_walk_loop (n : nat) (g : graph) (eStart e : Z) : res (graph * bool) :=
  match n with
  | O => OOF
  | S n' =>
    eNext <- gp_GetNextArcCircular g (gp_GetTwinArc e) ;;
    vis <- gp_GetEdgeVisited g eNext ;;
    if negb (vis =? 0) then Ret (g, false)
    else
      g <- gp_SetEdgeVisited g eNext ;;
      if eNext =? eStart then Ret (g, true) else face_walk_loop n' g eStart eNext
  end.

(** graphTests.c:202-220: read all faces; [None] = return NOTOK *)
Fixpoint faces_loop (n : nat) (g : graph) (NumFaces : Z) : res (graph * option Z) :=
  match n with
  | O => OOF
  | S n' =>
    if stk_empty g then Ret (g, Some NumFaces)
    else
      '(g, eStart) <- stk_pop g ;;
      vis <- gp_GetEdgeVisited g eStart ;;
      if negb (vis =? 0) then faces_loop n' g NumFaces
      else
        '(g, ok) <- face_walk_loop (efuel g) g eStart eStart ;;
        if negb ok then Ret (g, None) else faces_loop n' g (NumFaces + 1)
  end.

(** graphTests.c:226-236: one vertex of the component count *)
Definition component_step (g : graph) (v : Z) (s : Z * Z) : res (Z * Z) :=
  let '(NumFaces, comps) := s in
  p <- gp_GetVertexParent g v ;;
  if p =? NIL then
    d <- gp_GetVertexDegree g v ;;
    Ret (if d >? 0 then NumFaces - 1 else NumFaces, comps + 1)
  else Ret (NumFaces, comps).

(** _CheckEmbeddingFacialIntegrity, graphTests.c:161-246 *)
Definition _CheckEmbeddingFacialIntegrity (g : graph) : res (graph * Z) :=
  let g := stk_clear g in
  g <- face_push_loop (efuel g) g 2 ;;
  if negb (stk_size g =? 2 * gM g) then Ret (g, C_NOTOK)
  else
    '(g, nf) <- faces_loop (S (length (gstack g))) g 0 ;;
    match nf with
    | None => Ret (g, C_NOTOK)
    | Some NumFaces =>
        '(NumFaces, comps) <- for_up (Z.to_nat (gN g)) 1 (component_step g) (NumFaces, 0) ;;
        let NumFaces := NumFaces + 1 in
        Ret (g, if NumFaces =? gM g - gN g + 1 + comps then C_OK else C_NOTOK)
    end.

(** ** External face *)
(** graphTests.c:311-353: the do-while loop of _MarkExternalFaceVertices *)
Fixpoint mark_face_loop (n : nat) (g : graph) (startVertex nextVertex e : Z) : res graph :=
  match n with
  | O => OOF
  | S n' =>
    g <- gp_SetVertexVisited g nextVertex ;;
    nextVertex <- gp_GetNeighbor g e ;;
    let eTwin := gp_GetTwinArc e in
    e <- gp_GetNextArcCircular g eTwin ;;
    l <- gp_GetLastArc g startVertex ;;
    if eTwin =? l then Ret g else mark_face_loop n' g startVertex nextVertex e
  end.
(** _MarkExternalFaceVertices, graphTests.c:299-354 *)
Definition _MarkExternalFaceVertices (g : graph) (startVertex : Z) : res graph :=
  e <- gp_GetFirstArc g startVertex ;;
  if e =? NIL then gp_SetVertexVisited g startVertex
  else mark_face_loop (efuel g) g startVertex startVertex e.

(** graphTests.c:274-278; the C loop returns at the first unvisited vertex, the model looks at
    all of them, which changes nothing observable *)
Definition all_visited (g : graph) : res bool :=
  for_up (Z.to_nat (gN g)) 1 (fun v b => vis <- gp_GetVertexVisited g v ;; Ret (b && negb (vis =? 0))) true.
(** _CheckAllVerticesOnExternalFace, graphTests.c:259-283 *)
Definition _CheckAllVerticesOnExternalFace (g : graph) : res (graph * Z) :=
  g <- _ClearVertexVisitedFlags g false ;;
  g <- for_up (Z.to_nat (gN g)) 1 (fun v g =>
         p <- gp_GetVertexParent g v ;;
         if p =? NIL then _MarkExternalFaceVertices g v else Ret g) g ;;
  b <- all_visited g ;;
  Ret (g, if b : bool then C_OK else C_NOTOK).

(** ** Subgraph test *)
(** graphTests.c:901-912: mark in [g] the neighbours of a subgraph vertex; [None]: an arc without
    neighbour was met *)
Fixpoint sub_mark_loop (n : nat) (s g : graph) (e deg : Z) : res (graph * option Z) :=
  match n with
  | O => OOF
  | S n' =>
    if e =? NIL then Ret (g, Some deg)
    else
      w <- gp_GetNeighbor s e ;;
      if w =? NIL then Ret (g, None)
      else
        g <- gp_SetVertexVisited g w ;;
        e' <- gp_GetNextArc s e ;;
        sub_mark_loop n' s g e' (deg + 1)
  end.
(** graphTests.c:920-930: unmark the neighbours in the graph itself *)
Fixpoint sub_unmark_loop (n : nat) (g : graph) (e : Z) : res (graph * bool) :=
  match n with
  | O => OOF
  | S n' =>
    if e =? NIL then Ret (g, true)
    else
      w <- gp_GetNeighbor g e ;;
      if w =? NIL then Ret (g, false)
      else
        g <- gp_ClearVertexVisited g w ;;
        e' <- gp_GetNextArc g e ;;
        sub_unmark_loop n' g e'
  end.
(** graphTests.c:939-948: look for a neighbour that is still marked *)
Fixpoint sub_check_loop (n : nat) (s g : graph) (e : Z) : res bool :=
  match n with
  | O => OOF
  | S n' =>
    if e =? NIL then Ret true
    else
      w <- gp_GetNeighbor s e ;;
      vis <- gp_GetVertexVisited g w ;;
      if negb (vis =? 0) then Ret false
      else
        e' <- gp_GetNextArc s e ;;
        sub_check_loop n' s g e'
  end.
(** graphTests.c:894-952: the loop over the vertices; [None] = Result FALSE *)
Fixpoint sub_vertex_loop (n : nat) (s g : graph) (v deg : Z) : res (graph * option Z) :=
  match n with
  | O => Ret (g, Some deg)
  | S n' =>
    e <- gp_GetFirstArc s v ;;
    '(g, r) <- sub_mark_loop (efuel s) s g e deg ;;
    match r with
    | None => Ret (g, None)
    | Some deg =>
      e <- gp_GetFirstArc g v ;;
      '(g, ok) <- sub_unmark_loop (efuel g) g e ;;
      if negb ok then Ret (g, None)
      else
        e <- gp_GetFirstArc s v ;;
        ok <- sub_check_loop (efuel s) s g e ;;
        if negb ok then Ret (g, None) else sub_vertex_loop n' s g (v + 1) deg
    end
  end.
(** _TestSubgraph, graphTests.c:863-968.  Returns the two graphs and the result.  The C code
    ignores the results of gp_SortVertices. *)
Definition sorted_by_dfi (g : graph) : bool := negb (Z.land (giflags g) FLAGS_SORTEDBYDFI =? 0).
Definition _TestSubgraph (s g : graph) : res (graph * graph * Z) :=
  let sortS := negb (sorted_by_dfi g) && sorted_by_dfi s in
  '(s, _) <- (if sortS then gp_SortVertices s else Ret (s, C_OK)) ;;
  let sortG := negb (sorted_by_dfi s) && sorted_by_dfi g in
  '(g, _) <- (if sortG then gp_SortVertices g else Ret (g, C_OK)) ;;
  g <- _ClearVertexVisitedFlags g false ;;
  '(g, r) <- sub_vertex_loop (Z.to_nat (gN s)) s g 1 0 ;;
  '(s, _) <- (if sortS then gp_SortVertices s else Ret (s, C_OK)) ;;
  '(g, _) <- (if sortG then gp_SortVertices g else Ret (g, C_OK)) ;;
  match r with
  | None => Ret (s, g, C_FALSE)
  | Some deg => Ret (s, g, if deg =? 2 * gM s then C_TRUE else C_FALSE)
  end.

(** c/graphLib/graph.h:81-82 *)
Definition EMBEDFLAGS_PLANAR : Z := 1.
Definition EMBEDFLAGS_OUTERPLANAR : Z := 2.

(** _CheckEmbeddingIntegrity, graphTests.c:112-133 *)
Definition _CheckEmbeddingIntegrity (g o : graph) : res (graph * graph * Z) :=
  '(g, o, r) <- _TestSubgraph g o ;;
  if negb (r =? C_TRUE) then Ret (g, o, C_NOTOK)
  else
    '(o, g, r) <- _TestSubgraph o g ;;
    if negb (r =? C_TRUE) then Ret (g, o, C_NOTOK)
    else
      '(g, r) <- _CheckEmbeddingFacialIntegrity g ;;
      if negb (r =? C_OK) then Ret (g, o, C_NOTOK)
      else if gembed g =? EMBEDFLAGS_OUTERPLANAR then
        '(g, r) <- _CheckAllVerticesOnExternalFace g ;;
        Ret (g, o, if negb (r =? C_OK) then C_NOTOK else C_OK)
      else Ret (g, o, C_OK).

(** ** Obstructions *)
(** _TryPath, graphTests.c:798-818: true iff the path of degree two vertices that starts with
    arc e leads to V.  [strict_deg2] is the loop condition. *)
Definition strict_deg2 (g : graph) (v : Z) : res bool :=
  f <- gp_GetFirstArc g v ;;
  if f =? NIL then Ret false
  else
    l <- gp_GetLastArc g v ;;
    if l =? NIL then Ret false
    else n <- gp_GetNextArc g f ;; Ret (n =? l).
(** the arc by which the path leaves v after entering it by e *)
Definition path_next (g : graph) (v e : Z) : res Z :=
  f <- gp_GetFirstArc g v ;;
  if f =? gp_GetTwinArc e then gp_GetLastArc g v else Ret f.
Fixpoint try_path_loop (n : nat) (g : graph) (e nextVertex : Z) : res Z :=
  match n with
  | O => OOF
  | S n' =>
    b <- strict_deg2 g nextVertex ;;
    if b : bool then
      e' <- path_next g nextVertex e ;;
      w <- gp_GetNeighbor g e' ;;
      try_path_loop n' g e' w
    else Ret nextVertex
  end.
Definition _TryPath (g : graph) (e V : Z) : res Z :=
  w <- gp_GetNeighbor g e ;;
  w <- try_path_loop (efuel g) g e w ;;
  Ret (if w =? V then C_TRUE else C_FALSE).

(** _MarkPath, graphTests.c:828-847 *)
Fixpoint mark_path_loop (n : nat) (g : graph) (e nextVertex : Z) : res graph :=
  match n with
  | O => OOF
  | S n' =>
    b <- strict_deg2 g nextVertex ;;
    if b : bool then
      g <- gp_SetVertexVisited g nextVertex ;;
      e' <- path_next g nextVertex e ;;
      w <- gp_GetNeighbor g e' ;;
      mark_path_loop n' g e' w
    else Ret g
  end.
Definition _MarkPath (g : graph) (e : Z) : res graph :=
  w <- gp_GetNeighbor g e ;; mark_path_loop (efuel g) g e w.

(** _TestPath, graphTests.c:769-785 *)
Fixpoint test_path_loop (n : nat) (g : graph) (e V : Z) : res (graph * Z) :=
  match n with
  | O => OOF
  | S n' =>
    if e =? NIL then Ret (g, C_FALSE)
    else
      r <- _TryPath g e V ;;
      if r =? C_OK then g <- _MarkPath g e ;; Ret (g, C_TRUE)
      else e' <- gp_GetNextArc g e ;; test_path_loop n' g e' V
  end.
Definition _TestPath (g : graph) (U V : Z) : res (graph * Z) :=
  e <- gp_GetFirstArc g U ;; test_path_loop (efuel g) g e V.

(** Local C arrays: an access outside the array is UB. *)
Definition a_rd (a : list Z) (i : Z) : res Z :=
  guard ((0 <=? i) && (i <? Z.of_nat (length a))) (Ret (nth (Z.to_nat i) a 0)).
Definition a_wr (a : list Z) (i x : Z) : res (list Z) :=
  guard ((0 <=? i) && (i <? Z.of_nat (length a))) (Ret (list_set a (Z.to_nat i) x)).

(** _getImageVertices, graphTests.c:407-437.  The two initialising loops are [repeat 0 _]; the
    arrays have maxDegree+1 and maxNum elements, as in both callers.  [None] = NOTOK. *)
Fixpoint image_loop (n : nat) (g : graph) (maxDegree maxNum v : Z) (degrees imgs : list Z) (pos : Z)
  : res (option (list Z * list Z)) :=
  match n with
  | O => Ret (Some (degrees, imgs))
  | S n' =>
    degree <- gp_GetVertexDegree g v ;;
    if degree =? 1 then Ret None
    else if degree >? maxDegree then Ret None
    else
      d <- a_rd degrees degree ;;
      degrees <- a_wr degrees degree (d + 1) ;;
      if (pos <? maxNum) && (degree >? 2) then
        imgs <- a_wr imgs pos v ;;
        image_loop n' g maxDegree maxNum (v + 1) degrees imgs (pos + 1)
      else if degree >? 2 then Ret None
      else image_loop n' g maxDegree maxNum (v + 1) degrees imgs pos
  end.
Definition _getImageVertices (g : graph) (maxDegree maxNum : Z) : res (option (list Z * list Z)) :=
  image_loop (Z.to_nat (gN g)) g maxDegree maxNum 1
    (repeat 0 (Z.to_nat (maxDegree + 1))) (repeat NIL (Z.to_nat maxNum)) 0.

(** graphTests.c:485-489, 558-562: test the paths for a list of pairs of image vertices (in the
    order of the nested loops) *)
Fixpoint test_pairs (g : graph) (imgs : list Z) (ps : list (Z * Z)) : res (graph * bool) :=
  match ps with
  | [] => Ret (g, true)
  | (i, j) :: ps' =>
    u <- a_rd imgs i ;;
    v <- a_rd imgs j ;;
    '(g, r) <- _TestPath g u v ;;
    if negb (r =? C_TRUE) then Ret (g, false) else test_pairs g imgs ps'
  end.
(** graphTests.c:494-496, 564-566, 695-697: degrees[2] minus the number of visited vertices *)
Definition count_visited (g : graph) (d : Z) : res Z :=
  for_up (Z.to_nat (gN g)) 1 (fun v d =>
    vis <- gp_GetVertexVisited g v ;; Ret (if negb (vis =? 0) then d - 1 else d)) d.

(** the index pairs v <> w of the double loop in _TestForCompleteGraphObstruction *)
Definition ordered_pairs (n : nat) : list (Z * Z) :=
  filter (fun p => negb (fst p =? snd p))
    (list_prod (map Z.of_nat (seq 0 n)) (map Z.of_nat (seq 0 n))).
(** _TestForCompleteGraphObstruction, graphTests.c:461-505 *)
Definition _TestForCompleteGraphObstruction (g : graph) (numVerts : Z) (degrees imgs : list Z)
  : res (graph * list Z * Z) :=
  dn <- a_rd degrees (numVerts - 1) ;;
  if negb (dn =? numVerts) then Ret (g, degrees, C_FALSE)
  else
    d0 <- a_rd degrees 0 ;;
    d2 <- a_rd degrees 2 ;;
    if negb (d0 + d2 + dn =? gN g) then Ret (g, degrees, C_FALSE)
    else
      g <- _ClearVertexVisitedFlags g false ;;
      '(g, ok) <- test_pairs g imgs (ordered_pairs (Z.to_nat numVerts)) ;;
      if negb ok then Ret (g, degrees, C_FALSE)
      else
        d2 <- count_visited g d2 ;;
        degrees <- a_wr degrees 2 d2 ;;
        Ret (g, degrees, if d2 =? 0 then C_TRUE else C_FALSE).

(** graphTests.c:534-551: the do-while loop that looks for a path from imageVerts[pos] to
    imageVerts[0]; at most three rounds *)
Fixpoint k33_find_loop (n : nat) (g : graph) (imgs : list Z) (pos K : Z) : res (graph * list Z * bool) :=
  match n with
  | O => OOF
  | S n' =>
    u <- a_rd imgs pos ;;
    v <- a_rd imgs 0 ;;
    '(g, r) <- _TestPath g u v ;;
    if r =? C_TRUE then Ret (g, imgs, true)
    else
      let K := K + 1 in
      temp <- a_rd imgs K ;;
      x <- a_rd imgs pos ;;
      imgs <- a_wr imgs K x ;;
      imgs <- a_wr imgs pos temp ;;
      if K <? 3 then k33_find_loop n' g imgs pos K else Ret (g, imgs, false)
  end.
(** _TestForK33GraphObstruction, graphTests.c:520-578 *)
Definition _TestForK33GraphObstruction (g : graph) (degrees imgs : list Z) : res (graph * Z) :=
  d4 <- a_rd degrees 4 ;;
  if negb (d4 =? 0) then Ret (g, C_FALSE)
  else
    d3 <- a_rd degrees 3 ;;
    if negb (d3 =? 6) then Ret (g, C_FALSE)
    else
      '(g, imgs, ok) <- k33_find_loop 4 g imgs 3 0 ;;
      if negb ok then Ret (g, C_FALSE)
      else
        '(g, imgs, ok) <- k33_find_loop 4 g imgs 4 0 ;;
        if negb ok then Ret (g, C_FALSE)
        else
          '(g, imgs, ok) <- k33_find_loop 4 g imgs 5 0 ;;
          if negb ok then Ret (g, C_FALSE)
          else
            g <- _ClearVertexVisitedFlags g false ;;
            '(g, ok) <- test_pairs g imgs (list_prod [0; 1; 2] [3; 4; 5]) ;;
            if negb ok then Ret (g, C_FALSE)
            else
              d2 <- a_rd degrees 2 ;;
              d2 <- count_visited g d2 ;;
              Ret (g, if d2 =? 0 then C_TRUE else C_FALSE).

(** _CheckKuratowskiSubgraphIntegrity, graphTests.c:610-628 *)
Definition _CheckKuratowskiSubgraphIntegrity (g : graph) : res (graph * Z) :=
  r <- _getImageVertices g 4 6 ;;
  match r with
  | None => Ret (g, C_NOTOK)
  | Some (degrees, imgs) =>
    '(g, degrees, r) <- _TestForCompleteGraphObstruction g 5 degrees imgs ;;
    if r =? C_TRUE then Ret (g, C_OK)
    else
      '(g, r) <- _TestForK33GraphObstruction g degrees imgs ;;
      Ret (g, if r =? C_TRUE then C_OK else C_NOTOK)
  end.

(** graphTests.c:669-677: the neighbours of the first image vertex; [None] = return FALSE *)
Fixpoint k23_nbr_loop (n : nat) (g : graph) (imgs : list Z) (pos e : Z) : res (option (list Z)) :=
  match n with
  | O => OOF
  | S n' =>
    if e =? NIL then Ret (Some imgs)
    else
      w <- gp_GetNeighbor g e ;;
      imgs <- a_wr imgs pos w ;;
      v1 <- a_rd imgs 1 ;;
      if w =? v1 then Ret None
      else e' <- gp_GetNextArc g e ;; k23_nbr_loop n' g imgs (pos + 1) e'
  end.
(** graphTests.c:686-693 *)
Fixpoint k23_paths (n : nat) (g : graph) (imgs : list Z) (pos : Z) : res (graph * bool) :=
  match n with
  | O => Ret (g, true)
  | S n' =>
    u <- a_rd imgs pos ;;
    v <- a_rd imgs 1 ;;
    '(g, r) <- _TestPath g u v ;;
    if negb (r =? C_TRUE) then Ret (g, false)
    else g <- gp_SetVertexVisited g u ;; k23_paths n' g imgs (pos + 1)
  end.
(** _TestForK23GraphObstruction, graphTests.c:644-707 *)
Definition _TestForK23GraphObstruction (g : graph) (degrees imgs : list Z) : res (graph * Z) :=
  d3 <- a_rd degrees 3 ;;
  if negb (d3 =? 2) then Ret (g, C_FALSE)
  else
    v0 <- a_rd imgs 0 ;;
    e <- gp_GetFirstArc g v0 ;;
    r <- k23_nbr_loop (efuel g) g imgs 2 e ;;
    match r with
    | None => Ret (g, C_FALSE)
    | Some imgs =>
      g <- _ClearVertexVisitedFlags g false ;;
      '(g, ok) <- k23_paths 3 g imgs 2 ;;
      if negb ok then Ret (g, C_FALSE)
      else
        d2 <- a_rd degrees 2 ;;
        d2 <- count_visited g d2 ;;
        Ret (g, if d2 =? 0 then C_TRUE else C_FALSE)
    end.

(** _CheckOuterplanarObstructionIntegrity, graphTests.c:737-758 *)
Definition _CheckOuterplanarObstructionIntegrity (g : graph) : res (graph * Z) :=
  r <- _getImageVertices g 3 5 ;;
  match r with
  | None => Ret (g, C_NOTOK)
  | Some (degrees, imgs) =>
    '(g, degrees, r) <- _TestForCompleteGraphObstruction g 4 degrees imgs ;;
    if r =? C_TRUE then Ret (g, C_OK)
    else
      '(g, r) <- _TestForK23GraphObstruction g degrees imgs ;;
      Ret (g, if r =? C_TRUE then C_OK else C_NOTOK)
  end.

(** _CheckObstructionIntegrity, graphTests.c:369-386 *)
Definition _CheckObstructionIntegrity (g o : graph) : res (graph * graph * Z) :=
  '(g, o, r) <- _TestSubgraph g o ;;
  if negb (r =? C_TRUE) then Ret (g, o, C_NOTOK)
  else if gembed g =? EMBEDFLAGS_PLANAR then
    '(g, r) <- _CheckKuratowskiSubgraphIntegrity g ;; Ret (g, o, r)
  else if gembed g =? EMBEDFLAGS_OUTERPLANAR then
    '(g, r) <- _CheckOuterplanarObstructionIntegrity g ;; Ret (g, o, r)
  else Ret (g, o, C_NOTOK).

(** gp_TestEmbedResultIntegrity, graphTests.c:76-96 *)
Definition gp_TestEmbedResultIntegrity (g o : graph) (embedResult : Z) : res (graph * graph * Z) :=
  '(g, o, RetVal) <- (if embedResult =? C_OK then _CheckEmbeddingIntegrity g o
                      else if embedResult =? C_NONEMBEDDABLE then _CheckObstructionIntegrity g o
                      else Ret (g, o, embedResult)) ;;
  Ret (g, o, if RetVal =? C_OK then embedResult else RetVal).
