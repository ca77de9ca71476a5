(** * EmbM: model of c/graphLib/planarityRelated/graphEmbed.c, the edge addition embedder, second
    part: the walk down and the main loop. *)
From Verif Require Import Base GraphRec GraphM ListM DFSM TestM IsoM IsoKM.
From Verif Require Export EmbM0.

(** _HandleBlockedBicomp, graphEmbed.c:1020-1039.  The isolators are those of IsoM and IsoKM. *)
Definition _HandleBlockedBicomp (g : graph) (v RootVertex R : Z) : res (graph * Z) :=
  g <- (if negb (R =? RootVertex) then stk_push2 g R 0 else Ret g) ;;
  if gembed g =? EMBEDFLAGS_PLANAR then
    '(g, r) <- _IsolateKuratowskiSubgraph g v RootVertex ;;
    Ret (g, if negb (r =? C_OK) then C_NOTOK else C_NONEMBEDDABLE)
  else if gembed g =? EMBEDFLAGS_OUTERPLANAR then
    '(g, r) <- _IsolateOuterplanarObstruction g v RootVertex ;;
    Ret (g, if negb (r =? C_OK) then C_NOTOK else C_NONEMBEDDABLE)
  else Ret (g, C_NONEMBEDDABLE).

(** _HandleInactiveVertex, graphEmbed.c:1134-1141 *)
Definition _HandleInactiveVertex (g : graph) (W WPrevLink : Z) : res (Z * Z) :=
  X <- gp_GetExtFaceVertex g W (Z.lxor 1 WPrevLink) ;;
  a <- gp_GetExtFaceVertex g X 0 ;;
  Ret (X, if a =? W then 0 else 1).

(** graphEmbed.c:884-922: choose the direction of descent from R, [None] if both are blocked.
    The four conditions are read first; the C code stops at the first branch taken, and all
    entries read here were already read by the two updates. *)
Definition walkdown_choose (g : graph) (v R : Z) : res (graph * option (Z * Z * Z)) :=
  X <- gp_GetExtFaceVertex g R 0 ;;
  x1 <- gp_GetExtFaceVertex g X 1 ;;
  let XPrevLink := if x1 =? R then 1 else 0 in
  Y <- gp_GetExtFaceVertex g R 1 ;;
  y0 <- gp_GetExtFaceVertex g Y 0 ;;
  let YPrevLink := if y0 =? R then 0 else 1 in
  g <- gp_UpdateVertexFuturePertinentChild g X v ;;
  g <- gp_UpdateVertexFuturePertinentChild g Y v ;;
  px <- PERTINENT g X ;;
  fx <- FUTUREPERTINENT g X v ;;
  py <- PERTINENT g Y ;;
  fy <- FUTUREPERTINENT g Y v ;;
  Ret (g, if px && negb fx then Some (X, XPrevLink, 0)
          else if py && negb fy then Some (Y, YPrevLink, 1)
          else if px then Some (X, XPrevLink, 0)
          else if py then Some (Y, YPrevLink, 1)
          else None).

(** graphEmbed.c:940-957: make the stopping vertex W the neighbour of RootVertex on its side *)
Definition walkdown_stop (g : graph) (RootVertex RootSide W WPrevLink : Z) : res graph :=
  x <- gp_GetExtFaceVertex g RootVertex (Z.lxor 1 RootSide) ;;
  '(W, WPrevLink) <- (if x =? W then
                        W' <- gp_GetExtFaceVertex g W WPrevLink ;;
                        a <- gp_GetExtFaceVertex g W' 0 ;;
                        Ret (W', if a =? W then 1 else 0)
                      else Ret (W, WPrevLink)) ;;
  g <- gp_SetExtFaceVertex g RootVertex RootSide W ;;
  gp_SetExtFaceVertex g W WPrevLink RootVertex.

(** graphEmbed.c:860-972: the traversal of one side; the result is OK when the loop ends *)
Fixpoint walkdown_loop (n : nat) (g : graph) (v RootVertex RootSide W WPrevLink : Z) : res (graph * Z) :=
  match n with
  | O => OOF
  | S n' =>
    if W =? RootVertex then Ret (g, C_OK)
    else
      pe <- gp_GetVertexPertinentEdge g W ;;
      g <- (if negb (pe =? NIL) then
              g <- (if negb (stk_empty g) then _MergeBicomps g else Ret g) ;;
              g <- _EmbedBackEdgeToDescendant g RootSide RootVertex W WPrevLink ;;
              gp_SetVertexPertinentEdge g W NIL
            else Ret g) ;;
      pr <- gp_GetVertexPertinentRootsList g W ;;
      if negb (pr =? NIL) then
        g <- stk_push2 g W WPrevLink ;;
        let R := gp_GetRootFromDFSChild g pr in
        '(g, ch) <- walkdown_choose g v R ;;
        match ch with
        | Some (W', WPrevLink', side) =>
          g <- stk_push2 g R side ;;
          walkdown_loop n' g v RootVertex RootSide W' WPrevLink'
        | None =>
          '(g, r) <- _HandleBlockedBicomp g v RootVertex R ;;
          if negb (r =? C_OK) then Ret (g, r)
          else
            '(g, W, WPrevLink) <- stk_pop2 g ;;
            walkdown_loop n' g v RootVertex RootSide W WPrevLink
        end
      else
        g <- gp_UpdateVertexFuturePertinentChild g W v ;;
        fp <- FUTUREPERTINENT g W v ;;
        if fp || negb (Z.land (gembed g) EMBEDFLAGS_OUTERPLANAR =? 0) then
          g <- walkdown_stop g RootVertex RootSide W WPrevLink ;;
          Ret (g, C_OK)
        else
          '(W', WPrevLink') <- _HandleInactiveVertex g W WPrevLink ;;
          walkdown_loop n' g v RootVertex RootSide W' WPrevLink'
  end.
(** graphEmbed.c:849-972: one iteration of the loop over RootSide *)
Definition walkdown_side (g : graph) (v RootVertex RootSide : Z) : res (graph * Z) :=
  W <- gp_GetExtFaceVertex g RootVertex RootSide ;;
  a <- gp_GetExtFaceVertex g W 1 ;;
  walkdown_loop (S (S (Z.to_nat (2 * gN g)))) g v RootVertex RootSide W (if a =? RootVertex then 1 else 0).
(** _WalkDown, graphEmbed.c:842-997.  _AdvanceFwdArcList (1091-1116) runs only if the blocked
    bicomp handler returns OK, which the base handler never does. *)
Definition _WalkDown (g : graph) (v RootVertex : Z) : res (graph * Z) :=
  let child := gp_GetDFSChildFromRoot g RootVertex in
  let g := stk_clear g in
  '(g, r) <- walkdown_side g v RootVertex 0 ;;
  if negb (r =? C_OK) then Ret (g, r)
  else
    '(g, r) <- walkdown_side g v RootVertex 1 ;;
    if negb (r =? C_OK) then Ret (g, r)
    else
      e <- gp_GetVertexFwdArcList g v ;;
      if e =? NIL then Ret (g, C_OK)
      else
        w <- gp_GetNeighbor g e ;;
        if child <? w then
          nextChild <- gp_GetVertexNextDFSChild g v child ;;
          if (nextChild =? NIL) || (w <? nextChild) then _HandleBlockedBicomp g v RootVertex RootVertex
          else Ret (g, C_OK)
        else Ret (g, C_OK).

(** graphEmbed.c:221-283: the arcs of the newly numbered u *)
Fixpoint einit_arcs_loop (n : nat) (g : graph) (u e : Z) : res graph :=
  match n with
  | O => OOF
  | S n' =>
    if e =? NIL then Ret g
    else
      w <- gp_GetNeighbor g e ;;
      vis <- gp_GetVertexVisited g w ;;
      g <- (if vis =? 0 then stk_push2 g u e
            else
              t <- gp_GetEdgeType g e ;;
              if t =? EDGE_TYPE_PARENT then Ret g
              else
                g <- gp_SetEdgeType g e EDGE_TYPE_BACK ;;
                let eTwin := gp_GetTwinArc e in
                g <- gp_SetEdgeType g eTwin EDGE_TYPE_FORWARD ;;
                ePrev <- gp_GetPrevArc g eTwin ;;
                eNext <- gp_GetNextArc g eTwin ;;
                g <- (if negb (ePrev =? NIL) then gp_SetNextArc g ePrev eNext
                      else gp_SetFirstArc g w eNext) ;;
                g <- (if negb (eNext =? NIL) then gp_SetPrevArc g eNext ePrev
                      else gp_SetLastArc g w ePrev) ;;
                f <- gp_GetVertexFwdArcList g w ;;
                g <- (if negb (f =? NIL) then
                        ePrev <- gp_GetPrevArc g f ;;
                        g <- gp_SetPrevArc g eTwin ePrev ;;
                        g <- gp_SetNextArc g eTwin f ;;
                        g <- gp_SetPrevArc g f eTwin ;;
                        gp_SetNextArc g ePrev eTwin
                      else
                        g <- gp_SetVertexFwdArcList g w eTwin ;;
                        g <- gp_SetPrevArc g eTwin eTwin ;;
                        gp_SetNextArc g eTwin eTwin) ;;
                i <- gp_GetVertexIndex g w ;;
                la <- gp_GetVertexLeastAncestor g u ;;
                if i <? la then gp_SetVertexLeastAncestor g u i else Ret g) ;;
      e' <- gp_GetNextArc g e ;;
      einit_arcs_loop n' g u e'
  end.
(** graphEmbed.c:180-285: the loop for one tree, with root v *)
Fixpoint einit_tree_loop (n : nat) (g : graph) (DFI v : Z) : res (graph * Z) :=
  match n with
  | O => OOF
  | S n' =>
    if stk_empty g then Ret (g, DFI)
    else
      '(g, uparent, e) <- stk_pop2 g ;;
      u <- (if uparent =? NIL then Ret v else gp_GetNeighbor g e) ;;
      vis <- gp_GetVertexVisited g u ;;
      if vis =? 0 then
        g <- gp_SetVertexVisited g u ;;
        g <- gp_SetVertexIndex g u DFI ;;
        g <- gp_SetVertexParent g u uparent ;;
        g <- (if negb (e =? NIL) then
                g <- gp_SetEdgeType g e EDGE_TYPE_CHILD ;;
                g <- gp_SetEdgeType g (gp_GetTwinArc e) EDGE_TYPE_PARENT ;;
                i <- gp_GetVertexIndex g u ;;
                g <- gp_StoreAppendDFSChild g uparent i ;;
                i <- gp_GetVertexIndex g u ;;
                let R := gp_GetRootFromDFSChild g i in
                g <- gp_SetFirstArc g R e ;;
                gp_SetLastArc g R e
              else Ret g) ;;
        i <- gp_GetVertexIndex g u ;;
        g <- gp_SetVertexLeastAncestor g u i ;;
        e0 <- gp_GetFirstArc g u ;;
        g <- einit_arcs_loop (efuel g) g u e0 ;;
        einit_tree_loop n' g (DFI + 1) v
      else einit_tree_loop n' g DFI v
  end.
(** graphEmbed.c:178-286: the loop over the vertices *)
Fixpoint einit_forest_loop (n : nat) (g : graph) (DFI v : Z) : res graph :=
  match n with
  | O => OOF
  | S n' =>
    if DFI <=? gN g then
      p <- gp_GetVertexParent g v ;;
      if negb (p =? NIL) then einit_forest_loop n' g DFI (v + 1)
      else
        g <- stk_push2 g NIL NIL ;;
        '(g, DFI) <- einit_tree_loop (tfuel g) g DFI v ;;
        einit_forest_loop n' g DFI (v + 1)
    else Ret g
  end.
(** graphEmbed.c:303-312: the least lowpoint of the children *)
Fixpoint einit_low_loop (n : nat) (g : graph) (v child least : Z) : res Z :=
  match n with
  | O => OOF
  | S n' =>
    if child =? NIL then Ret least
    else
      lp <- gp_GetVertexLowpoint g child ;;
      c' <- gp_GetVertexNextDFSChild g v child ;;
      einit_low_loop n' g v c' (if lp <? least then lp else least)
  end.
(** graphEmbed.c:296-348: the loop body for vertex v *)
Definition einit_vertex (v : Z) (g : graph) : res graph :=
  g <- gp_SetVertexVisitedInfo g v (gN g) ;;
  child <- gp_GetVertexSortedDFSChildList g v ;;
  g <- gp_SetVertexFuturePertinentChild g v child ;;
  la <- gp_GetVertexLeastAncestor g v ;;
  least <- einit_low_loop (S (S (Z.to_nat (gN g)))) g v child la ;;
  g <- gp_SetVertexLowpoint g v least ;;
  p <- gp_GetVertexParent g v ;;
  if p =? NIL then
    g <- gp_SetFirstArc g v NIL ;;
    gp_SetLastArc g v NIL
  else
    let R := gp_GetRootFromDFSChild g v in
    e <- gp_GetFirstArc g R ;;
    g <- gp_SetPrevArc g e NIL ;;
    g <- gp_SetNextArc g e NIL ;;
    let eTwin := gp_GetTwinArc e in
    g <- gp_SetNeighbor g eTwin R ;;
    g <- gp_SetFirstArc g v eTwin ;;
    g <- gp_SetLastArc g v eTwin ;;
    g <- gp_SetPrevArc g eTwin NIL ;;
    g <- gp_SetNextArc g eTwin NIL ;;
    g <- gp_SetExtFaceVertex g R 0 v ;;
    g <- gp_SetExtFaceVertex g R 1 v ;;
    g <- gp_SetExtFaceVertex g v 0 R ;;
    gp_SetExtFaceVertex g v 1 R.
(** _EmbeddingInitialize, graphEmbed.c:159-367 *)
Definition _EmbeddingInitialize (g : graph) : res (graph * Z) :=
  if gstackCap g <? 2 * gp_GetArcCapacity g then Ret (g, C_NOTOK)
  else
    let g := stk_clear g in
    g <- _ClearVertexVisitedFlags g false ;;
    g <- einit_forest_loop (S (Z.to_nat (gN g))) g 1 1 ;;
    let g := set_giflags g (Z.lor (giflags g) FLAGS_DFSNUMBERED) in
    '(g, r) <- gp_SortVertices g ;;
    if negb (r =? C_OK) then Ret (g, C_NOTOK)
    else
      g <- for_down (Z.to_nat (gN g)) (gN g) einit_vertex g ;;
      Ret (g, C_OK).

(** graphEmbed.c:102-110: the Walkups of step v *)
Fixpoint walkups_loop (n : nat) (g : graph) (v e : Z) : res graph :=
  match n with
  | O => OOF
  | S n' =>
    if e =? NIL then Ret g
    else
      g <- _WalkUp g v e ;;
      e' <- gp_GetNextArc g e ;;
      h <- gp_GetVertexFwdArcList g v ;;
      walkups_loop n' g v (if e' =? h then NIL else e')
  end.
(** graphEmbed.c:115-128: the Walkdowns of step v *)
Fixpoint walkdowns_loop (n : nat) (g : graph) (v c : Z) : res (graph * Z) :=
  match n with
  | O => OOF
  | S n' =>
    if c =? NIL then Ret (g, C_OK)
    else
      pr <- gp_GetVertexPertinentRootsList g c ;;
      '(g, r) <- (if negb (pr =? NIL) then _WalkDown g v (gp_GetRootFromDFSChild g c) else Ret (g, C_OK)) ;;
      if negb (r =? C_OK) then Ret (g, r)
      else
        c' <- gp_GetVertexNextDFSChild g v c ;;
        walkdowns_loop n' g v c'
  end.
(** graphEmbed.c:96-133: step v of the embedder loop *)
Definition embed_step (g : graph) (v : Z) : res (graph * Z) :=
  e <- gp_GetVertexFwdArcList g v ;;
  g <- walkups_loop (efuel g) g v e ;;
  g <- gp_SetVertexPertinentRootsList g v NIL ;;
  c <- gp_GetVertexSortedDFSChildList g v ;;
  walkdowns_loop (S (S (Z.to_nat (gN g)))) g v c.
(** graphEmbed.c:95-134: for (v = N; v >= 1; v--), [n] steps left *)
Fixpoint embed_loop (n : nat) (g : graph) (v : Z) : res (graph * Z) :=
  match n with
  | O => Ret (g, C_OK)
  | S n' =>
    '(g, r) <- embed_step g v ;;
    if negb (r =? C_OK) then Ret (g, r) else embed_loop n' g (v - 1)
  end.
(** gp_Embed, graphEmbed.c:79-139 *)
Definition gp_Embed (g : graph) (embedFlags : Z) : res (graph * Z) :=
  let g := set_gembed g embedFlags in
  '(g, r) <- _EmbeddingInitialize g ;;
  if negb (r =? C_OK) then Ret (g, C_NOTOK)
  else
    '(g, r) <- embed_loop (Z.to_nat (gN g)) g (gN g) ;;
    _EmbedPostprocess g r.
