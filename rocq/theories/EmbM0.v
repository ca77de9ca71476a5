(** * EmbM0: model of c/graphLib/planarityRelated/graphEmbed.c, the edge addition embedder, first
    part: what the walk down and the obstruction isolators use.

    Calls through the function table are resolved to the base functions; the list collections
    are accessed with the macro versions (listcoll.h, SPEED_MACROS). *)
From Verif Require Import Base GraphRec GraphM ListM DFSM TestM.

(** graphStructures.h:267-269 *)
Definition gp_GetRootFromDFSChild (g : graph) (c : Z) : Z := c + gN g.
Definition gp_GetDFSChildFromRoot (g : graph) (R : Z) : Z := R - gN g.
Definition gp_GetPrimaryVertexFromRoot (g : graph) (R : Z) : res Z :=
  gp_GetVertexParent g (gp_GetDFSChildFromRoot g R).
(** graphStructures.h:235 *)
Definition gp_IsVirtualVertex (g : graph) (v : Z) : bool := gN g <? v.
(** graphStructures.h:237, 272 *)
Definition gp_VirtualVertexInUse (g : graph) (R : Z) : res bool :=
  e <- gp_GetFirstArc g R ;; Ret (negb (e =? NIL)).

(** The two list collections as values of the list model; both have
    gp_PrimaryVertexIndexBound entries (graphUtils.c:223-224). *)
Definition brl (g : graph) : lcoll :=
  mkLC (gp_PrimaryVertexIndexBound g) (brlNext (gX g)) (brlPrev (gX g)).
Definition put_brl (g : graph) (c : lcoll) : graph :=
  set_gX g (set_brlPrev (set_brlNext (gX g) (lcnext c)) (lcprev c)).
Definition sdl (g : graph) : lcoll :=
  mkLC (gp_PrimaryVertexIndexBound g) (sdlNext (gX g)) (sdlPrev (gX g)).
Definition put_sdl (g : graph) (c : lcoll) : graph :=
  set_gX g (set_sdlPrev (set_sdlNext (gX g) (lcnext c)) (lcprev c)).

(** graphStructures.h:434-444 *)
Definition gp_DeleteVertexPertinentRoot (g : graph) (v R : Z) : res graph :=
  h <- gp_GetVertexPertinentRootsList g v ;;
  '(h, c) <- mLCDelete (brl g) h (gp_GetDFSChildFromRoot g R) ;;
  gp_SetVertexPertinentRootsList (put_brl g c) v h.
Definition gp_PrependVertexPertinentRoot (g : graph) (v R : Z) : res graph :=
  h <- gp_GetVertexPertinentRootsList g v ;;
  '(h, c) <- mLCPrepend (brl g) h (gp_GetDFSChildFromRoot g R) ;;
  gp_SetVertexPertinentRootsList (put_brl g c) v h.
Definition gp_AppendVertexPertinentRoot (g : graph) (v R : Z) : res graph :=
  h <- gp_GetVertexPertinentRootsList g v ;;
  '(h, c) <- mLCAppend (brl g) h (gp_GetDFSChildFromRoot g R) ;;
  gp_SetVertexPertinentRootsList (put_brl g c) v h.
(** graphStructures.h:469-472; the caller stores the head that gp_AppendDFSChild returns *)
Definition gp_GetVertexNextDFSChild (g : graph) (v c : Z) : res Z :=
  h <- gp_GetVertexSortedDFSChildList g v ;; mLCGetNext (sdl g) h c.
Definition gp_StoreAppendDFSChild (g : graph) (v c : Z) : res graph :=
  h <- gp_GetVertexSortedDFSChildList g v ;;
  '(h, l) <- mLCAppend (sdl g) h c ;;
  gp_SetVertexSortedDFSChildList (put_sdl g l) v h.

(** gp_UpdateVertexFuturePertinentChild, graphStructures.h:452-464 *)
Fixpoint update_fpc (n : nat) (g : graph) (w v : Z) : res graph :=
  match n with
  | O => OOF
  | S n' =>
    c <- gp_GetVertexFuturePertinentChild g w ;;
    if c =? NIL then Ret g
    else
      lp <- gp_GetVertexLowpoint g c ;;
      sep <- (if v <=? lp then Ret false else gp_VirtualVertexInUse g (gp_GetRootFromDFSChild g c)) ;;
      if negb sep then
        c' <- gp_GetVertexNextDFSChild g w c ;;
        g <- gp_SetVertexFuturePertinentChild g w c' ;;
        update_fpc n' g w v
      else Ret g
  end.
Definition gp_UpdateVertexFuturePertinentChild (g : graph) (w v : Z) : res graph :=
  update_fpc (S (S (Z.to_nat (gN g)))) g w v.

(** PERTINENT, FUTUREPERTINENT, graphStructures.h:724-771 (NOTFUTUREPERTINENT is the negation) *)
Definition PERTINENT (g : graph) (w : Z) : res bool :=
  e <- gp_GetVertexPertinentEdge g w ;;
  if negb (e =? NIL) then Ret true
  else r <- gp_GetVertexPertinentRootsList g w ;; Ret (negb (r =? NIL)).
Definition FUTUREPERTINENT (g : graph) (w v : Z) : res bool :=
  la <- gp_GetVertexLeastAncestor g w ;;
  if la <? v then Ret true
  else
    c <- gp_GetVertexFuturePertinentChild g w ;;
    if c =? NIL then Ret false
    else lp <- gp_GetVertexLowpoint g c ;; Ret (lp <? v).

(** _InitVertexRec, graphUtils.c:488-494 *)
Definition _InitVertexRec (g : graph) (v : Z) : res graph :=
  g <- gp_SetFirstArc g v NIL ;;
  g <- gp_SetLastArc g v NIL ;;
  g <- gp_SetVertexIndex g v NIL ;;
  wr_vflags g v 0.

(** graphEmbed.c:441-450: the loop of _InvertVertex *)
Fixpoint invert_loop (n : nat) (g : graph) (e : Z) : res graph :=
  match n with
  | O => OOF
  | S n' =>
    if e =? NIL then Ret g
    else
      temp <- gp_GetNextArc g e ;;
      p <- gp_GetPrevArc g e ;;
      g <- gp_SetNextArc g e p ;;
      g <- gp_SetPrevArc g e temp ;;
      invert_loop n' g temp
  end.
(** _InvertVertex, graphEmbed.c:435-461 *)
Definition _InvertVertex (g : graph) (W : Z) : res graph :=
  e <- gp_GetFirstArc g W ;;
  g <- invert_loop (efuel g) g e ;;
  temp <- gp_GetFirstArc g W ;;
  l <- gp_GetLastArc g W ;;
  g <- gp_SetFirstArc g W l ;;
  g <- gp_SetLastArc g W temp ;;
  temp <- gp_GetExtFaceVertex g W 0 ;;
  x <- gp_GetExtFaceVertex g W 1 ;;
  g <- gp_SetExtFaceVertex g W 0 x ;;
  gp_SetExtFaceVertex g W 1 temp.

(** graphEmbed.c:497-504: the loop of _MergeVertex *)
Fixpoint merge_loop (n : nat) (g : graph) (W e : Z) : res graph :=
  match n with
  | O => OOF
  | S n' =>
    if e =? NIL then Ret g
    else
      g <- gp_SetNeighbor g (gp_GetTwinArc e) W ;;
      e' <- gp_GetNextArc g e ;;
      merge_loop n' g W e'
  end.
(** _MergeVertex, graphEmbed.c:488-541 *)
Definition _MergeVertex (g : graph) (W WPrevLink R : Z) : res graph :=
  e <- gp_GetFirstArc g R ;;
  g <- merge_loop (efuel g) g W e ;;
  let WNext := Z.lxor 1 WPrevLink in
  e_w <- gp_GetArc g W WPrevLink ;;
  e_r <- gp_GetArc g R WNext ;;
  e_ext <- gp_GetArc g R WPrevLink ;;
  g <- (if negb (e_w =? NIL) then
          g <- gp_SetAdjacentArc g e_w WNext e_r ;;
          g <- gp_SetAdjacentArc g e_r WPrevLink e_w ;;
          g <- gp_SetArc g W WPrevLink e_ext ;;
          gp_SetAdjacentArc g e_ext WNext NIL
        else
          g <- gp_SetArc g W WNext e_r ;;
          g <- gp_SetAdjacentArc g e_r WPrevLink NIL ;;
          g <- gp_SetArc g W WPrevLink e_ext ;;
          gp_SetAdjacentArc g e_ext WNext NIL) ;;
  _InitVertexRec g R.

(** _JoinBicomps, graphEmbed.c:1291-1304 *)
Definition join_step (R : Z) (g : graph) : res graph :=
  u <- gp_VirtualVertexInUse g R ;;
  if u then
    p <- gp_GetPrimaryVertexFromRoot g R ;;
    _MergeVertex g p 0 R
  else Ret g.
Definition _JoinBicomps (g : graph) : res (graph * Z) :=
  g <- for_up (Z.to_nat (gN g)) (gN g + 1) join_step g ;;
  Ret (g, C_OK).

(** graphEmbed.c:1263-1276: push the DFS children found in the list of W *)
Fixpoint orient_push_loop (n : nat) (g : graph) (inv : Z) (PreserveSigns : bool) (e : Z) : res graph :=
  match n with
  | O => OOF
  | S n' =>
    if e =? NIL then Ret g
    else
      t <- gp_GetEdgeType g e ;;
      g <- (if t =? EDGE_TYPE_CHILD then
              w <- gp_GetNeighbor g e ;;
              f <- gp_GetEdgeFlagInverted g e ;;
              g <- stk_push2 g w (Z.lxor inv f) ;;
              if PreserveSigns then Ret g else gp_ClearEdgeFlagInverted g e
            else Ret g) ;;
      e' <- gp_GetNextArc g e ;;
      orient_push_loop n' g inv PreserveSigns e'
  end.
(** graphEmbed.c:1254-1277: the main loop of _OrientVerticesInBicomp *)
Fixpoint orient_loop (n : nat) (g : graph) (bottom : Z) (PreserveSigns : bool) : res graph :=
  match n with
  | O => OOF
  | S n' =>
    if stk_size g <=? bottom then Ret g
    else
      '(g, W, inv) <- stk_pop2 g ;;
      g <- (if negb (inv =? 0) then _InvertVertex g W else Ret g) ;;
      e <- gp_GetFirstArc g W ;;
      g <- orient_push_loop (efuel g) g inv PreserveSigns e ;;
      orient_loop n' g bottom PreserveSigns
  end.
(** _OrientVerticesInBicomp, graphEmbed.c:1247-1280; it always returns OK *)
Definition _OrientVerticesInBicomp (g : graph) (root : Z) (PreserveSigns : bool) : res graph :=
  let bottom := stk_size g in
  g <- stk_push2 g root 0 ;;
  orient_loop (S (S (Z.to_nat (2 * gN g)))) g bottom PreserveSigns.
(** _OrientVerticesInEmbedding, graphEmbed.c:1196-1213 *)
Definition orient_step (R : Z) (g : graph) : res graph :=
  u <- gp_VirtualVertexInUse g R ;;
  if u then _OrientVerticesInBicomp g R false else Ret g.
Definition _OrientVerticesInEmbedding (g : graph) : res (graph * Z) :=
  g <- for_up (Z.to_nat (gN g)) (gN g + 1) orient_step (stk_clear g) ;;
  Ret (g, C_OK).

(** _EmbedPostprocess, graphEmbed.c:1168-1183 *)
Definition _EmbedPostprocess (g : graph) (r : Z) : res (graph * Z) :=
  if r =? C_OK then
    '(g, ro) <- _OrientVerticesInEmbedding g ;;
    if negb (ro =? C_OK) then Ret (g, C_NOTOK)
    else
      '(g, rj) <- _JoinBicomps g ;;
      Ret (g, if negb (rj =? C_OK) then C_NOTOK else r)
  else Ret (g, r).

(** _EmbedBackEdgeToDescendant, graphEmbed.c:377-426 *)
Definition add_end (g : graph) (v side e : Z) : res graph :=
  g <- gp_SetAdjacentArc g e (Z.lxor 1 side) NIL ;;
  a <- gp_GetArc g v side ;;
  g <- gp_SetAdjacentArc g e side a ;;
  a <- gp_GetArc g v side ;;
  g <- gp_SetAdjacentArc g a (Z.lxor 1 side) e ;;
  gp_SetArc g v side e.
Definition take_fwd (g : graph) (p fwdArc : Z) : res graph :=
  h <- gp_GetVertexFwdArcList g p ;;
  g <- (if h =? fwdArc then
          n <- gp_GetNextArc g fwdArc ;;
          g <- gp_SetVertexFwdArcList g p n ;;
          h <- gp_GetVertexFwdArcList g p ;;
          if h =? fwdArc then gp_SetVertexFwdArcList g p NIL else Ret g
        else Ret g) ;;
  p' <- gp_GetPrevArc g fwdArc ;;
  n' <- gp_GetNextArc g fwdArc ;;
  g <- gp_SetNextArc g p' n' ;;
  n' <- gp_GetNextArc g fwdArc ;;
  p' <- gp_GetPrevArc g fwdArc ;;
  gp_SetPrevArc g n' p'.
Definition _EmbedBackEdgeToDescendant (g : graph) (RootSide RootVertex W WPrevLink : Z) : res graph :=
  fwdArc <- gp_GetVertexPertinentEdge g W ;;
  let backArc := gp_GetTwinArc fwdArc in
  parentCopy <- gp_GetPrimaryVertexFromRoot g RootVertex ;;
  g <- take_fwd g parentCopy fwdArc ;;
  g <- add_end g RootVertex RootSide fwdArc ;;
  g <- add_end g W WPrevLink backArc ;;
  g <- gp_SetNeighbor g backArc RootVertex ;;
  g <- gp_SetExtFaceVertex g RootVertex RootSide W ;;
  gp_SetExtFaceVertex g W WPrevLink RootVertex.

(** graphEmbed.c:597-615: reverse the sign of the first child arc in the list *)
Fixpoint flip_sign_loop (n : nat) (g : graph) (e : Z) : res graph :=
  match n with
  | O => OOF
  | S n' =>
    if e =? NIL then Ret g
    else
      t <- gp_GetEdgeType g e ;;
      if t =? EDGE_TYPE_CHILD then gp_XorEdgeFlagInverted g e
      else e' <- gp_GetNextArc g e ;; flip_sign_loop n' g e'
  end.
(** graphEmbed.c:562-631: one iteration of _MergeBicomps, for the popped R, Rout, Z, ZPrevLink *)
Definition merge_one (g : graph) (R Rout Z ZPrevLink : Z) : res graph :=
  x <- gp_GetExtFaceVertex g R (Z.lxor 1 Rout) ;;
  g <- gp_SetExtFaceVertex g Z ZPrevLink x ;;
  x0 <- gp_GetExtFaceVertex g x 0 ;;
  x1 <- gp_GetExtFaceVertex g x 1 ;;
  g <- (if x0 =? x1 then gp_SetExtFaceVertex g x Rout Z
        else gp_SetExtFaceVertex g x (if x0 =? R then 0 else 1) Z) ;;
  g <- (if ZPrevLink =? Rout then
          f <- gp_GetFirstArc g R ;;
          l <- gp_GetLastArc g R ;;
          g <- (if negb (f =? l) then _InvertVertex g R else Ret g) ;;
          e <- gp_GetFirstArc g R ;;
          flip_sign_loop (efuel g) g e
        else Ret g) ;;
  g <- gp_DeleteVertexPertinentRoot g Z R ;;
  fpc <- gp_GetVertexFuturePertinentChild g Z ;;
  g <- (if gp_GetDFSChildFromRoot g R =? fpc then
          c <- gp_GetVertexNextDFSChild g Z fpc ;;
          gp_SetVertexFuturePertinentChild g Z c
        else Ret g) ;;
  _MergeVertex g Z ZPrevLink R.
(** _MergeBicomps, graphEmbed.c:558-635; it always returns OK *)
Fixpoint merge_bicomps (n : nat) (g : graph) : res graph :=
  match n with
  | O => OOF
  | S n' =>
    if stk_empty g then Ret g
    else
      '(g, R, Rout) <- stk_pop2 g ;;
      '(g, Z, ZPrevLink) <- stk_pop2 g ;;
      g <- merge_one g R Rout Z ZPrevLink ;;
      merge_bicomps n' g
  end.
Definition _MergeBicomps (g : graph) : res graph := merge_bicomps (S (length (gstack g))) g.

(** _WalkUp, graphEmbed.c:673-772 *)
Inductive wu_found : Type := WU_break | WU_found (R nextZig nextZag : Z).
(** graphEmbed.c:687-729: look for the bicomp root next to Zig or Zag; R = NIL if none *)
Definition walkup_look (g : graph) (v Zig Zag ZigPrevLink ZagPrevLink : Z) : res wu_found :=
  nextZig <- gp_GetExtFaceVertex g Zig (Z.lxor 1 ZigPrevLink) ;;
  if gp_IsVirtualVertex g nextZig then
    vz <- gp_GetVertexVisitedInfo g Zig ;;
    if vz =? v then Ret WU_break
    else
      let R := nextZig in
      r0 <- gp_GetExtFaceVertex g R 0 ;;
      nextZag <- gp_GetExtFaceVertex g R (if r0 =? Zig then 1 else 0) ;;
      vn <- gp_GetVertexVisitedInfo g nextZag ;;
      if vn =? v then Ret WU_break else Ret (WU_found R nextZig nextZag)
  else
    nextZag <- gp_GetExtFaceVertex g Zag (Z.lxor 1 ZagPrevLink) ;;
    if gp_IsVirtualVertex g nextZag then
      vz <- gp_GetVertexVisitedInfo g Zag ;;
      if vz =? v then Ret WU_break
      else
        let R := nextZag in
        r0 <- gp_GetExtFaceVertex g R 0 ;;
        nextZig <- gp_GetExtFaceVertex g R (if r0 =? Zag then 1 else 0) ;;
        vn <- gp_GetVertexVisitedInfo g nextZig ;;
        if vn =? v then Ret WU_break else Ret (WU_found R nextZig nextZag)
    else
      v1 <- gp_GetVertexVisitedInfo g Zig ;;
      if v1 =? v then Ret WU_break
      else
        v2 <- gp_GetVertexVisitedInfo g Zag ;;
        if v2 =? v then Ret WU_break else Ret (WU_found NIL nextZig nextZag).
Fixpoint walkup_loop (n : nat) (g : graph) (v Zig Zag ZigPrevLink ZagPrevLink : Z) : res graph :=
  match n with
  | O => OOF
  | S n' =>
    if Zig =? v then Ret g
    else
      w <- walkup_look g v Zig Zag ZigPrevLink ZagPrevLink ;;
      match w with
      | WU_break => Ret g
      | WU_found R nextZig nextZag =>
        g <- gp_SetVertexVisitedInfo g Zig v ;;
        g <- gp_SetVertexVisitedInfo g Zag v ;;
        if R =? NIL then
          a <- gp_GetExtFaceVertex g nextZig 0 ;;
          b <- gp_GetExtFaceVertex g nextZag 0 ;;
          walkup_loop n' g v nextZig nextZag (if a =? Zig then 0 else 1) (if b =? Zag then 0 else 1)
        else
          p <- gp_GetPrimaryVertexFromRoot g R ;;
          lp <- gp_GetVertexLowpoint g (gp_GetDFSChildFromRoot g R) ;;
          g <- (if lp <? v then gp_AppendVertexPertinentRoot g p R
                else gp_PrependVertexPertinentRoot g p R) ;;
          walkup_loop n' g v p p 1 0
      end
  end.
Definition _WalkUp (g : graph) (v e : Z) : res graph :=
  W <- gp_GetNeighbor g e ;;
  g <- gp_SetVertexPertinentEdge g W e ;;
  walkup_loop (S (Z.to_nat (gN g))) g v W W 1 0.
