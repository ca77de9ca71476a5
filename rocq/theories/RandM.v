(** * RandM: model of the random graph generators of c/graphLib/graphUtils.c.

    rand() is a stream [rnd]: call number k returns [rnd k], between 0 and RAND_MAX (at most
    INT_MAX).  Functions that draw take and return the number of calls made so far. *)
From Verif Require Import Base GraphRec GraphM.

(** Conversion of an unsigned int value to int (two's complement, what compilers do) *)
Definition wrap32 (z : Z) : Z := (z + 2147483648) mod 4294967296 - 2147483648.

(** _GetRandomNumber, graphUtils.c:1130-1142.  0xFFFF0000 is an unsigned constant, so the first
    addition is unsigned; the second one is an int addition and may overflow (UB). *)
Definition rand_mix (r : Z) : res Z :=
  let n := wrap32 (r + Z.shiftr (Z.land r 4294901760) 16) in
  let n' := n + Z.shiftr (Z.land n 65280) 8 in
  guard (int_ok n') (Ret (Z.land n' 134217727)).
Definition _GetRandomNumber (r NMin NMax : Z) : res Z :=
  if NMax <? NMin then Ret NMin
  else n <- rand_mix r ;;
       guard (int_ok (NMax - NMin + 1)) (Ret (Z.rem n (NMax - NMin + 1) + NMin)).

(** graphUtils.c:1084-1089: [n] more vertices to connect, the next one is v *)
Fixpoint tree_edges (n : nat) (rnd : nat -> Z) (k : nat) (g : graph) (v : Z) : res (graph * nat * Z) :=
  match n with
  | O => Ret (g, k, C_OK)
  | S n' =>
    u <- _GetRandomNumber (rnd k) 1 (v - 1) ;;
    '(g, r) <- gp_AddEdge g u 0 v 0 ;;
    if negb (r =? C_OK) then Ret (g, S k, C_NOTOK)
    else tree_edges n' rnd (S k) g (v + 1)
  end.
(** graphUtils.c:1100-1115 *)
Fixpoint extra_edges (n : nat) (rnd : nat -> Z) (k : nat) (g : graph) (m M : Z) : res (graph * nat * Z) :=
  match n with
  | O => OOF
  | S n' =>
    if m <? M then
      u <- _GetRandomNumber (rnd k) 1 (gN g - 1) ;;
      v <- _GetRandomNumber (rnd (S k)) (u + 1) (gN g) ;;
      nb <- gp_IsNeighbor g u v ;;
      if negb (nb =? 0) then extra_edges n' rnd (S (S k)) g m M
      else
        '(g, r) <- gp_AddEdge g u 0 v 0 ;;
        if negb (r =? C_OK) then Ret (g, S (S k), C_NOTOK)
        else extra_edges n' rnd (S (S k)) g (m + 1) M
    else Ret (g, k, C_OK)
  end.
(** gp_CreateRandomGraph, graphUtils.c:1073-1118 *)
Definition gp_CreateRandomGraph (fuel : nat) (rnd : nat -> Z) (g : graph) : res (graph * Z) :=
  let N := gN g in
  '(g, k, r) <- tree_edges (Z.to_nat (N - 1)) rnd 0 g 2 ;;
  if negb (r =? C_OK) then Ret (g, C_NOTOK)
  else
    guard (int_ok (7 * N)) (
    M <- _GetRandomNumber (rnd k) (7 * N / 8) (gCap g / 2) ;;
    guard (int_ok (N * (N - 1))) (
    let M := if M >? N * (N - 1) / 2 then N * (N - 1) / 2 else M in
    '(g, _, r) <- extra_edges fuel rnd (S k) g (N - 1) M ;;
    Ret (g, r))).

(** _getUnprocessedChild, graphUtils.c:1153-1192 *)
Definition _getUnprocessedChild (g : graph) (parent : Z) : res (graph * Z) :=
  e <- gp_GetFirstArc g parent ;;
  let eTwin := gp_GetTwinArc e in
  child <- gp_GetNeighbor g e ;;
  t <- gp_GetEdgeType g e ;;
  if t =? EDGE_TYPE_NOTDEFINED then Ret (g, NIL)
  else
    vis <- gp_GetEdgeVisited g e ;;
    if negb (vis =? 0) then Ret (g, NIL)
    else
      g <- gp_SetEdgeVisited g e ;;
      g <- gp_SetEdgeVisited g eTwin ;;
      g <- gp_MoveArcToLast g parent e ;;
      g <- gp_MoveArcToLast g child eTwin ;;
      g <- gp_SetVertexParent g child parent ;;
      Ret (g, child).

(** graphUtils.c:1238-1254 *)
Fixpoint typed_tree_edges (n : nat) (rnd : nat -> Z) (k : nat) (g : graph) (v : Z) : res (graph * nat * Z) :=
  match n with
  | O => Ret (g, k, C_OK)
  | S n' =>
    u <- _GetRandomNumber (rnd k) 1 (v - 1) ;;
    '(g, r) <- gp_AddEdge g u 0 v 0 ;;
    if negb (r =? C_OK) then Ret (g, S k, C_NOTOK)
    else
      arc <- gp_GetNeighborEdgeRecord g u v ;;
      g <- gp_SetEdgeType g arc EDGE_TYPE_RANDOMTREE ;;
      g <- gp_SetEdgeType g (gp_GetTwinArc arc) EDGE_TYPE_RANDOMTREE ;;
      g <- gp_ClearEdgeVisited g arc ;;
      g <- gp_ClearEdgeVisited g (gp_GetTwinArc arc) ;;
      typed_tree_edges n' rnd (S k) g (v + 1)
  end.

(** graphUtils.c:1284-1294: climbs until a vertex with an unprocessed child; returns the graph,
    the status and v, p, c *)
Fixpoint climb (n : nat) (g : graph) (root last v p c : Z) : res (graph * Z * Z * Z * Z) :=
  match n with
  | O => OOF
  | S n' =>
    if p =? NIL then Ret (g, C_OK, v, p, c)
    else
      '(g, c) <- _getUnprocessedChild g p ;;
      if negb (c =? NIL) then Ret (g, C_OK, v, p, c)
      else
        let v := p in
        p <- gp_GetVertexParent g v ;;
        if negb (p =? NIL) && negb (p =? root) then
          '(g, r) <- gp_AddEdge g last 1 p 1 ;;
          if negb (r =? C_OK) then Ret (g, C_NOTOK, v, p, c) else climb n' g root last v p c
        else climb n' g root last v p c
  end.

(** graphUtils.c:1263-1324: adding edges while the graph stays planar *)
Fixpoint triangulate (n : nat) (g : graph) (root last v M : Z) : res (graph * Z) :=
  match n with
  | O => OOF
  | S n' =>
    if negb (v =? root) && (gM g <? M) then
      '(g, c) <- _getUnprocessedChild g v ;;
      if negb (c =? NIL) then
        '(g, r) <- (if negb (last =? v) then gp_AddEdge g last 1 c 1 else Ret (g, C_OK)) ;;
        if negb (r =? C_OK) then Ret (g, C_NOTOK)
        else
          '(g, r) <- gp_AddEdge g root 1 c 1 ;;
          if negb (r =? C_OK) then Ret (g, C_NOTOK) else triangulate n' g root c c M
      else
        p <- gp_GetVertexParent g v ;;
        '(g, r, v, p, c) <- climb (S (Z.to_nat (gN g))) g root last v p c ;;
        if negb (r =? C_OK) then Ret (g, C_NOTOK)
        else if p =? NIL then triangulate n' g root last v M
        else if p =? root then
          '(g, r) <- gp_AddEdge g v 1 c 1 ;;
          if negb (r =? C_OK) then Ret (g, C_NOTOK)
          else
            '(g, r) <- (if negb (v =? last) then gp_AddEdge g last 1 c 1 else Ret (g, C_OK)) ;;
            if negb (r =? C_OK) then Ret (g, C_NOTOK) else triangulate n' g root last c M
        else
          '(g, r) <- gp_AddEdge g last 1 c 1 ;;
          if negb (r =? C_OK) then Ret (g, C_NOTOK)
          else
            '(g, r) <- gp_AddEdge g root 1 c 1 ;;
            if negb (r =? C_OK) then Ret (g, C_NOTOK) else triangulate n' g root c c M
    else Ret (g, C_OK)
  end.
(** graphUtils.c:1328-1336 *)
Fixpoint more_edges (n : nat) (rnd : nat -> Z) (k : nat) (g : graph) (numEdges : Z) : res (graph * Z) :=
  match n with
  | O => OOF
  | S n' =>
    if gM g <? numEdges then
      u <- _GetRandomNumber (rnd k) 1 (gN g) ;;
      v <- _GetRandomNumber (rnd (S k)) 1 (gN g) ;;
      if negb (u =? v) then
        nb <- gp_IsNeighbor g u v ;;
        if nb =? 0 then
          '(g, r) <- gp_AddEdge g u 0 v 0 ;;
          if negb (r =? C_OK) then Ret (g, C_NOTOK) else more_edges n' rnd (S (S k)) g numEdges
        else more_edges n' rnd (S (S k)) g numEdges
      else more_edges n' rnd (S (S k)) g numEdges
    else Ret (g, C_OK)
  end.
(** gp_CreateRandomGraphEx, graphUtils.c:1227-1351; [fuel] bounds the two while loops *)
Definition gp_CreateRandomGraphEx (fuel : nat) (rnd : nat -> Z) (g : graph) (numEdges : Z) : res (graph * Z) :=
  let N := gN g in
  let numEdges := if numEdges >? gCap g / 2 then gCap g / 2 else numEdges in
  '(g, k, r) <- typed_tree_edges (Z.to_nat (N - 1)) rnd 0 g 2 ;;
  if negb (r =? C_OK) then Ret (g, C_NOTOK)
  else
    guard (int_ok (3 * N)) (
    let M := if numEdges <=? 3 * N - 6 then numEdges else 3 * N - 6 in
    let root := 1 in
    '(g, v) <- _getUnprocessedChild g root ;;
    '(g, r) <- triangulate fuel g root v v M ;;
    if negb (r =? C_OK) then Ret (g, C_NOTOK)
    else
      '(g, r) <- more_edges fuel rnd k g numEdges ;;
      if negb (r =? C_OK) then Ret (g, C_NOTOK)
      else
        g <- for_up (Z.to_nat (gp_EdgeInUseIndexBound g)) 0
               (fun e g => g <- gp_ClearEdgeType g e ;; gp_ClearEdgeVisited g e) g ;;
        g <- for_up (Z.to_nat N) 1 (fun v g => gp_SetVertexParent g v NIL) g ;;
        Ret (g, C_OK)).
