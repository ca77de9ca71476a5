(** * DrawM: model of c/graphLib/planarityRelated/graphDrawPlanar.c (ranges, checker, rendering).

    The drawing context is the graph together with the position records of the
    vertices and of the edge records.  Allocation succeeds.  The functions that
    compute positions from an embedding are not modelled here. *)
From Verif Require Import Base GraphRec GraphM StrBufM.

(** pos, start, end: graphDrawPlanar.private.h, DrawPlanar_EdgeRec and
    DrawPlanar_VertexInfo (the members used only while embedding are left out) *)
Record drec := mkD { dpos : Z; dstart : Z; dend : Z }.

(** DrawPlanarContext.  VI has gp_PrimaryVertexIndexBound records, E has
    gp_EdgeIndexBound records (graphDrawPlanar_Extensions.c, _DrawPlanar_CreateStructures). *)
Record dctx := mkC { dG : graph; dV : Z -> drec; dE : Z -> drec }.

Definition set_dG (c : dctx) (g : graph) : dctx := mkC g (dV c) (dE c).
Definition rd_dV (c : dctx) (v : Z) : res drec := guard (inVI (dG c) v) (Ret (dV c v)).
Definition rd_dE (c : dctx) (e : Z) : res drec := guard (inE (dG c) e) (Ret (dE c e)).
Definition wr_dV (c : dctx) (v : Z) (d : drec) : res dctx :=
  guard (inVI (dG c) v) (Ret (mkC (dG c) (upd (dV c) v d) (dE c))).
Definition wr_dE (c : dctx) (e : Z) (d : drec) : res dctx :=
  guard (inE (dG c) e) (Ret (mkC (dG c) (dV c) (upd (dE c) e d))).

(** ** _ComputeVertexRanges, graphDrawPlanar.c:509-546 *)
(** lines 530-540 *)
Fixpoint vrange_loop (fuel : nat) (c : dctx) (e mn mx : Z) : res (Z * Z) :=
  match fuel with
  | O => OOF
  | S f =>
    if e =? NIL then Ret (mn, mx)
    else
      d <- rd_dE c e ;;
      let mn := if dpos d <? mn then dpos d else mn in
      let mx := if mx <? dpos d then dpos d else mx in
      e <- gp_GetNextArc (dG c) e ;;
      vrange_loop f c e mn mx
  end.

Definition vrange_one (v : Z) (c : dctx) : res dctx :=
  e <- gp_GetFirstArc (dG c) v ;;
  '(mn, mx) <- (if e =? NIL then Ret (0, 0)
                else vrange_loop (S (Z.to_nat (gp_EdgeIndexBound (dG c)))) c e (gM (dG c) + 1) (-1)) ;;
  d <- rd_dV c v ;;
  wr_dV c v (mkD (dpos d) mn mx).

Definition _ComputeVertexRanges (c : dctx) : res (dctx * Z) :=
  c <- for_up (Z.to_nat (gN (dG c))) 1 vrange_one c ;; Ret (c, C_OK).

(** ** _ComputeEdgeRanges, graphDrawPlanar.c:555-592 *)
(** lines 567-589, for the edge with records 2k and 2k+1 *)
Definition erange_one (k : Z) (c : dctx) : res dctx :=
  let e := 2 * k in
  let eTwin := gp_GetTwinArc e in
  v1 <- gp_GetNeighbor (dG c) e ;;
  v2 <- gp_GetNeighbor (dG c) eTwin ;;
  d1 <- rd_dV c v1 ;;
  d2 <- rd_dV c v2 ;;
  let '(s, t) := if dpos d1 <? dpos d2 then (dpos d1, dpos d2) else (dpos d2, dpos d1) in
  d <- rd_dE c e ;;
  c <- wr_dE c e (mkD (dpos d) s t) ;;
  dt <- rd_dE c eTwin ;;
  wr_dE c eTwin (mkD (dpos dt) s t).

Definition _ComputeEdgeRanges (c : dctx) : res (dctx * Z) :=
  match gholes (dG c) with
  | _ :: _ => Ret (c, C_NOTOK)
  | [] =>
      c <- for_up (Z.to_nat ((gp_EdgeInUseIndexBound (dG c) - 2) / 2)) 1 erange_one c ;; Ret (c, C_OK)
  end.

(** ** _CheckVisibilityRepresentationIntegrity, graphDrawPlanar.c:941-1065 *)
(** lines 956-980; the second component tells whether to go on *)
Fixpoint check_vertices (n : nat) (v : Z) (c : dctx) : res (dctx * bool) :=
  match n with
  | O => Ret (c, true)
  | S n' =>
      d <- rd_dV c v ;;
      let g := dG c in
      if (0 <? gM g) && ((dpos d <? 0) || (gN g <=? dpos d) || (dstart d <? 0) ||
                         (dend d <? dstart d) || (gM g <=? dend d)) then Ret (c, false)
      else
        vis <- gp_GetVertexVisited g (dpos d + 1) ;;
        if negb (vis =? 0) then Ret (c, false)
        else
          g <- gp_SetVertexVisited g (dpos d + 1) ;;
          check_vertices n' (v + 1) (set_dG c g)
  end.

(** lines 986-1020 *)
Fixpoint check_edges (n : nat) (e : Z) (c : dctx) : res (dctx * bool) :=
  match n with
  | O => Ret (c, true)
  | S n' =>
      let g := dG c in
      let eTwin := gp_GetTwinArc e in
      d <- rd_dE c e ;;
      t <- rd_dE c eTwin ;;
      if negb (dpos d =? dpos t) || negb (dstart d =? dstart t) || negb (dend d =? dend t) ||
         (dpos d <? 0) || (gM g <=? dpos d) || (dstart d <? 0) || (dend d <? dstart d) ||
         (gN g <=? dend d) then Ret (c, false)
      else
        let eposIndex := 2 * dpos d + 2 in
        let eTwin := gp_GetTwinArc eposIndex in
        a <- gp_GetEdgeVisited g eposIndex ;;
        b <- gp_GetEdgeVisited g eTwin ;;
        if negb (a =? 0) || negb (b =? 0) then Ret (c, false)
        else
          g <- gp_SetEdgeVisited g eposIndex ;;
          g <- gp_SetEdgeVisited g eTwin ;;
          check_edges n' (e + 2) (set_dG c g)
  end.

(** lines 1030-1058: one edge against the vertices v, v+1, ... *)
Fixpoint check_crossing (n : nat) (v e : Z) (c : dctx) : res bool :=
  match n with
  | O => Ret true
  | S n' =>
      a <- gp_GetNeighbor (dG c) e ;;
      b <- gp_GetNeighbor (dG c) (gp_GetTwinArc e) ;;
      d <- rd_dE c e ;;
      x <- rd_dV c v ;;
      let bad :=
        if (a =? v) || (b =? v) then
          (negb (dstart d =? dpos x) && negb (dend d =? dpos x)) ||
          ((dpos d <? dstart x) || (dend x <? dpos d))
        else
          ((dstart d <=? dpos x) && (dpos x <=? dend d)) &&
          ((dstart x <=? dpos d) && (dpos d <=? dend x)) in
      if bad then Ret false else check_crossing n' (v + 1) e c
  end.

(** lines 1025-1060 *)
Fixpoint check_crossings (n : nat) (e : Z) (c : dctx) : res bool :=
  match n with
  | O => Ret true
  | S n' =>
      ok <- check_crossing (Z.to_nat (gN (dG c))) 1 e c ;;
      if ok then check_crossings n' (e + 2) c else Ret false
  end.

Definition _CheckVisibilityRepresentationIntegrity (c : dctx) : res (dctx * Z) :=
  match gholes (dG c) with
  | _ :: _ => Ret (c, C_NOTOK)
  | [] =>
      g <- _ClearVisitedFlags (dG c) ;;
      '(c, ok) <- check_vertices (Z.to_nat (gN g)) 1 (set_dG c g) ;;
      if negb ok then Ret (c, C_NOTOK)
      else
        let n := Z.to_nat ((gp_EdgeInUseIndexBound (dG c) - 2) / 2) in
        '(c, ok) <- check_edges n 2 c ;;
        if negb ok then Ret (c, C_NOTOK)
        else
          ok <- check_crossings n 2 c ;;
          if ok then Ret (c, C_OK) else Ret (c, C_NOTOK)
  end.

(** ** Decimal numbers as printed by sprintf("%d") *)
(** digits of a natural number, most significant first; [fuel] bounds their number *)
Fixpoint digits (fuel : nat) (n : Z) (acc : list Z) : list Z :=
  match fuel with
  | O => acc
  | S f => let acc := (48 + n mod 10) :: acc in
           if n / 10 =? 0 then acc else digits f (n / 10) acc
  end.
(** an int has at most ten digits *)
Definition dec (n : Z) : list Z := if n <? 0 then 45 :: digits 10 (- n) [] else digits 10 n [].

(** ** _RenderToString, graphDrawPlanar.c:788-869 *)
(** memcpy(dst + off, s, strlen(s)) *)
Fixpoint memcpy_str (b : blk) (off : Z) (s : list Z) : res blk :=
  match s with
  | [] => Ret b
  | ch :: s => b <- b_wr b off ch ;; memcpy_str b (off + 1) s
  end.

(** lines 812-822 *)
Definition render_clear (N M : Z) (b : blk) : res blk :=
  for_up (Z.to_nat N) 0 (fun n b =>
    b <- for_up (Z.to_nat M) 0 (fun m b =>
      b <- b_wr b ((2 * n) * (M + 1) + m) 32 ;;
      b_wr b ((2 * n + 1) * (M + 1) + m) 32) b ;;
    b <- b_wr b ((2 * n) * (M + 1) + M) 10 ;;
    b_wr b ((2 * n + 1) * (M + 1) + M) 10) b.

(** lines 827-849; [x / 2] of C rounds towards zero; the cast of the width to unsigned
    makes a negative width large *)
Definition render_vertex (M off : Z) (c : dctx) (v : Z) (b : blk) : res blk :=
  d <- rd_dV c v ;;
  let row := (2 * dpos d) * (M + 1) in
  b <- for_up (Z.to_nat (dend d - dstart d + 1)) (dstart d) (fun x b => b_wr b (row + x) 45) b ;;
  let Mid := Z.quot (dstart d + dend d) 2 in
  let num := dec (v - off) in
  let width := dend d - dstart d + 1 in
  if (width <? 0) || (Z.of_nat (length num) <=? width) then memcpy_str b (row + Mid) num
  else
    b <- b_wr b (row + Mid) (if Z.of_nat (length num) =? 2 then hd 0 num else 42) ;;
    b_wr b ((2 * dpos d + 1) * (M + 1) + Mid) (last num 0).

(** lines 855-863 *)
Definition render_edge (M : Z) (c : dctx) (k : Z) (b : blk) : res blk :=
  d <- rd_dE c (2 * k) ;;
  for_up (Z.to_nat (dend d - dstart d)) (dstart d) (fun x b =>
    b <- (if dstart d <? x then b_wr b ((2 * x) * (M + 1) + dpos d) 124 else Ret b) ;;
    b_wr b ((2 * x + 1) * (M + 1) + dpos d) 124) b.

(** The size of the buffer is computed in int (line 797).  The other index
    expressions are smaller than that size whenever they are inside the block. *)
Definition _RenderToString (junk : Z -> Z) (c : dctx) : res (option blk) :=
  let g := dG c in
  let N := gN g in
  let M := gM g in
  let off := if Z.land (giflags g) 8 =? 0 then 0 else 1 in
  a <- imul (M + 1) 2 ;;
  a <- imul a N ;;
  size <- iadd a 1 ;;
  match gholes g with
  | _ :: _ => Ret None
  | [] =>
      b <- render_clear N M (mkBlk size junk) ;;
      b <- for_up (Z.to_nat N) 1 (render_vertex M off c) b ;;
      b <- for_up (Z.to_nat ((gp_EdgeInUseIndexBound g - 2) / 2)) 1 (render_edge M c) b ;;
      b <- b_wr b ((M + 1) * 2 * N) 0 ;;
      Ret (Some b)
  end.

(** gp_DrawPlanar_RenderToString, graphDrawPlanar.c:881-890 *)
Definition gp_DrawPlanar_RenderToString (junk : Z -> Z) (c : dctx) : res (Z * option blk) :=
  match gholes (dG c) with
  | _ :: _ => Ret (C_NOTOK, None)
  | [] =>
      o <- _RenderToString junk c ;;
      Ret (match o with Some _ => C_OK | None => C_NOTOK end, o)
  end.
