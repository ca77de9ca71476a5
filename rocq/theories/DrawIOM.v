(** * DrawIOM: model of reading and writing the drawing section,
    c/graphLib/planarityRelated/graphDrawPlanar_Extensions.c:553-680.

    The extension is attached (the context is found) and is the only one, so the base
    functions that are called first do nothing.  Allocation succeeds.  The data to read
    is taken to be a string with its NUL at the end of the list; gp_Read does not write
    that NUL (graphIO.c:433-435). *)
From Verif Require Import Base GraphRec GraphM StrBufM DrawM IOM.

(** "DrawPlanar", graphDrawPlanar.h:17 *)
Definition draw_name : list Z := [68; 114; 97; 119; 80; 108; 97; 110; 97; 114].
Definition draw_tag : list Z := [60] ++ draw_name ++ [62].
Definition draw_end : list Z := [60; 47] ++ draw_name ++ [62].
(** sprintf(line, "%d: %d %d %d\n", ...), lines 646-649 and 659-662; the longest such line has 48
    characters and a NUL, line[] has 64 *)
Definition draw_line (i : Z) (d : drec) : list Z :=
  dec i ++ [58; 32] ++ dec (dpos d) ++ [32] ++ dec (dstart d) ++ [32] ++ dec (dend d) ++ [10].
(** strcpy(extraData+extraDataPos, line); extraDataPos += (int) strlen(line), lines 641-642 *)
Definition put (l : list Z) (s : blk * Z) : res (blk * Z) :=
  b <- strcpy_str (fst s) (snd s) l ;; p <- iadd (snd s) (Z.of_nat (length l)) ;; Ret (b, p).

(** ** _DrawPlanar_WritePostprocess, lines 611-680: the block and the number of its characters *)
Definition _DrawPlanar_WritePostprocess (junk : Z -> Z) (c : dctx) : res (option (blk * Z) * Z) :=
  let g := dG c in
  n <- iadd (gN g + 1) (2 * gM g) ;;
  n <- iadd n 1 ;;
  n <- imul n 64 ;;
  let zb := negb (Z.land (giflags g) 8 =? 0) in
  let voff := if zb then 1 else 0 in
  let eoff := if zb then 2 else 0 in
  if 2000000000 <? gN g then Ret (None, C_NOTOK)
  else
    s <- put (draw_tag ++ [10]) (mkBlk n junk, 0) ;;
    s <- for_up (Z.to_nat (gN g)) 1 (fun v s => d <- rd_dV c v ;; put (draw_line (v - voff) d) s) s ;;
    s <- for_up (Z.to_nat (gp_EdgeInUseIndexBound g - 2)) 2 (fun e s =>
           w <- gp_GetNeighbor g e ;;
           if negb (w =? NIL) then d <- rd_dE c e ;; put (draw_line (e - eoff) d) s else Ret s) s ;;
    s <- put (draw_end ++ [10]) s ;;
    Ret (Some s, C_OK).

(** ** _DrawPlanar_ReadPostprocess, lines 553-606 *)
(** strstr, line 571 *)
Fixpoint find_tag (s : list Z) : option (list Z) :=
  if starts_with draw_tag s then Some s
  else match s with [] => None | _ :: s' => find_tag s' end.
(** strchr(extraData, '\n') + 1: without a line end the pointer that results is not valid *)
Fixpoint next_line (s : list Z) : res (list Z) :=
  match s with
  | [] => UB
  | ch :: s' => if ch =? 10 then Ret s' else next_line s'
  end.
(** sscanf(extraData, " %d%c %d %d %d", ...), lines 581-584 and 593-596 *)
Definition scan_drec (s : list Z) (d : drec) : res drec :=
  '(i, s) <- scan_int s ;;
  match i, s with
  | Some _, _ :: s =>
      '(p, s) <- scan_int s ;;
      match p with
      | None => Ret d
      | Some p =>
          '(a, s) <- scan_int s ;;
          match a with
          | None => Ret (mkD p (dstart d) (dend d))
          | Some a =>
              '(b, _) <- scan_int s ;;
              Ret (mkD p a (match b with Some b => b | None => dend d end))
          end
      end
  | _, _ => Ret d
  end.
(** [data] is [None] for the NULL pointer *)
Definition _DrawPlanar_ReadPostprocess (c : dctx) (data : option (list Z)) : res (dctx * Z) :=
  match data with
  | None => Ret (c, C_OK)
  | Some [] => Ret (c, C_OK)
  | Some s =>
      match find_tag s with
      | None => Ret (c, C_NOTOK)
      | Some s =>
          (* the tag and the character behind it, which must not be the NUL *)
          match skipn (length draw_tag) s with
          | [] => UB
          | _ :: s =>
              '(c, s) <- for_up (Z.to_nat (gN (dG c))) 1 (fun v '(c, s) =>
                 d <- rd_dV c v ;;
                 d <- scan_drec s d ;;
                 c <- wr_dV c v d ;;
                 s <- next_line s ;;
                 Ret (c, s)) (c, s) ;;
              '(c, s) <- for_up (Z.to_nat (gp_EdgeInUseIndexBound (dG c) - 2)) 2 (fun e '(c, s) =>
                 d <- rd_dE c e ;;
                 d <- scan_drec s d ;;
                 c <- wr_dE c e d ;;
                 s <- next_line s ;;
                 Ret (c, s)) (c, s) ;;
              Ret (c, C_OK)
          end
      end
  end.
