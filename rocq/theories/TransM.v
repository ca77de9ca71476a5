(** * TransM: model of the conversion of graph texts, c/planarityApp/planarityTransformGraph.c, and of
    gp_Write and gp_WriteToString, c/graphLib/io/graphIO.c:846-971.

    Not modelled: file names, opening and closing of files, messages, failing allocations; extensions,
    so that nothing is added by fpWritePostprocess; WRITE_DEBUGINFO. *)
From Verif Require Import Base GraphRec GraphM StrBufM StrFileM G6M IOM.

(** graph.h:39-42 *)
Definition WRITE_ADJLIST : Z := 1.
Definition WRITE_ADJMATRIX : Z := 2.
Definition WRITE_G6 : Z := 4.

(** gp_Write, graphIO.c:846-908: the text written and the result.  [junk] is what the row buffer of the
    matrix writer holds when it is allocated. *)
Definition gp_Write (junk : list Z) (g : graph) (Mode : Z) : res (list Z * Z) :=
  if Mode =? WRITE_G6 then _WriteGraphToG6File g
  else if Mode =? WRITE_ADJLIST then _WriteAdjList g
  else if Mode =? WRITE_ADJMATRIX then _WriteAdjMatrix junk g
  else Ret ([], C_NOTOK).
(** gp_WriteToString, graphIO.c:926-971: the text of the string up to its NUL.  The G6 writer hands over its
    own string, and outBuf is NULL then. *)
Definition gp_WriteToString (junk : list Z) (g : graph) (Mode : Z) : res (list Z * Z) :=
  if Mode =? WRITE_G6 then
    '(s, r) <- _WriteGraphToG6String g ;;
    match s with
    | Some s => t <- c_str s ;; Ret (t, r)
    | None => Ret ([], r)
    end
  else if Mode =? WRITE_ADJLIST then _WriteAdjList g
  else if Mode =? WRITE_ADJMATRIX then _WriteAdjMatrix junk g
  else Ret ([], C_NOTOK).

(** transformFile, planarityTransformGraph.c:80-89, and transformString, 91-100 *)
Definition transform_read (fromString : bool) (fuel : nat) (g : graph) (input : list Z) : res (graph * Z) :=
  if fromString then
    match input with [] => Ret (g, C_NOTOK) | _ => gp_ReadFromString fuel g input end
  else gp_Read fuel g input.

(** TransformGraph, planarityTransformGraph.c:24-78: the value returned and, if the input could be read, the
    base of the output ("1" for zero-based, as the code has it) and the text written. *)
Definition TransformGraph (fuel : nat) (junk commandString : list Z) (fromString toString : bool) (input : list Z)
  : res (Z * option (Z * list Z)) :=
  if hd 0 commandString =? 45 then
    let c := nth 1 commandString 0 in
    if negb ((c =? 103) || (c =? 97) || (c =? 109)) then Ret (C_NOTOK, None)
    else
      let outputFormat := if c =? 103 then WRITE_G6 else if c =? 97 then WRITE_ADJLIST else WRITE_ADJMATRIX in
      '(theGraph, Result) <- transform_read fromString fuel gp_New input ;;
      if negb (Result =? C_OK) then Ret (Result, None)
      else
        let outputBase := if negb (Z.land (giflags theGraph) FLAGS_ZEROBASEDIO =? 0) then 1 else 0 in
        '(out, Result) <- (if toString then gp_WriteToString junk theGraph outputFormat else gp_Write junk theGraph outputFormat) ;;
        Ret (Result, Some (outputBase, out))
  else Ret (C_NOTOK, None).
