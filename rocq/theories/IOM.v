(** * IOM: model of c/graphLib/io/graphIO.c (text formats).

    - A text is a list of characters without NUL.  A file that is read is the list of the
      characters still to be read; the string buffer used when reading from a string is the
      rest of its text, or [SOver] once the read position is behind the terminating NUL
      (reading there is UB).  The string buffer functions themselves are in StrBufM.
    - Characters are taken to be in the domain of isspace and isdigit.
    - A local variable that has not been assigned yet is [None]; using its value is UB.
    - No extension is attached: the postprocessing functions do nothing and answer OK.
    - Allocation and file operations succeed. *)
From Verif Require Import Base GraphRec GraphM StrBufM StrFileM G6M DrawM.

(** ** Scanning numbers *)
(** white space in a scanf format; sb_ReadSkipWhitespace, strbuf.c:145-152 *)
Fixpoint skip_ws (s : list Z) : list Z :=
  match s with
  | ch :: s' => if c_isspace ch then skip_ws s' else s
  | [] => []
  end.
(** at most [w] digits: their value, if there is one, and the rest *)
Fixpoint scan_digits (w : nat) (s : list Z) (acc : option Z) : option Z * list Z :=
  match w, s with
  | S w', ch :: s' =>
      if c_isdigit ch then scan_digits w' s' (Some (10 * (match acc with Some a => a | None => 0 end) + (ch - 48)))
      else (acc, s)
  | _, _ => (acc, s)
  end.
(** the conversion %d of scanf with field width [w]: white space, an optional sign, digits.
    A number that is not an int is UB. *)
Definition scan_d (w : nat) (s : list Z) : res (option Z * list Z) :=
  let s := skip_ws s in
  let '(neg, w, s) := match w, s with
                      | S w', 45 :: s' => (true, w', s')
                      | S w', 43 :: s' => (false, w', s')
                      | _, _ => (false, w, s)
                      end in
  match scan_digits w s None with
  | (Some x, s) => let x := if neg then - x else x in guard (int_ok x) (Ret (Some x, s))
  | (None, s) => Ret (None, s)
  end.
(** no field width *)
Definition scan_int (s : list Z) : res (option Z * list Z) := scan_d (length s) s.

(** ** Sources *)
Inductive src := SFile (s : list Z) | SStr (s : list Z) | SOver.

(** sb_ReadSkipInteger, strbuf.c:160-170 *)
Fixpoint skip_digits (s : list Z) : list Z :=
  match s with
  | ch :: s' => if c_isdigit ch then skip_digits s' else s
  | [] => []
  end.
Definition skip_integer (s : list Z) : list Z :=
  skip_digits (match s with 45 :: s' => s' | _ => s end).

(** fgetc, or sb_ReadSkipChar *)
Definition skip_char (i : src) : src :=
  match i with
  | SFile (_ :: s) => SFile s
  | SFile [] => SFile []
  | SStr (_ :: s) => SStr s
  | SStr [] => SOver
  | SOver => SOver
  end.

(** Read an int into a variable that holds [cur].  From a file: fscanf with " %d " or "%d"
    ([trail] tells whether white space follows the conversion).  From a string: white space
    is skipped first if [pre]; sscanf; sb_ReadSkipInteger; white space if [post]. *)
Definition read_int (one pre trail post : bool) (cur : option Z) (i : src) : res (option Z * src) :=
  let scan s := if one then scan_d 1 s else scan_int s in
  match i with
  | SFile s =>
      '(r, s) <- scan s ;;
      match r with
      | Some x => Ret (Some x, SFile (if trail then skip_ws s else s))
      | None => Ret (cur, SFile s)
      end
  | SStr s =>
      let s := if pre then skip_ws s else s in
      '(r, _) <- scan s ;;
      let s := skip_integer s in
      Ret (match r with Some x => Some x | None => cur end, SStr (if post then skip_ws s else s))
  | SOver => UB
  end.
Definition use (x : option Z) : res Z := match x with Some x => Ret x | None => UB end.

(** ** _ReadAdjMatrix, graphIO.c:32-82 *)
(** lines 60-78: the flags of row v for w, w+1, ...; the last component is [false] after an error *)
Fixpoint matrix_row (n : nat) (v w : Z) (g : graph) (flag : option Z) (i : src) : res (graph * option Z * src * bool) :=
  match n with
  | O => Ret (g, flag, i, true)
  | S n' =>
      '(flag, i) <- read_int true true false false flag i ;;
      f <- use flag ;;
      if negb (f =? 0) then
        '(g, r) <- gp_DynamicAddEdge g v 0 w 0 ;;
        if negb (r =? C_OK) then Ret (g, flag, i, false) else matrix_row n' v (w + 1) g flag i
      else matrix_row n' v (w + 1) g flag i
  end.
(** lines 57-79 *)
Fixpoint matrix_rows (n : nat) (v : Z) (g : graph) (flag : option Z) (i : src) : res (graph * src * Z) :=
  match n with
  | O => Ret (g, i, C_OK)
  | S n' =>
      g <- gp_SetVertexIndex g v v ;;
      '(g, flag, i, ok) <- matrix_row (Z.to_nat (gN g - v)) v (v + 1) g flag i ;;
      if ok then matrix_rows n' (v + 1) g flag i else Ret (g, i, C_NOTOK)
  end.
Definition _ReadAdjMatrix (g : graph) (i : src) : res (graph * src * Z) :=
  '(N, i) <- read_int false true true true (Some (-1)) i ;;
  N <- use N ;;
  let '(g, r) := gp_InitGraph g N in
  if negb (r =? C_OK) then Ret (g, i, C_NOTOK)
  else matrix_rows (Z.to_nat (gN g)) 1 g None i.

(** ** _ReadAdjList, graphIO.c:109-305 *)
(** lines 189-194 *)
Fixpoint mark_arcs (n : nat) (g : graph) (e : Z) : res graph :=
  match n with
  | O => OOF
  | S n' =>
      if e =? NIL then Ret g
      else
        w <- gp_GetNeighbor g e ;;
        g <- gp_SetVertexVisitedInfo g w e ;;
        e' <- gp_GetNextArc g e ;;
        mark_arcs n' g e'
  end.
(** lines 182-203 *)
Definition take_list (g : graph) (v : Z) : res (graph * Z) :=
  adjList <- gp_GetFirstArc g v ;;
  if adjList =? NIL then Ret (g, adjList)
  else
    g <- mark_arcs (efuel g) g adjList ;;
    l <- gp_GetLastArc g v ;;
    g <- gp_SetPrevArc g adjList l ;;
    l <- gp_GetLastArc g v ;;
    g <- gp_SetNextArc g l adjList ;;
    g <- gp_SetFirstArc g v NIL ;;
    g <- gp_SetLastArc g v NIL ;;
    Ret (g, adjList).
(** lines 258-259, 293-294 *)
Definition unlink_circular (g : graph) (e : Z) : res graph :=
  nx <- gp_GetNextArc g e ;;
  pv <- gp_GetPrevArc g e ;;
  g <- gp_SetPrevArc g nx pv ;;
  pv <- gp_GetPrevArc g e ;;
  nx <- gp_GetNextArc g e ;;
  gp_SetNextArc g pv nx.
(** lines 249-261 *)
Definition pull_arc (g : graph) (v W adjList : Z) : res (graph * Z) :=
  e <- gp_GetVertexVisitedInfo g W ;;
  g <- gp_SetVertexVisitedInfo g W NIL ;;
  adjList <- (if adjList =? e then nx <- gp_GetNextArc g e ;; Ret (if nx =? e then NIL else nx) else Ret adjList) ;;
  g <- unlink_circular g e ;;
  g <- gp_AttachFirstArc g v e ;;
  Ret (g, adjList).
(** lines 206-277.  [zb] is 1 or 0; [W] is the variable; the last component is the error code. *)
Fixpoint read_list (fuel : nat) (zb v : Z) (g : graph) (adjList : Z) (W : option Z) (i : src)
  : res (graph * Z * option Z * src * option Z) :=
  match fuel with
  | O => OOF
  | S f =>
      '(W, i) <- read_int false true true true W i ;;
      w <- use W ;;
      w <- iadd w zb ;;
      let W := Some w in
      if w <? 1 then Ret (g, adjList, W, i, None)
      else if gN g <? w then Ret (g, adjList, W, i, Some C_NOTOK)
      else if w =? v then Ret (g, adjList, W, i, Some C_NOTOK)
      else if v <? w then
        '(g, r) <- gp_DynamicAddEdge g v 0 w 0 ;;
        if negb (r =? C_OK) then Ret (g, adjList, W, i, Some r) else read_list f zb v g adjList W i
      else
        vis <- gp_GetVertexVisitedInfo g w ;;
        if negb (vis =? NIL) then
          '(g, adjList) <- pull_arc g v w adjList ;;
          read_list f zb v g adjList W i
        else
          '(g, r) <- gp_DynamicAddEdge g v 0 w 0 ;;
          if negb (r =? C_OK) then Ret (g, adjList, W, i, Some r)
          else
            e <- gp_GetFirstArc g w ;;
            g <- gp_SetDirection g e DIR_INONLY ;;
            read_list f zb v g adjList W i
  end.
(** lines 284-298 *)
Fixpoint rest_arcs (fuel : nat) (v : Z) (g : graph) (adjList : Z) : res graph :=
  match fuel with
  | O => OOF
  | S f =>
      if adjList =? NIL then Ret g
      else
        let e := adjList in
        w <- gp_GetNeighbor g e ;;
        g <- gp_SetVertexVisitedInfo g w NIL ;;
        nx <- gp_GetNextArc g e ;;
        g <- unlink_circular g e ;;
        g <- gp_AttachFirstArc g v e ;;
        g <- gp_SetDirection g e DIR_INONLY ;;
        rest_arcs f v g (if nx =? e then NIL else nx)
  end.
(** lines 145-299; [fuel] bounds the number of neighbours read for one vertex (with a
    truncated text the loop 206-277 need not end) *)
Fixpoint read_lists (fuel n : nat) (zb v : Z) (g : graph) (idx W : option Z) (i : src) : res (graph * src * Z * Z) :=
  match n with
  | O => Ret (g, i, zb, C_OK)
  | S n' =>
      '(idx, i) <- read_int false false false false idx i ;;
      x <- use idx ;;
      let zb := if (x =? 0) && (v =? 1) then 1 else zb in
      x <- iadd x zb ;;
      g <- gp_SetVertexIndex g v x ;;
      y <- gp_GetVertexIndex g v ;;
      if negb (y =? v) then Ret (g, i, zb, C_NOTOK)
      else
        let i := skip_char i in
        '(g, adjList) <- take_list g v ;;
        '(g, adjList, W, i, err) <- read_list fuel zb v g adjList W i ;;
        match err with
        | Some r => Ret (g, i, zb, r)
        | None =>
            g <- rest_arcs (efuel g) v g adjList ;;
            read_lists fuel n' zb (v + 1) g (Some x) W i
        end
  end.
Definition _ReadAdjList (fuel : nat) (g : graph) (i : src) : res (graph * src * Z) :=
  let i := skip_char (skip_char i) in
  '(N, i) <- read_int false true true true (Some (-1)) i ;;
  N <- use N ;;
  let '(g, r) := gp_InitGraph g N in
  if negb (r =? C_OK) then Ret (g, i, C_NOTOK)
  else
    g <- for_up (Z.to_nat (gN g)) 1 (fun v g => gp_SetVertexVisitedInfo g v NIL) g ;;
    '(g, i, zb, r) <- read_lists fuel (Z.to_nat (gN g)) 0 1 g None None i ;;
    Ret (if (r =? C_OK) && (zb =? 1) then set_giflags g (Z.lor (giflags g) 8) else g, i, r).

(** ** _ReadLEDAGraph, graphIO.c:317-360 *)
(** fgets(Line, 255, Infile): the line buffer keeps its content at the end of the file *)
Definition get_line (l : option (list Z)) (s : list Z) : option (list Z) * list Z :=
  match s with
  | [] => (l, [])
  | _ => let '(t, r) := fgets_take 254 s in (Some t, r)
  end.
Definition line_text (l : option (list Z)) : res (list Z) := match l with Some t => Ret t | None => UB end.
Fixpoint skip_lines (n : nat) (l : option (list Z)) (s : list Z) : option (list Z) * list Z :=
  match n with
  | O => (l, s)
  | S n' => let '(l, s) := get_line l s in skip_lines n' l s
  end.
(** sscanf(Line, " %d %d", &u, &v) *)
Definition scan_pair (t : list Z) (u v : option Z) : res (option Z * option Z) :=
  '(a, t) <- scan_int t ;;
  match a with
  | None => Ret (u, v)
  | Some a => '(b, _) <- scan_int t ;; Ret (Some a, match b with Some b => Some b | None => v end)
  end.
(** lines 345-354; zeroBasedOffset is 0 as gp_GetFirstVertex is 1 *)
Fixpoint leda_edges (n : nat) (g : graph) (u v : option Z) (l : option (list Z)) (s : list Z) : res (graph * Z) :=
  match n with
  | O => Ret (g, C_OK)
  | S n' =>
      let '(l, s) := get_line l s in
      t <- line_text l ;;
      '(u, v) <- scan_pair t u v ;;
      a <- use u ;;
      b <- use v ;;
      nb <- (if a =? b then Ret C_TRUE else gp_IsNeighbor g a b) ;;
      if negb (a =? b) && (nb =? C_FALSE) then
        '(g, r) <- gp_DynamicAddEdge g a 0 b 0 ;;
        if negb (r =? C_OK) then Ret (g, r) else leda_edges n' g u v l s
      else leda_edges n' g u v l s
  end.
Definition _ReadLEDAGraph (g : graph) (s : list Z) : res (graph * Z) :=
  let '(l, s) := skip_lines 4 None s in
  t <- line_text l ;;
  '(N, _) <- scan_int t ;;
  let N := match N with Some N => N | None => -1 end in
  let '(g, r) := gp_InitGraph g N in
  if negb (r =? C_OK) then Ret (g, C_NOTOK)
  else
    let '(l, s) := skip_lines (Z.to_nat (gN g)) l s in
    let '(l, s) := get_line l s in
    t <- line_text l ;;
    '(M, _) <- scan_int t ;;
    M <- use M ;;
    leda_edges (Z.to_nat M) g None None l s.

(** ** gp_Read, graphIO.c:380-461, and gp_ReadFromString, 474-544 *)
Fixpoint starts_with (p s : list Z) : bool :=
  match p, s with
  | [], _ => true
  | a :: p', b :: s' => (a =? b) && starts_with p' s'
  | _, _ => false
  end.
(** "LEDA.GRAPH" and "N=" *)
Definition leda_tag : list Z := [76; 69; 68; 65; 46; 71; 82; 65; 80; 72].
Definition list_tag : list Z := [78; 61].

Definition gp_Read (fuel : nat) (g : graph) (content : list Z) : res (graph * Z) :=
  line <- line_text (fst (get_line None content)) ;;
  if starts_with leda_tag line then _ReadLEDAGraph g content
  else if starts_with list_tag line then '(g, _, r) <- _ReadAdjList fuel g (SFile content) ;; Ret (g, r)
  else if c_isdigit (hd 0 line) then '(g, _, r) <- _ReadAdjMatrix g (SFile content) ;; Ret (g, r)
  else _ReadGraphFromG6FilePointer g content.

(** After the text formats the rest of the string is measured with strlen (line 532). *)
Definition str_rest (i : src) : res unit := match i with SOver => UB | _ => Ret tt end.
Definition gp_ReadFromString (fuel : nat) (g : graph) (text : list Z) : res (graph * Z) :=
  if starts_with leda_tag text then Ret (g, C_NOTOK)
  else if starts_with list_tag text then
    '(g, i, r) <- _ReadAdjList fuel g (SStr text) ;;
    _ <- (if r =? C_OK then str_rest i else Ret tt) ;; Ret (g, r)
  else if c_isdigit (hd 0 text) then
    '(g, i, r) <- _ReadAdjMatrix g (SStr text) ;;
    _ <- (if r =? C_OK then str_rest i else Ret tt) ;; Ret (g, r)
  else _ReadGraphFromG6String g (text ++ [0]).

(** ** _WriteAdjList, graphIO.c:561-622: the text *)
(** lines 593-608 *)
Fixpoint write_arcs (n : nat) (g : graph) (off e : Z) : res (list Z) :=
  match n with
  | O => OOF
  | S n' =>
      if e =? NIL then Ret []
      else
        d <- gp_GetDirection g e ;;
        t <- (if negb (d =? DIR_INONLY) then w <- gp_GetNeighbor g e ;; Ret (32 :: dec (w - off)) else Ret []) ;;
        e' <- gp_GetPrevArc g e ;;
        s <- write_arcs n' g off e' ;;
        Ret (t ++ s)
  end.
Definition zero_based (g : graph) : bool := negb (Z.land (giflags g) 8 =? 0).
(** lines 581-619 *)
Fixpoint write_lists (n : nat) (g : graph) (v : Z) : res (list Z) :=
  match n with
  | O => Ret []
  | S n' =>
      let off := if zero_based g then 1 else 0 in
      e <- gp_GetLastArc g v ;;
      s <- write_arcs (efuel g) g off e ;;
      r <- write_lists n' g (v + 1) ;;
      Ret (dec (v - off) ++ [58] ++ s ++ [32] ++ dec (if zero_based g then -1 else 0) ++ [10] ++ r)
  end.
Definition _WriteAdjList (g : graph) : res (list Z * Z) :=
  s <- write_lists (Z.to_nat (gN g)) g 1 ;;
  Ret ([78; 61] ++ dec (gN g) ++ [10] ++ s, C_OK).

(** ** _WriteAdjMatrix, graphIO.c:637-693: the text *)
(** lines 669-679; [None] after meeting a directed edge *)
Fixpoint row_arcs (n : nat) (g : graph) (v e : Z) (row : list Z) : res (option (list Z)) :=
  match n with
  | O => OOF
  | S n' =>
      if e =? NIL then Ret (Some row)
      else
        d <- gp_GetDirection g e ;;
        if d =? DIR_INONLY then Ret None
        else
          w <- gp_GetNeighbor g e ;;
          row <- (if v <? w then m_wr row (w - 1) 49 else Ret row) ;;
          e' <- gp_GetNextArc g e ;;
          row_arcs n' g v e' row
  end.
(** lines 662-689 *)
Fixpoint write_rows (n : nat) (g : graph) (v : Z) (row : list Z) : res (list Z * Z) :=
  match n with
  | O => Ret ([], C_OK)
  | S n' =>
      row <- for_up (Z.to_nat v) 1 (fun K row => m_wr row (K - 1) 32) row ;;
      row <- for_up (Z.to_nat (gN g - v)) (v + 1) (fun K row => m_wr row (K - 1) 48) row ;;
      e <- gp_GetFirstArc g v ;;
      o <- row_arcs (efuel g) g v e row ;;
      match o with
      | None => Ret ([], C_NOTOK)
      | Some row =>
          row <- m_wr row (gN g) 10 ;;
          row <- m_wr row (gN g + 1) 0 ;;
          t <- c_str row ;;
          '(s, r) <- write_rows n' g (v + 1) row ;;
          Ret (t ++ s, r)
      end
  end.
(** the row is allocated with arbitrary content *)
Definition _WriteAdjMatrix (junk : list Z) (g : graph) : res (list Z * Z) :=
  guard (Z.of_nat (length junk) =? gN g + 2) (
  '(s, r) <- write_rows (Z.to_nat (gN g)) g 1 junk ;;
  Ret (dec (gN g) ++ [10] ++ s, r)).
