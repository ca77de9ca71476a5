(** * G6M: model of c/graphLib/io/g6-api-utilities.c, g6-write-iterator.c, g6-read-iterator.c.

    Signed int overflow and the left shift of a negative number are UB.  Error messages are not
    modelled.  Allocations succeed.  The graph belongs to the caller, so it is passed and
    returned beside the iterator.  [FLAGS_ZEROBASEDIO] is 8 (graphStructures.h:595). *)
From Verif Require Import Base StrBufM StrFileM GraphRec GraphM.

Definition FLAGS_ZEROBASEDIO : Z := 8.

(** Conversion to a signed 8-bit char. *)
Definition to_char (z : Z) : Z := (z + 128) mod 256 - 128.
(** The C string at offset [off] of a block. *)
Definition blk_str (b : blk) (off : Z) : res (list Z) :=
  guard (b_inb b off)
    (c_str (map (bdat b) (map (fun i => off + Z.of_nat i) (seq 0 (Z.to_nat (bsz b - off)))))).
(** strlen, an unsigned number *)
Definition str_len (s : list Z) : Z := Z.of_nat (length s).
(** strcspn(s, "\n\r") *)
Fixpoint cspn_eol (s : list Z) : Z :=
  match s with
  | [] => 0
  | x :: s' => if (x =? CH_LF) || (x =? CH_CR) then 0 else 1 + cspn_eol s'
  end.
(** strchr(set, c) != NULL: the terminator of [set] counts as a member *)
Definition strchr_in (set : list Z) (c : Z) : bool := (c =? 0) || existsb (fun x => x =? c) set.

(** ** g6-api-utilities.c *)
(** _getMaxEdgeCount, 9-12 *)
Definition _getMaxEdgeCount (n : Z) : res Z := p <- imul n (n - 1) ;; Ret (Z.quot p 2).
(** _getNumCharsForGraphEncoding, 14-19 *)
Definition _getNumCharsForGraphEncoding (n : Z) : res Z :=
  m <- _getMaxEdgeCount n ;; Ret (Z.quot m 6 + (if negb (Z.rem m 6 =? 0) then 1 else 0)).
(** _getNumCharsForGraphOrder, 21-30 *)
Definition _getNumCharsForGraphOrder (n : Z) : Z :=
  if (n >? 0) && (n <? 63) then 1 else if (n >=? 63) && (n <=? 100000) then 4 else -1.
(** _getExpectedNumPaddingZeroes, 32-38 *)
Definition _getExpectedNumPaddingZeroes (n numChars : Z) : res Z :=
  m <- _getMaxEdgeCount n ;; c <- imul numChars 6 ;; Ret (c - m).

(** ** g6-write-iterator.c *)
(** G6WriteIterator, g6-write-iterator.h:18-33; numGraphsWritten stays 0 *)
Record witer := mkWI {
  w_out : option container; w_order : Z; w_nco : Z; w_nce : Z; w_bsize : Z;
  w_buf : option blk; w_offs : option blk }.

(** allocateG6WriteIterator, 14-51: [None] is the NULL iterator, returned with OK when the
    graph has no vertices. *)
Definition allocateG6WriteIterator (g : graph) : option witer * Z :=
  if gN g <=? 0 then (None, C_OK) else (Some (mkWI None 0 0 0 0 None None), C_OK).

(** _precomputeColumnOffsets, 237-249 *)
Definition _precomputeColumnOffsets (offs : blk) (n : Z) : res blk :=
  offs <- b_wr offs 0 0 ;;
  offs <- b_wr offs 1 0 ;;
  for_up (Z.to_nat (n - 1)) 2 (fun i offs =>
    x <- b_rd offs (i - 1) ;; y <- iadd x (i - 1) ;; b_wr offs i y) offs.

(** ">>graph6<<" *)
Definition g6_header : list Z := [62; 62; 103; 114; 97; 112; 104; 54; 60; 60].

(** _beginG6WriteIteration, 199-235; calloc fills with zeros *)
Definition _beginG6WriteIteration (it : witer) (g : graph) : res (witer * Z) :=
  match w_out it with
  | None => Ret (it, C_NOTOK)     (* sf_fputs to NULL gives EOF *)
  | Some out =>
      '(r, out) <- sf_fputs g6_header out ;;
      if r <? 0 then Ret (mkWI (Some out) (w_order it) (w_nco it) (w_nce it) (w_bsize it) (w_buf it) (w_offs it), C_NOTOK)
      else
        let n := gN g in
        offs <- _precomputeColumnOffsets (mkBlk (n + 1) (fun _ => 0)) n ;;
        let nco := _getNumCharsForGraphOrder n in
        nce <- _getNumCharsForGraphEncoding n ;;
        let bs := nco + nce + 3 in
        Ret (mkWI (Some out) n nco nce bs (Some (mkBlk bs (fun _ => 0))) (Some offs), C_OK)
  end.

(** beginG6WriteIterationToG6FilePointer, 153-171, and beginG6WriteIterationToG6String, 173-197
    (the string given by its block; a NULL string becomes an empty one) *)
Definition begin_write (it : witer) (out : container) (g : graph) : res (witer * Z) :=
  _beginG6WriteIteration (mkWI (Some out) (w_order it) (w_nco it) (w_nce it) (w_bsize it) (w_buf it) (w_offs it)) g.

(** _getNextInUseEdge, 415-440: the record, and its two ends (NIL, NIL) at the end *)
Fixpoint next_in_use (fuel : nat) (g : graph) (e : Z) : res Z :=
  match fuel with
  | O => OOF
  | S f => nb <- gp_GetNeighbor g e ;;
           if negb (nb =? NIL) then Ret e
           else if e + 2 >=? gp_EdgeInUseIndexBound g then Ret (e + 2)
           else next_in_use f g (e + 2)
  end.
Definition _getNextInUseEdge (g : graph) (e : Z) : res (Z * Z * Z) :=
  let bound := gp_EdgeInUseIndexBound g in
  if e <? bound then
    e <- next_in_use (efuel g) g e ;;
    if e <? bound then
      nb <- gp_GetNeighbor g e ;;
      if negb (nb =? NIL) then
        u <- gp_GetNeighbor g e ;;
        v <- gp_GetNeighbor g (gp_GetTwinArc e) ;;
        Ret (e, u, v)
      else Ret (e, NIL, NIL)
    else Ret (e, NIL, NIL)
  else Ret (e, NIL, NIL).
(** _getFirstEdge, 391-404; gp_GetFirstEdge is 2 *)
Definition _getFirstEdge (g : graph) (e : Z) : res (Z * Z * Z * Z) :=
  if e >=? gp_EdgeInUseIndexBound g then Ret (e, NIL, NIL, C_NOTOK)
  else '(e, u, v) <- _getNextInUseEdge g 2 ;; Ret (e, u, v, C_OK).
(** _getNextEdge, 406-413 *)
Definition _getNextEdge (g : graph) (e : Z) : res (Z * Z * Z) := _getNextInUseEdge g (e + 2).

(** The loop over the edges, 334-378 *)
Definition set_edge_bit (b offs : blk) (nco u v : Z) : res blk :=
  let u := u - 1 in
  let v := v - 1 in
  let '(u, v) := if v <? u then (v, u) else (u, v) in
  o <- b_rd offs v ;;
  i <- iadd o u ;;
  let charOffset := nco + Z.quot i 6 in
  let bitPositionPower := 5 - Z.rem i 6 in
  x <- b_rd b charOffset ;;
  b_wr b charOffset (to_char (Z.lor x (Z.shiftl 1 bitPositionPower))).
Fixpoint encode_edges (fuel : nat) (g : graph) (offs : blk) (nco : Z) (b : blk) (e u v : Z) : res blk :=
  match fuel with
  | O => OOF
  | S f => if negb (u =? NIL) && negb (v =? NIL) then
             b <- set_edge_bit b offs nco u v ;;
             '(e, u, v) <- _getNextEdge g e ;;
             encode_edges f g offs nco b e u v
           else Ret b
  end.
(** The order bytes, 316-327 *)
Definition write_order (b : blk) (n : Z) : res blk :=
  if n >? 62 then
    b <- b_wr b 0 126 ;;
    for_up 3 0 (fun i b =>
      b <- b_wr b (3 - i) (to_char (Z.land (Z.shiftr n (6 * i)) 63)) ;;
      x <- b_rd b (3 - i) ;;
      b_wr b (3 - i) (to_char (x + 63))) b
  else if (n >? 1) && (n <? 63) then b_wr b 0 (to_char (n + 63))
  else Ret b.
(** _encodeAdjMatAsG6, 276-389 *)
Definition _encodeAdjMatAsG6 (it : witer) (g : graph) : res (witer * Z) :=
  match w_buf it, w_offs it with
  | Some b, Some offs =>
      if gN g =? 0 then Ret (it, C_NOTOK)
      else
        let b := mkBlk (bsz b) (fun i => if (0 <=? i) && (i <? w_bsize it) then 0 else bdat b i) in
        b <- write_order b (w_order it) ;;
        '(e, u, v, r) <- _getFirstEdge g NIL ;;
        if negb (r =? C_OK) then
          Ret (mkWI (w_out it) (w_order it) (w_nco it) (w_nce it) (w_bsize it) (Some b) (Some offs), r)
        else
          b <- encode_edges (efuel g) g offs (w_nco it) b e u v ;;
          b <- for_up (Z.to_nat (w_nce it)) (w_nco it) (fun i b =>
                 x <- b_rd b i ;; b_wr b i (to_char (x + 63))) b ;;
          Ret (mkWI (w_out it) (w_order it) (w_nco it) (w_nce it) (w_bsize it) (Some b) (Some offs), C_OK)
  | _, _ => Ret (it, C_NOTOK)
  end.
(** _printEncodedGraph, 442-465 *)
Definition _printEncodedGraph (it : witer) : res (witer * Z) :=
  match w_out it, w_buf it with
  | Some out, Some b =>
      s <- blk_str b 0 ;;
      if str_len s =? 0 then Ret (it, C_NOTOK)
      else
        '(r, out) <- sf_fputs s out ;;
        Ret (mkWI (Some out) (w_order it) (w_nco it) (w_nce it) (w_bsize it) (w_buf it) (w_offs it),
             if r <? 0 then C_NOTOK else C_OK)
  | _, _ => Ret (it, C_NOTOK)
  end.
(** writeGraphUsingG6WriteIterator, 251-274 *)
Definition writeGraphUsingG6WriteIterator (it : witer) (g : graph) : res (witer * Z) :=
  '(it, r) <- _encodeAdjMatAsG6 it g ;;
  if negb (r =? C_OK) then Ret (it, r) else _printEncodedGraph it.

(** _WriteGraphToG6String, 637-687, starting with a NULL output string; the bytes of the
    resulting string.  For a graph without vertices the NULL iterator is dereferenced (UB). *)
Definition _WriteGraphToG6String (g : graph) : res (option (list Z) * Z) :=
  match allocateG6WriteIterator g with
  | (None, _) => UB
  | (Some it, _) =>
      '(it, r) <- begin_write it (sf_NewStr [0]) g ;;
      if negb (r =? C_OK) then Ret (None, r)
      else
        '(it, r) <- writeGraphUsingG6WriteIterator it g ;;
        if negb (r =? C_OK) then Ret (None, r)
        else match w_out it with
             | Some out => Ret (fst (sf_takeTheStr out), C_OK)
             | None => UB
             end
  end.
(** _WriteGraphToG6FilePointer, 585-635, and _WriteGraphToG6FilePath, 533-583: the characters
    written to the file *)
Definition _WriteGraphToG6File (g : graph) : res (list Z * Z) :=
  match allocateG6WriteIterator g with
  | (None, _) => UB
  | (Some it, _) =>
      '(it, r) <- begin_write it (CFile [] []) g ;;
      let written it := match w_out it with Some (CFile _ out) => out | _ => [] end in
      if negb (r =? C_OK) then Ret (written it, r)
      else
        '(it, r) <- writeGraphUsingG6WriteIterator it g ;;
        Ret (written it, r)
  end.

(** ** g6-read-iterator.c *)
(** G6ReadIterator, g6-read-iterator.h:20-33; [r_done] is currGraph == NULL *)
Record riter := mkRI {
  r_in : option container; r_num : Z; r_order : Z; r_nco : Z; r_nce : Z; r_bsize : Z;
  r_buf : option blk; r_done : bool }.

(** allocateG6ReadIterator, 14-51, for a graph that exists *)
Definition allocateG6ReadIterator : riter := mkRI None 0 0 0 0 0 None false.

(** _processAndCheckHeader, 298-335: ten characters, EOF included *)
Fixpoint get_chars (n : nat) (c : container) : res (list Z * container) :=
  match n with
  | O => Ret ([], c)
  | S n' => '(x, c) <- sf_getc c ;; '(xs, c) <- get_chars n' c ;; Ret (x :: xs, c)
  end.
Fixpoint list_eqb (a b : list Z) : bool :=
  match a, b with
  | [], [] => true
  | x :: a', y :: b' => (x =? y) && list_eqb a' b'
  | _, _ => false
  end.
Definition _processAndCheckHeader (c : container) : res (container * Z) :=
  '(h, c) <- get_chars 10 c ;; Ret (c, if list_eqb h g6_header then C_OK else C_NOTOK).

(** _firstCharIsValid, 337-351: ':', ';', '&' *)
Definition _firstCharIsValid (x : Z) : bool := negb (strchr_in [58; 59; 38] x).

(** C's  n |= x << k  on ints *)
Definition shl_or (n x k : Z) : res Z :=
  guard ((0 <=? x) && int_ok (Z.shiftl x k)) (Ret (Z.lor n (Z.shiftl x k))).

(** _getGraphOrder, 353-401 *)
Definition _getGraphOrder (c : container) : res (container * Z * Z) :=
  '(ch, c) <- sf_getc c ;;
  if ch =? 126 then
    '(ch, c) <- sf_getc c ;;
    if ch =? 126 then Ret (c, 0, C_NOTOK)
    else
      '(_, c) <- sf_ungetc ch c ;;
      '(c, n) <- for_down 3 2 (fun i s =>
         let '(c, n) := s in
         '(x, c) <- sf_getc c ;; n <- shl_or n (x - 63) (6 * i) ;; Ret (c, n)) (c, 0) ;;
      if n >? 100000 then Ret (c, n, C_NOTOK) else Ret (c, n, C_OK)
  else if (ch >? 62) && (ch <? 126) then Ret (c, ch - 63, C_OK)
  else Ret (c, 0, C_NOTOK).

Definition set_zero_based (g : graph) : graph := set_giflags g (Z.lor (giflags g) FLAGS_ZEROBASEDIO).

(** _beginG6ReadIteration, 189-296 *)
Definition r_set_in (it : riter) (c : container) : riter :=
  mkRI (Some c) (r_num it) (r_order it) (r_nco it) (r_nce it) (r_bsize it) (r_buf it) (r_done it).
Definition _beginG6ReadIteration (it : riter) (c : container) (g : graph) : res (riter * graph * Z) :=
  '(x, c) <- sf_getc c ;;
  if x =? C_EOF then Ret (r_set_in it c, g, C_NOTOK)
  else
    '(y, c) <- sf_ungetc x c ;;
    if negb (y =? x) then Ret (r_set_in it c, g, C_NOTOK)
    else
      '(c, r) <- (if x =? 62 then _processAndCheckHeader c else Ret (c, C_OK)) ;;
      if negb (r =? C_OK) then Ret (r_set_in it c, g, r)
      else
        '(x, c) <- sf_getc c ;;
        '(y, c) <- sf_ungetc x c ;;
        if negb (y =? x) then Ret (r_set_in it c, g, C_NOTOK)
        else if negb (_firstCharIsValid x) then Ret (r_set_in it c, g, C_NOTOK)
        else
          '(c, n, r) <- _getGraphOrder c ;;
          if negb (r =? C_OK) then Ret (r_set_in it c, g, r)
          else
            let '(g, r) :=
              if gN g =? 0 then gp_InitGraph g n
              else if negb (gN g =? n) then (g, C_NOTOK)
              else (gp_ReinitializeGraph g, C_OK) in
            if negb (r =? C_OK) then Ret (r_set_in it c, g, r)
            else
              let g := set_zero_based g in
              let nco := _getNumCharsForGraphOrder n in
              nce <- _getNumCharsForGraphEncoding n ;;
              let bs := nco + nce + 3 in
              Ret (mkRI (Some c) (r_num it) n nco nce bs (Some (mkBlk bs (fun _ => 0))) (r_done it), g, C_OK).

(** beginG6ReadIterationFromG6FilePointer, 139-162; beginG6ReadIterationFromG6String, 164-187 *)
Definition begin_read_file (it : riter) (content : list Z) (g : graph) : res (riter * graph * Z) :=
  _beginG6ReadIteration it (sf_NewFile content) g.
Definition begin_read_str (it : riter) (mem : list Z) (g : graph) : res (riter * graph * Z) :=
  s <- c_str mem ;;
  if str_len s <=? 0 then Ret (it, g, C_NOTOK) else _beginG6ReadIteration it (sf_NewStr mem) g.

(** _checkGraphOrder, 515-556 *)
Definition _checkGraphOrder (b : blk) (order : Z) : res Z :=
  x <- b_rd b 0 ;;
  if x =? 126 then
    y <- b_rd b 1 ;;
    if y =? 126 then Ret C_NOTOK
    else if y >? 126 then Ret C_NOTOK
    else
      n <- for_up 3 1 (fun i n => z <- b_rd b i ;; shl_or n (z - 63) (6 * (3 - i))) 0 ;;
      Ret (if negb (n =? order) then C_NOTOK else C_OK)
  else if (x >? 62) && (x <? 126) then Ret (if negb (x - 63 =? order) then C_NOTOK else C_OK)
  else Ret C_NOTOK.

(** _validateGraphEncoding, 558-608, on the string at offset [off] of the buffer *)
Fixpoint valid_chars (n : nat) (b : blk) (i : Z) : res bool :=
  match n with
  | O => Ret true
  | S n' => x <- b_rd b i ;; if (x <? 63) || (x >? 126) then Ret false else valid_chars n' b (i + 1)
  end.
Fixpoint count_padding (n : nat) (byte i : Z) : Z :=
  match n with
  | O => 0
  | S n' => if negb (Z.land byte (Z.shiftl 1 i) =? 0) then 0 else 1 + count_padding n' byte (i + 1)
  end.
Definition _validateGraphEncoding (b : blk) (off order numChars : Z) : res Z :=
  expected <- _getNumCharsForGraphEncoding order ;;
  s <- blk_str b off ;;
  if negb (expected =? str_len s) then Ret C_NOTOK
  else
    ok <- valid_chars (Z.to_nat numChars) b off ;;
    if negb ok then Ret C_NOTOK
    else
      pad <- _getExpectedNumPaddingZeroes order numChars ;;
      x <- b_rd b (off + numChars - 1) ;;
      let finalByte := to_char (x - 63) in
      Ret (if negb (count_padding (Z.to_nat pad) finalByte 0 =? pad) then C_NOTOK else C_OK).

(** _decodeGraph, 617-665; the state is (row, col, graph, exit code), the loops stop at a failing
    gp_DynamicAddEdge.  The test i == numChars is never true inside the loop. *)
Fixpoint decode_bits (j : nat) (byte row col : Z) (g : graph) : res (Z * Z * graph * Z) :=
  match j with
  | O => Ret (row, col, g, C_OK)
  | S j' =>
      let '(row, col) := if row =? col then (0, col + 1) else (row, col) in
      if negb (Z.land (Z.shiftr byte (Z.of_nat j')) 1 =? 0) then
        '(g, r) <- gp_DynamicAddEdge g (row + 1) 0 (col + 1) 0 ;;
        if negb (r =? C_OK) then Ret (row, col, g, r) else decode_bits j' byte (row + 1) col g
      else decode_bits j' byte (row + 1) col g
  end.
Fixpoint decode_chars (n : nat) (b : blk) (i row col : Z) (g : graph) : res (graph * Z) :=
  match n with
  | O => Ret (g, C_OK)
  | S n' =>
      x <- b_rd b i ;;
      '(row, col, g, r) <- decode_bits 6 (to_char (x - 63)) row col g ;;
      if negb (r =? C_OK) then Ret (g, r) else decode_chars n' b (i + 1) row col g
  end.
Definition _decodeGraph (b : blk) (off order numChars : Z) (g : graph) : res (graph * Z) :=
  _ <- _getExpectedNumPaddingZeroes order numChars ;;
  decode_chars (Z.to_nat numChars) b off 0 1 g.

(** readGraphUsingG6ReadIterator, 403-513 *)
Definition r_set (it : riter) (c : container) (b : blk) : riter :=
  mkRI (Some c) (r_num it) (r_order it) (r_nco it) (r_nce it) (r_bsize it) (Some b) (r_done it).
Definition readGraphUsingG6ReadIterator (it : riter) (g : graph) : res (riter * graph * Z) :=
  if r_done it then Ret (it, g, C_NOTOK)
  else match r_in it, r_buf it with
  | Some c, Some b =>
      '(t, c) <- sf_fgets b (r_bsize it) c ;;
      match t with
      | None => Ret (mkRI (Some c) (r_num it) (r_order it) (r_nco it) (r_nce it) (r_bsize it) (Some b) true, g, C_OK)
      | Some b =>
          let num := r_num it + 1 in
          x <- b_rd b 0 ;;
          if negb (_firstCharIsValid x) then Ret (r_set it c b, g, C_NOTOK)
          else
            s <- blk_str b 0 ;;
            b <- b_wr b (cspn_eol s) 0 ;;
            s <- blk_str b 0 ;;
            if negb (str_len s =? (if num =? 1 then 0 else r_nco it) + r_nce it) then Ret (r_set it c b, g, C_NOTOK)
            else
              r <- (if num >? 1 then _checkGraphOrder b (r_order it) else Ret C_OK) ;;
              if negb (r =? C_OK) then Ret (r_set it c b, g, r)
              else
                let off := if num =? 1 then 0 else r_nco it in
                r <- _validateGraphEncoding b off (r_order it) (r_nce it) ;;
                if negb (r =? C_OK) then Ret (r_set it c b, g, r)
                else
                  let g := if num >? 1 then set_zero_based (gp_ReinitializeGraph g) else g in
                  '(g, r) <- _decodeGraph b off (r_order it) (r_nce it) g ;;
                  if negb (r =? C_OK) then Ret (r_set it c b, g, r)
                  else Ret (mkRI (Some c) num (r_order it) (r_nco it) (r_nce it) (r_bsize it) (Some b) (r_done it), g, C_OK)
      end
  | _, _ => Ret (it, g, C_NOTOK)
  end.

(** endG6ReadIteration, 667-690; freeG6ReadIterator, 692-723: closing succeeds *)
Definition endG6ReadIteration (it : riter) : Z := C_OK.
Definition freeG6ReadIterator (it : riter) : Z := C_OK.

(** _ReadGraphFromG6FilePointer, 774-815 (and _ReadGraphFromG6FilePath, 728-769): each exit
    code overwrites the one before *)
Definition read_graph_with (begun : res (riter * graph * Z)) : res (graph * Z) :=
  '(it, g, r) <- begun ;;
  if negb (r =? C_OK) then Ret (g, freeG6ReadIterator it)
  else
    '(it, g, r) <- readGraphUsingG6ReadIterator it g ;;
    let r := endG6ReadIteration it in
    let r := freeG6ReadIterator it in
    Ret (g, r).
Definition _ReadGraphFromG6FilePointer (g : graph) (content : list Z) : res (graph * Z) :=
  read_graph_with (begin_read_file allocateG6ReadIterator content g).
(** _ReadGraphFromG6String, 817-864 *)
Definition _ReadGraphFromG6String (g : graph) (mem : list Z) : res (graph * Z) :=
  s <- c_str mem ;;
  if str_len s =? 0 then Ret (g, C_NOTOK)
  else read_graph_with (begin_read_str allocateG6ReadIterator mem g).
