(** * StrFileM: model of c/graphLib/io/strOrFile.c.

    Characters are the values of a signed 8-bit char, -128..127; EOF is -1.
    - A stdio stream opened for reading is the list of the characters still to be read, one
      opened for writing is the list of the characters written.  [ungetc] puts a character
      back; as in glibc there is room for it.  I/O errors are not modelled.
    - A string is a heap block, given by the list of its bytes; an access outside is UB. *)
From Verif Require Import Base StrBufM.

Definition C_EOF : Z := -1.
Definition CH_LF : Z := 10.
Definition CH_CR : Z := 13.

(** strOrFile.h:18-23; exactly one of pFile and theStr is not NULL (sf_New), or neither after
    sf_takeTheStr or sf_closeFile. *)
Inductive container :=
| CFile (inp out : list Z)
| CStr (mem : list Z) (pos : Z)
| CNone.

(** sf_New, strOrFile.c:20-39; the allocation succeeds. *)
Definition sf_NewFile (content : list Z) : container := CFile content [].
Definition sf_NewStr (mem : list Z) : container := CStr mem 0.

(** Byte [i] of a block. *)
Definition m_rd (m : list Z) (i : Z) : res Z :=
  if i <? 0 then UB else match nth_error m (Z.to_nat i) with Some c => Ret c | None => UB end.
Fixpoint m_set (m : list Z) (n : nat) (c : Z) : list Z :=
  match m, n with
  | [], _ => []
  | _ :: m', O => c :: m'
  | x :: m', S n' => x :: m_set m' n' c
  end.
Definition m_wr (m : list Z) (i c : Z) : res (list Z) :=
  if (i <? 0) || (Z.of_nat (length m) <=? i) then UB else Ret (m_set m (Z.to_nat i) c).

(** The C string that starts at byte [i]: the characters before the first NUL; UB without NUL. *)
Fixpoint c_str (m : list Z) : res (list Z) :=
  match m with
  | [] => UB
  | c :: m' => if c =? 0 then Ret [] else s <- c_str m' ;; Ret (c :: s)
  end.
Definition c_str_at (m : list Z) (i : Z) : res (list Z) :=
  if (i <? 0) || (Z.of_nat (length m) <=? i) then UB else c_str (skipn (Z.to_nat i) m).

(** sf_getc, strOrFile.c:47-65; an int 0..255 from getc is converted to char. *)
Definition sf_getc (c : container) : res (Z * container) :=
  match c with
  | CFile [] out => Ret (C_EOF, c)
  | CFile (x :: inp) out => Ret (x, CFile inp out)
  | CStr m pos => x <- m_rd m pos ;; if x =? 0 then Ret (C_EOF, c) else Ret (x, CStr m (pos + 1))
  | CNone => Ret (0, c)
  end.

(** sf_ungetc, strOrFile.c:78-99; stdio's ungetc(EOF, f) fails and does nothing. *)
Definition sf_ungetc (x : Z) (c : container) : res (Z * container) :=
  match c with
  | CFile inp out => if x =? C_EOF then Ret (C_EOF, c) else Ret (x, CFile (x :: inp) out)
  | CStr m pos => if pos <=? 0 then Ret (C_EOF, c)
                  else m <- m_wr m (pos - 1) x ;; Ret (x, CStr m (pos - 1))
  | CNone => Ret (C_EOF, c)
  end.

(** Text up to and including the first [d]; [None] without [d] (strchr and the write after it). *)
Fixpoint cut_after (d : Z) (s : list Z) : option (list Z) :=
  match s with
  | [] => None
  | x :: s' => if x =? d then Some [x]
               else match cut_after d s' with Some t => Some (x :: t) | None => None end
  end.
(** stdio's fgets: at most [n] characters, none after a newline; what is read and what is left. *)
Fixpoint fgets_take (n : nat) (s : list Z) : list Z * list Z :=
  match n, s with
  | O, _ => ([], s)
  | S _, [] => ([], [])
  | S n', x :: s' => if x =? CH_LF then ([x], s')
                     else let '(t, r) := fgets_take n' s' in (x :: t, r)
  end.

(** sf_fgets, strOrFile.c:114-146.  The destination block receives the text and its NUL (the
    zero padding of strncpy beyond the NUL is not recorded); [None] is NULL.  fgets with
    count 1 gives the empty text, as in glibc. *)
Definition sf_fgets (b : blk) (count : Z) (c : container) : res (option blk * container) :=
  if count <? 0 then Ret (None, c)
  else match c with
  | CFile inp out =>
      guard (1 <=? count) (guard (count <=? bsz b) (
      match inp with
      | [] => if count =? 1 then b <- strcpy_str b 0 [] ;; Ret (Some b, c) else Ret (None, c)
      | _ => let '(t, r) := fgets_take (Z.to_nat (count - 1)) inp in
             b <- strcpy_str b 0 t ;; Ret (Some b, CFile r out)
      end))
  | CStr m pos =>
      x <- m_rd m pos ;;
      if x =? 0 then Ret (None, c)
      else
        guard (1 <=? count) (guard (count <=? bsz b) (
        s <- c_str_at m pos ;;
        let w := firstn (Z.to_nat (count - 1)) s in
        let t := match cut_after CH_LF w with
                 | Some t => t
                 | None => match cut_after CH_CR w with Some t => t | None => w end
                 end in
        b <- strcpy_str b 0 t ;;
        Ret (Some b, CStr m (pos + Z.of_nat (length t)))))
  | CNone => Ret (None, c)
  end.

(** sf_fputs, strOrFile.c:157-184; realloc and fputs succeed, fputs returns 1.  The string is
    extended at its end. *)
Definition sf_fputs (s : list Z) (c : container) : res (Z * container) :=
  match c with
  | CFile inp out => Ret (1, CFile inp (out ++ s))
  | CStr m pos => t <- c_str m ;;
                  let n := Z.of_nat (length s) in
                  Ret (n, CStr (t ++ s ++ [0]) (pos + n))
  | CNone => Ret (C_EOF, c)
  end.

(** sf_takeTheStr, strOrFile.c:193-198; [None] is NULL. *)
Definition sf_takeTheStr (c : container) : option (list Z) * container :=
  match c with CStr m _ => (Some m, CNone) | _ => (None, c) end.
(** sf_closeFile, strOrFile.c:211-229; closing succeeds. *)
Definition sf_closeFile (c : container) : container * Z :=
  match c with CFile _ _ => (CNone, C_OK) | _ => (c, C_OK) end.
