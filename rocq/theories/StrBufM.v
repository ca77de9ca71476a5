(** * StrBufM: model of c/graphLib/io/strbuf.c and strbuf.h.

    A heap block is a size and a total function; an access outside the block is UB.
    Characters are integers, 0 is the NUL terminator.  [alloc : bool] says whether the
    allocations of the call succeed, [junk] is the content of fresh memory.  Signed int
    overflow is UB. *)
From Verif Require Import Base.

Record blk := mkBlk { bsz : Z; bdat : Z -> Z }.
Definition b_inb (b : blk) (i : Z) : bool := (0 <=? i) && (i <? bsz b).
Definition b_rd (b : blk) (i : Z) : res Z := guard (b_inb b i) (Ret (bdat b i)).
Definition b_wr (b : blk) (i v : Z) : res blk :=
  guard (b_inb b i) (Ret (mkBlk (bsz b) (upd (bdat b) i v))).

(** strbuf.h:17-21; the pointers themselves are never NULL here except [sbuf]. *)
Record strbuf := mkSB { sbuf : option blk; sbsize : Z; sbcap : Z; sbread : Z }.

(** C's + on int. *)
Definition iadd (a b : Z) : res Z := guard (int_ok (a + b)) (Ret (a + b)).
Definition imul (a b : Z) : res Z := guard (int_ok (a * b)) (Ret (a * b)).

(** C library: strcpy(dst + off, s) for a string literal or caller-owned string [s]
    (the list of its characters before the NUL). *)
Fixpoint strcpy_str (d : blk) (off : Z) (s : list Z) : res blk :=
  match s with
  | [] => b_wr d off 0
  | ch :: s' => d1 <- b_wr d off ch ;; strcpy_str d1 (off + 1) s'
  end.

(** C library: strcpy(dst, src) between blocks; reads [src] up to its NUL.  The fuel is one more
    than the size of [src], so a run without NUL leaves the block (UB) before the fuel ends. *)
Fixpoint strcpy_blk (fuel : nat) (d src : blk) (i : Z) : res blk :=
  match fuel with
  | O => OOF
  | S f => ch <- b_rd src i ;;
           d1 <- b_wr d i ch ;;
           if ch =? 0 then Ret d1 else strcpy_blk f d1 src (i + 1)
  end.
Definition blk_fuel (b : blk) : nat := S (Z.to_nat (bsz b)).

(** strbuf.c:74-82 *)
Definition sb_ClearBuf (s : strbuf) : res strbuf :=
  match sbuf s with
  | Some b => b1 <- b_wr b 0 0 ;; Ret (mkSB (Some b1) 0 (sbcap s) 0)
  | None => Ret (mkSB None 0 (sbcap s) 0)
  end.

(** strbuf.c:19-45; [None] is NULL. *)
Definition sb_New (junk : Z -> Z) (alloc : bool) (capacity : Z) : res (option strbuf) :=
  if capacity <? 0 then Ret None
  else n <- iadd capacity 1 ;;
       if alloc then
         s <- sb_ClearBuf (mkSB (Some (mkBlk n junk)) 0 capacity 0) ;; Ret (Some s)
       else Ret None.

(** strbuf.c:123-137 *)
Definition sb_Duplicate (junk : Z -> Z) (alloc : bool) (s : strbuf) : res (option strbuf) :=
  o <- sb_New junk alloc (sbcap s) ;;
  match o with
  | None => Ret None
  | Some n =>
    if 0 <? sbsize s then
      match sbuf n, sbuf s with
      | Some nb, Some b =>
        nb1 <- strcpy_blk (blk_fuel b) nb b 0 ;;
        Ret (Some (mkSB (Some nb1) (sbsize s) (sbcap n) (sbread n)))
      | _, _ => UB
      end
    else Ret (Some n)
  end.

(** strbuf.c:92-113 with non-NULL arguments; the read position of the destination is kept *)
Definition sb_Copy (junk : Z -> Z) (alloc : bool) (dst src : strbuf) : res (Z * strbuf) :=
  o <- sb_Duplicate junk alloc src ;;
  match o with
  | None => Ret (C_NOTOK, dst)
  | Some n => Ret (C_OK, mkSB (sbuf n) (sbsize src) (sbcap src) (sbread dst))
  end.

(** strbuf.c:183-211 *)
Definition sb_ConcatString (junk : Z -> Z) (alloc : bool) (s : strbuf) (str : list Z)
  : res (Z * strbuf) :=
  let slen := Z.of_nat (length str) in
  if slen =? 0 then Ret (C_OK, s)
  else match sbuf s with
  | None => Ret (C_NOTOK, s)
  | Some b =>
    tot <- iadd (sbsize s) slen ;;
    '(r, b1, cap1) <-
      (if sbcap s <? tot then
         dbl <- imul 2 (sbcap s) ;;
         let newLen := if dbl <? tot then tot else dbl in
         n <- iadd newLen 1 ;;
         if alloc then
           nb <- strcpy_blk (blk_fuel b) (mkBlk n junk) b 0 ;;
           Ret (C_OK, nb, newLen)
         else Ret (C_NOTOK, b, sbcap s)
       else Ret (C_OK, b, sbcap s)) ;;
    if r =? C_OK then
      b2 <- strcpy_str b1 (sbsize s) str ;;
      Ret (C_OK, mkSB (Some b2) tot cap1 (sbread s))
    else Ret (C_NOTOK, s)
  end.

(** strbuf.c:219-225: the one-character string is empty when the character is NUL *)
Definition sb_ConcatChar (junk : Z -> Z) (alloc : bool) (s : strbuf) (ch : Z) : res (Z * strbuf) :=
  sb_ConcatString junk alloc s (if ch =? 0 then [] else [ch]).

(** strbuf.c:234-247: the allocation of the one-byte replacement is not checked, and the read
    position is not reset *)
Definition sb_TakeString (alloc : bool) (junk : Z -> Z) (s : strbuf) : res (option blk * strbuf) :=
  if alloc then
    b1 <- b_wr (mkBlk 1 junk) 0 0 ;;
    Ret (sbuf s, mkSB (Some b1) 0 0 (sbread s))
  else UB.

(** ctype.h in the C locale, for characters 0..127 (others are outside its domain: UB when char is signed) *)
Definition c_isspace (ch : Z) : bool := (ch =? 32) || ((9 <=? ch) && (ch <=? 13)).
Definition c_isdigit (ch : Z) : bool := (48 <=? ch) && (ch <=? 57).
Definition ascii (ch : Z) : bool := (0 <=? ch) && (ch <=? 127).

Fixpoint skip_while (fuel : nat) (p : Z -> bool) (b : blk) (pos : Z) : res Z :=
  match fuel with
  | O => OOF
  | S f => ch <- b_rd b pos ;; guard (ascii ch)
             (if p ch then skip_while f p b (pos + 1) else Ret pos)
  end.

(** strbuf.c:145-152 *)
Definition sb_ReadSkipWhitespace (s : strbuf) : res strbuf :=
  match sbuf s with
  | None => Ret s
  | Some b => pos <- skip_while (blk_fuel b) c_isspace b (sbread s) ;;
              Ret (mkSB (sbuf s) (sbsize s) (sbcap s) pos)
  end.

(** strbuf.c:160-170 *)
Definition sb_ReadSkipInteger (s : strbuf) : res strbuf :=
  match sbuf s with
  | None => Ret s
  | Some b =>
    ch <- b_rd b (sbread s) ;;
    let pos := if ch =? 45 then sbread s + 1 else sbread s in
    pos' <- skip_while (blk_fuel b) c_isdigit b pos ;;
    Ret (mkSB (sbuf s) (sbsize s) (sbcap s) pos')
  end.

(** strbuf.h:37,40 *)
Definition sb_SetReadPos (s : strbuf) (n : Z) : strbuf := mkSB (sbuf s) (sbsize s) (sbcap s) n.
Definition sb_ReadSkipChar (s : strbuf) : strbuf := mkSB (sbuf s) (sbsize s) (sbcap s) (sbread s + 1).

(** First character of sb_GetReadString (strbuf.h:35), as a reader of it would fetch it. *)
Definition sb_PeekRead (s : strbuf) : res Z :=
  match sbuf s with None => UB | Some b => b_rd b (sbread s) end.

(** Histories of calls on one buffer. *)
Inductive sbop : Type :=
| BConcat (alloc : bool) (str : list Z)
| BChar (alloc : bool) (ch : Z)
| BClear.

Definition sbstep (junk : Z -> Z) (s : strbuf) (o : sbop) : res (Z * strbuf) :=
  match o with
  | BConcat a str => sb_ConcatString junk a s str
  | BChar a ch => sb_ConcatChar junk a s ch
  | BClear => s1 <- sb_ClearBuf s ;; Ret (C_OK, s1)
  end.
Fixpoint sbrun (junk : Z -> Z) (s : strbuf) (os : list sbop) : res (list Z * strbuf) :=
  match os with
  | [] => Ret ([], s)
  | o :: os' => '(r, s1) <- sbstep junk s o ;; '(rs, s2) <- sbrun junk s1 os' ;; Ret (r :: rs, s2)
  end.
