(** * StackM: model of c/graphLib/lowLevelUtils/stack.c and stack.h.

    [chk_*] are the functions compiled when SPEED_MACROS is not defined (DEBUG),
    [mac_*] are the macros compiled otherwise.  The array S is a total function;
    an access outside [0, capacity) is UB.  Allocation always succeeds. *)
From Verif Require Import Base.

(** stack.h:18-21 *)
Record stk := mkStk { sS : Z -> Z; ssize : Z; scap : Z }.

(** Array accesses; the block has [scap] cells. *)
Definition s_inb (s : stk) (i : Z) : bool := (0 <=? i) && (i <? scap s).
Definition s_read (s : stk) (i : Z) : res Z := guard (s_inb s i) (Ret (sS s i)).
Definition s_write (s : stk) (i v : Z) : res stk :=
  guard (s_inb s i) (Ret (mkStk (upd (sS s) i v) (ssize s) (scap s))).
Definition s_setsize (s : stk) (n : Z) : stk := mkStk (sS s) n (scap s).

(** stack.c:11-34. The initial content of the array is arbitrary ([junk]). *)
Definition sp_New (junk : Z -> Z) (capacity : Z) : stk := mkStk junk 0 capacity.

(** stack.c:50-60. memcpy of the first size cells; UB if either block is too small. *)
Definition sp_CopyContent (dst src : stk) : res (Z * stk) :=
  if scap dst <? ssize src then Ret (C_NOTOK, dst)
  else if 0 <? ssize src then
    guard (ssize src <=? scap src)
      (Ret (C_OK, mkStk (fun i => if (0 <=? i) && (i <? ssize src) then sS src i else sS dst i)
                        (ssize src) (scap dst)))
  else Ret (C_OK, mkStk (sS dst) (ssize src) (scap dst)).

(** stack.c:62-76 *)
Definition sp_Duplicate (junk : Z -> Z) (s : stk) : res stk :=
  if 0 <? ssize s then
    guard (ssize s <=? scap s)
      (Ret (mkStk (fun i => if (0 <=? i) && (i <? ssize s) then sS s i else junk i) (ssize s) (scap s)))
  else Ret (sp_New junk (scap s)).

(** stack.c:78-99 (the swap of the blocks is modelled by taking the duplicate's array) *)
Definition sp_Copy (junk : Z -> Z) (dst src : stk) : res (Z * stk) :=
  '(r, d) <- sp_CopyContent dst src ;;
  if r =? C_OK then Ret (C_OK, d)
  else n <- sp_Duplicate junk src ;;
       Ret (C_OK, mkStk (sS n) (ssize src) (scap src)).

(** stack.c:103-107 and stack.h:70 *)
Definition sp_ClearStack (s : stk) : stk := s_setsize s 0.
(** stack.c:114-117 and stack.h:72: only the upper limit is checked *)
Definition sp_SetCurrentSize (s : stk) (n : Z) : Z * stk :=
  if scap s <? n then (C_NOTOK, s) else (C_OK, s_setsize s n).
(** stack.c:119-127, stack.h:74-75 *)
Definition sp_NonEmpty (s : stk) : bool := negb (ssize s =? 0).

(** stack.c:129-136 *)
Definition chk_Push (s : stk) (a : Z) : res (Z * stk) :=
  if scap s <=? ssize s then Ret (C_NOTOK, s)
  else s1 <- s_write s (ssize s) a ;; Ret (C_OK, s_setsize s1 (ssize s + 1)).

(** stack.c:138-146 *)
Definition chk_Push2 (s : stk) (a b : Z) : res (Z * stk) :=
  if scap s <=? ssize s + 1 then Ret (C_NOTOK, s)
  else s1 <- s_write s (ssize s) a ;;
       let s1 := s_setsize s1 (ssize s + 1) in
       s2 <- s_write s1 (ssize s1) b ;;
       Ret (C_OK, s_setsize s2 (ssize s1 + 1)).

(** stack.c:148-155. The popped value is returned as an option (None: *pA not assigned). *)
Definition chk_Pop (s : stk) : res (Z * list Z * stk) :=
  if ssize s <=? 0 then Ret (C_NOTOK, [], s)
  else v <- s_read s (ssize s - 1) ;; Ret (C_OK, [v], s_setsize s (ssize s - 1)).

(** stack.c:157-164 *)
Definition chk_Pop_Discard (s : stk) : res (Z * list Z * stk) :=
  if ssize s <=? 0 then Ret (C_NOTOK, [], s)
  else Ret (C_OK, [], s_setsize s (ssize s - 1)).

(** stack.c:166-175. Result values in the order (A, B). *)
Definition chk_Pop2 (s : stk) : res (Z * list Z * stk) :=
  if ssize s <=? 1 then Ret (C_NOTOK, [], s)
  else b <- s_read s (ssize s - 1) ;;
       a <- s_read s (ssize s - 2) ;;
       Ret (C_OK, [a; b], s_setsize s (ssize s - 2)).

(** stack.c:177-189 *)
Definition chk_Pop2_Discard1 (s : stk) : res (Z * list Z * stk) :=
  if ssize s <=? 1 then Ret (C_NOTOK, [], s)
  else a <- s_read s (ssize s - 2) ;;
       Ret (C_OK, [a], s_setsize s (ssize s - 2)).

(** stack.c:191-200 *)
Definition chk_Pop2_Discard (s : stk) : res (Z * list Z * stk) :=
  if ssize s <=? 1 then Ret (C_NOTOK, [], s)
  else Ret (C_OK, [], s_setsize s (ssize s - 2)).

(** stack.c:202-205, stack.h:87 *)
Definition sp_Top (s : stk) : res Z :=
  if ssize s =? 0 then Ret NIL else s_read s (ssize s - 1).

(** stack.c:207-213 *)
Definition chk_Get (s : stk) (pos : Z) : res Z :=
  if (pos <? 0) || (ssize s <=? pos) then Ret C_NOTOK else s_read s pos.

(** stack.c:215-221; the value of the assignment is returned *)
Definition chk_Set (s : stk) (pos v : Z) : res (Z * stk) :=
  if (pos <? 0) || (ssize s <=? pos) then Ret (C_NOTOK, s)
  else s1 <- s_write s pos v ;; Ret (v, s1).

(** ** Macros, stack.h:77-89 *)
Definition mac_Push (s : stk) (a : Z) : res stk :=
  s1 <- s_write s (ssize s) a ;; Ret (s_setsize s1 (ssize s + 1)).
Definition mac_Push2 (s : stk) (a b : Z) : res stk :=
  s1 <- mac_Push s a ;; mac_Push s1 b.
Definition mac_Pop (s : stk) : res (Z * stk) :=
  let s1 := s_setsize s (ssize s - 1) in
  v <- s_read s1 (ssize s1) ;; Ret (v, s1).
Definition mac_Pop_Discard (s : stk) : stk := s_setsize s (ssize s - 1).
Definition mac_Pop2 (s : stk) : res (Z * Z * stk) :=
  '(b, s1) <- mac_Pop s ;; '(a, s2) <- mac_Pop s1 ;; Ret (a, b, s2).
Definition mac_Pop2_Discard1 (s : stk) : res (Z * stk) :=
  mac_Pop (mac_Pop_Discard s).
Definition mac_Pop2_Discard (s : stk) : stk := mac_Pop_Discard (mac_Pop_Discard s).
Definition mac_Get (s : stk) (pos : Z) : res Z := s_read s pos.
Definition mac_Set (s : stk) (pos v : Z) : res stk := s_write s pos v.

(** ** A client: any history of calls on two stacks A and B.
    [side = true] selects A.  The result of each call is recorded. *)
Inductive sop : Type :=
| SPush (side : bool) (a : Z)
| SPush2 (side : bool) (a b : Z)
| SPop (side : bool)
| SPopDiscard (side : bool)
| SPop2 (side : bool)
| SPop2Discard1 (side : bool)
| SPop2Discard (side : bool)
| STop (side : bool)
| SGet (side : bool) (pos : Z)
| SSet (side : bool) (pos v : Z)
| SClear (side : bool)
| SSetSize (side : bool) (n : Z)
| SSize (side : bool)
| SCopyFromOther (side : bool)      (* sp_Copy(this, other) *)
| SReplaceByDupOfOther (side : bool)(* sp_Free(this); this = sp_Duplicate(other) *).

Definition op_side (o : sop) : bool :=
  match o with
  | SPush b _ | SPush2 b _ _ | SPop b | SPopDiscard b | SPop2 b | SPop2Discard1 b
  | SPop2Discard b | STop b | SGet b _ | SSet b _ _ | SClear b | SSetSize b _ | SSize b
  | SCopyFromOther b | SReplaceByDupOfOther b => b
  end.

Definition fix3 {A} (m : res (Z * A)) : res (Z * list Z * A) :=
  '(r, s) <- m ;; Ret (r, [], s).

(** One call of the checked build on the selected stack [s], [o] being the other one.
    Result: return code, values delivered through pointers, new state of the selected stack. *)
Definition chk_step (junk : Z -> Z) (s o : stk) (c : sop) : res (Z * list Z * stk) :=
  match c with
  | SPush _ a => fix3 (chk_Push s a)
  | SPush2 _ a b => fix3 (chk_Push2 s a b)
  | SPop _ => chk_Pop s
  | SPopDiscard _ => chk_Pop_Discard s
  | SPop2 _ => chk_Pop2 s
  | SPop2Discard1 _ => chk_Pop2_Discard1 s
  | SPop2Discard _ => chk_Pop2_Discard s
  | STop _ => v <- sp_Top s ;; Ret (C_OK, [v], s)
  | SGet _ pos => v <- chk_Get s pos ;; Ret (v, [], s)
  | SSet _ pos v => fix3 (chk_Set s pos v)
  | SClear _ => Ret (C_OK, [], sp_ClearStack s)
  | SSetSize _ n => let '(r, s1) := sp_SetCurrentSize s n in Ret (r, [], s1)
  | SSize _ => Ret (ssize s, [], s)
  | SCopyFromOther _ => fix3 (sp_Copy junk s o)
  | SReplaceByDupOfOther _ => d <- sp_Duplicate junk o ;; Ret (C_OK, [], d)
  end.

(** The same call in the macro build; macros have no return code, OK is reported. *)
Definition mac_step (junk : Z -> Z) (s o : stk) (c : sop) : res (Z * list Z * stk) :=
  match c with
  | SPush _ a => s1 <- mac_Push s a ;; Ret (C_OK, [], s1)
  | SPush2 _ a b => s1 <- mac_Push2 s a b ;; Ret (C_OK, [], s1)
  | SPop _ => '(v, s1) <- mac_Pop s ;; Ret (C_OK, [v], s1)
  | SPopDiscard _ => Ret (C_OK, [], mac_Pop_Discard s)
  | SPop2 _ => '(a, b, s1) <- mac_Pop2 s ;; Ret (C_OK, [a; b], s1)
  | SPop2Discard1 _ => '(a, s1) <- mac_Pop2_Discard1 s ;; Ret (C_OK, [a], s1)
  | SPop2Discard _ => Ret (C_OK, [], mac_Pop2_Discard s)
  | STop _ => v <- sp_Top s ;; Ret (C_OK, [v], s)
  | SGet _ pos => v <- mac_Get s pos ;; Ret (v, [], s)
  | SSet _ pos v => s1 <- mac_Set s pos v ;; Ret (v, [], s1)
  | SClear _ => Ret (C_OK, [], sp_ClearStack s)
  | SSetSize _ n => let '(r, s1) := sp_SetCurrentSize s n in Ret (r, [], s1)
  | SSize _ => Ret (ssize s, [], s)
  | SCopyFromOther _ => fix3 (sp_Copy junk s o)
  | SReplaceByDupOfOther _ => d <- sp_Duplicate junk o ;; Ret (C_OK, [], d)
  end.

Section Run.
  Variable step : stk -> stk -> sop -> res (Z * list Z * stk).
  Fixpoint run_stk (A B : stk) (h : list sop) : res (list (Z * list Z) * (stk * stk)) :=
    match h with
    | [] => Ret ([], (A, B))
    | c :: h =>
        if op_side c then
          '(r, vs, A1) <- step A B c ;;
          '(outs, st) <- run_stk A1 B h ;; Ret ((r, vs) :: outs, st)
        else
          '(r, vs, B1) <- step B A c ;;
          '(outs, st) <- run_stk A B1 h ;; Ret ((r, vs) :: outs, st)
    end.
End Run.
