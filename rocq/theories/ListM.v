(** * ListM: model of c/graphLib/lowLevelUtils/listcoll.c and listcoll.h.

    [lc_*] are the functions compiled when SPEED_MACROS is not defined, [mlc_*] the macros
    compiled otherwise.  The array List is a pair of total functions; an access outside
    [0, N) is UB.  Allocation always succeeds (LCNew's failure paths return NULL). *)
From Verif Require Import Base.

(** listcoll.h:16-26 *)
Record lcoll := mkLC { lcN : Z; lcnext : Z -> Z; lcprev : Z -> Z }.

(** Accesses to List[i].next and List[i].prev. *)
Definition lc_inb (c : lcoll) (i : Z) : bool := (0 <=? i) && (i <? lcN c).
Definition rd_next (c : lcoll) (i : Z) : res Z := guard (lc_inb c i) (Ret (lcnext c i)).
Definition rd_prev (c : lcoll) (i : Z) : res Z := guard (lc_inb c i) (Ret (lcprev c i)).
Definition wr_next (c : lcoll) (i v : Z) : res lcoll :=
  guard (lc_inb c i) (Ret (mkLC (lcN c) (upd (lcnext c) i v) (lcprev c))).
Definition wr_prev (c : lcoll) (i v : Z) : res lcoll :=
  guard (lc_inb c i) (Ret (mkLC (lcN c) (lcnext c) (upd (lcprev c) i v))).

(** listcoll.c:144-150 and listcoll.h:53 (memset with NIL_CHAR = 0) *)
Definition LCReset (c : lcoll) : res lcoll :=
  for_up (Z.to_nat (lcN c)) 0
    (fun k c => c1 <- wr_next c k NIL ;; wr_prev c1 k NIL) c.

(** listcoll.c:76-98. [None] is the NULL result; the fresh block holds arbitrary values. *)
Definition LCNew (jn jp : Z -> Z) (n : Z) : res (option lcoll) :=
  if n <=? 0 then Ret None
  else c <- LCReset (mkLC n jn jp) ;; Ret (Some c).

(** listcoll.c:156-165 *)
Definition LCCopy (dst src : lcoll) : res lcoll :=
  if negb (lcN dst =? lcN src) then Ret dst
  else for_up (Z.to_nat (lcN dst)) 0
         (fun k d => n <- rd_next src k ;; p <- rd_prev src k ;;
                     d1 <- wr_next d k n ;; wr_prev d1 k p) dst.

(** listcoll.c:171-179 *)
Definition LCGetNext (c : lcoll) (theList theNode : Z) : res Z :=
  if (theList =? NIL) || (theNode =? NIL) then Ret NIL
  else next <- rd_next c theNode ;; Ret (if next =? theList then NIL else next).

(** listcoll.h:62 *)
Definition mLCGetNext (c : lcoll) (theList theNode : Z) : res Z :=
  next <- rd_next c theNode ;;
  if next =? theList then Ret NIL else rd_next c theNode.

(** listcoll.c:185-194 *)
Definition LCGetPrev (c : lcoll) (theList theNode : Z) : res Z :=
  if theList =? NIL then Ret NIL
  else if theNode =? NIL then rd_prev c theList
  else if theNode =? theList then Ret NIL
  else rd_prev c theNode.

(** listcoll.h:71-74 *)
Definition mLCGetPrev (c : lcoll) (theList theNode : Z) : res Z :=
  if theNode =? NIL then rd_prev c theList
  else if theNode =? theList then Ret NIL
  else rd_prev c theNode.

(** listcoll.c:213-240 *)
Definition LCAppend (c : lcoll) (theList theNode : Z) : res (Z * lcoll) :=
  if theList =? NIL then
    c1 <- wr_next c theNode theNode ;;
    c2 <- wr_prev c1 theNode theNode ;;
    Ret (theNode, c2)
  else
    pred <- rd_prev c theList ;;
    c1 <- wr_prev c theList theNode ;;
    c2 <- wr_next c1 theNode theList ;;
    c3 <- wr_prev c2 theNode pred ;;
    c4 <- wr_next c3 pred theNode ;;
    Ret (theList, c4).

(** listcoll.c:200-207 *)
Definition LCPrepend (c : lcoll) (theList theNode : Z) : res (Z * lcoll) :=
  '(l, c1) <- LCAppend c theList theNode ;;
  h <- rd_prev c1 l ;;
  Ret (h, c1).

(** listcoll.h:80-87 *)
Definition mLCPrepend (c : lcoll) (theList theNode : Z) : res (Z * lcoll) :=
  if theList =? NIL then
    c1 <- wr_next c theNode theNode ;;
    c2 <- wr_prev c1 theNode theNode ;;
    Ret (theNode, c2)
  else
    c1 <- wr_next c theNode theList ;;
    p <- rd_prev c1 theList ;;
    c2 <- wr_prev c1 theNode p ;;
    q <- rd_prev c2 theNode ;;
    c3 <- wr_next c2 q theNode ;;
    c4 <- wr_prev c3 theList theNode ;;
    h <- rd_prev c4 theList ;;
    Ret (h, c4).

(** listcoll.h:93-100 *)
Definition mLCAppend (c : lcoll) (theList theNode : Z) : res (Z * lcoll) :=
  if theList =? NIL then
    c1 <- wr_next c theNode theNode ;;
    c2 <- wr_prev c1 theNode theNode ;;
    Ret (theNode, c2)
  else
    c1 <- wr_next c theNode theList ;;
    p <- rd_prev c1 theList ;;
    c2 <- wr_prev c1 theNode p ;;
    q <- rd_prev c2 theNode ;;
    c3 <- wr_next c2 q theNode ;;
    c4 <- wr_prev c3 theList theNode ;;
    Ret (theList, c4).

(** listcoll.c:121-127 *)
Definition LCInsertAfter (c : lcoll) (theAnchor theNewNode : Z) : res lcoll :=
  c1 <- wr_prev c theNewNode theAnchor ;;
  n <- rd_next c1 theAnchor ;;
  c2 <- wr_next c1 theNewNode n ;;
  n2 <- rd_next c2 theAnchor ;;
  c3 <- wr_prev c2 n2 theNewNode ;;
  wr_next c3 theAnchor theNewNode.

(** listcoll.c:133-136: LCPrepend with its result dropped *)
Definition LCInsertBefore (c : lcoll) (theAnchor theNewNode : Z) : res lcoll :=
  '(_, c1) <- LCPrepend c theAnchor theNewNode ;; Ret c1.
Definition mLCInsertBefore (c : lcoll) (theAnchor theNewNode : Z) : res lcoll :=
  '(_, c1) <- mLCPrepend c theAnchor theNewNode ;; Ret c1.

(** listcoll.c:246-276 *)
Definition LCDelete (c : lcoll) (theList theNode : Z) : res (Z * lcoll) :=
  n <- rd_next c theList ;;
  if n =? theList then
    c1 <- wr_next c theList NIL ;;
    c2 <- wr_prev c1 theList NIL ;;
    Ret (NIL, c2)
  else
    pred <- rd_prev c theNode ;;
    succ <- rd_next c theNode ;;
    c1 <- wr_next c pred succ ;;
    c2 <- wr_prev c1 succ pred ;;
    c3 <- wr_next c2 theNode NIL ;;
    c4 <- wr_prev c3 theNode NIL ;;
    Ret (if theList =? theNode then succ else theList, c4).

(** listcoll.h:109-114: the macro leaves the links of the deleted node unchanged *)
Definition mLCDelete (c : lcoll) (theList theNode : Z) : res (Z * lcoll) :=
  n <- rd_next c theList ;;
  if n =? theList then
    c1 <- wr_next c theList NIL ;;
    c2 <- wr_prev c1 theList NIL ;;
    Ret (NIL, c2)
  else
    pred <- rd_prev c theNode ;;
    succ <- rd_next c theNode ;;
    c1 <- wr_next c pred succ ;;
    succ2 <- rd_next c1 theNode ;;
    pred2 <- rd_prev c1 theNode ;;
    c2 <- wr_prev c1 succ2 pred2 ;;
    if theList =? theNode then h <- rd_next c2 theNode ;; Ret (h, c2)
    else Ret (theList, c2).

(** A client holding the heads of its lists in an array ([heads]), as the library does with
    sortedDFSChildLists, buckets and similar fields; every call that returns a head is
    stored back: [heads[i] = LCAppend(c, heads[i], x)]. *)
Record lclient := mkCl { cl_c : lcoll; cl_heads : Z -> Z }.

Inductive lop : Type :=
| LPrepend (i x : Z)      (* heads[i] = LCPrepend(c, heads[i], x) *)
| LAppend (i x : Z)       (* heads[i] = LCAppend(c, heads[i], x) *)
| LAfter (a x : Z)        (* LCInsertAfter(c, a, x) *)
| LBefore (a x : Z)       (* LCInsertBefore(c, a, x) *)
| LDelete (i x : Z).      (* heads[i] = LCDelete(c, heads[i], x) *)

Definition lstep (s : lclient) (o : lop) : res lclient :=
  match o with
  | LPrepend i x => '(h, c) <- LCPrepend (cl_c s) (cl_heads s i) x ;;
                    Ret (mkCl c (upd (cl_heads s) i h))
  | LAppend i x => '(h, c) <- LCAppend (cl_c s) (cl_heads s i) x ;;
                   Ret (mkCl c (upd (cl_heads s) i h))
  | LAfter a x => c <- LCInsertAfter (cl_c s) a x ;; Ret (mkCl c (cl_heads s))
  | LBefore a x => c <- LCInsertBefore (cl_c s) a x ;; Ret (mkCl c (cl_heads s))
  | LDelete i x => '(h, c) <- LCDelete (cl_c s) (cl_heads s i) x ;;
                   Ret (mkCl c (upd (cl_heads s) i h))
  end.

Definition mlstep (s : lclient) (o : lop) : res lclient :=
  match o with
  | LPrepend i x => '(h, c) <- mLCPrepend (cl_c s) (cl_heads s i) x ;;
                    Ret (mkCl c (upd (cl_heads s) i h))
  | LAppend i x => '(h, c) <- mLCAppend (cl_c s) (cl_heads s i) x ;;
                   Ret (mkCl c (upd (cl_heads s) i h))
  | LAfter a x => c <- LCInsertAfter (cl_c s) a x ;; Ret (mkCl c (cl_heads s))
  | LBefore a x => c <- mLCInsertBefore (cl_c s) a x ;; Ret (mkCl c (cl_heads s))
  | LDelete i x => '(h, c) <- mLCDelete (cl_c s) (cl_heads s i) x ;;
                   Ret (mkCl c (upd (cl_heads s) i h))
  end.

Fixpoint lrun (step : lclient -> lop -> res lclient) (s : lclient) (os : list lop) : res lclient :=
  match os with
  | [] => Ret s
  | o :: os' => s' <- step s o ;; lrun step s' os'
  end.

(** The documented iteration patterns (listcoll.c:55-69).
    Forward: [node = theList; while (node != NIL) { visit node; node = LCGetNext(c,theList,node); }]
    Backward: [node = LCGetPrev(c,theList,NIL); while (node != NIL) { visit; node = LCGetPrev(...); }] *)
Fixpoint visit (fuel : nat) (step : Z -> res Z) (node : Z) : res (list Z) :=
  match fuel with
  | O => OOF
  | S f => if node =? NIL then Ret []
           else n <- step node ;; l <- visit f step n ;; Ret (node :: l)
  end.
Definition forward (next : lcoll -> Z -> Z -> res Z) (fuel : nat) (c : lcoll) (h : Z) : res (list Z) :=
  visit fuel (next c h) h.
Definition backward (prev : lcoll -> Z -> Z -> res Z) (fuel : nat) (c : lcoll) (h : Z) : res (list Z) :=
  n <- prev c h NIL ;; visit fuel (prev c h) n.
