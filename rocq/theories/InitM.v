(** * InitM: memory management of a graph, with failing allocations.

    Models which heap blocks gp_New, gp_InitGraph, gp_EnsureArcCapacity and
    gp_Free allocate, free and store, for every possible sequence of allocation
    successes and failures.  The contents of the blocks are not modelled here
    (GraphM.v models them, assuming that allocation succeeds), nor are
    extensions (ExtM.v): the list of extensions is empty. *)
From Verif Require Import Base.

(** The heap: which blocks are allocated, and the number of the next allocation
    request.  The block returned by request [k] has address [k]. *)
Record heap := mkHeap { live : Z -> bool; hnext : Z }.

(** malloc/calloc: [orc k] tells whether request [k] succeeds. *)
Definition alloc (orc : Z -> bool) (h : heap) : heap * Z :=
  let k := hnext h in
  if orc k then (mkHeap (upd (live h) k true) (k + 1), k)
  else (mkHeap (live h) (k + 1), NIL).

(** free(p): nothing for NULL; freeing a block that is not allocated is UB. *)
Definition free (h : heap) (p : Z) : res heap :=
  if p =? NIL then Ret h
  else if live h p then Ret (mkHeap (upd (live h) p false) (hnext h)) else UB.

(** realloc(p, n): on failure the old block stays allocated and NULL is returned. *)
Definition realloc (orc : Z -> bool) (h : heap) (p : Z) : res (heap * Z) :=
  if negb (p =? NIL) && negb (live h p) then UB
  else
    let '(h1, q) := alloc orc h in
    if q =? NIL then Ret (h1, NIL)
    else h2 <- free h1 p ;; Ret (h2, q).

(** graphStructures.h: baseGraphStructure, pointer members and the sizes that
    decide about reallocation.  A list collection or stack is a block (first
    component) that holds the pointer of a second block (second component). *)
Record mgraph := mkMG {
  pG : Z;                 (* the graph record itself *)
  pV : Z; pVI : Z; pE : Z;
  pBRL : Z * Z; pSDL : Z * Z; pStk : Z * Z;
  pExt : Z;
  pHoles : Z * Z;
  mN : Z; mCap : Z; mStkCap : Z
}.

(** assignment to one member *)
Definition set_pV (m : mgraph) (x : Z) : mgraph := mkMG (pG m) x (pVI m) (pE m) (pBRL m) (pSDL m) (pStk m) (pExt m) (pHoles m) (mN m) (mCap m) (mStkCap m).
Definition set_pVI (m : mgraph) (x : Z) : mgraph := mkMG (pG m) (pV m) x (pE m) (pBRL m) (pSDL m) (pStk m) (pExt m) (pHoles m) (mN m) (mCap m) (mStkCap m).
Definition set_pE (m : mgraph) (x : Z) : mgraph := mkMG (pG m) (pV m) (pVI m) x (pBRL m) (pSDL m) (pStk m) (pExt m) (pHoles m) (mN m) (mCap m) (mStkCap m).
Definition set_pBRL (m : mgraph) (x : Z * Z) : mgraph := mkMG (pG m) (pV m) (pVI m) (pE m) x (pSDL m) (pStk m) (pExt m) (pHoles m) (mN m) (mCap m) (mStkCap m).
Definition set_pSDL (m : mgraph) (x : Z * Z) : mgraph := mkMG (pG m) (pV m) (pVI m) (pE m) (pBRL m) x (pStk m) (pExt m) (pHoles m) (mN m) (mCap m) (mStkCap m).
Definition set_pStk (m : mgraph) (x : Z * Z) : mgraph := mkMG (pG m) (pV m) (pVI m) (pE m) (pBRL m) (pSDL m) x (pExt m) (pHoles m) (mN m) (mCap m) (mStkCap m).
Definition set_pExt (m : mgraph) (x : Z) : mgraph := mkMG (pG m) (pV m) (pVI m) (pE m) (pBRL m) (pSDL m) (pStk m) x (pHoles m) (mN m) (mCap m) (mStkCap m).
Definition set_pHoles (m : mgraph) (x : Z * Z) : mgraph := mkMG (pG m) (pV m) (pVI m) (pE m) (pBRL m) (pSDL m) (pStk m) (pExt m) x (mN m) (mCap m) (mStkCap m).
Definition set_mN (m : mgraph) (x : Z) : mgraph := mkMG (pG m) (pV m) (pVI m) (pE m) (pBRL m) (pSDL m) (pStk m) (pExt m) (pHoles m) x (mCap m) (mStkCap m).
Definition set_mCap (m : mgraph) (x : Z) : mgraph := mkMG (pG m) (pV m) (pVI m) (pE m) (pBRL m) (pSDL m) (pStk m) (pExt m) (pHoles m) (mN m) x (mStkCap m).
Definition set_mStkCap (m : mgraph) (x : Z) : mgraph := mkMG (pG m) (pV m) (pVI m) (pE m) (pBRL m) (pSDL m) (pStk m) (pExt m) (pHoles m) (mN m) (mCap m) x.

(** LCNew, listcoll.c:76-99; sp_New, stack.c:11-34: two allocations, the first
    block is freed if the second one fails. *)
Definition two_New (orc : Z -> bool) (h : heap) : res (heap * (Z * Z)) :=
  let '(h, p) := alloc orc h in
  if p =? NIL then Ret (h, (NIL, NIL))
  else
    let '(h, q) := alloc orc h in
    if q =? NIL then (h <- free h p ;; Ret (h, (NIL, NIL)))
    else Ret (h, (p, q)).

(** LCFree, listcoll.c:105-115; sp_Free, stack.c:36-48: reading the inner pointer
    needs the outer block. *)
Definition two_Free (h : heap) (p : Z * Z) : res (heap * (Z * Z)) :=
  if fst p =? NIL then Ret (h, p)
  else if negb (live h (fst p)) then UB
  else
    h <- free h (snd p) ;;
    h <- free h (fst p) ;;
    Ret (h, (NIL, NIL)).

(** _ClearGraph, graphUtils.c:835-876.  Line 845 sets V, not VI, to NULL. *)
Definition _ClearGraph (h : heap) (m : mgraph) : res (heap * mgraph) :=
  h <- free h (pV m) ;;
  h <- free h (pVI m) ;;
  h <- free h (pE m) ;;
  '(h, brl) <- two_Free h (pBRL m) ;;
  '(h, sdl) <- two_Free h (pSDL m) ;;
  '(h, stk) <- two_Free h (pStk m) ;;
  h <- free h (pExt m) ;;
  '(h, hol) <- two_Free h (pHoles m) ;;
  Ret (h, mkMG (pG m) NIL (pVI m) NIL brl sdl stk NIL hol 0 0 0).

(** gp_New, graphUtils.c:90-116; None is the NULL pointer *)
Definition gp_New (orc : Z -> bool) (h : heap) : res (heap * option mgraph) :=
  let '(h, p) := alloc orc h in
  if p =? NIL then Ret (h, None)
  else
    '(h, m) <- _ClearGraph h (mkMG p NIL NIL NIL (NIL, NIL) (NIL, NIL) (NIL, NIL) NIL (NIL, NIL) 0 0 0) ;;
    Ret (h, Some m).

(** _InitGraph, graphUtils.c:203-240; DEFAULT_EDGE_LIMIT is 3.  An allocation is
    only requested if all previous ones succeeded. *)
Definition _InitGraph (orc : Z -> bool) (h : heap) (m : mgraph) (N : Z) : res (heap * mgraph * Z) :=
  let cap := if 0 <? mCap m then mCap m else 6 * N in
  let stackSize := Z.max (2 * (2 + cap)) (6 * N) in
  let fail (h : heap) (m : mgraph) :=
    '(h, m) <- _ClearGraph h m ;; Ret (h, m, C_NOTOK) in
  let m := set_mCap (set_mN m N) cap in
  let '(h, p) := alloc orc h in
  let m := set_pV m p in
  if p =? NIL then fail h m else
  let '(h, p) := alloc orc h in
  let m := set_pVI m p in
  if p =? NIL then fail h m else
  let '(h, p) := alloc orc h in
  let m := set_pE m p in
  if p =? NIL then fail h m else
  '(h, q) <- two_New orc h ;;
  let m := set_pBRL m q in
  if fst q =? NIL then fail h m else
  '(h, q) <- two_New orc h ;;
  let m := set_pSDL m q in
  if fst q =? NIL then fail h m else
  '(h, q) <- two_New orc h ;;
  let m := set_mStkCap (set_pStk m q) stackSize in
  if fst q =? NIL then fail h m else
  let '(h, p) := alloc orc h in
  let m := set_pExt m p in
  if p =? NIL then fail h m else
  '(h, q) <- two_New orc h ;;
  let m := set_pHoles m q in
  if fst q =? NIL then fail h m else
  Ret (h, m, C_OK).

(** gp_InitGraph, graphUtils.c:190-201 *)
Definition gp_InitGraph (orc : Z -> bool) (h : heap) (m : mgraph) (N : Z) : res (heap * mgraph * Z) :=
  if N <=? 0 then Ret (h, m, C_NOTOK)
  else if negb (mN m =? 0) then Ret (h, m, C_NOTOK)
  else _InitGraph orc h m N.

(** _EnsureArcCapacity, graphUtils.c:424-481.  The line [theGraph->E = realloc(...)]
    stores NULL on failure. *)
Definition _EnsureArcCapacity (orc : Z -> bool) (h : heap) (m : mgraph) (req : Z) : res (heap * mgraph * Z) :=
  if req <=? mCap m then Ret (h, m, C_OK)
  else
    '(h, m, r) <-
      (if mStkCap m <? 2 * req then
         '(h, q) <- two_New orc h ;;
         if fst q =? NIL then Ret (h, m, C_NOTOK)
         else
           '(h, _) <- two_Free h (pStk m) ;;
           Ret (h, set_mStkCap (set_pStk m q) (Z.max (2 * req) (6 * mN m)), C_OK)
       else Ret (h, m, C_OK)) ;;
    if r =? C_NOTOK then Ret (h, m, C_NOTOK)
    else
      '(h, q) <- two_New orc h ;;
      if fst q =? NIL then Ret (h, m, C_NOTOK)
      else
        '(h, _) <- two_Free h (pHoles m) ;;
        let m := set_pHoles m q in
        '(h, e) <- realloc orc h (pE m) ;;
        let m := set_pE m e in
        if e =? NIL then Ret (h, m, C_NOTOK)
        else Ret (h, set_mCap m req, C_OK).

(** gp_EnsureArcCapacity, graphUtils.c:398-422 *)
Definition gp_EnsureArcCapacity (orc : Z -> bool) (h : heap) (m : mgraph) (req : Z) : res (heap * mgraph * Z) :=
  if req <=? 0 then Ret (h, m, C_NOTOK)
  else if Z.odd req then Ret (h, m, C_NOTOK)
  else if req <=? mCap m then Ret (h, m, C_OK)
  else if mN m =? 0 then
    Ret (h, set_mCap m req, C_OK)
  else _EnsureArcCapacity orc h m req.

(** gp_Free, graphUtils.c:884-895 *)
Definition gp_Free (h : heap) (m : mgraph) : res heap :=
  '(h, m) <- _ClearGraph h m ;;
  free h (pG m).

(** ** Histories *)
Inductive mop := MInit (N : Z) | MEnsure (req : Z).

Definition mrun1 (orc : Z -> bool) (o : mop) (h : heap) (m : mgraph) : res (heap * mgraph * Z) :=
  match o with
  | MInit N => gp_InitGraph orc h m N
  | MEnsure r => gp_EnsureArcCapacity orc h m r
  end.

(** run the operations and collect their results *)
Fixpoint mrun (orc : Z -> bool) (l : list mop) (h : heap) (m : mgraph) : res (heap * mgraph * list Z) :=
  match l with
  | [] => Ret (h, m, [])
  | o :: l =>
      '(h, m, r) <- mrun1 orc o h m ;;
      '(h, m, rs) <- mrun orc l h m ;;
      Ret (h, m, r :: rs)
  end.
