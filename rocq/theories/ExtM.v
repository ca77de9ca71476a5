(** * ExtM: model of c/graphLib/extensionSystem/graphExtensions.c.

    A context (the extension's own data, which contains its function table) is a heap object
    that can be freed; using a freed object is UB.  Several graphs share the heap, the module
    identifier variables and the identifier generator.  Allocation succeeds; the generator is
    not modelled as wrapping around. *)
From Verif Require Import Base.

(** Function pointers: NULL, the library's own function for slot k (graphUtils.c:132-161), or the
    overload that module m supplies for slot k (v tells overloads of one module apart). *)
Inductive fp : Type := FNull | FBase (k : Z) | FOv (m k v : Z).

Definition is_null (f : fp) : bool := match f with FNull => true | _ => false end.

(** graphFunctionTable.h: 24 function pointers *)
Definition NUMF : Z := 24.

(** An extension context: its function table and its other data. *)
Record ctx := mkCtx { ctab : Z -> fp; cdata : Z }.
(** graphExtensions.private.h:17-26; [eptr] is the address of the record, [ectx] the context
    pointer, [etab] the address of the context that contains the table [functions] points to. *)
Record ext := mkExt { eptr : Z; eid : Z; ectx : Z; etab : Z }.
(** The parts of a graph used here: functions and extensions (newest first). *)
Record exg := mkEg { efn : Z -> fp; eexts : list ext }.

Record sys := mkSys {
  xheap : Z -> option ctx;    (* live contexts *)
  xnext : Z;                  (* next fresh address *)
  xgen : Z;                   (* moduleIDGenerator *)
  xmid : Z -> Z;              (* the modules' identifier variables *)
  xg : Z -> exg               (* the graphs *)
}.
Definition set_heap (s : sys) (h : Z -> option ctx) : sys := mkSys h (xnext s) (xgen s) (xmid s) (xg s).
Definition set_graph (s : sys) (gi : Z) (g : exg) : sys :=
  mkSys (xheap s) (xnext s) (xgen s) (xmid s) (upd (xg s) gi g).

(** Table cells. *)
Definition rd_tab (s : sys) (a k : Z) : res fp :=
  match xheap s a with None => UB | Some c => Ret (ctab c k) end.
Definition wr_tab (s : sys) (a k : Z) (f : fp) : res sys :=
  match xheap s a with
  | None => UB
  | Some c => Ret (set_heap s (upd (xheap s) a (Some (mkCtx (upd (ctab c) k f) (cdata c)))))
  end.
Definition rd_fn (s : sys) (gi k : Z) : fp := efn (xg s gi) k.
Definition wr_fn (s : sys) (gi k : Z) (f : fp) : sys :=
  set_graph s gi (mkEg (upd (efn (xg s gi)) k f) (eexts (xg s gi))).

(** graphUtils.c:132-161 *)
Definition base_table : Z -> fp := FBase.

(** graphExtensions.c:295-326: the context found, if any *)
Fixpoint find_ext (l : list ext) (moduleID : Z) : option Z :=
  match l with
  | [] => None
  | e :: l' => if eid e =? moduleID then Some (ectx e) else find_ext l' moduleID
  end.
Definition gp_FindExtension (s : sys) (gi moduleID : Z) : option Z :=
  if moduleID =? 0 then None else find_ext (eexts (xg s gi)) moduleID.

(** graphExtensions.c:263-279 *)
Definition _OverloadFunctions (s : sys) (gi a : Z) : res sys :=
  for_up (Z.to_nat NUMF) 0 (fun K s =>
    t <- rd_tab s a K ;;
    if is_null t then Ret s
    else wr_tab (wr_fn s gi K t) a K (rd_fn s gi K)) s.

(** graphExtensions.c:196-245 (non-NULL arguments); [a] is the caller's context, whose table is
    the one passed; [m] names the module whose identifier variable is passed *)
Definition gp_AddExtension (s : sys) (gi m a : Z) : res (Z * sys) :=
  match gp_FindExtension s gi (xmid s m) with
  | Some _ => Ret (C_NOTOK, s)
  | None =>
    let s := if xmid s m =? 0
             then mkSys (xheap s) (xnext s) (xgen s + 1) (upd (xmid s) m (xgen s + 1)) (xg s)
             else s in
    let e := mkExt (xnext s) (xmid s m) a a in
    let s := mkSys (xheap s) (xnext s + 1) (xgen s) (xmid s) (xg s) in
    s <- _OverloadFunctions s gi a ;;
    Ret (C_OK, set_graph s gi (mkEg (efn (xg s gi)) (e :: eexts (xg s gi))))
  end.

(** graphExtensions.c:447-463; walking past the end would dereference NULL *)
Fixpoint nearest (s : sys) (l : list ext) (target K : Z) (found : option Z) : res (option Z) :=
  match l with
  | [] => UB
  | e :: l' =>
    if eptr e =? target then Ret found
    else t <- rd_tab s (etab e) K ;;
         nearest s l' target K (if is_null t then found else Some (etab e))
  end.

(** graphExtensions.c:422-441 *)
Definition _FixupFunctionTables (s : sys) (gi : Z) (curr : ext) : res sys :=
  for_up (Z.to_nat NUMF) 0 (fun K s =>
    t <- rd_tab s (etab curr) K ;;
    if is_null t then Ret s
    else
      pred <- nearest s (eexts (xg s gi)) (eptr curr) K None ;;
      match pred with
      | None => Ret (wr_fn s gi K t)
      | Some a => wr_tab s a K t
      end) s.

(** graphExtensions.c:538-545: the context is freed (twice would be UB) *)
Definition _FreeExtension (s : sys) (e : ext) : res sys :=
  match xheap s (ectx e) with
  | None => UB
  | Some _ => Ret (set_heap s (upd (xheap s) (ectx e) None))
  end.

(** graphExtensions.c:362-401: the record found, if any, and the list without it *)
Fixpoint unhook (l : list ext) (moduleID : Z) : option (ext * list ext) :=
  match l with
  | [] => None
  | e :: l' => if eid e =? moduleID then Some (e, l')
               else match unhook l' moduleID with
                    | None => None
                    | Some (x, r) => Some (x, e :: r)
                    end
  end.
Definition gp_RemoveExtension (s : sys) (gi moduleID : Z) : res (Z * sys) :=
  if moduleID =? 0 then Ret (C_NOTOK, s)
  else match unhook (eexts (xg s gi)) moduleID with
  | None => Ret (C_OK, s)
  | Some (curr, rest) =>
    s <- _FixupFunctionTables s gi curr ;;
    let s := set_graph s gi (mkEg (efn (xg s gi)) rest) in
    s <- _FreeExtension s curr ;;
    Ret (C_OK, s)
  end.

(** graphExtensions.c:516-533 *)
Fixpoint free_list (s : sys) (l : list ext) : res sys :=
  match l with
  | [] => Ret s
  | e :: l' => s1 <- _FreeExtension s e ;; free_list s1 l'
  end.
Definition gp_FreeExtensions (s : sys) (gi : Z) : res sys :=
  s <- free_list s (eexts (xg s gi)) ;;
  Ret (set_graph s gi (mkEg base_table [])).

(** graphExtensions.c:469-505.  dupContext of the library's extensions allocates a context, copies
    the whole structure (including the table) and then duplicates its arrays
    (e.g. graphK33Search_Extensions.c, _K33Search_DupContext); the new extension record keeps
    pointing at the SOURCE's table. *)
Fixpoint copy_list (s : sys) (l : list ext) (acc : list ext) : res (sys * list ext) :=
  match l with
  | [] => Ret (s, acc)
  | e :: l' =>
    match xheap s (ectx e) with
    | None => UB
    | Some c =>
      let a := xnext s + 1 in
      let s := mkSys (upd (xheap s) a (Some c)) (xnext s + 2) (xgen s) (xmid s) (xg s) in
      copy_list s l' (acc ++ [mkExt (a - 1) (eid e) a (etab e)])
    end
  end.
Definition gp_CopyExtensions (s : sys) (dst src : Z) : res (Z * sys) :=
  s <- gp_FreeExtensions s dst ;;
  '(s, l) <- copy_list s (eexts (xg s src)) [] ;;
  Ret (C_OK, set_graph s dst (mkEg (efn (xg s dst)) l)).

(** The extension part of gp_CopyGraph, graphUtils.c:1016-1034, as used by gp_DupGraph *)
Definition copy_graph_exts (s : sys) (dst src : Z) : res (Z * sys) :=
  '(r, s) <- gp_CopyExtensions s dst src ;;
  Ret (C_OK, set_graph s dst (mkEg (efn (xg s src)) (eexts (xg s dst)))).

(** The way the library's modules attach and detach (e.g. graphK33Search_Extensions.c:72-140,
    147-150): allocate a context with the overloads, add it; free it again if that fails.
    Attaching a module that is already attached is a no-op that answers OK there; here the
    answer of gp_AddExtension is returned. *)
Definition attach (s : sys) (gi m : Z) (ov : Z -> fp) (d : Z) : res (Z * sys) :=
  let a := xnext s in
  let s := mkSys (upd (xheap s) a (Some (mkCtx ov d))) (a + 1) (xgen s) (xmid s) (xg s) in
  '(r, s) <- gp_AddExtension s gi m a ;;
  if r =? C_OK then Ret (r, s) else Ret (r, set_heap s (upd (xheap s) a None)).
Definition detach (s : sys) (gi m : Z) : res (Z * sys) := gp_RemoveExtension s gi (xmid s m).

(** A virtual call: the functions that run, when every overload runs the function it overloaded by
    looking up its own context in the graph and calling through its table
    (e.g. graphK33Search_Extensions.c:500-517, 560-577). *)
Fixpoint vcall (fuel : nat) (s : sys) (gi k : Z) (f : fp) : res (list fp) :=
  match fuel with
  | O => OOF
  | S n =>
    match f with
    | FNull => UB
    | FBase _ => Ret [f]
    | FOv m _ _ =>
      match gp_FindExtension s gi (xmid s m) with
      | None => UB
      | Some a => f' <- rd_tab s a k ;; l <- vcall n s gi k f' ;; Ret (f :: l)
      end
    end
  end.
Definition invoke (s : sys) (gi k : Z) : res (list fp) :=
  vcall (S (length (eexts (xg s gi)))) s gi k (rd_fn s gi k).

(** Histories on several graphs. *)
Inductive xop : Type :=
| XAttach (gi m : Z) (ov : Z -> fp) (d : Z)
| XDetach (gi m : Z)
| XFree (gi : Z).
Definition xstep (s : sys) (o : xop) : res (Z * sys) :=
  match o with
  | XAttach gi m ov d => attach s gi m ov d
  | XDetach gi m => detach s gi m
  | XFree gi => s <- gp_FreeExtensions s gi ;; Ret (C_OK, s)
  end.
Fixpoint xrun (s : sys) (os : list xop) : res (list Z * sys) :=
  match os with
  | [] => Ret ([], s)
  | o :: os' => '(r, s1) <- xstep s o ;; '(rs, s2) <- xrun s1 os' ;; Ret (r :: rs, s2)
  end.
(** Program start: no contexts, no identifiers, fresh graphs (gp_New, graphUtils.c:90-116). *)
Definition xinit : sys := mkSys (fun _ => None) 1 0 (fun _ => 0) (fun _ => mkEg base_table []).
