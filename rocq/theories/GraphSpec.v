(** * GraphSpec: what a well-formed graph is, independently of how the code works.

    [adj v] is the list of the edge records (arcs) of vertex [v], in order.  Arc [e]
    and arc [twin e] are the two halves of one edge; [enbr g e] is the vertex at the
    far end of [e]. *)
From Verif Require Import Base GraphRec GraphM.

Definition twin (e : Z) : Z := Z.lxor e 1.

(** [l] is doubly linked by [nx]/[pv]: the predecessor of its first element is [p],
    the successor of its last is [q]. *)
Fixpoint linked (nx pv : Z -> Z) (p : Z) (l : list Z) (q : Z) : Prop :=
  match l with
  | [] => True
  | e :: l' => pv e = p /\ nx e = hd q l' /\ linked nx pv e l' q
  end.

Definition is_vertex (g : graph) (v : Z) : Prop := 1 <= v <= 2 * gN g.

(** Every vertex (virtual ones included) heads a proper NIL-terminated doubly linked
    list of legal edge records, and no edge record is in two lists. *)
Record chains (g : graph) (adj : Z -> list Z) : Prop := {
  ch_first : forall v, is_vertex g v -> vfirst g v = hd NIL (adj v);
  ch_last : forall v, is_vertex g v -> vlast g v = last (adj v) NIL;
  ch_linked : forall v, is_vertex g v -> linked (enext g) (eprev g) NIL (adj v) NIL;
  ch_out : forall v, ~ is_vertex g v -> adj v = [];
  ch_nodup : forall v, NoDup (adj v);
  ch_disj : forall v w e, In e (adj v) -> In e (adj w) -> v = w;
  ch_range : forall v e, In e (adj v) -> 2 <= e < gp_EdgeIndexBound g }.

(** The two arcs of every listed edge are in the lists of the two endpoints. *)
Definition twins_ok (g : graph) (adj : Z -> list Z) : Prop :=
  forall v e, In e (adj v) -> enbr g (twin e) = v /\ In (twin e) (adj (enbr g e)).

(** Storage accounting: the records 2 .. bound-1 are exactly the listed arcs and the
    holes (a hole is recorded by one of its two records); M counts the edges. *)
Record storage_ok (g : graph) (adj : Z -> list Z) : Prop := {
  st_N : 1 <= gN g;
  st_M : 0 <= gM g;
  st_cap : gp_EdgeInUseIndexBound g <= gp_EdgeIndexBound g;
  st_even : Z.even (gCap g) = true;
  st_holescap : gCap g / 2 <= gholesCap g;
  st_used : forall v e, In e (adj v) -> 2 <= e < gp_EdgeInUseIndexBound g;
  st_holes : forall h, In h (gholes g) ->
               2 <= h < gp_EdgeInUseIndexBound g /\ enbr g h = NIL /\ enbr g (twin h) = NIL;
  st_holes_nodup : NoDup (map (fun h => h / 2) (gholes g));
  st_cover : forall e, 2 <= e < gp_EdgeInUseIndexBound g ->
               In e (adj (enbr g (twin e))) \/ In (e / 2) (map (fun h => h / 2) (gholes g)) }.

(** [rep g adj]: g is a well-formed graph whose adjacency lists are [adj]. *)
Record rep (g : graph) (adj : Z -> list Z) : Prop := {
  rep_chains : chains g adj;
  rep_twins : twins_ok g adj;
  rep_storage : storage_ok g adj }.

(** Edge record e is in use and belongs to the list of v; a client can test this. *)
Definition arc_of (g : graph) (v e : Z) : Prop :=
  2 <= e < gp_EdgeInUseIndexBound g /\ enbr g e <> NIL /\ enbr g (twin e) = v.
Definition in_use (g : graph) (e : Z) : Prop :=
  2 <= e < gp_EdgeInUseIndexBound g /\ enbr g e <> NIL.

(** Number of arcs over all vertices. *)
Fixpoint sumdeg (adj : Z -> list Z) (n : nat) : Z :=
  match n with
  | O => 0
  | S n' => Z.of_nat (length (adj (Z.of_nat n))) + sumdeg adj n'
  end.

(** ** List-level effect of inserting an arc *)
Fixpoint ins_after (e x : Z) (l : list Z) : list Z :=
  match l with
  | [] => []
  | a :: l' => if a =? e then a :: x :: l' else a :: ins_after e x l'
  end.
Fixpoint ins_before (e x : Z) (l : list Z) : list Z :=
  match l with
  | [] => []
  | a :: l' => if a =? e then x :: a :: l' else a :: ins_before e x l'
  end.
(** Put x next to e: after it for link 0, before it for link 1; without e, at the
    front for link 0 and at the back for link 1. *)
Definition ins_at (e link x : Z) (l : list Z) : list Z :=
  if e =? NIL then (if link =? 0 then x :: l else l ++ [x])
  else if link =? 0 then ins_after e x l else ins_before e x l.

(** The lists after adding an edge (u,v) whose records are [a] in u's list and
    [twin a] in v's list. *)
Definition adj_insert (adj : Z -> list Z) (u eu ul v ev vl a : Z) : Z -> list Z :=
  let adj1 := upd adj u (ins_at eu ul a (adj u)) in
  upd adj1 v (ins_at ev vl (twin a) (adj1 v)).

(** The lists after removing the two arcs of an edge. *)
Definition adj_remove (adj : Z -> list Z) (e : Z) : Z -> list Z :=
  fun v => filter (fun x => negb (x =? e) && negb (x =? twin e)) (adj v).

(** ** What adding and deleting an edge does *)
(** [a] is the new edge's record in u's list, [twin a] the one in v's list; everything not
    mentioned is unchanged. *)
Record edge_added (g g' : graph) (adj : Z -> list Z) (u eu ul v ev vl a : Z) : Prop := {
  ea_fresh : forall w, ~ In a (adj w) /\ ~ In (twin a) (adj w);
  ea_lists : rep g' (adj_insert adj u eu ul v ev vl a);
  ea_ends : enbr g' a = v /\ enbr g' (twin a) = u;
  ea_others : forall x, x <> a -> x <> twin a -> enbr g' x = enbr g x;
  ea_count : gM g' = gM g + 1;
  ea_N : gN g' = gN g; ea_cap : gCap g' = gCap g;
  ea_eflags : eflags g' = eflags g; ea_vflags : vflags g' = vflags g; ea_vindex : vindex g' = vindex g;
  ea_stack : gstack g' = gstack g; ea_VI : gVI g' = gVI g; ea_X : gX g' = gX g;
  ea_iflags : giflags g' = giflags g; ea_embed : gembed g' = gembed g }.

Record edge_deleted (g g' : graph) (adj : Z -> list Z) (e : Z) : Prop := {
  ed_lists : rep g' (adj_remove adj e);
  ed_others : forall x, x <> e -> x <> twin e -> enbr g' x = enbr g x /\ eflags g' x = eflags g x;
  ed_count : gM g' = gM g - 1;
  ed_N : gN g' = gN g; ed_cap : gCap g' = gCap g;
  ed_vflags : vflags g' = vflags g; ed_vindex : vindex g' = vindex g;
  ed_stack : gstack g' = gstack g; ed_VI : gVI g' = gVI g; ed_X : gX g' = gX g;
  ed_iflags : giflags g' = giflags g; ed_embed : gembed g' = gembed g }.

(** The record next to e in list l: the one after it (link 0), the one before it (link 1),
    NIL at the end of the list. *)
Definition next_in (l : list Z) (e link : Z) (r : Z) : Prop :=
  exists l1 l2, l = l1 ++ e :: l2 /\ r = if link =? 0 then hd NIL l2 else last l1 NIL.

(** The capacity became [cap]; the records that did not exist before are blank; nothing
    else changed. *)
Record grown (g g' : graph) (cap : Z) : Prop := {
  gr_N : gN g' = gN g; gr_M : gM g' = gM g; gr_cap : gCap g' = cap;
  gr_vfirst : vfirst g' = vfirst g; gr_vlast : vlast g' = vlast g;
  gr_vindex : vindex g' = vindex g; gr_vflags : vflags g' = vflags g;
  gr_enext : forall x, enext g' x = if (2 + gCap g <=? x) && (x <? 2 + cap) then NIL else enext g x;
  gr_eprev : forall x, eprev g' x = if (2 + gCap g <=? x) && (x <? 2 + cap) then NIL else eprev g x;
  gr_enbr : forall x, enbr g' x = if (2 + gCap g <=? x) && (x <? 2 + cap) then NIL else enbr g x;
  gr_eflags : forall x, eflags g' x = if (2 + gCap g <=? x) && (x <? 2 + cap) then 0 else eflags g x;
  gr_holes : gholes g' = gholes g; gr_stack : gstack g' = gstack g;
  gr_holesCap : cap / 2 <= gholesCap g'; gr_stackCap : gstackCap g <= gstackCap g'; gr_stackRoom : 2 * cap <= gstackCap g';
  gr_iflags : giflags g' = giflags g; gr_embed : gembed g' = gembed g;
  gr_VI : gVI g' = gVI g; gr_X : gX g' = gX g }.

(** No edges at all. *)
Definition no_adj : Z -> list Z := fun _ => [].

(** ** Equality of graph states, field by field *)
Record geq (g h : graph) : Prop := {
  geq_N : gN g = gN h; geq_M : gM g = gM h; geq_cap : gCap g = gCap h;
  geq_vfirst : forall x, vfirst g x = vfirst h x; geq_vlast : forall x, vlast g x = vlast h x;
  geq_vindex : forall x, vindex g x = vindex h x; geq_vflags : forall x, vflags g x = vflags h x;
  geq_enext : forall x, enext g x = enext h x; geq_eprev : forall x, eprev g x = eprev h x;
  geq_enbr : forall x, enbr g x = enbr h x; geq_eflags : forall x, eflags g x = eflags h x;
  geq_holes : gholes g = gholes h; geq_holesCap : gholesCap g = gholesCap h;
  geq_stack : gstack g = gstack h; geq_stackCap : gstackCap g = gstackCap h;
  geq_iflags : giflags g = giflags h; geq_embed : gembed g = gembed h;
  geq_VI : gVI g = gVI h; geq_X : gX g = gX h }.

(** Everything except the link fields of vertices and edge records is the same. *)
Record frame_links (g h : graph) : Prop := {
  fl_N : gN h = gN g; fl_M : gM h = gM g; fl_cap : gCap h = gCap g;
  fl_vindex : vindex h = vindex g; fl_vflags : vflags h = vflags g;
  fl_enbr : enbr h = enbr g; fl_eflags : eflags h = eflags g;
  fl_holes : gholes h = gholes g; fl_holesCap : gholesCap h = gholesCap g;
  fl_stack : gstack h = gstack g; fl_stackCap : gstackCap h = gstackCap g;
  fl_iflags : giflags h = giflags g; fl_embed : gembed h = gembed g;
  fl_VI : gVI h = gVI g; fl_X : gX h = gX g }.

(** ** Edit histories *)
Inductive gop :=
| GAdd (u ulink v vlink : Z)
| GDyn (u ulink v vlink : Z)
| GIns (u e_u ulink v e_v vlink : Z)
| GDel (e nextLink : Z)
| GEnsure (cap : Z)
| GReinit
| GMark (e flags : Z).   (* any write of the flag word of an edge record in use: the
                            visited, type, inverted and direction macros *)

Definition gstep (g : graph) (o : gop) : res (graph * Z) :=
  match o with
  | GAdd u ul v vl => gp_AddEdge g u ul v vl
  | GDyn u ul v vl => gp_DynamicAddEdge g u ul v vl
  | GIns u eu ul v ev vl => gp_InsertEdge g u eu ul v ev vl
  | GDel e l => gp_DeleteEdge g e l
  | GEnsure c => gp_EnsureArcCapacity g c
  | GReinit => Ret (gp_ReinitializeGraph g, C_OK)
  | GMark e f => g <- wr_eflags g e f ;; Ret (g, C_OK)
  end.

(** What the documentation asks of the caller: link arguments are 0 or 1, the arcs
    next to which an edge is inserted (if any) belong to the two vertices, and a
    deleted or marked edge is in use.  Vertices and capacities are arbitrary. *)
Definition link_ok (l : Z) : Prop := l = 0 \/ l = 1.
(** The capacities gp_DynamicAddEdge computes with are C ints. *)
Definition dyn_fits (g : graph) : Prop := 2 * gCap g <= INT_MAX /\ gN g * (gN g - 1) <= INT_MAX.
Definition gop_valid (g : graph) (o : gop) : Prop :=
  match o with
  | GAdd _ ul _ vl => link_ok ul /\ link_ok vl
  | GDyn _ ul _ vl => link_ok ul /\ link_ok vl /\ dyn_fits g
  | GIns u eu ul v ev vl => (eu = NIL \/ arc_of g u eu) /\ (ev = NIL \/ arc_of g v ev)
  | GDel e l => in_use g e /\ link_ok l
  | GMark e _ => in_use g e
  | GEnsure _ | GReinit => True
  end.

(** Graphs obtained by: gp_New, optionally gp_EnsureArcCapacity, gp_InitGraph, then any
    sequence of valid edits. *)
Definition fresh_graph (req N : Z) : res graph :=
  '(g, _) <- gp_EnsureArcCapacity gp_New req ;; Ret (fst (gp_InitGraph g N)).

Inductive reach : graph -> Prop :=
| reach_init req N g : 1 <= N -> fresh_graph req N = Ret g -> reach g
| reach_step g o g' r : reach g -> gop_valid g o -> gstep g o = Ret (g', r) -> reach g'.

(** ** Hiding edges and vertices *)
(** The four link fields agree. *)
Record eq_links (g h : graph) : Prop := {
  el_first : forall x, vfirst g x = vfirst h x; el_last : forall x, vlast g x = vlast h x;
  el_next : forall x, enext g x = enext h x; el_prev : forall x, eprev g x = eprev h x }.

(** Hide a sequence of edges, restore a sequence of edges, hide a sequence of vertices. *)
Fixpoint hide_all (g : graph) (es : list Z) : res graph :=
  match es with [] => Ret g | e :: es' => g <- gp_HideEdge g e ;; hide_all g es' end.
Fixpoint restore_all (g : graph) (es : list Z) : res graph :=
  match es with [] => Ret g | e :: es' => g <- gp_RestoreEdge g e ;; restore_all g es' end.
Fixpoint hide_vertices (g : graph) (vs : list Z) : res graph :=
  match vs with
  | [] => Ret g
  | v :: vs' => '(g, r) <- gp_HideVertex g v ;; if r =? C_OK then hide_vertices g vs' else UB
  end.

(** The lists without the arcs of the edges [es], order kept. *)
Definition adj_without (adj : Z -> list Z) (es : list Z) : Z -> list Z :=
  fun v => filter (fun x => negb (existsb (fun e => (x =? e) || (x =? twin e)) es)) (adj v).

(** [es] names pairwise different edges, each by one of its arcs, all present in the lists. *)
Fixpoint distinct_edges (adj : Z -> list Z) (es : list Z) : Prop :=
  match es with
  | [] => True
  | e :: es' => (exists v, In e (adj v)) /\ ~ In e es' /\ ~ In (twin e) es' /\ distinct_edges adj es'
  end.

(** No edge joins a vertex to itself. *)
Definition no_loops (g : graph) (adj : Z -> list Z) : Prop :=
  forall v e, In e (adj v) -> enbr g e <> v.

(** The lists after hiding a vertex: its own list is empty and it is gone from all others. *)
Definition adj_without_vertex (g : graph) (adj : Z -> list Z) (v : Z) : Z -> list Z :=
  fun w => if w =? v then [] else filter (fun x => negb (enbr g x =? v)) (adj w).
