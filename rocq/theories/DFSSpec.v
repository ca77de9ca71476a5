(** * DFSSpec: depth first search trees, relabelling and lowpoints, independently of the code. *)
From Verif Require Import Base GraphRec GraphM GraphSpec.

Definition primary (g : graph) (v : Z) : Prop := 1 <= v <= gN g.
(** Edges join primary vertices only. *)
Definition primary_edges (g : graph) (adj : Z -> list Z) : Prop :=
  forall v e, In e (adj v) -> primary g v.

Definition etype (g : graph) (e : Z) : Z := Z.land (eflags g e) EDGE_TYPE_MASK.
Definition par (g : graph) (v : Z) : Z := viParent (gVI g) v.

(** [a] is [v] or one of its tree ancestors. *)
Inductive ancestor (p : Z -> Z) (a : Z) : Z -> Prop :=
| anc_refl : ancestor p a a
| anc_step v : p v <> NIL -> ancestor p a (p v) -> ancestor p a v.

(** Connected by a path of edges. *)
Inductive connected (g : graph) (adj : Z -> list Z) (u : Z) : Z -> Prop :=
| conn_refl : connected g adj u u
| conn_step v e : connected g adj u v -> In e (adj v) -> connected g adj u (enbr g e).

(** The search has been done: [idx] numbers the vertices (preorder of the forest [p]). *)
Record dfs_forest (g : graph) (adj : Z -> list Z) (p idx : Z -> Z) : Prop := {
  df_range : forall v, primary g v -> 1 <= idx v <= gN g;
  df_inj : forall v w, primary g v -> primary g w -> idx v = idx w -> v = w;
  df_parent : forall v, primary g v -> p v <> NIL -> primary g (p v) /\ idx (p v) < idx v;
  df_treearc : forall v, primary g v -> p v <> NIL ->
     exists e, In e (adj (p v)) /\ enbr g e = v /\ etype g e = EDGE_TYPE_CHILD /\
       forall u e', In e' (adj u) -> enbr g e' = v -> etype g e' = EDGE_TYPE_CHILD -> e' = e;
  df_edges : forall u e, In e (adj u) -> enbr g e <> u ->
     let w := enbr g e in
     (etype g e = EDGE_TYPE_CHILD /\ etype g (twin e) = EDGE_TYPE_PARENT /\ p w = u) \/
     (etype g e = EDGE_TYPE_PARENT /\ etype g (twin e) = EDGE_TYPE_CHILD /\ p u = w) \/
     (etype g e = EDGE_TYPE_FORWARD /\ etype g (twin e) = EDGE_TYPE_BACK /\ ancestor p u w) \/
     (etype g e = EDGE_TYPE_BACK /\ etype g (twin e) = EDGE_TYPE_FORWARD /\ ancestor p w u);
  df_loops : forall u e, In e (adj u) -> enbr g e = u -> etype g e = EDGE_TYPE_NOTDEFINED;
  df_preorder : forall u v d, primary g u -> primary g v -> primary g d ->
     ancestor p u d -> idx u <= idx v <= idx d -> ancestor p u v;
  df_roots : forall v, primary g v ->
     exists r, primary g r /\ p r = NIL /\ connected g adj r v /\
       forall r', primary g r' -> p r' = NIL -> connected g adj r' v -> r' = r }.

(** Nothing but the search results changed: visited flags, vertex indices, parents and the type
    bits of edges (the stack is left empty). *)
Record dfs_frame (g h : graph) : Prop := {
  dff_N : gN h = gN g; dff_M : gM h = gM g; dff_cap : gCap h = gCap g;
  dff_vfirst : vfirst h = vfirst g; dff_vlast : vlast h = vlast g;
  dff_virtual : forall v, ~ primary g v -> vindex h v = vindex g v /\ vflags h v = vflags g v /\ par h v = par g v;
  dff_vflags : forall v, Z.ldiff (vflags h v) VERTEX_VISITED_MASK = Z.ldiff (vflags g v) VERTEX_VISITED_MASK;
  dff_enext : enext h = enext g; dff_eprev : eprev h = eprev g; dff_enbr : enbr h = enbr g;
  dff_eflags : forall e, Z.ldiff (eflags h e) EDGE_TYPE_MASK = Z.ldiff (eflags g e) EDGE_TYPE_MASK;
  dff_holes : gholes h = gholes g; dff_holesCap : gholesCap h = gholesCap g;
  dff_stackCap : gstackCap h = gstackCap g; dff_embed : gembed h = gembed g;
  dff_X : gX h = gX g; dff_VI : exists f, gVI h = set_viParent (gVI g) f }.

(** A graph that has not been searched yet. *)
Record unsearched (g : graph) (adj : Z -> list Z) : Prop := {
  us_flag : Z.land (giflags g) 1 = 0;
  us_parents : forall v, primary g v -> par g v = NIL;
  us_types : forall v e, In e (adj v) -> etype g e = EDGE_TYPE_NOTDEFINED;
  us_room : 2 * gCap g <= gstackCap g;
  us_stack : 2 <= gstackCap g }.

(** ** Relabelling: vertex v of g is vertex [f v] of h. *)
Record relabelled (f : Z -> Z) (g h : graph) : Prop := {
  rl_N : gN h = gN g; rl_M : gM h = gM g; rl_cap : gCap h = gCap g;
  rl_first : forall v, primary g v -> vfirst h (f v) = vfirst g v;
  rl_last : forall v, primary g v -> vlast h (f v) = vlast g v;
  rl_back : forall v, primary g v -> vindex h (f v) = v;
  rl_vflags : forall v, primary g v -> vflags h (f v) = Z.lor (vflags g v) VERTEX_VISITED_MASK;
  rl_parent : forall v, primary g v -> par h (f v) = if par g v =? NIL then NIL else f (par g v);
  rl_info : forall v, primary g v ->
     viLeast (gVI h) (f v) = viLeast (gVI g) v /\ viLow (gVI h) (f v) = viLow (gVI g) v /\
     viVisited (gVI h) (f v) = viVisited (gVI g) v /\ viPertEdge (gVI h) (f v) = viPertEdge (gVI g) v /\
     viPertRoots (gVI h) (f v) = viPertRoots (gVI g) v /\ viFPChild (gVI h) (f v) = viFPChild (gVI g) v /\
     viSDC (gVI h) (f v) = viSDC (gVI g) v /\ viFwd (gVI h) (f v) = viFwd (gVI g) v;
  rl_virtual : forall v, ~ primary g v ->
     vfirst h v = vfirst g v /\ vlast h v = vlast g v /\ vindex h v = vindex g v /\ vflags h v = vflags g v;
  rl_enbr : forall e, 2 <= e < gp_EdgeInUseIndexBound g ->
     enbr h e = if enbr g e =? NIL then NIL else f (enbr g e);
  rl_unused : forall e, ~ (2 <= e < gp_EdgeInUseIndexBound g) -> enbr h e = enbr g e;
  rl_stack : gstack h = gstack g;
  rl_enext : enext h = enext g; rl_eprev : eprev h = eprev g; rl_eflags : eflags h = eflags g;
  rl_holes : gholes h = gholes g; rl_holesCap : gholesCap h = gholesCap g;
  rl_stackCap : gstackCap h = gstackCap g; rl_embed : gembed h = gembed g; rl_X : gX h = gX g }.

(** The same graph, except that all visited flags of vertices are set in h. *)
Record same_but_visited (g h : graph) : Prop := {
  sv_N : gN h = gN g; sv_M : gM h = gM g; sv_cap : gCap h = gCap g;
  sv_first : forall v, is_vertex g v -> vfirst h v = vfirst g v;
  sv_last : forall v, is_vertex g v -> vlast h v = vlast g v;
  sv_index : forall v, is_vertex g v -> vindex h v = vindex g v;
  sv_flags : forall v, primary g v -> vflags h v = Z.lor (vflags g v) VERTEX_VISITED_MASK;
  sv_vflags : forall v, gN g < v <= 2 * gN g -> vflags h v = vflags g v;
  sv_info : forall v, primary g v ->
     par h v = par g v /\
     viLeast (gVI h) v = viLeast (gVI g) v /\ viLow (gVI h) v = viLow (gVI g) v /\
     viVisited (gVI h) v = viVisited (gVI g) v /\ viPertEdge (gVI h) v = viPertEdge (gVI g) v /\
     viPertRoots (gVI h) v = viPertRoots (gVI g) v /\ viFPChild (gVI h) v = viFPChild (gVI g) v /\
     viSDC (gVI h) v = viSDC (gVI g) v /\ viFwd (gVI h) v = viFwd (gVI g) v;
  sv_enbr : forall e, enbr h e = enbr g e;
  sv_enext : enext h = enext g; sv_eprev : eprev h = eprev g; sv_eflags : eflags h = eflags g;
  sv_holes : gholes h = gholes g; sv_holesCap : gholesCap h = gholesCap g; sv_stack : gstack h = gstack g;
  sv_stackCap : gstackCap h = gstackCap g; sv_iflags : giflags h = giflags g;
  sv_embed : gembed h = gembed g; sv_X : gX h = gX g }.

(** ** Least ancestors and lowpoints of a graph whose labels are the search numbers *)
Definition is_min (m : Z) (S : Z -> Prop) : Prop := S m /\ forall x, S x -> m <= x.
(** v itself and the vertices its back edges lead to *)
Definition back_reach (g : graph) (adj : Z -> list Z) (v x : Z) : Prop :=
  x = v \/ exists e, In e (adj v) /\ etype g e = EDGE_TYPE_BACK /\ enbr g e = x.
(** the same for all of v's descendants *)
Definition low_reach (g : graph) (adj : Z -> list Z) (v x : Z) : Prop :=
  exists d, primary g d /\ ancestor (par g) v d /\ back_reach g adj d x.

(** ** Graphs made by editing alone: edges between primary vertices, no writes of edge types *)
Definition plain_op (g : graph) (o : gop) : Prop :=
  match o with
  | GAdd u _ v _ | GDyn u _ v _ | GIns u _ _ v _ _ => u <= gN g /\ v <= gN g
  | GMark _ f => Z.land f EDGE_TYPE_MASK = EDGE_TYPE_NOTDEFINED
  | GDel _ _ | GEnsure _ | GReinit => True
  end.
Inductive plain_reach : graph -> Prop :=
| pr_init req N g : 1 <= N -> fresh_graph req N = Ret g -> plain_reach g
| pr_step g o g' r : plain_reach g -> gop_valid g o -> plain_op g o -> gstep g o = Ret (g', r) -> plain_reach g'.
