(** * EndSpec: what a caller sees after gp_Embed and gp_SortVertices.  Nothing here mentions how the
    library works. *)
From Coq Require Import Permutation.
From Verif Require Import Base GraphRec GraphM GraphSpec DFSM DFSSpec TestSpec PlanSpec EmbedSpec.

(** The graph [k] with adjacency lists [B] is the graph [g] with adjacency lists [adj], except for
    the order in which the edges are listed at each vertex: same vertices, same edges, same edge
    numbers, same ends, and same settings, except that it counts as searched now. *)
Record same_graph (g : graph) (adj : Z -> list Z) (k : graph) (B : Z -> list Z) : Prop := {
  sg_rep : rep k B;
  sg_N : gN k = gN g; sg_M : gM k = gM g;
  sg_flags : giflags k = Z.lor (giflags g) FLAGS_DFSNUMBERED;
  sg_lists : forall v, Permutation (B v) (adj v);
  sg_ends : forall v e, In e (B v) -> enbr k e = enbr g e }.

(** The graph [k] with adjacency lists [B] has the vertices of [g] and some of its edges, and the
    same settings, except that it counts as searched now. *)
Record same_subgraph (g : graph) (adj : Z -> list Z) (k : graph) (B : Z -> list Z) : Prop := {
  ss_rep : rep k B;
  ss_N : gN k = gN g;
  ss_flags : giflags k = Z.lor (giflags g) FLAGS_DFSNUMBERED;
  ss_lists : forall v e, In e (B v) -> In e (adj v);
  ss_ends : forall v e, In e (B v) -> enbr k e = enbr g e }.

(** In every component some face meets every vertex that has an edge. *)
Definition outer_rotations (g : graph) (B : Z -> list Z) : Prop :=
  forall r, primary g r -> exists a, forall v, connected g B r v -> B v <> [] -> exists b, same_face g B a b /\ In b (B v).

(** No edge record carries a direction; the first is number 2. *)
Definition no_directions (g : graph) : Prop := forall e, 2 <= e -> Z.land (eflags g e) DIR_MASK = 0.
(** Graphs made by the editing functions, the user marking edges neither with a type nor as inverted
    nor with a direction. *)
Inductive undirected_reach : graph -> Prop :=
| ur_init req N g : 1 <= N -> fresh_graph req N = Ret g -> undirected_reach g
| ur_step g o g' r : undirected_reach g -> gop_valid g o -> clean_op g o ->
    match o with GMark _ f => Z.land f DIR_MASK = 0 | _ => True end -> gstep g o = Ret (g', r) -> undirected_reach g'.
