(** * EmbedSpec: what gp_Embed is asked for and what it is meant to deliver.  Nothing here mentions
    how the embedder works. *)
From Verif Require Import Base GraphRec GraphM GraphSpec DFSSpec TestSpec.

(** No loops, no parallel edges. *)
Definition simple_graph (g : graph) (adj : Z -> list Z) : Prop :=
  (forall u e, In e (adj u) -> enbr g e <> u) /\
  (forall u e e', In e (adj u) -> In e' (adj u) -> enbr g e = enbr g e' -> e = e').

(** The fields that only the embedder uses are as gp_InitGraph leaves them, and no edge carries the
    inversion flag. *)
Record embed_ready (g : graph) (adj : Z -> list Z) : Prop := {
  er_pe : forall x, viPertEdge (gVI g) x = NIL;
  er_pr : forall v, primary g v -> viPertRoots (gVI g) v = NIL;
  er_sdc : forall v, primary g v -> viSDC (gVI g) v = NIL;
  er_fwd : forall v, primary g v -> viFwd (gVI g) v = NIL;
  er_brl : brlPrev (gX g) NIL = NIL;
  er_sdl : sdlPrev (gX g) NIL = NIL;
  er_inv : forall v e, In e (adj v) -> Z.land (eflags g e) EDGEFLAG_INVERTED_MASK = 0 }.

(** The graph [h] with rotation system [A] is a planar embedding of the graph [g] with edges [adj]:
    it has the same edges, its vertices being those of [g] in another order; the original number of
    a vertex is its index; and its rotations satisfy Euler's formula. *)
Record planar_embedding (g : graph) (adj : Z -> list Z) (h : graph) (A : Z -> list Z) : Prop := {
  pe_rep : rep h A;
  pe_primary : primary_edges h A;
  pe_N : gN h = gN g; pe_M : gM h = gM g;
  pe_range : forall v, primary g v -> primary g (vindex h v);
  pe_inj : forall v w, primary g v -> primary g w -> vindex h v = vindex h w -> v = w;
  pe_arcs : forall v e, primary g v -> In e (A v) <-> In e (adj (vindex h v));
  pe_ends : forall v e, In e (A v) -> vindex h (enbr h e) = enbr g e;
  pe_euler : euler h A }.

(** The graph [h] with edges [A] is a subgraph of the graph [g] with edges [adj]: it has the vertices
    of [g], in another order, and some of its edges; the original number of a vertex is its index. *)
Record isolated_subgraph (g : graph) (adj : Z -> list Z) (h : graph) (A : Z -> list Z) : Prop := {
  is_rep : rep h A;
  is_primary : primary_edges h A;
  is_N : gN h = gN g;
  is_range : forall v, primary g v -> primary g (vindex h v);
  is_inj : forall v w, primary g v -> primary g w -> vindex h v = vindex h w -> v = w;
  is_arcs : forall v e, In e (A v) -> In e (adj (vindex h v));
  is_ends : forall v e, In e (A v) -> vindex h (enbr h e) = enbr g e }.

(** Graphs made by the editing functions, the user marking edges neither with a type nor as
    inverted. *)
Definition clean_op (g : graph) (o : gop) : Prop :=
  plain_op g o /\ match o with GMark _ f => Z.land f EDGEFLAG_INVERTED_MASK = 0 | _ => True end.
Inductive clean_reach : graph -> Prop :=
| cr_init req N g : 1 <= N -> fresh_graph req N = Ret g -> clean_reach g
| cr_step g o g' r : clean_reach g -> gop_valid g o -> clean_op g o -> gstep g o = Ret (g', r) -> clean_reach g'.
