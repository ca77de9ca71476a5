(** * ObsSpec: subdivisions of small graphs, the obstructions of planarity and outerplanarity. *)
From Verif Require Import Base GraphRec GraphM GraphSpec DFSSpec TestSpec.

(** [p] is a list of arcs leading from [u] to [v]. *)
Fixpoint path (g : graph) (adj : Z -> list Z) (u : Z) (p : list Z) (v : Z) : Prop :=
  match p with
  | [] => u = v
  | e :: p' => In e (adj u) /\ path g adj (enbr g e) p' v
  end.
(** The vertices strictly between the ends of such a path. *)
Definition internals (g : graph) (p : list Z) : list Z := map (enbr g) (removelast p).

(** The graph is a subdivision of the graph with vertices [cs] and edges [E], apart from isolated
    vertices: each edge of [E] is replaced by a path, the paths have no vertices in common but
    their ends, and the graph has no further edges. *)
Definition subdivision (g : graph) (adj : Z -> list Z) (cs : list Z) (E : list (Z * Z)) : Prop :=
  exists paths,
    Forall2 (fun uv p => path g adj (fst uv) p (snd uv)) E paths /\
    NoDup (cs ++ flat_map (internals g) paths) /\
    (forall e, is_arc adj e -> exists p, In p paths /\ (In e p \/ In (twin e) p)).

(** All unordered pairs of a list. *)
Fixpoint all_pairs (l : list Z) : list (Z * Z) :=
  match l with [] => [] | a :: l' => map (pair a) l' ++ all_pairs l' end.
(** A subdivision of the complete graph on n vertices, of the complete bipartite graph on m + n. *)
Definition complete_subdivision (g : graph) (adj : Z -> list Z) (n : nat) : Prop :=
  exists cs, length cs = n /\ subdivision g adj cs (all_pairs cs).
Definition bipartite_subdivision (g : graph) (adj : Z -> list Z) (m n : nat) : Prop :=
  exists a b, length a = m /\ length b = n /\ subdivision g adj (a ++ b) (list_prod a b).

Definition loop_free (g : graph) (adj : Z -> list Z) : Prop := forall v e, In e (adj v) -> enbr g e <> v.
