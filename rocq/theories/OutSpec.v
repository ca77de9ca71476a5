(** * OutSpec: outerplanar graphs and the two obstructions to outerplanarity. *)
From Coq Require Import Permutation.
From Verif Require Import Base GraphRec GraphM GraphSpec DFSSpec TestSpec PlanSpec.

(** A graph is outerplanar if its adjacency lists can be put in an order that satisfies Euler's formula
    and for which, in every connected component, one face meets every vertex (a component without edges
    has nothing to meet). *)
Definition outerplanar_graph (g : graph) (adj : Z -> list Z) : Prop :=
  exists B, (forall v, Permutation (B v) (adj v)) /\ euler g B /\
    forall r, primary g r -> exists a, forall v, connected g B r v -> B v <> [] -> exists b, same_face g B a b /\ In b (B v).

(** Four disjoint connected sets of vertices, every two of them touching. *)
Definition K4_minor (V : Z -> Prop) (E : Z -> Z -> Prop) : Prop :=
  exists S : Z -> list Z,
    (forall i, 1 <= i <= 4 -> conn_set E (S i) /\ forall x, In x (S i) -> V x) /\
    (forall i j x, 1 <= i < j -> j <= 4 -> In x (S i) -> ~ In x (S j)) /\
    (forall i j, 1 <= i < j -> j <= 4 -> touching E (S i) (S j)).
(** Two and three disjoint connected sets of vertices, each of the former touching each of the latter. *)
Definition K23_minor (V : Z -> Prop) (E : Z -> Z -> Prop) : Prop :=
  exists S : Z -> list Z,
    (forall i, 1 <= i <= 5 -> conn_set E (S i) /\ forall x, In x (S i) -> V x) /\
    (forall i j x, 1 <= i < j -> j <= 5 -> In x (S i) -> ~ In x (S j)) /\
    (forall i j, 1 <= i <= 2 -> 3 <= j <= 5 -> touching E (S i) (S j)).
Definition outer_obstruction (V : Z -> Prop) (E : Z -> Z -> Prop) : Prop := K4_minor V E \/ K23_minor V E.
