(** * PlanSpec: planar graphs and the two obstructions to planarity. *)
From Coq Require Import Permutation.
From Verif Require Import Base GraphRec GraphM GraphSpec DFSSpec TestSpec.

(** A graph is planar if its adjacency lists can be put in an order that satisfies Euler's formula. *)
Definition planar_graph (g : graph) (adj : Z -> list Z) : Prop :=
  exists B, (forall v, Permutation (B v) (adj v)) /\ euler g B.

(** Two vertices of a graph are adjacent. *)
Definition adjacent (g : graph) (adj : Z -> list Z) (x y : Z) : Prop := exists e, In e (adj x) /\ enbr g e = y.

(** One can walk from [x] to [y] along [E] inside [L]. *)
Inductive path_in (E : Z -> Z -> Prop) (L : list Z) (x : Z) : Z -> Prop :=
| path_here : In x L -> path_in E L x x
| path_step y z : path_in E L x y -> E y z -> In z L -> path_in E L x z.
Definition conn_set (E : Z -> Z -> Prop) (L : list Z) : Prop :=
  L <> [] /\ forall x y, In x L -> In y L -> path_in E L x y.
(** Some vertex of [A] is adjacent to one of [B]. *)
Definition touching (E : Z -> Z -> Prop) (A B : list Z) : Prop := exists x y, In x A /\ In y B /\ E x y.

(** Five disjoint connected sets of vertices, every two of them touching. *)
Definition K5_minor (V : Z -> Prop) (E : Z -> Z -> Prop) : Prop :=
  exists S : Z -> list Z,
    (forall i, 1 <= i <= 5 -> conn_set E (S i) /\ forall x, In x (S i) -> V x) /\
    (forall i j x, 1 <= i < j -> j <= 5 -> In x (S i) -> ~ In x (S j)) /\
    (forall i j, 1 <= i < j -> j <= 5 -> touching E (S i) (S j)).
(** Three and three disjoint connected sets of vertices, each of the former touching each of the latter. *)
Definition K33_minor (V : Z -> Prop) (E : Z -> Z -> Prop) : Prop :=
  exists S : Z -> list Z,
    (forall i, 1 <= i <= 6 -> conn_set E (S i) /\ forall x, In x (S i) -> V x) /\
    (forall i j x, 1 <= i < j -> j <= 6 -> In x (S i) -> ~ In x (S j)) /\
    (forall i j, 1 <= i <= 3 -> 4 <= j <= 6 -> touching E (S i) (S j)).
Definition kuratowski (V : Z -> Prop) (E : Z -> Z -> Prop) : Prop := K5_minor V E \/ K33_minor V E.
