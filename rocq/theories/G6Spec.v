(** * G6Spec: the graph6 text of a graph, after the definition of the format (formats.txt of
    nauty): the order, then the upper triangle of the adjacency matrix by columns, six bits per
    printable character. *)
From Verif Require Import Base GraphRec GraphM GraphSpec DFSSpec RandSpec.

(** A graph with vertices 1..n is given by its adjacency test [A]. *)
Definition mat := Z -> Z -> bool.

(** Column c (counted from 0) has the rows 0..c-1. *)
Definition column (A : mat) (c : nat) : list bool :=
  map (fun r => A (Z.of_nat r + 1) (Z.of_nat c + 1)) (seq 0 c).
Definition g6_bits (n : nat) (A : mat) : list bool := flat_map (column A) (seq 0 n).

(** Six bits, the first the most significant; missing ones are 0. *)
Definition b2z (b : bool) : Z := if b then 1 else 0.
Definition six (l : list bool) : Z :=
  32 * b2z (nth 0 l false) + 16 * b2z (nth 1 l false) + 8 * b2z (nth 2 l false) +
  4 * b2z (nth 3 l false) + 2 * b2z (nth 4 l false) + b2z (nth 5 l false).
Fixpoint sextets (l : list bool) : list Z :=
  match l with
  | [] => []
  | b0 :: b1 :: b2 :: b3 :: b4 :: b5 :: l' => six [b0; b1; b2; b3; b4; b5] :: sextets l'
  | l => [six l]
  end.
Definition g6_body (n : Z) (A : mat) : list Z := map (fun x => x + 63) (sextets (g6_bits (Z.to_nat n) A)).

(** The order: one character up to 62, four above (up to 258047). *)
Definition g6_order (n : Z) : list Z :=
  if n <=? 62 then [n + 63] else [126; n / 4096 + 63; n / 64 mod 64 + 63; n mod 64 + 63].
(** ">>graph6<<" *)
Definition g6_head : list Z := [62; 62; 103; 114; 97; 112; 104; 54; 60; 60].
Definition g6_text (n : Z) (A : mat) : list Z := g6_head ++ g6_order n ++ g6_body n A.

Definition simple_graph (g : graph) (adj : Z -> list Z) : Prop :=
  rep g adj /\ simple g adj /\ primary_edges g adj.
(** [g] is the simple graph with [n] vertices and adjacency test A (above the diagonal). *)
Definition is_graph (g : graph) (n : Z) (A : mat) : Prop :=
  gN g = n /\ exists adj, simple_graph g adj /\
    forall u v, 1 <= u < v -> v <= n -> (A u v = true <-> adjacent g adj u v).

(** A graph to read into: a new one, or one that already has n vertices; the capacities computed
    while edges are added one by one are C ints. *)
Definition room (g : graph) (n : Z) : Prop := 2 * Z.max (gCap g) (n * (n - 1)) <= INT_MAX.
Definition readable (g : graph) (n : Z) : Prop :=
  (g = gp_New /\ 2 <= n <= 32768) \/
  ((exists adj, rep g adj) /\ gN g = n /\ 2 <= n <= 100000 /\ 0 <= gstackCap g /\ 4 < gCap g /\ room g n).

(** The text of a line: up to the first end-of-line character or the end. *)
Fixpoint line_of (s : list Z) : list Z :=
  match s with
  | [] => []
  | x :: s' => if (x =? 10) || (x =? 13) then [] else x :: line_of s'
  end.
