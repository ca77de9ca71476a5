(** * IOSpec: the adjacency list text of a graph. *)
From Verif Require Import Base GraphRec GraphM GraphSpec RandSpec StrBufM DrawM IOM.

(** Vertex lists: [L v] are the neighbours of [v] in order. *)
Definition nbr_lists (g : graph) (adj : Z -> list Z) (v : Z) : list Z := map (enbr g) (adj v).

(** No arc carries a direction. *)
Definition undirected (g : graph) (adj : Z -> list Z) : Prop :=
  forall v e, In e (adj v) -> Z.land (eflags g e) DIR_MASK = 0.

(** a, a+1, ..., a+k-1 *)
Definition from (a k : Z) : list Z := map (fun i => a + Z.of_nat i) (seq 0 (Z.to_nat k)).

(** The text: "N=n", then for each vertex its number, a colon, its neighbours from last to
    first, and an end mark.  Numbers are reduced by [off]. *)
Definition adj_line (off : Z) (L : Z -> list Z) (v : Z) : list Z :=
  dec (v - off) ++ [58] ++ concat (map (fun w => 32 :: dec (w - off)) (rev (L v))) ++ [32] ++ dec (- off) ++ [10].
Definition adj_text (n off : Z) (L : Z -> list Z) : list Z :=
  [78; 61] ++ dec n ++ [10] ++ concat (map (adj_line off L) (from 1 n)).

(** The adjacency matrix text: n, then for each vertex v a row of v blanks and the flags of the
    pairs (v, v+1), ..., (v, n). *)
Definition mat_row (n : Z) (A : Z -> Z -> bool) (v : Z) : list Z :=
  repeat 32 (Z.to_nat v) ++ map (fun w => if A v w then 49 else 48) (from (v + 1) (n - v)) ++ [10].
Definition mat_text (n : Z) (A : Z -> Z -> bool) : list Z :=
  dec n ++ [10] ++ concat (map (mat_row n A) (from 1 n)).

(** A LEDA file: the line with the tag, two lines of types, the number of vertices, a line for
    each vertex, the number of edges, and for each edge a line that starts with the numbers of
    its end vertices.  What follows a number on its line does not start with a digit; lines have
    at most 253 characters besides the line end. *)
Definition leda_mark : list Z := [76; 69; 68; 65; 46; 71; 82; 65; 80; 72].
Definition plain_line (l : list Z) : Prop := ~ In 10 l /\ (length l <= 253)%nat.
Definition after_number (t : list Z) : Prop := match t with c :: _ => ~ 48 <= c <= 57 | [] => True end.
Definition edge_line (p : Z * Z * list Z) : list Z := dec (fst (fst p)) ++ [32] ++ dec (snd (fst p)) ++ snd p.
Definition ended (l : list Z) : list Z := l ++ [10].
Definition leda_file (n : Z) (pairs : list (Z * Z)) (text : list Z) : Prop :=
  exists h1 h2 h3 tn vs tm es more,
    text = concat (map ended ([leda_mark ++ h1; h2; h3; dec n ++ tn] ++ vs ++
                              [dec (Z.of_nat (length pairs)) ++ tm] ++ map edge_line es)) ++ more /\
    Z.of_nat (length vs) = n /\ map fst es = pairs /\
    Forall plain_line ([leda_mark ++ h1; h2; h3; dec n ++ tn] ++ vs ++
                       [dec (Z.of_nat (length pairs)) ++ tm] ++ map edge_line es) /\
    after_number tn /\ after_number tm /\ Forall (fun p => after_number (snd p)) es.
