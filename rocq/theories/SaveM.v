(** * SaveM: model of the edge list format of the planarity program, c/planarityApp/planarityUtils.c:68-113.

    Not modelled: opening and closing of the file; the removal of the path from its name, so that [name] is
    what is left of it.  vertexLabelFix is 0 as gp_GetFirstVertex is 1. *)
From Verif Require Import Base GraphRec GraphM DrawM.

(** planarityUtils.c:98-107 *)
Fixpoint save_edges (n : nat) (g : graph) (e : Z) : res (list Z) :=
  match n with
  | O => OOF
  | S n' =>
      if e <? gp_EdgeInUseIndexBound g then
        w <- gp_GetNeighbor g e ;;
        t <- (if negb (w =? NIL) then   (* gp_EdgeInUse(e), graphStructures.h:76 *)
                u <- gp_GetNeighbor g (e + 1) ;; Ret (dec w ++ [32] ++ dec u ++ [10])
              else Ret []) ;;
        r <- save_edges n' g (e + 2) ;;
        Ret (t ++ r)
      else Ret []
  end.
(** SaveAsciiGraph, planarityUtils.c:68-113: the text of the file *)
Definition SaveAsciiGraph (name : list Z) (g : graph) : res (list Z) :=
  t <- save_edges (efuel g) g 2 ;;
  Ret (name ++ [10] ++ t ++ [48; 32; 48; 10]).
