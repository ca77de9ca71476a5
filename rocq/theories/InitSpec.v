(** * InitSpec: ownership of heap blocks. *)
From Verif Require Import Base InitM.

(** Nothing is allocated, and the next request is number 1. *)
Definition empty_heap : heap := mkHeap (fun _ => false) 1.

Definition nothing_live (h : heap) : Prop := forall p, live h p = false.

(** the allocated blocks are exactly those of [L] *)
Definition live_is (h : heap) (L : list Z) : Prop := forall p, live h p = true <-> In p L.

(** every block the graph points to *)
Definition blocks (m : mgraph) : list Z :=
  [pG m; pV m; pVI m; pE m; fst (pBRL m); snd (pBRL m); fst (pSDL m); snd (pSDL m);
   fst (pStk m); snd (pStk m); pExt m; fst (pHoles m); snd (pHoles m)].

(** The graph is initialised and owns all its blocks: they are distinct, none is
    NULL, all are allocated and nothing else is. *)
Definition owns (h : heap) (m : mgraph) : Prop :=
  0 < mN m /\ NoDup (blocks m) /\ (forall p, In p (blocks m) -> p <> NIL) /\ live_is h (blocks m).

(** What gp_New() leaves: a graph record and no other block. *)
Definition as_new (h : heap) (m : mgraph) : Prop :=
  blocks m = [pG m; NIL; NIL; NIL; NIL; NIL; NIL; NIL; NIL; NIL; NIL; NIL; NIL] /\
  mN m = 0 /\ mCap m = 0 /\ live_is h [pG m].
