(** * EmbStor: the storage of the edge records in a state of the embedder. *)
From Coq Require Import ZifyBool.
From Verif Require Import Base BaseP GraphRec GraphM GraphSpec GSimp LinkP GraphP GraphP2 DFSM DFSSpec EmbM EmbSpec EmbP GeoP EmbInv EmbStep EmbTree EmbDown.

Section Stor.
Variable g0 : graph.
Local Notation N := (gN g0).
Local Notation sedge := (sedge g0).

(** The storage of the edge records. *)
Record stor (a : est) : Prop := {
  so_N : 1 <= N; so_M : 0 <= gM g0;
  so_cap : gp_EdgeInUseIndexBound g0 <= gp_EdgeIndexBound g0;
  so_holescap : gCap g0 / 2 <= gholesCap g0;
  so_used : forall e, arc a e -> 2 <= e < gp_EdgeInUseIndexBound g0;
  so_holes : forall h, In h (gholes g0) -> 2 <= h < gp_EdgeInUseIndexBound g0 /\ nb (eV a) h = NIL /\ nb (eV a) (twin h) = NIL;
  so_free : forall h, In h (gholes g0) -> ~ arc a h /\ ~ arc a (twin h);
  so_nodup : NoDup (map (fun h => h / 2) (gholes g0));
  so_cover : forall e, 2 <= e < gp_EdgeInUseIndexBound g0 -> arc a e \/ In (e / 2) (map (fun h => h / 2) (gholes g0)) }.
Lemma stor_sedge a b : sedge a b -> stor a -> stor b.
Proof.
  intros E S. constructor; try apply S.
  - intros e He. apply (se_arc _ _ _ E) in He. now apply S.
  - intros h Hh. destruct (so_holes _ S h Hh) as (H1 & H2 & H3), (so_free _ S h Hh) as [F1 F2]. split; [auto|].
    rewrite (se_out _ _ _ E h), (se_out _ _ _ E (twin h)); rewrite ?twin_invol; auto.
  - intros h Hh. rewrite !(se_arc _ _ _ E). now apply S.
  - intros e He. rewrite (se_arc _ _ _ E). now apply S.
Qed.
End Stor.
