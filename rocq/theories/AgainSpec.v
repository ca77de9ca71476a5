(** * AgainSpec: one graph structure used for many graphs. *)
From Verif Require Import Base GraphRec GraphM GraphSpec DFSM DFSSpec TestM EmbM EmbedSpec.

(** Graphs held by a structure which the user made with gp_New and gp_InitGraph, filled with the editing
    functions, gave to gp_Embed, perhaps to gp_SortVertices too, emptied with gp_ReinitializeGraph, filled
    again, and so on any number of times, as the library's own program does when it tests
    random graphs (c/planarityApp/planarityRandomGraphs.c 80-195, 348-360).  The graphs given to gp_Embed have neither loops nor repeated edges. *)
Inductive used_reach : graph -> Prop :=
| us_init req N g : 1 <= N -> fresh_graph req N = Ret g -> used_reach g
| us_step g o g' r : used_reach g -> gop_valid g o -> clean_op g o -> gstep g o = Ret (g', r) -> used_reach g'
| us_embed g adj flags h r : used_reach g -> rep g adj -> simple_graph g adj ->
    flags = EMBEDFLAGS_PLANAR \/ flags = EMBEDFLAGS_OUTERPLANAR ->
    gp_Embed g flags = Ret (h, r) -> used_reach (gp_ReinitializeGraph h)
| us_sort g adj flags h r k s : used_reach g -> rep g adj -> simple_graph g adj ->
    flags = EMBEDFLAGS_PLANAR \/ flags = EMBEDFLAGS_OUTERPLANAR ->
    gp_Embed g flags = Ret (h, r) -> gp_SortVertices h = Ret (k, s) -> used_reach (gp_ReinitializeGraph k).
