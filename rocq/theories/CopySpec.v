(** * CopySpec: what a copy of a graph has in common with its source. *)
From Verif Require Import Base GraphRec GraphM GraphSpec.

(** What a full copy has in common with its source. *)
Record same_content (src c : graph) : Prop := {
  sc_N : gN c = gN src; sc_M : gM c = gM src;
  sc_vert : forall v, is_vertex src v ->
     vfirst c v = vfirst src v /\ vlast c v = vlast src v /\ vindex c v = vindex src v /\ vflags c v = vflags src v /\
     ext0 (gX c) v = ext0 (gX src) v /\ ext1 (gX c) v = ext1 (gX src) v;
  sc_info : forall v, 1 <= v <= gN src ->
     viParent (gVI c) v = viParent (gVI src) v /\ viLeast (gVI c) v = viLeast (gVI src) v /\
     viLow (gVI c) v = viLow (gVI src) v /\ viVisited (gVI c) v = viVisited (gVI src) v /\
     viPertEdge (gVI c) v = viPertEdge (gVI src) v /\ viPertRoots (gVI c) v = viPertRoots (gVI src) v /\
     viFPChild (gVI c) v = viFPChild (gVI src) v /\ viSDC (gVI c) v = viSDC (gVI src) v /\
     viFwd (gVI c) v = viFwd (gVI src) v;
  sc_lists : forall v, 1 <= v <= gN src ->
     brlPrev (gX c) v = brlPrev (gX src) v /\ brlNext (gX c) v = brlNext (gX src) v /\
     sdlPrev (gX c) v = sdlPrev (gX src) v /\ sdlNext (gX c) v = sdlNext (gX src) v;
  sc_edge : forall e, 2 <= e < gp_EdgeIndexBound src ->
     enext c e = enext src e /\ eprev c e = eprev src e /\ enbr c e = enbr src e /\ eflags c e = eflags src e;
  sc_holes : gholes c = gholes src; sc_stack : gstack c = gstack src;
  sc_iflags : giflags c = giflags src; sc_embed : gembed c = gembed src; sc_IC : exIC (gX c) = exIC (gX src) }.

(** What copying the lists does: links and neighbours of 1..N and of the records in use come from
    the source, with the edge count and the recycled slots; everything else is as in [d]. *)
Record lists_copied (src d c : graph) : Prop := {
  ld_N : gN c = gN d; ld_M : gM c = gM src; ld_cap : gCap c = gCap d; ld_holes : gholes c = gholes src;
  ld_vert : forall v, 1 <= v <= gN src -> vfirst c v = vfirst src v /\ vlast c v = vlast src v;
  ld_vert_other : forall v, ~ 1 <= v <= gN src -> vfirst c v = vfirst d v /\ vlast c v = vlast d v;
  ld_edge : forall e, 2 <= e < gp_EdgeInUseIndexBound src ->
     enext c e = enext src e /\ eprev c e = eprev src e /\ enbr c e = enbr src e;
  ld_edge_other : forall e, ~ 2 <= e < gp_EdgeInUseIndexBound src ->
     enext c e = enext d e /\ eprev c e = eprev d e /\ enbr c e = enbr d e;
  ld_vindex : vindex c = vindex d; ld_vflags : vflags c = vflags d; ld_eflags : eflags c = eflags d;
  ld_stack : gstack c = gstack d; ld_stackCap : gstackCap c = gstackCap d;
  ld_iflags : giflags c = giflags d; ld_embed : gembed c = gembed d;
  ld_VI : gVI c = gVI d; ld_X : gX c = gX d }.
