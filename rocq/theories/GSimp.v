(** * GSimp: projection/setter reduction tactics.  GENERATED by tools/gen_gsimp.py. *)
From Coq Require Import ZifyBool.
From Verif Require Import Base GraphRec GraphM GraphSpec.

Ltac gsimp := cbn [gN set_gN gM set_gM gCap set_gCap vfirst set_vfirst vlast set_vlast vindex set_vindex vflags set_vflags enext set_enext eprev set_eprev enbr set_enbr eflags set_eflags gholes set_gholes gholesCap set_gholesCap gstack set_gstack gstackCap set_gstackCap giflags set_giflags gembed set_gembed gVI set_gVI gX set_gX viParent set_viParent viLeast set_viLeast viLow set_viLow viVisited set_viVisited viPertEdge set_viPertEdge viPertRoots set_viPertRoots viFPChild set_viFPChild viSDC set_viSDC viFwd set_viFwd ext0 set_ext0 ext1 set_ext1 brlPrev set_brlPrev brlNext set_brlNext sdlPrev set_sdlPrev sdlNext set_sdlNext exIC set_exIC bind guard wp fst snd].
Ltac gsimp_in H := cbn [gN set_gN gM set_gM gCap set_gCap vfirst set_vfirst vlast set_vlast vindex set_vindex vflags set_vflags enext set_enext eprev set_eprev enbr set_enbr eflags set_eflags gholes set_gholes gholesCap set_gholesCap gstack set_gstack gstackCap set_gstackCap giflags set_giflags gembed set_gembed gVI set_gVI gX set_gX viParent set_viParent viLeast set_viLeast viLow set_viLow viVisited set_viVisited viPertEdge set_viPertEdge viPertRoots set_viPertRoots viFPChild set_viFPChild viSDC set_viSDC viFwd set_viFwd ext0 set_ext0 ext1 set_ext1 brlPrev set_brlPrev brlNext set_brlNext sdlPrev set_sdlPrev sdlNext set_sdlNext exIC set_exIC bind guard wp fst snd] in H.

Ltac bnd :=
  unfold is_vertex, inE, inV, inVI, gp_EdgeIndexBound, gp_VertexIndexBound, gp_PrimaryVertexIndexBound in *;
  gsimp; lia.

