#!/usr/bin/env python3
"""Generates rocq/theories/GSimp.v (see that file)."""
core="gN gM gCap vfirst vlast vindex vflags enext eprev enbr eflags gholes gholesCap gstack gstackCap giflags gembed gVI gX".split()
vi="viParent viLeast viLow viVisited viPertEdge viPertRoots viFPChild viSDC viFwd".split()
ex="ext0 ext1 brlPrev brlNext sdlPrev sdlNext exIC".split()
names=[]
for n in core+vi+ex: names += [n,"set_"+n]
print("""(** * GSimp: projection/setter reduction tactics.  GENERATED by tools/gen_gsimp.py. *)
From Coq Require Import ZifyBool.
From Verif Require Import Base GraphRec GraphM GraphSpec.
""")
print("Ltac gsimp := cbn [%s bind guard wp fst snd]."%" ".join(names))
print("Ltac gsimp_in H := cbn [%s bind guard wp fst snd] in H."%" ".join(names))
print("""
Ltac bnd :=
  unfold is_vertex, inE, inV, inVI, gp_EdgeIndexBound, gp_VertexIndexBound, gp_PrimaryVertexIndexBound in *;
  gsimp; lia.
""")
