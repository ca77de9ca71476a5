#!/usr/bin/env python3
"""Generates rocq/theories/GraphRec.v: the graph state record and its field setters."""
def rec(name, ctor, fields, doc):
    out=[doc, f"Record {name} : Type := {ctor} {{"]
    for i,(f,t,c) in enumerate(fields):
        out.append(f"  {f} : {t}{';' if i<len(fields)-1 else ''}  (* {c} *)")
    out.append("}.")
    for f,t,_ in fields:
        args=" ".join("x" if f==g else f"({g} s)" for g,_,_ in fields)
        out.append(f"Definition set_{f} (s : {name}) (x : {t}) : {name} := {ctor} {args}.")
    out.append("")
    return "\n".join(out)
A="Z -> Z"
print("""(** * GraphRec: the state of a graph object.  GENERATED by tools/gen_graphrec.py.

    c/graphLib/graphStructures.h:58-63 (edgeRec), 204-209 (vertexRec), 339-342
    (extFaceLinkRec), 396-407 (vertexInfo), 505-510 (isolatorContext), 555-574
    (baseGraphStructure).  An array of structs is one function per field.  NV is
    not stored (it always equals N, graphUtils.c:209).  The two stacks are lists,
    top first, with a capacity: see StackM.v/Thm_Stack.v for the array
    implementation of stacks and its proved equivalence with bounded lists.  The
    extension list and function table are modelled separately in ExtM.v. *)
From Verif Require Import Base.
""")
print(rec("isoctx","mkIC",[(n,"Z",c) for n,c in [("ic_minorType","minorType"),("ic_v","v"),("ic_r","r"),("ic_x","x"),("ic_y","y"),("ic_w","w"),("ic_px","px"),("ic_py","py"),("ic_z","z"),("ic_ux","ux"),("ic_dx","dx"),("ic_uy","uy"),("ic_dy","dy"),("ic_dw","dw"),("ic_uz","uz"),("ic_dz","dz")]],"(** isolatorContext, graphStructures.h:505-510 *)"))
print(rec("vinfo","mkVI",[("viParent",A,"VI[v].parent"),("viLeast",A,"VI[v].leastAncestor"),("viLow",A,"VI[v].lowpoint"),("viVisited",A,"VI[v].visitedInfo"),("viPertEdge",A,"VI[v].pertinentEdge"),("viPertRoots",A,"VI[v].pertinentRoots"),("viFPChild",A,"VI[v].futurePertinentChild"),("viSDC",A,"VI[v].sortedDFSChildList"),("viFwd",A,"VI[v].fwdArcList")],"(** vertexInfo array, graphStructures.h:396-407 *)"))
print(rec("embx","mkEX",[("ext0",A,"extFace[v].vertex[0]"),("ext1",A,"extFace[v].vertex[1]"),("brlPrev",A,"BicompRootLists->List[i].prev"),("brlNext",A,"BicompRootLists->List[i].next"),("sdlPrev",A,"sortedDFSChildLists->List[i].prev"),("sdlNext",A,"sortedDFSChildLists->List[i].next"),("exIC","isoctx","IC")],"(** external face links, list collections and isolator context *)"))
print(rec("graph","mkG",[("gN","Z","N"),("gM","Z","M"),("gCap","Z","arcCapacity"),("vfirst",A,"V[v].link[0]"),("vlast",A,"V[v].link[1]"),("vindex",A,"V[v].index"),("vflags",A,"V[v].flags"),("enext",A,"E[e].link[0]"),("eprev",A,"E[e].link[1]"),("enbr",A,"E[e].neighbor"),("eflags",A,"E[e].flags"),("gholes","list Z","edgeHoles, top first"),("gholesCap","Z","edgeHoles->capacity"),("gstack","list Z","theStack, top first"),("gstackCap","Z","theStack->capacity"),("giflags","Z","internalFlags"),("gembed","Z","embedFlags"),("gVI","vinfo","VI"),("gX","embx","extFace, BicompRootLists, sortedDFSChildLists, IC")],"(** baseGraphStructure, graphStructures.h:555-574 *)"))
