(** * GraphRec: the state of a graph object.  GENERATED by tools/gen_graphrec.py.

    c/graphLib/graphStructures.h:58-63 (edgeRec), 204-209 (vertexRec), 339-342
    (extFaceLinkRec), 396-407 (vertexInfo), 505-510 (isolatorContext), 555-574
    (baseGraphStructure).  An array of structs is one function per field.  NV is
    not stored (it always equals N, graphUtils.c:209).  The two stacks are lists,
    top first, with a capacity: see StackM.v/Thm_Stack.v for the array
    implementation of stacks and its proved equivalence with bounded lists.  The
    extension list and function table are modelled separately in ExtM.v. *)
From Verif Require Import Base.

(** isolatorContext, graphStructures.h:505-510 *)
Record isoctx : Type := mkIC {
  ic_minorType : Z;  (* minorType *)
  ic_v : Z;  (* v *)
  ic_r : Z;  (* r *)
  ic_x : Z;  (* x *)
  ic_y : Z;  (* y *)
  ic_w : Z;  (* w *)
  ic_px : Z;  (* px *)
  ic_py : Z;  (* py *)
  ic_z : Z;  (* z *)
  ic_ux : Z;  (* ux *)
  ic_dx : Z;  (* dx *)
  ic_uy : Z;  (* uy *)
  ic_dy : Z;  (* dy *)
  ic_dw : Z;  (* dw *)
  ic_uz : Z;  (* uz *)
  ic_dz : Z  (* dz *)
}.
Definition set_ic_minorType (s : isoctx) (x : Z) : isoctx := mkIC x (ic_v s) (ic_r s) (ic_x s) (ic_y s) (ic_w s) (ic_px s) (ic_py s) (ic_z s) (ic_ux s) (ic_dx s) (ic_uy s) (ic_dy s) (ic_dw s) (ic_uz s) (ic_dz s).
Definition set_ic_v (s : isoctx) (x : Z) : isoctx := mkIC (ic_minorType s) x (ic_r s) (ic_x s) (ic_y s) (ic_w s) (ic_px s) (ic_py s) (ic_z s) (ic_ux s) (ic_dx s) (ic_uy s) (ic_dy s) (ic_dw s) (ic_uz s) (ic_dz s).
Definition set_ic_r (s : isoctx) (x : Z) : isoctx := mkIC (ic_minorType s) (ic_v s) x (ic_x s) (ic_y s) (ic_w s) (ic_px s) (ic_py s) (ic_z s) (ic_ux s) (ic_dx s) (ic_uy s) (ic_dy s) (ic_dw s) (ic_uz s) (ic_dz s).
Definition set_ic_x (s : isoctx) (x : Z) : isoctx := mkIC (ic_minorType s) (ic_v s) (ic_r s) x (ic_y s) (ic_w s) (ic_px s) (ic_py s) (ic_z s) (ic_ux s) (ic_dx s) (ic_uy s) (ic_dy s) (ic_dw s) (ic_uz s) (ic_dz s).
Definition set_ic_y (s : isoctx) (x : Z) : isoctx := mkIC (ic_minorType s) (ic_v s) (ic_r s) (ic_x s) x (ic_w s) (ic_px s) (ic_py s) (ic_z s) (ic_ux s) (ic_dx s) (ic_uy s) (ic_dy s) (ic_dw s) (ic_uz s) (ic_dz s).
Definition set_ic_w (s : isoctx) (x : Z) : isoctx := mkIC (ic_minorType s) (ic_v s) (ic_r s) (ic_x s) (ic_y s) x (ic_px s) (ic_py s) (ic_z s) (ic_ux s) (ic_dx s) (ic_uy s) (ic_dy s) (ic_dw s) (ic_uz s) (ic_dz s).
Definition set_ic_px (s : isoctx) (x : Z) : isoctx := mkIC (ic_minorType s) (ic_v s) (ic_r s) (ic_x s) (ic_y s) (ic_w s) x (ic_py s) (ic_z s) (ic_ux s) (ic_dx s) (ic_uy s) (ic_dy s) (ic_dw s) (ic_uz s) (ic_dz s).
Definition set_ic_py (s : isoctx) (x : Z) : isoctx := mkIC (ic_minorType s) (ic_v s) (ic_r s) (ic_x s) (ic_y s) (ic_w s) (ic_px s) x (ic_z s) (ic_ux s) (ic_dx s) (ic_uy s) (ic_dy s) (ic_dw s) (ic_uz s) (ic_dz s).
Definition set_ic_z (s : isoctx) (x : Z) : isoctx := mkIC (ic_minorType s) (ic_v s) (ic_r s) (ic_x s) (ic_y s) (ic_w s) (ic_px s) (ic_py s) x (ic_ux s) (ic_dx s) (ic_uy s) (ic_dy s) (ic_dw s) (ic_uz s) (ic_dz s).
Definition set_ic_ux (s : isoctx) (x : Z) : isoctx := mkIC (ic_minorType s) (ic_v s) (ic_r s) (ic_x s) (ic_y s) (ic_w s) (ic_px s) (ic_py s) (ic_z s) x (ic_dx s) (ic_uy s) (ic_dy s) (ic_dw s) (ic_uz s) (ic_dz s).
Definition set_ic_dx (s : isoctx) (x : Z) : isoctx := mkIC (ic_minorType s) (ic_v s) (ic_r s) (ic_x s) (ic_y s) (ic_w s) (ic_px s) (ic_py s) (ic_z s) (ic_ux s) x (ic_uy s) (ic_dy s) (ic_dw s) (ic_uz s) (ic_dz s).
Definition set_ic_uy (s : isoctx) (x : Z) : isoctx := mkIC (ic_minorType s) (ic_v s) (ic_r s) (ic_x s) (ic_y s) (ic_w s) (ic_px s) (ic_py s) (ic_z s) (ic_ux s) (ic_dx s) x (ic_dy s) (ic_dw s) (ic_uz s) (ic_dz s).
Definition set_ic_dy (s : isoctx) (x : Z) : isoctx := mkIC (ic_minorType s) (ic_v s) (ic_r s) (ic_x s) (ic_y s) (ic_w s) (ic_px s) (ic_py s) (ic_z s) (ic_ux s) (ic_dx s) (ic_uy s) x (ic_dw s) (ic_uz s) (ic_dz s).
Definition set_ic_dw (s : isoctx) (x : Z) : isoctx := mkIC (ic_minorType s) (ic_v s) (ic_r s) (ic_x s) (ic_y s) (ic_w s) (ic_px s) (ic_py s) (ic_z s) (ic_ux s) (ic_dx s) (ic_uy s) (ic_dy s) x (ic_uz s) (ic_dz s).
Definition set_ic_uz (s : isoctx) (x : Z) : isoctx := mkIC (ic_minorType s) (ic_v s) (ic_r s) (ic_x s) (ic_y s) (ic_w s) (ic_px s) (ic_py s) (ic_z s) (ic_ux s) (ic_dx s) (ic_uy s) (ic_dy s) (ic_dw s) x (ic_dz s).
Definition set_ic_dz (s : isoctx) (x : Z) : isoctx := mkIC (ic_minorType s) (ic_v s) (ic_r s) (ic_x s) (ic_y s) (ic_w s) (ic_px s) (ic_py s) (ic_z s) (ic_ux s) (ic_dx s) (ic_uy s) (ic_dy s) (ic_dw s) (ic_uz s) x.

(** vertexInfo array, graphStructures.h:396-407 *)
Record vinfo : Type := mkVI {
  viParent : Z -> Z;  (* VI[v].parent *)
  viLeast : Z -> Z;  (* VI[v].leastAncestor *)
  viLow : Z -> Z;  (* VI[v].lowpoint *)
  viVisited : Z -> Z;  (* VI[v].visitedInfo *)
  viPertEdge : Z -> Z;  (* VI[v].pertinentEdge *)
  viPertRoots : Z -> Z;  (* VI[v].pertinentRoots *)
  viFPChild : Z -> Z;  (* VI[v].futurePertinentChild *)
  viSDC : Z -> Z;  (* VI[v].sortedDFSChildList *)
  viFwd : Z -> Z  (* VI[v].fwdArcList *)
}.
Definition set_viParent (s : vinfo) (x : Z -> Z) : vinfo := mkVI x (viLeast s) (viLow s) (viVisited s) (viPertEdge s) (viPertRoots s) (viFPChild s) (viSDC s) (viFwd s).
Definition set_viLeast (s : vinfo) (x : Z -> Z) : vinfo := mkVI (viParent s) x (viLow s) (viVisited s) (viPertEdge s) (viPertRoots s) (viFPChild s) (viSDC s) (viFwd s).
Definition set_viLow (s : vinfo) (x : Z -> Z) : vinfo := mkVI (viParent s) (viLeast s) x (viVisited s) (viPertEdge s) (viPertRoots s) (viFPChild s) (viSDC s) (viFwd s).
Definition set_viVisited (s : vinfo) (x : Z -> Z) : vinfo := mkVI (viParent s) (viLeast s) (viLow s) x (viPertEdge s) (viPertRoots s) (viFPChild s) (viSDC s) (viFwd s).
Definition set_viPertEdge (s : vinfo) (x : Z -> Z) : vinfo := mkVI (viParent s) (viLeast s) (viLow s) (viVisited s) x (viPertRoots s) (viFPChild s) (viSDC s) (viFwd s).
Definition set_viPertRoots (s : vinfo) (x : Z -> Z) : vinfo := mkVI (viParent s) (viLeast s) (viLow s) (viVisited s) (viPertEdge s) x (viFPChild s) (viSDC s) (viFwd s).
Definition set_viFPChild (s : vinfo) (x : Z -> Z) : vinfo := mkVI (viParent s) (viLeast s) (viLow s) (viVisited s) (viPertEdge s) (viPertRoots s) x (viSDC s) (viFwd s).
Definition set_viSDC (s : vinfo) (x : Z -> Z) : vinfo := mkVI (viParent s) (viLeast s) (viLow s) (viVisited s) (viPertEdge s) (viPertRoots s) (viFPChild s) x (viFwd s).
Definition set_viFwd (s : vinfo) (x : Z -> Z) : vinfo := mkVI (viParent s) (viLeast s) (viLow s) (viVisited s) (viPertEdge s) (viPertRoots s) (viFPChild s) (viSDC s) x.

(** external face links, list collections and isolator context *)
Record embx : Type := mkEX {
  ext0 : Z -> Z;  (* extFace[v].vertex[0] *)
  ext1 : Z -> Z;  (* extFace[v].vertex[1] *)
  brlPrev : Z -> Z;  (* BicompRootLists->List[i].prev *)
  brlNext : Z -> Z;  (* BicompRootLists->List[i].next *)
  sdlPrev : Z -> Z;  (* sortedDFSChildLists->List[i].prev *)
  sdlNext : Z -> Z;  (* sortedDFSChildLists->List[i].next *)
  exIC : isoctx  (* IC *)
}.
Definition set_ext0 (s : embx) (x : Z -> Z) : embx := mkEX x (ext1 s) (brlPrev s) (brlNext s) (sdlPrev s) (sdlNext s) (exIC s).
Definition set_ext1 (s : embx) (x : Z -> Z) : embx := mkEX (ext0 s) x (brlPrev s) (brlNext s) (sdlPrev s) (sdlNext s) (exIC s).
Definition set_brlPrev (s : embx) (x : Z -> Z) : embx := mkEX (ext0 s) (ext1 s) x (brlNext s) (sdlPrev s) (sdlNext s) (exIC s).
Definition set_brlNext (s : embx) (x : Z -> Z) : embx := mkEX (ext0 s) (ext1 s) (brlPrev s) x (sdlPrev s) (sdlNext s) (exIC s).
Definition set_sdlPrev (s : embx) (x : Z -> Z) : embx := mkEX (ext0 s) (ext1 s) (brlPrev s) (brlNext s) x (sdlNext s) (exIC s).
Definition set_sdlNext (s : embx) (x : Z -> Z) : embx := mkEX (ext0 s) (ext1 s) (brlPrev s) (brlNext s) (sdlPrev s) x (exIC s).
Definition set_exIC (s : embx) (x : isoctx) : embx := mkEX (ext0 s) (ext1 s) (brlPrev s) (brlNext s) (sdlPrev s) (sdlNext s) x.

(** baseGraphStructure, graphStructures.h:555-574 *)
Record graph : Type := mkG {
  gN : Z;  (* N *)
  gM : Z;  (* M *)
  gCap : Z;  (* arcCapacity *)
  vfirst : Z -> Z;  (* V[v].link[0] *)
  vlast : Z -> Z;  (* V[v].link[1] *)
  vindex : Z -> Z;  (* V[v].index *)
  vflags : Z -> Z;  (* V[v].flags *)
  enext : Z -> Z;  (* E[e].link[0] *)
  eprev : Z -> Z;  (* E[e].link[1] *)
  enbr : Z -> Z;  (* E[e].neighbor *)
  eflags : Z -> Z;  (* E[e].flags *)
  gholes : list Z;  (* edgeHoles, top first *)
  gholesCap : Z;  (* edgeHoles->capacity *)
  gstack : list Z;  (* theStack, top first *)
  gstackCap : Z;  (* theStack->capacity *)
  giflags : Z;  (* internalFlags *)
  gembed : Z;  (* embedFlags *)
  gVI : vinfo;  (* VI *)
  gX : embx  (* extFace, BicompRootLists, sortedDFSChildLists, IC *)
}.
Definition set_gN (s : graph) (x : Z) : graph := mkG x (gM s) (gCap s) (vfirst s) (vlast s) (vindex s) (vflags s) (enext s) (eprev s) (enbr s) (eflags s) (gholes s) (gholesCap s) (gstack s) (gstackCap s) (giflags s) (gembed s) (gVI s) (gX s).
Definition set_gM (s : graph) (x : Z) : graph := mkG (gN s) x (gCap s) (vfirst s) (vlast s) (vindex s) (vflags s) (enext s) (eprev s) (enbr s) (eflags s) (gholes s) (gholesCap s) (gstack s) (gstackCap s) (giflags s) (gembed s) (gVI s) (gX s).
Definition set_gCap (s : graph) (x : Z) : graph := mkG (gN s) (gM s) x (vfirst s) (vlast s) (vindex s) (vflags s) (enext s) (eprev s) (enbr s) (eflags s) (gholes s) (gholesCap s) (gstack s) (gstackCap s) (giflags s) (gembed s) (gVI s) (gX s).
Definition set_vfirst (s : graph) (x : Z -> Z) : graph := mkG (gN s) (gM s) (gCap s) x (vlast s) (vindex s) (vflags s) (enext s) (eprev s) (enbr s) (eflags s) (gholes s) (gholesCap s) (gstack s) (gstackCap s) (giflags s) (gembed s) (gVI s) (gX s).
Definition set_vlast (s : graph) (x : Z -> Z) : graph := mkG (gN s) (gM s) (gCap s) (vfirst s) x (vindex s) (vflags s) (enext s) (eprev s) (enbr s) (eflags s) (gholes s) (gholesCap s) (gstack s) (gstackCap s) (giflags s) (gembed s) (gVI s) (gX s).
Definition set_vindex (s : graph) (x : Z -> Z) : graph := mkG (gN s) (gM s) (gCap s) (vfirst s) (vlast s) x (vflags s) (enext s) (eprev s) (enbr s) (eflags s) (gholes s) (gholesCap s) (gstack s) (gstackCap s) (giflags s) (gembed s) (gVI s) (gX s).
Definition set_vflags (s : graph) (x : Z -> Z) : graph := mkG (gN s) (gM s) (gCap s) (vfirst s) (vlast s) (vindex s) x (enext s) (eprev s) (enbr s) (eflags s) (gholes s) (gholesCap s) (gstack s) (gstackCap s) (giflags s) (gembed s) (gVI s) (gX s).
Definition set_enext (s : graph) (x : Z -> Z) : graph := mkG (gN s) (gM s) (gCap s) (vfirst s) (vlast s) (vindex s) (vflags s) x (eprev s) (enbr s) (eflags s) (gholes s) (gholesCap s) (gstack s) (gstackCap s) (giflags s) (gembed s) (gVI s) (gX s).
Definition set_eprev (s : graph) (x : Z -> Z) : graph := mkG (gN s) (gM s) (gCap s) (vfirst s) (vlast s) (vindex s) (vflags s) (enext s) x (enbr s) (eflags s) (gholes s) (gholesCap s) (gstack s) (gstackCap s) (giflags s) (gembed s) (gVI s) (gX s).
Definition set_enbr (s : graph) (x : Z -> Z) : graph := mkG (gN s) (gM s) (gCap s) (vfirst s) (vlast s) (vindex s) (vflags s) (enext s) (eprev s) x (eflags s) (gholes s) (gholesCap s) (gstack s) (gstackCap s) (giflags s) (gembed s) (gVI s) (gX s).
Definition set_eflags (s : graph) (x : Z -> Z) : graph := mkG (gN s) (gM s) (gCap s) (vfirst s) (vlast s) (vindex s) (vflags s) (enext s) (eprev s) (enbr s) x (gholes s) (gholesCap s) (gstack s) (gstackCap s) (giflags s) (gembed s) (gVI s) (gX s).
Definition set_gholes (s : graph) (x : list Z) : graph := mkG (gN s) (gM s) (gCap s) (vfirst s) (vlast s) (vindex s) (vflags s) (enext s) (eprev s) (enbr s) (eflags s) x (gholesCap s) (gstack s) (gstackCap s) (giflags s) (gembed s) (gVI s) (gX s).
Definition set_gholesCap (s : graph) (x : Z) : graph := mkG (gN s) (gM s) (gCap s) (vfirst s) (vlast s) (vindex s) (vflags s) (enext s) (eprev s) (enbr s) (eflags s) (gholes s) x (gstack s) (gstackCap s) (giflags s) (gembed s) (gVI s) (gX s).
Definition set_gstack (s : graph) (x : list Z) : graph := mkG (gN s) (gM s) (gCap s) (vfirst s) (vlast s) (vindex s) (vflags s) (enext s) (eprev s) (enbr s) (eflags s) (gholes s) (gholesCap s) x (gstackCap s) (giflags s) (gembed s) (gVI s) (gX s).
Definition set_gstackCap (s : graph) (x : Z) : graph := mkG (gN s) (gM s) (gCap s) (vfirst s) (vlast s) (vindex s) (vflags s) (enext s) (eprev s) (enbr s) (eflags s) (gholes s) (gholesCap s) (gstack s) x (giflags s) (gembed s) (gVI s) (gX s).
Definition set_giflags (s : graph) (x : Z) : graph := mkG (gN s) (gM s) (gCap s) (vfirst s) (vlast s) (vindex s) (vflags s) (enext s) (eprev s) (enbr s) (eflags s) (gholes s) (gholesCap s) (gstack s) (gstackCap s) x (gembed s) (gVI s) (gX s).
Definition set_gembed (s : graph) (x : Z) : graph := mkG (gN s) (gM s) (gCap s) (vfirst s) (vlast s) (vindex s) (vflags s) (enext s) (eprev s) (enbr s) (eflags s) (gholes s) (gholesCap s) (gstack s) (gstackCap s) (giflags s) x (gVI s) (gX s).
Definition set_gVI (s : graph) (x : vinfo) : graph := mkG (gN s) (gM s) (gCap s) (vfirst s) (vlast s) (vindex s) (vflags s) (enext s) (eprev s) (enbr s) (eflags s) (gholes s) (gholesCap s) (gstack s) (gstackCap s) (giflags s) (gembed s) x (gX s).
Definition set_gX (s : graph) (x : embx) : graph := mkG (gN s) (gM s) (gCap s) (vfirst s) (vlast s) (vindex s) (vflags s) (enext s) (eprev s) (enbr s) (eflags s) (gholes s) (gholesCap s) (gstack s) (gstackCap s) (giflags s) (gembed s) (gVI s) x.

