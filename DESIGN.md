# Formal model of the Edge Addition Planarity Suite (graphLib) in Rocq

Source: `/repo/c/graphLib` (C). Target: Rocq/Coq 8.16.1, files in `rocq/theories`, logical prefix `Verif`.

## 1. Modelling conventions

* **Outcome type** (`Base.v`): every modelled C function returns `res A`:
  `Ret a` (the C function returns), `UB` (the C program would read/write outside an
  allocated array, overflow a fixed stack, dereference NULL/dangling memory or
  otherwise be undefined), `OOF` (the model's loop fuel ran out, i.e. the
  termination argument failed). A total-correctness theorem always excludes both `UB` and `OOF`.
* **Integers** are `Z`. C `int` overflow is ignored except where a property is about it
  (C08, C23), where the arithmetic is written with explicit 32-bit wraparound or explicit range hypotheses.
* **Arrays** are total functions `Z -> Z` plus an explicit bound stored in the state; each
  access is guarded by the bound and gives `UB` outside.  Arrays of structs are modelled as one function per field.
* **Build configuration**: the non-DEBUG one (`SPEED_MACROS` defined), `NIL == 0`, one-based vertices, the first
  edge record is 2.  The stack and list modules are modelled in both variants.
* **Allocation**: `malloc`/`calloc` succeed, except in the theorems about allocation failure (C03, C44), where
  an oracle list of booleans decides.
* **Pointers to functions** (extension system): function pointers are identifiers; tables are maps from slot to identifier.
* `rand()` is an arbitrary stream of non-negative numbers.

## 2. Files

* `*M.v` — model only (definitions, each citing the C file and lines), no proofs.
* `*Spec.v` — small independent specifications (abstract lists, graphs, subdivisions, faces, ...).
* `*P.v` — proofs.
* `Thm_*.v` — the final theorems, `Print Assumptions`, and `Example`s showing that the hypotheses are satisfiable.

## 3. Plan per property

| id | model | proof |
|----|-------|-------|
| C01 | `StackM.v`: record S,size,capacity; functions and macros | simulation against `list Z`, induction over histories |
| C02 | `ListCollM.v`: prev/next maps | representation predicate "circular list of distinct nodes", frame for other lists, induction over histories |
| C03 | `StrBufM.v`: memory block of bytes with NUL terminator, allocation oracle | invariant + content refinement, induction over histories |
| C04-C07, C10 | `GraphM.v`: vertex, edge arrays, holes, stack | representation invariant with ghost adjacency map; each operation refines an operation on the ghost map; induction over histories |
| C08, C09, C16 | same | counterexamples where the code deviates (`_refuted`), exact characterisation of when it works |
| C11, C12 | same | inverse of doubly linked list unlink, induction on the hide sequence; record-for-record equality |
| C13 | same | `_refuted` witness (the restore routine writes the wrong link) plus the part that does hold |
| C14, C15 | same | pointwise equality; `_refuted` witness for stale flags after copying |
| C17-C19 | `DFSM.v` | loop invariants over the explicit stack |
| C20, C21 | `RandM.v` with a random stream | loop invariants, non-termination witness by a stream-independent invariant |
| C22 | `G6M.v`: bytes as Z; text specified in `G6Spec.v` | bit-level invariants of encoder and decoder, for all graphs |
| C23 | `G6M.v` with C int ranges | sizes exact up to N = 46341; false above (overflow) |
| C24 | `G6M.v` | false: the one-shot functions always answer OK; proved for the iterator's first graph and for the start of the text |
| C51 | `G6M.v` | induction over the lines |
| C52 | `G6M.v` | false: no separator is written |
| C25-C29, C47 | `IOM.v` (characters), `IOSpec.v` (the texts), `IOP*.v`, `Thm_IO.v` | the writers are proved to give the specified text; reading it back by invariants over lines and numbers (for adjacency lists: the arcs of the current vertex are in a detached circular list); witnesses for the deviations |
| C30-C32 | `ExtM.v` | chain invariant over histories; aliasing witness |
| C33, C34, C37, C53 | `TestM.v` | orbit counting of a permutation (`OrbitP.v`); marking invariants; sorting a graph back and forth |
| C35, C36 | `TestM.v` | path-marking invariants; soundness and completeness wrt. subdivisions |
| C38-C40 | `DrawM.v` (_ComputeVertexRanges, _ComputeEdgeRanges, the visibility check, the rendering; the computation of positions from an embedding is not modelled), `DrawSpec.v`, `DrawP*.v`, `Thm_Draw.v` | loop invariants; the check is characterised exactly; buffer bounds; witnesses where the rendering damages its lines |
| C45 | `DrawIOM.v`, `DrawIOSpec.v` (the text), `DrawIOP.v`, `Thm_DrawIO.v` | the exact text written for every graph; read back by induction over the lines into the same numbering of edges; false for a graph read back from its own text (edges are renumbered) and for graphs with deleted edges |
| C41-C43 | `EmbM.v` (all of graphEmbed.c), `EmbSpec.v`, `EmbP*.v`, `Thm_Emb.v` | list surgery lemmas |
| C55, C56 | `EmbM.v`, `EmbedSpec.v` (planar embedding of a graph), `EmbInv.v`, `EmbStep.v`, `EmbTree.v`, `EmbWalk.v`, `EmbUp.v`, `EmbJoin.v`, `EmbDown*.v`, `EmbLoop.v`, `EmbOrient.v`, `EmbEuler.v`, `EmbFin.v`, `EmbInit*.v`, `EmbedP.v`, `Thm_Embed.v` | see below; C56 composes with C53 and C59 |
| C57 | `PlanSpec.v` (planar graph, minors), `PlanP.v` (deleting an edge never raises 2C+E-F; a contracted K5 or K3,3 would have too many faces), `PlanE.v` (faces and components of an Euler rotation system; renumbering), `Thm_Planar.v` | combinatorial: induction over edge deletions, then counting the arcs of the faces of the minor; combined with C55 |
| C58 | `EmbC1.v`-`EmbC4.v` (a blocked walk-down gives a K5 or K3,3 minor), the completeness invariant in `EmbJoin.v`, `EmbDown*.v`, `EmbLoop.v`, exact least ancestors and lowpoints in `EmbInit*.v`, `PlanDec.v` (the minors can be decided), `Thm_Planar.v` | see below; combined with C57 |
| C59, C60 | `OutSpec.v` (outerplanar graph, K4 and K2,3 minors), `OutP.v`, `PlanO.v`, `FanP.v`, `EmbFan.v` (components are cycles with non-crossing chords), `Thm_Outer.v` and the files of C55, C57 and C58 | see below |
| C61 | `IsoM.v`, `EmbedSpec.v` (`isolated_subgraph`), `ObsSpec.v` (subdivisions), `EmbStor.v`, `IsoP*.v`, `IsoO*.v`, `IsoX*.v`, `IsoK.v`, `IsoI.v`, `IsoF.v`, `IsoT.v`, `IsoB.v`, `Thm_Iso.v` | see below; composes with C53 |
| C62 | `IsoKM.v`, `IsoKK.v`, `IsoKA.v`, `IsoKI.v`, `IsoKU.v`, `IsoKP.v`, `IsoKB.v`, `IsoKX.v`, `IsoKY*.v`, `IsoKZ*.v`, `IsoKC.v`-`IsoKF.v`, `IsoKW.v`, `IsoKV.v`, `PlV*.v`, `NcP.v`, `PlI*.v`, `EmbU.v`, `Thm_IsoK.v` and the specifications of C61 | see below; composes with C53, C57 and C58 |
| C63 | `EndSpec.v` (what a caller sees after both calls), `SortEP.v`, `Thm_End.v` | composes C55, C59, C61 and C62 with the sorting theorem; faces and subdivisions under a renumbering |
| C64 | `EndSpec.v`, `DirP.v` (no function up to gp_Embed and gp_SortVertices gives an edge a direction), `RotP.v` (faces and subdivisions depend only on the order of the neighbours), `Thm_Text.v` | composes C63 with the round trip of C25 |
| C65 | `ReadyP.v` (the readers leave the fields of the searches and the embedder as in a new graph, on every text), `Thm_Read.v` | invariant through every reader; composes C22, C47 and the reader of C25 with C58, C60 and C64 |
| C66 | `AgainSpec.v`, `RoomP.v` (no function up to gp_Embed and gp_SortVertices changes a capacity), `Thm_Again.v` | two counterexamples, computed; for emptied structures an invariant over histories with any number of embeddings |
| C67 | `AppM.v` (the loop of planarityRandomGraphs.c), `Thm_App.v` | invariant over the rounds (both structures as new); composes C14, C20, C53, C58, C60-C62 and the emptying of C66; termination from C20 |
| C68 | `AppM.v` (`testAllGraphs`), `Thm_AppAll.v` | induction over the lines: a line is read into a structure whatever it held (C51), the graph is ready for gp_Embed (C65), the round is that of C67; both structures keep room for their arcs (`RoomP.v`) |
| C69 | `SpecM.v` (`SpecificGraph`), `Thm_Spec.v` | what the integrity check leaves alone (`kept`), so that sorting (C63) and writing (C64) work on the graph it leaves as on the one gp_Embed left; verdicts as in C67; all four text formats; refuted for a text on which the reader runs out of arcs and for an empty file |
| C70 | `TransM.v` (`gp_Write`, `gp_WriteToString`, `TransformGraph`), `Thm_Trans.v` | composition of the readers' theorems (C22, C25-C29) with the writers'; refuted for one vertex to graph6, for an empty file and for a matrix read from a string |
| C71 | `SaveM.v` (`SaveAsciiGraph`), `Thm_Save.v` | the used even records are exactly one arc of every edge, and M in number |
| C44, C54 | `InitM.v`: heap blocks with an alive/freed status, an arbitrary oracle for allocation failures | ownership invariant over histories; failure-point witnesses |
| C46 | `StrFileM.v` | simulation; false for contents with carriage returns, for un-reading EOF and for a limit of 0 |
| C50 | `GraphM.v` | list surgery on one adjacency list, frame for all others |
| C48 | `GraphM.v` | bound for default capacities, witness for reduced capacity |

The correctness of the Boyer-Myrvold algorithm is proved for the model of graphEmbed.c, in both directions.

Soundness (C55): whenever `gp_Embed` returns OK the result is a planar embedding. The proof follows the code: the graph is
abstracted to a geometric state (rotations, external face links, inversion flags, `GeoP.v`, `EmbInv.v`); every biconnected
component keeps a planar rotation whose external face is known; each elementary step of Walkup and Walkdown is shown to keep
that (`EmbStep.v`, `EmbUp.v`, `EmbJoin.v`, `EmbDown*.v`); adding an edge inside one face splits it in two, so Euler's formula is
kept (`FaceP.v`, `EmbEuler.v`).

Completeness (C58): whenever it returns NONEMBEDDABLE the graph has a K5 or K3,3 minor. The steps of Walkdown carry, under the
assumption that the graph has no such minor, a second invariant: every biconnected component is spanned by a cycle of the graph
through its external face vertices, pertinence and external activity mean what they should (there really is an unembedded edge
to the current vertex, or to an ancestor of it), and no externally active vertices separate pertinent ones. When both sides of a
Walkdown stop before all the edges are embedded, the cycle, the tree paths and the unembedded edges give one of the five
obstruction patterns of the algorithm's paper, and each pattern is shown to be a minor (`EmbC1.v`-`EmbC4.v`). Together with C57
(planar graphs have no such minor) the answer is exact. Wagner's theorem for simple graphs falls out as a corollary.

Outerplanarity (C59, C60): with the outerplanarity flag every vertex that is not closed off counts as externally active. The
completeness invariant is therefore run on the graph with one more vertex, adjacent to all the others (`EmbC2.v`: `apexed`), and
a K5 or K3,3 of that graph is turned into a K4 or K2,3 of the graph itself (`OutP.v`). For soundness, each component keeps all
its vertices on its external face, and that face survives the joining of the components (`EmbEuler.v`: `joined_outer`). That an
outerplanar graph has neither minor is proved by following the outer face through edge deletions (`PlanP.v`: `outw`) and
counting: the outer face of the minor crosses at least as often as it has vertices (`PlanO.v`).

Isolation (C61): when the walk-down of an outerplanar embedding is blocked the model runs the obstruction isolator
(`IsoM.v`), and the embedder's invariants at that point are handed to it (`IsoB.v`): the component is a cycle with non-crossing
chords, its neighbours of the root are not pertinent and some vertex in between is. `IsoP*.v` follow the marking of the external
face, of the tree paths and of the descendant paths; `IsoX*.v` the search for the X-Y path; `IsoO*.v` the orientation;
`IsoK.v` joins the marked paths to a subdivision in each of the cases A, B, E; `IsoF.v` the deletion of everything unmarked;
`IsoT.v` puts them together. The stack capacity needed by each step is shown to suffice.

Kuratowski isolation (C62): the same for a blocked planar embedding, with all the minor types A, B, C, D, E1 to E5. `PlV*.v`
keep, through every step of the embedder, that each component's rotation system has one external face walk without repeated
vertices and that the inner faces at the root are simple; `NcP.v` and `PlI*.v` derive the non-crossing facts that the
isolator relies on (the X-Y path found is an X-Y path, the inner faces at the root are not crossed, the vertex W below it exists).
`EmbU.v` and `EmbDown4.v`/`EmbLoop.v` carry the completeness invariant of C58 without its assumption that there is no
obstruction, `SubdP.v` turns the subdivisions of C61 and C62 into minors, and `IsoKV.v` hands the invariant to the isolator at both places where a walk-down can block. `IsoKA.v`, `IsoKI.v`: the context
(r, X, Y, W, future pertinence); `IsoKU.v`: the unembedded edges to ancestors; `IsoKX.v`, `IsoKY*.v`: the highest
X-Y path; `IsoKZ*.v`: the Z-to-R path; `IsoKB.v`, `IsoKC.v`-`IsoKF.v`: one lemma per minor type that the marked paths form a
subdivision of K3,3 or K5; `IsoKW.v`: the choice of the type and the whole isolator.

## 4. Trusted base

* Coq 8.16.1's kernel (and its `vm_compute` virtual machine for the concrete witnesses and examples).
* The statements of the theorems in `Thm_*.v` together with the specifications in `*Spec.v`.
* The faithfulness of the hand-written models in `*M.v` to the C code: every definition cites the lines it models and
  names its simplifications.
* No axioms: see section 6.

## 5. What is modelled

| model | code | not modelled there |
|-------|------|--------------------|
| `StackM.v` | `lowLevelUtils/stack.c`, `stack.h` (functions and macros) | - |
| `ListM.v` | `lowLevelUtils/listcoll.c`, `listcoll.h` (functions and macros) | - |
| `StrBufM.v` | `lowLevelUtils/stringbuf.c` | `sb_Free` |
| `GraphRec.v`, `GraphM.v` | `graphUtils.c`: creation, capacity, reinitialisation, copying, adding, inserting, deleting, hiding, restoring, contracting and identifying, queries, flags; macros of `graphStructures.h` | bicomp visitors, `_ComputeArcType`, `_SetEdgeType`; see the other rows |
| `ExtM.v` | `extensionSystem/graphExtensions.c`, the function-table part of `gp_CopyGraph`, the attach/detach pattern of the library's modules | allocation failure, wraparound of the identifier generator |
| `DFSM.v` | `graphDFSUtils.c` | the timing code of PROFILE builds; NULL arguments |
| `RandM.v` | `graphUtils.c` 1062-1351: `_GetRandomNumber` and both random generators | `srand`; `rand()` is an arbitrary stream, conversion from unsigned to int is two's complement |
| `AppM.v` | `planarityRandomGraphs.c` 24-359: `RandomGraphs`, `GetNumberIfZero`, `MakeGraph`, `ReinitializeGraph` for the commands 'p' and 'o'; `planarityTestAllGraphs.c` 13-20, 141-275: `testAllGraphs` for the same | files written on request, counts by minor type, timer and messages; failing allocations; the rest of planarityApp |
| `SpecM.v` | `planaritySpecificGraph.c` 33-200: `SpecificGraph` for the commands 'p' and 'o' | file names, opening and closing of files, timer and messages; failing allocations; the commands d, 2, 3, 4 |
| `TransM.v` | `planarityTransformGraph.c` 24-100: `TransformGraph`, `transformFile`, `transformString`; `graphIO.c` 846-971: `gp_Write`, `gp_WriteToString` | file names, opening and closing of files, messages; failing allocations; what extensions add on writing; WRITE_DEBUGINFO |
| `SaveM.v` | `planarityUtils.c` 68-113: `SaveAsciiGraph` | opening and closing of the file, the removal of the path from its name |
| `StrFileM.v` | `io/strOrFile.c`: getc, ungetc, fgets, fputs, takeTheStr, closeFile; `stdio` streams as a list of characters still to read and a list written | `sf_New` allocation failure, files opened by name; a stream is opened either for reading or for writing; `stdio` errors |
| `G6M.v` | `io/g6-api-utilities.c`, `io/g6-write-iterator.c`, `io/g6-read-iterator.c` | allocation failure, files opened by name, the error messages, the accessors and `isG6*Initialized` checks of the iterators (a begun iterator is initialised); the iterators' magic/NULL argument tests |
| `TestM.v` | `planarityRelated/graphTests.c` | the NULL checks; error messages |
| `EmbM0.v`, `EmbM.v` | `planarityRelated/graphEmbed.c` and what it calls in `graphUtils.c` and `graphStructures.h` | the extension overloads |
| `IsoM.v` | `planarityRelated/graphOuterplanarObstruction.c` and what it calls in `graphIsolator.c`, `graphNonplanar.c` and `graphUtils.c` | - |
| `IsoKM.v` | `planarityRelated/graphIsolator.c` and `graphNonplanar.c`: the rest | `_MarkLowestXYPath` (used only by the K3,3 search); the homeomorph search extensions |
| `InitM.v` | allocation and release in `graphUtils.c`: gp_New, gp_InitGraph, gp_EnsureArcCapacity, gp_Free | contents of the blocks |
| `DrawM.v` | `planarityRelated/graphDrawPlanar.c` 509-592, 788-890, 941-1065 | the computation of positions; allocation failure |
| `IOM.v` | `io/graphIO.c` 32-544, 561-693 and the scanning functions of `io/strbuf.c` | the `gp_Write`/`gp_WriteToString` dispatch (in `TransM.v`), the debug format, files opened by name, the extension postprocessing of what follows the graph; `fscanf`/`sscanf` conversions are the scanning functions of the model, with overflow of a conversion undefined |
| `DrawIOM.v` | `graphDrawPlanar_Extensions.c` 553-680 | the chained call of the base postprocessing; the data is taken to be NUL terminated (`gp_Read` does not terminate it) |

## 6. Assumptions reported by `Print Assumptions`

Every theorem in `Thm_*.v` is followed by `Print Assumptions`; each one prints "Closed under the global context". In the files whose
theorems rest on the whole embedder (`Thm_Embed`, `Thm_Planar`, `Thm_Outer`, `Thm_Iso`, `Thm_IsoK`, `Thm_End`, `Thm_Text`, `Thm_Read`, `Thm_Again`, `Thm_App`, `Thm_AppAll`, `Thm_Spec`) one `Print Assumptions` at the end is
applied to the tuple of all theorems of the file, since each such walk takes over twenty seconds.
