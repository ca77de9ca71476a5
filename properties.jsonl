{"id": "C01", "title": "The stack is a LIFO with exact overflow/underflow behaviour", "statement": "For every history of push, push2, pop, pop2, discard, clear, set-size, copy and duplicate calls, the stack object answers exactly like a mathematical list of at most `capacity` integers: a push within capacity succeeds and the next pop returns the pushed value, a push at capacity or a pop on an empty stack is refused with NOTOK by the checked build and leaves the content unchanged, and the unchecked macro build performs the same steps whenever no overflow or underflow occurs.", "quantifier": "every capacity and every finite history of stack calls with arbitrary integer arguments", "why_tests_cant": "Histories, values and capacities are unbounded; a unit test fixes one of each.", "anchors": ["c/graphLib/lowLevelUtils/stack.c: sp_New, sp__Push, sp__Push2, sp__Pop, sp__Pop2, sp__Pop2_Discard1, sp_Copy, sp_CopyContent, sp_Duplicate", "c/graphLib/lowLevelUtils/stack.h: sp_Push, sp_Pop, sp_SetCurrentSize"]}
{"id": "C02", "title": "List collections behave as disjoint circular lists", "statement": "Starting from a fresh collection, any sequence of prepend, append, insert-after, insert-before and delete calls on nodes that respect the documented preconditions (a node is added only while in no list, deleted only from the list holding it) keeps every list a proper circular doubly linked list of distinct nodes; prepend/append/insert/delete change the iterated content exactly as the documentation says, other lists in the same collection are untouched, and iterating with get-next from the head (or get-prev from NIL) visits every element once, in order (resp. reverse order), and then reports the end.", "quantifier": "every collection size, every number of lists, every operation sequence", "why_tests_cant": "Pointer-manipulation bugs only show for particular orders of head/middle/last/singleton operations; all interleavings cannot be enumerated.", "anchors": ["c/graphLib/lowLevelUtils/listcoll.c: LCNew, LCInsertAfter, LCInsertBefore, LCAppend, LCPrepend, LCDelete, LCGetNext, LCGetPrev", "c/graphLib/lowLevelUtils/listcoll.h (macros)"]}
{"id": "C03", "title": "String buffers append without loss and never write out of bounds", "statement": "After any sequence of append-string, append-char and clear calls on a string buffer, the buffer holds exactly the concatenation of the strings appended since the last clear, its reported size is that length, it is NUL terminated, the capacity never shrinks below the size, and no call writes outside the allocated block; if an allocation fails, NOTOK is returned and the previous content is intact.", "quantifier": "every initial capacity, every sequence of appended NUL-free strings, every pattern of allocation failures", "why_tests_cant": "Growth boundaries depend on all combinations of capacities and lengths; allocation failure points are not reachable from tests.", "anchors": ["c/graphLib/io/strbuf.c: sb_New, sb_ClearBuf, sb_ConcatString, sb_ConcatChar, sb_Duplicate, sb_Copy, sb_TakeString"]}
{"id": "C04", "title": "Every history of graph edits leaves a well-formed graph", "statement": "Starting from an initialised graph, after any finite sequence of add-edge, dynamic-add-edge, insert-edge, delete-edge, ensure-capacity and reinitialise calls with valid arguments: following next-arc links from a vertex's first arc reaches its last arc and ends, following prev-arc links backward visits the same arcs in reverse, every edge in use has each of its two arcs in exactly one adjacency list (that of the vertex its twin names), no arc occurs twice, the edge count equals the number of edges in the lists, edge slots are exactly partitioned into used and recycled ones, and no call touches memory outside the vertex, edge and recycling arrays.", "quantifier": "every N, every capacity, every finite call sequence with arguments satisfying the documented preconditions (self-loops and parallel edges included)", "why_tests_cant": "The state space of edit histories is unbounded; corruption depends on the relative position of edges in lists and on hole reuse order.", "anchors": ["c/graphLib/graphUtils.c: _InitGraph, gp_AddEdge, gp_DynamicAddEdge, gp_InsertEdge, gp_DeleteEdge, gp_AttachArc, gp_DetachArc, _EnsureArcCapacity, _ReinitializeGraph", "c/graphLib/graphStructures.h: gp_EdgeInUseIndexBound"]}
{"id": "C05", "title": "Adding an edge has exactly the advertised effect", "statement": "If the graph is below its edge limit, add-edge(u,ulink,v,vlink) returns OK and the only changes are: one new edge joins u and v, its record in u's list is the first (ulink=0) or last (ulink=1) one and likewise for v, all pre-existing arcs keep their relative order, neighbours and flags, and the edge count grows by one. insert-edge does the same but puts the new record right after (link 0) or right before (link 1) the given existing record. At the limit both return NONEMBEDDABLE, and with out-of-range vertices NOTOK, changing nothing.", "quantifier": "every well-formed graph, every pair of vertices (virtual ones, equal ones included), every link choice and anchor record", "why_tests_cant": "Positions, list lengths and hole reuse vary without bound.", "anchors": ["c/graphLib/graphUtils.c: gp_AddEdge, gp_InsertEdge, gp_AttachArc"]}
{"id": "C06", "title": "Deleting an edge removes that edge only and its slot is reusable", "statement": "delete-edge(e,link) on an edge in the graph removes exactly the two records of that edge from the lists of its end points, keeps the order, neighbours and flags of all others, decreases the edge count by one, returns the record that followed (or preceded) e in its list or NIL at the end, and a later add-edge succeeds again without needing more capacity.", "quantifier": "every well-formed graph and every edge in it", "why_tests_cant": "Deletion bugs depend on list position (first/middle/last/only/self-loop) combined with array position of the slot.", "anchors": ["c/graphLib/graphUtils.c: gp_DeleteEdge, gp_DetachArc"]}
{"id": "C07", "title": "Growing the arc capacity preserves the graph and makes room", "statement": "ensure-arc-capacity(k) on an initialised graph with k even and positive returns OK, leaves every adjacency list, neighbour, flag, edge count and recycled slot unchanged, never lowers the capacity, initialises all new records, and afterwards edges can be added until k/2 edges are present; k odd or non-positive gives NOTOK and no change.", "quantifier": "every well-formed graph, every requested capacity, both when called before and after initialisation", "why_tests_cant": "Interaction of recycled slots and growth has unboundedly many configurations.", "anchors": ["c/graphLib/graphUtils.c: gp_EnsureArcCapacity, _EnsureArcCapacity, gp_InitGraph"]}
{"id": "C08", "title": "Dynamic edge addition succeeds until the graph is complete", "statement": "gp_DynamicAddEdge adds the requested edge, growing the capacity if needed, for every simple graph that still has fewer than N(N-1)/2 edges.", "quantifier": "every N, capacity and simple graph with room for another edge", "why_tests_cant": "Only particular small capacities and very large ones misbehave; a test suite samples default capacities.", "anchors": ["c/graphLib/graphUtils.c: gp_DynamicAddEdge, gp_GetArcCapacity, gp_EnsureArcCapacity"]}
{"id": "C09", "title": "The reported arc capacity is twice the number of edges that fit", "statement": "gp_GetArcCapacity(g) is twice the maximum number of edges that can be added to g.", "quantifier": "every initialised graph", "why_tests_cant": "It is a relation between a query and all future add-edge calls.", "anchors": ["c/graphLib/graphUtils.c: gp_GetArcCapacity, gp_AddEdge"]}
{"id": "C10", "title": "Adjacency and degree queries are exact", "statement": "On every well-formed graph gp_IsNeighbor(u,v) is TRUE exactly if u's list has a record to v that is not in-only, gp_GetNeighborEdgeRecord(u,v) returns the first record to v in u's list or NIL if none exists, and the degree/in-degree/out-degree queries return the number of records in v's list (excluding out-only, resp. in-only ones); all terminate and change nothing.", "quantifier": "every well-formed graph and every pair of vertices", "why_tests_cant": "Universally quantified over graph shapes and list lengths.", "anchors": ["c/graphLib/graphUtils.c: gp_IsNeighbor, gp_GetNeighborEdgeRecord, gp_GetVertexDegree, gp_GetVertexInDegree, gp_GetVertexOutDegree"]}
{"id": "C11", "title": "Hiding edges and restoring them in reverse order is the identity", "statement": "For any sequence of distinct edges hidden one after another, restoring them in the reverse order gives back exactly the original graph, record for record, and after hiding, the hidden edges are absent from all lists while the others keep their order.", "quantifier": "every well-formed graph and every sequence of distinct edges, self-loops and parallels included", "why_tests_cant": "The number of hide orders is factorial in the number of edges.", "anchors": ["c/graphLib/graphUtils.c: gp_HideEdge, _HideEdge, gp_RestoreEdge, _RestoreEdge, _RestoreArc, gp_DetachArc, _HideInternalEdges, _RestoreHiddenEdges"]}
{"id": "C12", "title": "Hiding vertices and restoring all of them is the identity", "statement": "For every sequence of hide-vertex calls on a loop-free graph with an empty work stack of sufficient capacity, gp_RestoreVertices returns OK, empties the stack and gives back exactly the original graph.", "quantifier": "every loop-free well-formed graph and every finite sequence of vertices (repetitions allowed)", "why_tests_cant": "Sequences are unbounded and the stack protocol interleaves with list surgery.", "anchors": ["c/graphLib/graphUtils.c: gp_HideVertex, _HideVertex, gp_RestoreVertices, _RestoreVertex, _RestoreHiddenEdges"]}
{"id": "C13", "title": "Vertex identification and edge contraction are undone by gp_RestoreVertices", "statement": "After gp_IdentifyVertices or gp_ContractEdge followed by gp_RestoreVertices, the graph is the one before.", "quantifier": "every well-formed simple graph and every pair of vertices / edge", "why_tests_cant": "Correct for some configurations, wrong for others; needs a universally quantified statement or a counterexample.", "anchors": ["c/graphLib/graphUtils.c: gp_ContractEdge, _ContractEdge, gp_IdentifyVertices, _IdentifyVertices, _RestoreVertex, gp_RestoreVertices"]}
{"id": "C14", "title": "Copying a graph yields an equal, independent graph", "statement": "gp_CopyAdjacencyLists makes every adjacency list of the destination (same order N, sufficient capacity) record-for-record equal in links and neighbours to the source, together with edge count and recycled slots; gp_CopyGraph/gp_DupGraph also copy all vertex data, flags and stacks; the source is unchanged, and with unequal N or insufficient capacity NOTOK is returned or capacity is grown as documented.", "quantifier": "every pair of initialised graphs", "why_tests_cant": "Equality over all records for all graphs.", "anchors": ["c/graphLib/graphUtils.c: gp_CopyAdjacencyLists, gp_CopyGraph, gp_DupGraph"]}
{"id": "C15", "title": "A newly added edge carries no leftover marks", "statement": "Right after gp_AddEdge/gp_InsertEdge succeed, both new records have no visited mark, no DFS type, no inversion and no direction.", "quantifier": "every history of library calls leading to the state", "why_tests_cant": "Requires reasoning about every way a record can be left dirty beyond the used range.", "anchors": ["c/graphLib/graphUtils.c: gp_AddEdge, gp_InsertEdge, gp_DeleteEdge, gp_CopyGraph, _EnsureArcCapacity"]}
{"id": "C16", "title": "Setting an edge's direction", "statement": "After gp_SetDirection(e, d) for d in {in-only, out-only, 0}, the direction of e is d and the direction of its twin is the opposite of d, whatever the direction was before.", "quantifier": "every record, every previous flag value, every d", "why_tests_cant": "Quantifies over all previous states.", "anchors": ["c/graphLib/graphStructures.h: gp_SetDirection, gp_GetDirection"]}
{"id": "C17", "title": "Depth first search numbering is correct", "statement": "gp_CreateDFSTree returns OK on every well-formed graph; afterwards the depth-first indices are a permutation of 1..N, every non-root vertex has a parent adjacent to it with smaller index, every edge joins two vertices related as ancestor and descendant, each record's type (child/parent/forward/back) says correctly which, roots correspond to connected components, and a second call changes nothing.", "quantifier": "every well-formed loop-free graph", "why_tests_cant": "A universally quantified graph-theoretic statement.", "anchors": ["c/graphLib/graphDFSUtils.c: gp_CreateDFSTree"]}
{"id": "C18", "title": "Sorting the vertices relabels the graph and is undone by sorting again", "statement": "gp_SortVertices on a DFS-numbered graph applies the permutation given by the depth first indices: the record of old vertex v ends up at position DFI(v), all neighbour fields and parents are translated accordingly, the index field then holds the old label; the sorted graph is isomorphic to the original with identical list orders, and a second call gives back the original labelling.", "quantifier": "every DFS-numbered graph of every order", "why_tests_cant": "All permutations of all sizes.", "anchors": ["c/graphLib/graphDFSUtils.c: gp_SortVertices, _SortVertices"]}
{"id": "C19", "title": "Least ancestor and lowpoint values are correct", "statement": "On a DFS-numbered and sorted graph gp_LowpointAndLeastAncestor and gp_LeastAncestor set for each vertex the minimum of itself and its back-edge neighbours, and the lowpoint to the minimum over the DFS subtree of those values.", "quantifier": "every DFS-sorted graph", "why_tests_cant": "Universally quantified over DFS trees.", "anchors": ["c/graphLib/graphDFSUtils.c: gp_LowpointAndLeastAncestor, gp_LeastAncestor"]}
{"id": "C20", "title": "Random graph generation yields connected simple graphs", "statement": "For every stream of random numbers, gp_CreateRandomGraph returns a connected graph without loops or parallel edges, and every number drawn for a range lies in that range.", "quantifier": "every N and every pseudo-random stream", "why_tests_cant": "Tests fix a seed; the property ranges over all streams.", "anchors": ["c/graphLib/graphUtils.c: gp_CreateRandomGraph, _GetRandomNumber"]}
{"id": "C21", "title": "Random graphs with a prescribed number of edges", "statement": "gp_CreateRandomGraphEx(g, m) terminates and returns a graph with max(m, N-1) edges (capped by the capacity).", "quantifier": "every N, m and every pseudo-random stream", "why_tests_cant": "Termination and edge counts over all streams and parameters.", "anchors": ["c/graphLib/graphUtils.c: gp_CreateRandomGraphEx, _getUnprocessedChild"]}
{"id": "C22", "title": "graph6 encoding round trip", "statement": "Writing any simple graph with 2 <= N <= 32768 in graph6 format and reading the text back yields a graph with the same order and the same adjacencies; the text follows the graph6 definition: order bytes followed by the upper-triangle adjacency bits by columns, six per byte plus 63, zero padded.", "quantifier": "every simple graph in the size range", "why_tests_cant": "All graphs of all sizes; bit packing boundaries occur at every residue modulo six.", "anchors": ["c/graphLib/io/g6-write-iterator.c: _encodeAdjMatAsG6, _getColumnOffsets, _printEncodedGraph", "c/graphLib/io/g6-read-iterator.c: _decodeGraph, _getGraphOrder, _validateGraphEncoding", "c/graphLib/io/g6-api-utilities.c: _getMaxEdgeCount, _getNumCharsForGraphEncoding, _getNumCharsForGraphOrder"]}
{"id": "C23", "title": "graph6 encoding stays inside its buffer for every supported order", "statement": "For every order 1 <= N <= 100000 the size computed for the graph6 buffer is large enough for the encoding of every graph of that order (no out-of-bounds write, no arithmetic overflow).", "quantifier": "every order up to the documented limit", "why_tests_cant": "Overflow happens only for orders far beyond what tests use.", "anchors": ["c/graphLib/io/g6-api-utilities.c: _getMaxEdgeCount, _getNumCharsForGraphEncoding", "c/graphLib/io/g6-write-iterator.c: _encodeAdjMatAsG6"]}
{"id": "C24", "title": "Malformed graph6 input is reported", "statement": "Reading a graph from a graph6 string, file or stream whose graph line is invalid returns a value other than OK.", "quantifier": "every malformed input text", "why_tests_cant": "All malformed texts.", "anchors": ["c/graphLib/io/g6-read-iterator.c: _ReadGraphFromG6FilePath, _ReadGraphFromG6FilePointer, _ReadGraphFromG6String, readGraphUsingG6ReadIterator"]}
{"id": "C25", "title": "Adjacency-list text round trip preserves the embedding", "statement": "Writing an undirected simple graph as adjacency list text and reading that text into a fresh graph yields the same order, the same zero/one-based setting and, for every vertex, the same neighbours in the same cyclic and linear order (the rotation system of an embedding survives a write/read).", "quantifier": "every undirected simple graph, any vertex order of the lists, 0- or 1-based", "why_tests_cant": "Order preservation depends on a subtle reorganisation during reading; quantifies over all graphs and rotations.", "anchors": ["c/graphLib/io/graphIO.c: _WriteAdjList, _ReadAdjList, gp_WriteToString, gp_ReadFromString, gp_Write, gp_Read"]}
{"id": "C26", "title": "Adjacency-matrix text round trip through a file", "statement": "Writing an undirected simple graph as adjacency matrix to a file and reading that file yields a graph with the same order and adjacencies.", "quantifier": "every undirected simple graph", "why_tests_cant": "All graphs.", "anchors": ["c/graphLib/io/graphIO.c: _WriteAdjMatrix, _ReadAdjMatrix, gp_Read, gp_Write"]}
{"id": "C27", "title": "Adjacency-matrix text round trip through a string", "statement": "gp_ReadFromString applied to the text produced by gp_WriteToString in adjacency matrix mode yields the same adjacencies.", "quantifier": "every undirected simple graph", "why_tests_cant": "All graphs; the failure needs at least three vertices.", "anchors": ["c/graphLib/io/graphIO.c: _ReadAdjMatrix", "c/graphLib/io/strbuf.c: sb_ReadSkipInteger"]}
{"id": "C28", "title": "Reading documented input features", "statement": "As documented, loops in an adjacency-list file are ignored without error, and repeated neighbours produce a single edge.", "quantifier": "every adjacency-list text", "why_tests_cant": "All texts.", "anchors": ["c/graphLib/io/graphIO.c: _ReadAdjList, gp_Read"]}
{"id": "C29", "title": "Truncated text input is rejected", "statement": "Reading an adjacency matrix or adjacency list text that ends before the data announced by its header returns NOTOK.", "quantifier": "every truncated text", "why_tests_cant": "All truncation points of all texts.", "anchors": ["c/graphLib/io/graphIO.c: _ReadAdjMatrix, _ReadAdjList, _ReadLEDAGraph"]}
{"id": "C30", "title": "Extensions dispatch to the most recently attached overload", "statement": "After any history of attaching and detaching extensions (in any order), invoking a virtual function of the graph runs the overload of the most recently attached extension still present that overloads it, whose 'superclass' call runs the next most recently attached one still present, and so on down to the library's own function; removing all extensions restores the original behaviour for every function.", "quantifier": "every history of attach and detach calls over any set of extensions with arbitrary sets of overloads, detaching in arbitrary order", "why_tests_cant": "Histories and overload sets are unbounded.", "anchors": ["c/graphLib/extensionSystem/graphExtensions.c: gp_AddExtension, _OverloadFunctions, gp_RemoveExtension, _FixupFunctionTables, _FindNearestOverload, gp_FreeExtensions"]}
{"id": "C31", "title": "Extension lookup and identity", "statement": "gp_FindExtension finds exactly the attached extensions, each by its own identifier and with its own context; an extension with an identifier already attached is refused and changes nothing; identifiers given to different modules differ.", "quantifier": "every history of attach and detach calls", "why_tests_cant": "All histories.", "anchors": ["c/graphLib/extensionSystem/graphExtensions.c: gp_AddExtension, gp_FindExtension, gp_GetExtension, gp_RemoveExtension"]}
{"id": "C32", "title": "A duplicated graph has its own working copies of the extensions", "statement": "After duplicating a graph with extensions, editing the extensions of the duplicate (detaching one) leaves the original's dispatch unchanged, and the duplicate dispatches to its own extensions.", "quantifier": "every set of attached extensions", "why_tests_cant": "Aliasing between copies only shows with particular extension combinations and call orders.", "anchors": ["c/graphLib/extensionSystem/graphExtensions.c: gp_CopyExtensions, gp_RemoveExtension", "c/graphLib/graphUtils.c: gp_DupGraph, gp_CopyGraph"]}
{"id": "C33", "title": "The planar-embedding check accepts exactly Euler-valid rotation systems", "statement": "On a well-formed graph the facial-walk part of gp_TestEmbedResultIntegrity terminates and returns OK if and only if the number of faces of the rotation system given by the adjacency lists satisfies Euler's formula for the number of vertices, edges and connected components.", "quantifier": "every well-formed graph with every rotation system", "why_tests_cant": "Needs counting orbits of a permutation for arbitrary graphs.", "anchors": ["c/graphLib/planarityRelated/graphTests.c: _CheckEmbeddingFacialIntegrity, gp_TestEmbedResultIntegrity"]}
{"id": "C34", "title": "The subgraph test is exact", "statement": "_TestSubgraph(sub, graph) on graphs of equal order returns TRUE exactly if every adjacency of sub is an adjacency of graph (and the degree sum matches the edge count), and leaves graph unchanged.", "quantifier": "every pair of well-formed graphs of equal order", "why_tests_cant": "All pairs of graphs.", "anchors": ["c/graphLib/planarityRelated/graphTests.c: _TestSubgraph"]}
{"id": "C35", "title": "The Kuratowski obstruction check is sound and complete", "statement": "On a well-formed graph the obstruction check for planarity returns OK if and only if the graph, ignoring isolated vertices, is a subdivision of K5 or K3,3; the check changes nothing but visited marks.", "quantifier": "every well-formed graph, self-loops and multiple edges included", "why_tests_cant": "All subdivisions and near-subdivisions of all sizes and vertex orders.", "anchors": ["c/graphLib/planarityRelated/graphTests.c: _CheckKuratowskiSubgraphIntegrity, _getImageVertices, _TestForCompleteGraphObstruction, _TestForK33GraphObstruction, _TestPath, _TryPath, _MarkPath"]}
{"id": "C36", "title": "The outerplanarity obstruction check is sound and complete", "statement": "On a loop-free well-formed graph the obstruction check for outerplanarity returns OK if and only if the graph, ignoring isolated vertices, is a subdivision of K4 or K2,3. (On graphs with self-loops it can accept graphs that are no obstruction.)", "quantifier": "every loop-free well-formed graph", "why_tests_cant": "As for C35.", "anchors": ["c/graphLib/planarityRelated/graphTests.c: _CheckOuterplanarObstructionIntegrity, _TestForK23GraphObstruction"]}
{"id": "C37", "title": "The outerplanar embedding check inspects the outer face correctly", "statement": "The external-face part of the outerplanar embedding check returns OK exactly if every vertex is reached by walking, from each DFS root, the face that starts at its first arc, descending at cut vertices as documented.", "quantifier": "every well-formed DFS-numbered graph", "why_tests_cant": "All embeddings.", "anchors": ["c/graphLib/planarityRelated/graphTests.c: _CheckAllVerticesOnExternalFace, _MarkExternalFaceVertices"]}
{"id": "C38", "title": "The visibility-representation check is sound", "statement": "If the planar drawing check returns OK, then no two vertices share a row, no two edges share a column, every edge's vertical segment touches exactly the horizontal bars of its two end vertices, within their extents, and meets no other vertex bar.", "quantifier": "every graph and every assignment of positions", "why_tests_cant": "All drawings of all sizes.", "anchors": ["c/graphLib/planarityRelated/graphDrawPlanar.c: _CheckVisibilityRepresentationIntegrity"]}
{"id": "C39", "title": "Computed bar and segment extents are tight", "statement": "Given vertex rows and edge columns, the computed horizontal extent of each vertex is exactly the range of the columns of its edges, and the computed vertical extent of each edge is the range between its end vertices' rows.", "quantifier": "every graph and positions", "why_tests_cant": "All graphs.", "anchors": ["c/graphLib/planarityRelated/graphDrawPlanar.c: _ComputeVertexRanges, _ComputeEdgeRanges"]}
{"id": "C40", "title": "The text rendering never writes out of bounds and keeps its line structure", "statement": "gp_DrawPlanar_RenderToString writes only inside the allocated picture and each picture row keeps its line terminator.", "quantifier": "every drawing accepted by the integrity check", "why_tests_cant": "Label width and column positions interact for arbitrary sizes.", "anchors": ["c/graphLib/planarityRelated/graphDrawPlanar.c: _RenderToString"]}
{"id": "C41", "title": "Inverting a vertex reverses its rotation", "statement": "Inverting a vertex reverses exactly that vertex's adjacency list and exchanges its two external face links, changes nothing else, and doing it twice restores the graph.", "quantifier": "every well-formed graph and vertex", "why_tests_cant": "All list lengths.", "anchors": ["c/graphLib/planarityRelated/graphEmbed.c: _InvertVertex"]}
{"id": "C42", "title": "Merging a root copy into its vertex concatenates the rotations", "statement": "Merging bicomp root R into vertex W moves R's arcs, in order, to the chosen side of W's list, redirects the neighbours to W, and leaves every other list unchanged; R becomes edgeless.", "quantifier": "every well-formed graph, root and side", "why_tests_cant": "All shapes.", "anchors": ["c/graphLib/planarityRelated/graphEmbed.c: _MergeVertex"]}
{"id": "C43", "title": "Joining bicomps loses no edge", "statement": "Joining all root copies with their vertices preserves the number of edges and the multiset of (primary vertex, primary vertex) adjacencies, and leaves no edge at a virtual vertex.", "quantifier": "every well-formed graph with root copies", "why_tests_cant": "All decompositions.", "anchors": ["c/graphLib/planarityRelated/graphEmbed.c: _JoinBicomps, _MergeVertex"]}
{"id": "C44", "title": "A failed initialisation leaves a graph that can be freed", "statement": "If gp_InitGraph fails because of memory exhaustion, the graph can be freed (or initialised again) without freeing any block twice.", "quantifier": "every allocation failure point", "why_tests_cant": "Failure points are not reachable from tests.", "anchors": ["c/graphLib/graphUtils.c: _InitGraph, _ClearGraph, gp_Free"]}
{"id": "C45", "title": "Reading and writing drawing data", "statement": "The drawing section written with a planar drawing is read back to the same positions and extents.", "quantifier": "every drawing", "why_tests_cant": "All drawings.", "anchors": ["c/graphLib/planarityRelated/graphDrawPlanar_Extensions.c: _DrawPlanar_WritePostprocess, _DrawPlanar_ReadPostprocess"]}
{"id": "C46", "title": "Input abstraction gives the same characters for strings and files", "statement": "Reading characters, un-reading the last character read, reading lines of bounded length, and writing texts through the string-or-file container behaves identically for a string and for a file with the same content.", "quantifier": "every content, every history of read calls (with any positive line limits) and every sequence of texts written", "why_tests_cant": "All contents and histories.", "anchors": ["c/graphLib/io/strOrFile.c: sf_getc, sf_ungetc, sf_fgets, sf_fputs"]}
{"id": "C47", "title": "Reading LEDA files yields simple graphs", "statement": "Reading a LEDA file with in-range vertex numbers yields exactly the simple undirected graph of the listed pairs, ignoring loops and repetitions.", "quantifier": "every LEDA text with in-range numbers", "why_tests_cant": "All inputs.", "anchors": ["c/graphLib/io/graphIO.c: _ReadLEDAGraph"]}
{"id": "C48", "title": "The hide-vertex work stack never overflows", "statement": "Hiding distinct vertices one after the other never writes beyond the library's work stack.", "quantifier": "every initialised graph and every sequence of distinct vertices", "why_tests_cant": "Only reduced capacities reveal it.", "anchors": ["c/graphLib/graphUtils.c: _HideVertex, _InitGraph"]}
{"id": "C49", "title": "String buffer read position", "statement": "Skipping white space (or an integer) from the read position advances it over exactly the longest run of white space (an optional minus sign followed by the longest run of digits) and stops at the terminator at the latest; and every operation that replaces the content leaves the read position inside the new content.", "quantifier": "all buffers, contents of ASCII characters and read positions inside the content", "why_tests_cant": "Holds for every content and position; tests read a few literals.", "anchors": ["c/graphLib/io/strbuf.c:sb_ReadSkipWhitespace", "c/graphLib/io/strbuf.c:sb_ReadSkipInteger", "c/graphLib/io/strbuf.c:sb_TakeString", "c/graphLib/io/strbuf.c:sb_Copy"]}
{"id": "C50", "title": "Moving an edge record within its adjacency list only changes the order", "statement": "Moving an edge record to the front (or the back) of the adjacency list that contains it succeeds, puts it first (last), keeps the relative order of all other records of that list, and changes no other list, no neighbour, no flag and no count.", "quantifier": "all consistent graphs, vertices and records in the vertex's list, at any position", "why_tests_cant": "Pointer surgery with several cases (first, middle, last, only record) that must be right in lists of every length.", "anchors": ["c/graphLib/graphStructures.h: gp_MoveArcToFirst, gp_MoveArcToLast"]}
{"id": "C51", "title": "Reading several graph6 graphs in a row", "statement": "Reading a graph6 text that holds one graph per line, all of one order, with or without the header, through the read iterator delivers exactly these graphs one after the other, each with its own adjacencies only, and then reports the end.", "quantifier": "every sequence of graphs of one order, string or file, new or reused graph", "why_tests_cant": "All sequences, orders and graphs; state carried from one graph to the next must not leak.", "anchors": ["c/graphLib/io/g6-read-iterator.c: readGraphUsingG6ReadIterator, beginG6ReadIterationFromG6FilePointer, beginG6ReadIterationFromG6String"]}
{"id": "C52", "title": "Several graphs written through one graph6 iterator can be read back", "statement": "Graphs written one after the other with one write iterator form a graph6 text that the read iterator delivers back graph by graph.", "quantifier": "every sequence of at least two graphs of one order", "why_tests_cant": "All sequences.", "anchors": ["c/graphLib/io/g6-write-iterator.c: writeGraphUsingG6WriteIterator, _printEncodedGraph"]}
{"id": "C53", "title": "The integrity check of an embedding result is exact", "statement": "gp_TestEmbedResultIntegrity(graph, original, OK) returns OK if and only if the two graphs have the same adjacencies under the original vertex numbers, the rotation system of the graph satisfies Euler's formula and, for outerplanar embeddings, every vertex lies on the outer face; the graphs keep their edges and rotations. With NONEMBEDDABLE it returns NONEMBEDDABLE if and only if the first graph has no adjacency outside the original and is a subdivision of K5 or K3,3 (planarity) or of K4 or K2,3 (outerplanarity, loop-free graphs).", "quantifier": "every pair of well-formed graphs of equal order, sorted or not, the first having a DFS forest", "why_tests_cant": "All pairs of graphs and all rotation systems.", "anchors": ["c/graphLib/planarityRelated/graphTests.c: gp_TestEmbedResultIntegrity, _CheckEmbeddingIntegrity", "c/graphLib/planarityRelated/graphTests.c: _CheckObstructionIntegrity"]}
{"id": "C54", "title": "A failed capacity increase leaves the graph intact", "statement": "If gp_EnsureArcCapacity fails because of memory exhaustion, the graph keeps its edges and its capacity, and can still be freed without freeing a block twice or losing one.", "quantifier": "every initialised graph, every sequence of capacity requests, every pattern of allocation failures", "why_tests_cant": "the failure points are those of the allocator; tests cannot enumerate all patterns of failures over all histories", "anchors": ["c/graphLib/graphUtils.c: gp_EnsureArcCapacity, _EnsureArcCapacity, gp_Free"]}
{"id": "C55", "title": "A graph declared embeddable has been embedded in the plane", "statement": "On every simple graph that has not been searched yet, gp_Embed terminates without touching memory outside its arrays, with any embed flags, and returns OK or NONEMBEDDABLE. If it returns OK, the graph has exactly the edges it had (its vertices renumbered, each knowing its original number) and its adjacency lists are a rotation system that satisfies Euler's formula, i.e. a planar embedding.", "quantifier": "every well-formed simple graph built by the editing functions and all embed flags", "why_tests_cant": "All graphs and all rotation systems; a wrong flip or merge shows only on particular nestings of biconnected components.", "anchors": ["c/graphLib/planarityRelated/graphEmbed.c: gp_Embed, _EmbeddingInitialize, _WalkUp, _WalkDown, _MergeBicomps, _EmbedBackEdgeToDescendant, _EmbedPostprocess"]}
{"id": "C56", "title": "The library's integrity check accepts what the embedder delivers", "statement": "If gp_Embed returns OK on a simple graph, whether asked for a planar or for an outerplanar embedding, then gp_TestEmbedResultIntegrity of the result against the original graph returns OK.", "quantifier": "every simple graph built by the editing functions, all embed flags (no extension attached)", "why_tests_cant": "Quantifies over all graphs; tests only run the check on the graphs tried.", "anchors": ["c/graphLib/planarityRelated/graphEmbed.c: gp_Embed", "c/graphLib/planarityRelated/graphTests.c: gp_TestEmbedResultIntegrity"]}
{"id": "C57", "title": "OK is answered only for planar graphs; K5 and K3,3 minors are always detected", "statement": "If gp_Embed answers OK on a simple graph then the graph is planar: its adjacency lists can be ordered so that Euler's formula holds. On every simple graph that has K5 or K3,3 as a minor (five disjoint connected vertex sets touching pairwise, or three and three touching each other) no such order exists and gp_Embed answers NONEMBEDDABLE.", "quantifier": "every simple well-formed graph that has not been searched, all embed flags, all families of vertex sets", "why_tests_cant": "All graphs and all minors: a minor can be spread over arbitrarily large connected sets.", "anchors": ["c/graphLib/planarityRelated/graphEmbed.c: gp_Embed, _WalkDown"]}
{"id": "C58", "title": "gp_Embed decides planarity", "statement": "With a flags argument that does not ask for outerplanarity, gp_Embed on a simple graph answers OK if the graph is planar (its adjacency lists can be ordered so that Euler's formula holds) and NONEMBEDDABLE if it is not; it never answers anything else. The graphs it rejects are exactly those with K5 or K3,3 as a minor.", "quantifier": "every simple well-formed graph that has not been searched, in particular every simple graph made by the editing functions; every flags value without the outerplanarity bit", "why_tests_cant": "Completeness of the Boyer-Myrvold algorithm: for every planar graph, of any size and with its edges added in any order, the walk-down must never be blocked.", "anchors": ["c/graphLib/planarityRelated/graphEmbed.c: gp_Embed, _WalkUp, _WalkDown, _MergeBicomps, _HandleBlockedBicomp, _EmbeddingInitialize"]}
{"id": "C59", "title": "An outerplanar embedding has every vertex on the outer face", "statement": "If gp_Embed is asked for an outerplanar embedding and returns OK on a simple graph, the graph it leaves is a planar embedding of the graph it was given in which one face of each connected component (the first face of its root) meets every vertex of the component; so the graph is outerplanar.", "quantifier": "every simple well-formed graph that has not been searched; every flags value with the outerplanarity bit", "why_tests_cant": "All graphs; a vertex can be closed off the outer face only by particular nestings of biconnected components.", "anchors": ["c/graphLib/planarityRelated/graphEmbed.c: gp_Embed, _WalkDown, _EmbedPostprocess"]}
{"id": "C60", "title": "gp_Embed decides outerplanarity", "statement": "Asked for an outerplanar embedding, gp_Embed on a simple graph answers OK if the graph is outerplanar (its adjacency lists can be ordered so that Euler's formula holds and in every component one face meets every vertex) and NONEMBEDDABLE if it is not; it never answers anything else. The graphs it rejects are exactly those with K4 or K2,3 as a minor.", "quantifier": "every simple well-formed graph that has not been searched, in particular every simple graph made by the editing functions; every flags value with the outerplanarity bit", "why_tests_cant": "Completeness over all graphs of any size: for every outerplanar graph, whatever the order its edges were added in, the walk-down must never be blocked.", "anchors": ["c/graphLib/planarityRelated/graphEmbed.c: gp_Embed, _WalkUp, _WalkDown, _MergeBicomps, _HandleBlockedBicomp"]}
{"id": "C61", "title": "A graph that is not outerplanar is cut down to a K2,3 or K4 subdivision", "statement": "Asked for an outerplanar embedding of a simple graph, gp_Embed answers OK, or it answers NONEMBEDDABLE and leaves a subgraph of the graph it was given (some of its edges, under the original vertex numbers) that is a subdivision of K2,3 or K4 apart from isolated vertices; it never fails on the way. gp_TestEmbedResultIntegrity accepts that result.", "quantifier": "every simple well-formed graph that has not been searched, in particular every simple graph made by the editing functions", "why_tests_cant": "Whatever the graph and the order of its edges, the marked paths must be disjoint and complete, for every way in which the walk-down can be blocked.", "anchors": ["c/graphLib/planarityRelated/graphOuterplanarObstruction.c: _IsolateOuterplanarObstruction, _ChooseTypeOfNonOuterplanarityMinor, _IsolateOuterplanarityObstructionA, _IsolateOuterplanarityObstructionB, _IsolateOuterplanarityObstructionE", "c/graphLib/planarityRelated/graphIsolator.c: _MarkPathAlongBicompExtFace, _MarkDFSPath, _AddAndMarkEdge, _DeleteUnmarkedVerticesAndEdges", "c/graphLib/planarityRelated/graphEmbed.c: gp_Embed, _HandleBlockedBicomp"]}
{"id": "C62", "title": "A non-planar graph is cut down to a K3,3 or K5 subdivision", "statement": "Asked for a planar embedding of a simple graph, gp_Embed answers OK, or it answers NONEMBEDDABLE and leaves a subgraph of the graph it was given (some of its edges, under the original vertex numbers) that is a subdivision of K3,3 or K5 apart from isolated vertices; it never fails on the way. gp_TestEmbedResultIntegrity accepts that result. So a simple graph is planar exactly if it has no such subgraph.", "quantifier": "every simple well-formed graph that has not been searched, in particular every simple graph made by the editing functions", "why_tests_cant": "There are nine kinds of minors with mirror images and many ways of blocking the walk-down; whatever the graph and the order of its edges, the marked paths must be disjoint and complete, and all the intermediate searches must succeed.", "anchors": ["c/graphLib/planarityRelated/graphIsolator.c: _IsolateKuratowskiSubgraph, _IsolateMinorA, _IsolateMinorB, _IsolateMinorC, _IsolateMinorD, _IsolateMinorE, _IsolateMinorE1, _IsolateMinorE2, _IsolateMinorE3, _IsolateMinorE4, _FindUnembeddedEdgeToAncestor", "c/graphLib/planarityRelated/graphNonplanar.c: _ChooseTypeOfNonplanarityMinor, _InitializeNonplanarityContext, _MarkHighestXYPath, _MarkClosestXYPath, _MarkZtoRPath", "c/graphLib/planarityRelated/graphEmbed.c: gp_Embed, _HandleBlockedBicomp"]}
{"id": "C63", "title": "Embedding and sorting back gives the caller's own graph with a planar order, or a Kuratowski subgraph of it", "statement": "After gp_Embed has answered, gp_SortVertices succeeds and gives every vertex its original number. If the answer was OK, the graph is then the graph given (same vertices, same edges under the same edge numbers, same ends), only with its adjacency lists reordered, and this order is a planar embedding: in every component V - E + F = 2. If outerplanarity was asked for, a face of each component meets all its vertices that have an edge. If the answer was NONEMBEDDABLE, the graph is a subgraph of the graph given, on the same vertex numbers, that is a subdivision of K3,3 or K5 (K2,3 or K4 for outerplanarity) apart from isolated vertices.", "quantifier": "every simple well-formed graph that has not been searched, in particular every simple graph made by the editing functions", "why_tests_cant": "The embedder renumbers, reorients, merges, joins and deletes in an order that depends on the whole graph; that sorting undoes exactly the renumbering and keeps the rotations must hold for every one of them.", "anchors": ["c/graphLib/planarityRelated/graphEmbed.c: gp_Embed", "c/graphLib/graphDFSUtils.c: gp_SortVertices, _SortVertices"]}
{"id": "C64", "title": "The answer survives being written and read again", "statement": "Embed a simple graph without directed edges, sort the vertices back and write it as adjacency lists: the text, read again with gp_Read or gp_ReadFromString, gives after OK a graph with the same vertices and at each vertex the same neighbours, in an order that is a planar (outerplanar) embedding, and after NONEMBEDDABLE a subgraph that is a subdivision of K3,3 or K5 (K2,3 or K4 for outerplanarity). So the text alone shows whether the graph is planar and why.", "quantifier": "every simple well-formed graph of at most 32768 vertices that has not been searched and has no directed edge, in particular every such graph made by the editing functions", "why_tests_cant": "It needs at once that no step of the embedder marks an edge as directed, that the text keeps the cyclic order of every list and that reading puts the edges back in that order, for every graph and every outcome.", "anchors": ["c/graphLib/planarityRelated/graphEmbed.c: gp_Embed", "c/graphLib/graphDFSUtils.c: gp_SortVertices", "c/graphLib/io/graphIO.c: _WriteAdjList, _ReadAdjList, gp_Read, gp_ReadFromString"]}
{"id": "C65", "title": "From a file to the verdict", "statement": "A graph that was read into a new graph structure, from whatever text in whatever format, is fit for gp_Embed: if it is well-formed and simple, gp_Embed decides whether it is planar (outerplanar). This covers every graph6 text, every LEDA file and every adjacency-list text of a simple graph. For adjacency lists, reading, embedding, sorting and writing gives a text which, read again, is the same graph with its neighbours in planar order, or a subgraph that is a subdivision of K3,3 or K5, with vertices numbered from zero exactly if they were in the input.", "quantifier": "every text and reader; every simple graph of at most 32768 vertices, every order of its edges, vertices numbered from zero or one", "why_tests_cant": "The readers use the same fields of the graph (visited marks, edge flags, capacity, stacks) as the embedder; that nothing is left over which the embedder trips over must hold for every input text.", "anchors": ["c/graphLib/io/graphIO.c: gp_Read, gp_ReadFromString, _ReadAdjList, _ReadAdjMatrix, _ReadLEDAGraph, _WriteAdjList", "c/graphLib/io/g6-read-iterator.c", "c/graphLib/planarityRelated/graphEmbed.c: gp_Embed", "c/graphLib/graphDFSUtils.c: gp_SortVertices"]}
{"id": "C66", "title": "One graph structure for many graphs", "statement": "gp_Embed gives a right answer for the graph the structure holds, whatever was done with the structure before: searched, embedded, sorted, edited or emptied with gp_ReinitializeGraph and filled again, any number of times.", "quantifier": "every history of editing calls, gp_Embed, gp_SortVertices and gp_ReinitializeGraph on one graph structure", "why_tests_cant": "Each call leaves dozens of fields behind (parents, lowpoints, edge types, pertinence lists, flags, stacks) and a stale one matters only for particular later graphs; the claim ranges over all histories.", "anchors": ["c/graphLib/planarityRelated/graphEmbed.c: gp_Embed", "c/graphLib/graphUtils.c: gp_ReinitializeGraph", "c/graphLib/graphDFSUtils.c: gp_CreateDFSTree, gp_SortVertices", "c/planarityApp/planarityRandomGraphs.c: RandomGraphs, ReinitializeGraph"]}
{"id": "C67", "title": "The random test of the planarity program finds no errors and counts rightly", "statement": "Running the program's random-graph test for planarity or outerplanarity, with any numbers of graphs and vertices, reports no error: in every round the generated graph is connected and simple, gp_Embed gives the right verdict, gp_TestEmbedResultIntegrity confirms it against the copy made before, and reusing both graph structures for the next round does no harm. The number of graphs reported as embedded is the number of planar (outerplanar) graphs among those generated. The test ends if rand() keeps bringing up every pair of vertices.", "quantifier": "every number of graphs and vertices the user may enter (out of range ones are replaced), every sequence of values of rand() on which the mixing of bits does not overflow", "why_tests_cant": "The random test is itself the project's main test; that it can only report success is a claim about every random sequence and every reuse of the two structures.", "anchors": ["c/planarityApp/planarityRandomGraphs.c: RandomGraphs, GetNumberIfZero, MakeGraph, ReinitializeGraph", "c/graphLib/graphUtils.c: gp_CreateRandomGraph, gp_CopyGraph, gp_ReinitializeGraph", "c/graphLib/planarityRelated/graphEmbed.c: gp_Embed", "c/graphLib/planarityRelated/graphTests.c: gp_TestEmbedResultIntegrity"]}
{"id": "C68", "title": "Testing all graphs in a graph6 file finds no errors and counts rightly", "statement": "Running the program's test of all graphs in a file, for planarity or outerplanarity, on a file of graph6 lines that all have the same number of vertices: every graph in the file is read as written, gp_Embed gives the right verdict on it, gp_TestEmbedResultIntegrity confirms it against the copy made before, and using the two structures for the next line does no harm. The test reports success, the number of lines as graphs read, and as the two counts the numbers of planar (outerplanar) and other graphs. A line with another number of vertices ends the test with an error, after the graphs before it have been counted.", "quantifier": "every file of graph6 lines of one order from 2 to 32768, with or without the header; every number of lines; every graph on every line; anything after a line of another order", "why_tests_cant": "The files tested hold the graphs of small orders; the claim is about every sequence of graphs, sparse after dense and the other way round, with structures that grow on the way.", "anchors": ["c/planarityApp/planarityTestAllGraphs.c: testAllGraphs", "c/graphLib/io/g6-read-iterator.c: readGraphUsingG6ReadIterator, beginG6ReadIterationFromG6FilePointer", "c/graphLib/graphUtils.c: gp_CopyGraph, gp_ReinitializeGraph", "c/graphLib/planarityRelated/graphEmbed.c: gp_Embed", "c/graphLib/planarityRelated/graphTests.c: gp_TestEmbedResultIntegrity"]}
{"id": "C69", "title": "The program's answer about a given graph file is right, and its output shows why", "statement": "Running the program on one given graph text, for planarity or outerplanarity: it returns OK exactly if the graph is planar (outerplanar), having written the graph in the order of an embedding with the caller's vertex numbers; it returns NONEMBEDDABLE exactly if the graph is not, having written, if asked for, an obstruction that is a subgraph of it; and it returns NOTOK and writes nothing if the text cannot be read as a graph.", "quantifier": "every text, read from a file or a string, in every format the reader knows; both commands; obstruction wanted or not", "why_tests_cant": "Reading, copying, embedding, checking, renumbering and writing must fit together for every graph; the tests compare the output of a few sample files.", "anchors": ["c/planarityApp/planaritySpecificGraph.c: SpecificGraph", "c/graphLib/io/graphIO.c: gp_Read, gp_ReadFromString, gp_Write, gp_WriteToString", "c/graphLib/graphUtils.c: gp_DupGraph, gp_AddEdge", "c/graphLib/planarityRelated/graphEmbed.c: gp_Embed", "c/graphLib/planarityRelated/graphTests.c: gp_TestEmbedResultIntegrity", "c/graphLib/graphDFSUtils.c: gp_SortVertices"]}
{"id": "C70", "title": "Converting a graph text to another format keeps the graph", "statement": "Converting a graph text with the program to adjacency lists, an adjacency matrix or graph6 either returns OK with a text that, read back from a file or from a string, gives the graph the input gives (same vertices and adjacencies, and for adjacency lists the same order of neighbours), or, if the input cannot be read, an error and no text. The base reported is that of the input.", "quantifier": "every text the reader accepts and every text it refuses, read from a file or a string; all three output formats, to a file or a string", "why_tests_cant": "The composition of each reader with each writer must be the identity on all graphs; the tests compare a few sample files.", "anchors": ["c/planarityApp/planarityTransformGraph.c: TransformGraph, transformFile, transformString", "c/graphLib/io/graphIO.c: gp_Read, gp_ReadFromString, gp_Write, gp_WriteToString", "c/graphLib/io/g6-read-iterator.c: _ReadGraphFromG6String", "c/graphLib/io/g6-write-iterator.c: _WriteGraphToG6String"]}
{"id": "C71", "title": "The edge list the program saves lists every edge exactly once", "statement": "Saving a graph in the edge list format of the program writes the name, then one line with the two ends of each edge of the graph, each edge exactly once (loops and repeated edges included, deleted edges excluded), as many lines as the graph has edges, and then the line 0 0.", "quantifier": "every graph with no edge hidden at the time of saving, whatever edges were added, deleted, or hidden and restored before; every name", "why_tests_cant": "Deleted edges leave holes anywhere in the edge storage; the walk over the storage must skip exactly these in every history.", "anchors": ["c/planarityApp/planarityUtils.c: SaveAsciiGraph", "c/graphLib/graphStructures.h: gp_EdgeInUse, gp_EdgeInUseIndexBound"]}
