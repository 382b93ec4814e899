{
 "C01": "BCRSMatrix object = build stage + shared index array + rows as windows (offset, size); random mode calls setrowsize/incrementrowsize/endrowsizes/addindex/endindices as state transformers; invariant over every call sequence",
 "C02": "same object; every call in every stage; exceptions leave the state",
 "C03": "CreateIterator steps with insertion into a sorted row; invariant over the rows created so far",
 "C04": "entry() with the overflow map, compress() as two cursors over one array; loop invariant on consumed/produced prefixes; merge with sorted overflow",
 "C05": "lower_bound on the row window; invariant of reachable objects",
 "C06": "copy constructor and assignment with the shared index array and allocation windows; row windows into the index array, own arrays of rows after copying; later modifications of either object",
 "C07": "loops of operator*=, /= and = over the value array; theorem for compact matrices, deviation for rows that were shrunk",
 "C08": "setSize from every stage",
 "C09": "row loops of mv/umv/mmv/usmv/mtv/umtv/mhv... over an arbitrary noncommutative ring with involution; finite sums",
 "C10": "iterator loops of +=, -=, axpy; dense meaning",
 "C11": "rows as FlatSet (sorted array) with switch to a tree; import/export",
 "C12": "heap of vectors with (pointer, size, capacity, window); invariant over call histories",
 "C13": "recursion over rows; block levels by ring instances; finite sums",
 "C14": "dbjac/dbgs/bsorf/bsorb loops; each sweep characterised by its splitting equation",
 "C15": "triple cursor loop of blockILU0Decomposition; invariant L U = A on the pattern for the finished rows",
 "C16": "levels computed in the std::map; equality with the level-of-fill recursion; factorisation on that pattern",
 "C17": "both back substitutions; L U v = d; refinement between the row and the CRS form",
 "C18": "row loop; diagonal recursion",
 "C19": "column-wise row merges; L D L^H = A on the pattern",
 "C20": "pattern closures and value accumulation; three product variants and transposes",
 "C21": "Thomas recursion; induction over rows",
 "C22": "diagonal loops; construction/resizing state machine",
 "C23": "counting, colstart, copy loops; permutation of (row, column, value) triples; row subsets",
 "C24": "writer emits tokens, reader parses lines; round trip by induction; malformed files",
 "C25": "loops of rowdim/coldim/countNonZeros; 64 bit wrap-around explicit",
 "C26": "IterativeSolver::Iteration as a state object; every solver loop; bounds and flags",
 "C27": "loops over an abstract vector space with a stateful preconditioner; b = b0 - A x invariant",
 "C28": "full Arnoldi/Givens loop with least squares back substitution; QR invariant",
 "C29": "real and complex case analysis with sqrt",
 "C30": "sum over owners; permutation of reductions",
 "C31": "processes, local to global maps, interfaces, messages; every delivery order",
 "C32": "the same, with addition",
 "C33": "local mv, project, copyOwnerToAll; global operator",
 "C34": "prolongation/restriction loops, Galerkin accumulation; R = P^T, coarse = P^T A P",
 "C35": "graph search and renumbering; each aggregate one consecutive number",
 "C36": "recursive cycle with level iterators as a zipper; refinement to the textbook cycle; symmetry; two-level method",
 "C37": "registry as a tag list, factory as a map built by static initialisation order",
 "C38": "row-major array with window; every operation",
 "C39": "window list over one block array; histories of resize/assign/copy",
 "C40": "direct, plus diagonal iterators",
 "C41": "heterogeneous tuples as lists of blocks with sizes",
 "C42": "recursion over block structure; flat indices",
 "C43": "preconditioner objects built on C14-C19; linear map computed by apply",
 "C44": "constructor checks as outcomes",
 "C45": "every const query on every reachable object; simulation between histories with and without queries",
 "C46": "owner/copy processes, double counting masks; sum over processes",
 "C47": "Aggregator::build with the front, isolated vertices, distance limits; each vertex in exactly one aggregate or isolated; connectivity",
 "C48": "presmooth with residual, recursion; refinement to the V-cycle",
 "C49": "values in a type with NaN/inf as in IEEE 754; loops with and without has_nan specialisation",
 "C50": "conjugacy and orthogonality invariants; minimisation over the Krylov space",
 "C51": "Lanczos + rotations; minimisation of the preconditioned residual",
 "C52": "polynomial representation of iterates; bi-orthogonality",
 "C53": "ring buffer of directions, restart; conjugacy; agreement with CG",
 "C54": "Arnoldi basis of the Krylov space, least squares optimum",
 "C55": "subdomain lists, local solves, additive / multiplicative / symmetric modes; sums of local corrections",
 "C56": "adjoint of a sweep composition; LU with U = D L^H",
 "C57": "loops with NaN outcome over a Euclidean space; loop invariants, Cauchy-Schwarz, spectral sums, limits",
 "C58": "character-level streams with eof/fail bits and a file system; induction over lines and neighbours, last-writer-wins lemma over any permutation of the writes",
 "C59": "AmgSetup.v: the level loop of build over the models of buildAggregates (Aggregation.v), the pattern builder and the Galerkin product (AggPattern.v, AmgTransfer.v); induction over the remaining levels with the invariant square + symmetric pattern, using C47_coarsen for each step. The specification (hierarchy_of, shrinks, stops) is a predicate on the list of levels. AMG::apply is reached by showing hier_ok/shape (C36). recalculateGalerkin by induction with C34_galerkin, uniqueness by extensionality of sorted rows. getCoarsestAggregatesOnFinest: random drawing with explicit stream and fuel, prolongation by C34_prolongate.",
 "C60": "HierarchyCont.v: machine with a heap of elements, weak/shared pointers and liveness by reachability; specification machine of plain lists; forward simulation (relation: the element ids of every list, linked in both directions) over all operations, and an invariant on the specification machine for the copy.",
 "C61": "Strength.v: the three policies as records of member functions with their state, buildDependency as the two passes over each row and the edge loop with its column iterator. Proof: edge_loop is a fold over the off-diagonal entries (edge_loop_fold), the running maximum is characterised by max_spec, marks are tracked by the relation `marked`; rows_marks accumulates over the rows.",
 "C62": "Graphs.v: start array, edge iterator as a walk over the rest of the row with the skip of the diagonal, findEdge with wrap-around; SubGraph constructor as the loop filling start_, end_, edges_; properties as vectors indexed by descriptors, histories of writes. Proof by induction over the (sorted) rows, closed forms for the arrays (loop_ok), and a simulation between vectors and functions for the properties.",
 "C63": "Cholmod.v on top of Foreach.v (the calls of flatMatrixForEach): setMatrix as the counting, prefix-sum and filling loops with out-of-bounds accesses as UB, apply as the two copying traversals; the state keeps the index map and counts unreleased factors. Proof: the calls are row-wise increasing (fmfe_sorted, by induction on the nesting); the arrays hold the picked entries row by row (countLoop_ok, accumulate_ok, fillLoop_ok); dofs are numbered by rank, an order isomorphism between the kept dofs and [0,N).",
 "C64": "KAmg.v: ksolvers as a list whose elements refer to earlier ones by index, pre() as the loop from the coarsest level; apply as a recursion over the levels below the shared context, running the Krylov program against the stored vectors. Proof: kpre_entry locates the element for each level; tg_ok by induction over the levels, with krun_ok (running against state = evaluating) for every program; C64_gamma_cycle by induction over levels and steps.",
 "C65": "Model (IoMatlab.v): nested matrices with values over the size queries of C25; colOffset prefix sums modulo 2^64, conversion to int, the loops of writeMatrixToMatlabHelper. Proof: by induction on the nesting, the calls of the loops over block rows and columns are exactly the stored scalars shifted by the offsets, disjoint by the partition lemmas of C42.",
 "C66": "Model (IoPrint.v): a stream with flags, precision, width and output tokens; the printers produce lists of stream operations. Proof: the counter modulo columns cuts the entries into pieces (spec cut); print_row by induction on the nesting gives the cells of a scalar row; the while loop of printSparseMatrix by induction on the pieces, non-termination for width <= 0 for every fuel.",
 "C67": "Model (Repartition.v): the vectors and sets of buildCommunication per process, messages in an arbitrary order of arrival, the resulting index set, interface lists and neighbour ranks. Proof: the owners received are a permutation of the moving owners, sorting makes the result independent of the order; mergeVec is set difference of sorted lists; the interface lists coincide with the owner-owner interface of Parallel.v. rp_run is a run with three processes.",
 "C68": "Model (Redistribute.v): the three communications of redistributeMatrix (row sizes, pattern, values) as loops over the messages in any order, pattern as vector of sets, values possibly uninitialised, then the Dirichlet rows. Proof: every communication is one loop over the list of arriving items (the receiver cuts the messages with the row sizes of the first communication); writes to one place all carry the same value because owners are unique. Products: the entries of old and new row, in global numbers, are permutations of each other. Backward redistribution is forward redistribution with exchanged index sets.",
 "C69": "Model (RepartPrep.v): fillIndexSetHoles (maximum over all processes, offsets by prefix sums), the two passes of ParmetisDuneIndexMap with the communication of C31, the loop of getAdjArrays with explicit array bounds, getDomain with its ring of column messages, the greedy loop and the list of free ranks, and the loop that writes setPartition. Proof: prefix sums; numbers are vtxdist[p] plus the rank among the owned local vertices; the greedy loop has an invariant (assigned so far is injective, nobody better was free); the partition vector inherits agreement of copies from copyOwnerToAll (C31_in_place).",
 "C70": "Model (CommGraph.v): neighbour lists as increasing lists of ranks, adjncy filled with explicit bounds, gathered arrays as concatenations, the in-place shift of gxadj, isValidGraph with explicit reads. Proof: invariant of the shift (entries up to i are prefix sums, entries 2k+1 for k>=i untouched); isValidGraph equals a conjunction over the segments; legality as in C69.",
 "C71": "AmgSpd.v: the energy identity of one SOR step (Ostrowski-Reich) by algebra on one row, summed over a sweep by induction; strictness because the entry updated first with nonzero residual moves. AMG: quadratic forms of the cycle by induction over the levels (cycle_forms): Galerkin products of definite matrices are definite since no aggregate is empty (C47_coarsen, covers) and prolongation is injective; the recursion over gamma is the even/odd power identity T_even/T_odd. The refuted parts by computation over the rationals.",
 "C72": "SpdSolve.v: vectors of length n as a vector space (subset type), the matrix product of C09 as operator, C71 for the preconditioners; CG by C50 (Galerkin, optimality), finite termination because n+1 vectors of length n are dependent (Gaussian elimination, induction on n) so the Krylov space stops growing, and the iteration control does not change when the limit is raised after convergence. LoopSolver by an invariant over the iterations. AMG::pre: induction over the rows.",
 "C73": "ParCoarsen.v: the sweep with breadth first search of C35 with a renumberer carrying global index, attribute and public flag (invariant: it knows one of the vertices seen); the attribute vector as a fold; IndicesSyncer as a fold over messages in arbitrary order; the communication of C31 run on the maps seen through GlobalAggregatesMap; periodic renumbering modulo the number of values of the vertex type.",
 "C74": "ParGalerkin.v: the sweep of C34 with the list of overlap vertices, sorted by aggregate in any order within an aggregate (Permutation and StronglySorted); invariant of the second loop: the rows up to the iterator are complete and the list holds the vertices of the others. Values: C34 on each process, the communication of C31 for the diagonal, local sums rewritten as global sums by re-indexing over the index set. The hypotheses of both come from C73 (maps with the same partition have the same lowest vertices); levels is an inductive relation, induction over it.",
 "C75": "ParAmg.v: the programs of all processes together as sets of outcomes with a bind; pok m Q says that m can run, never fails and all results satisfy Q. Simulation: the invariant is that the right hand side represents a global residual (right at owners, zero at copies) and update and left hand side are consistent vectors; each operation preserves it (C09, C31, C74), induction over smoothing steps, gamma and levels. The global cycle is defined independently on functions of global indices.",
 "C76": "Additive.v: three passes over the levels (restrict, correct, prolongate) with invariants that say what the vectors hold; addcycle is the closed formula. Symmetric positive definite: induction over the levels from build_loop_ok and hierarchy_spd (C71), the transfer operators are adjoint, Jacobi's correction solves D v = w d. CG: C72. ParAdditive.v: the same invariants for consistent and defect representations with the lemmas of C75.",
 "C77": "Umfpack.v: pointers as a four-valued type (uninitialised, null, dangling, live), so that every delete or library call on a wrong pointer is undefined behaviour in the model; the invariant [holds] ties the pointer state and the contents of the arrays to what the client knows (nothing, empty system, k x k system, file); induction over the history. Arrays: the calls of flatMatrixForEach are sorted by row in every column, and the three loops are a bucket sort (lemmas of C63); index sets through C23.",
 "C78": "Ldl.v: one pointer state per array, delete and new on lists of arrays, an invariant between pointers, arrays and what the client knows, induction over the history (as C77). That the five calls of apply solve the system is algebra over any ring: reindexing by the permutation and exchanging sums. Whole matrices through C23_copyToBCCSMatrix, index sets through C77's copySubset_entry.",
 "C79": "Superlu.v: as C77 and C78; ten pointer members with one state each (B.Store and X.Store depend on the flags first and reusevector), the invariant ties them to what the client knows, induction over the history for every constructor.",
 "C80": "AmgLife.v: a heap of matrices, shared parts, vectors and objects, one step function per member; the cycle with the convergence flag by induction over the levels (C36 gives the cycle itself); an invariant ties the heap to what the client knows (values at construction and at the last recalculation), every hierarchy is determined by its finest matrix and its aggregates; induction over the history. C59 and C72 give build and pre.",
 "C81": "Spqr.v: as C77-C79 for rectangular systems; the arrays of C23 are shown to denote the scalar matrix; least squares from A E = Q R with orthogonal Q (the residual in the basis of the columns of Q vanishes above the rank, R below it); induction over the history.",
 "C82": "DirectSchwarz.v: the passes over rows and entries hand each item to the subdomains of its row; projected onto one subdomain a pass is the pass of BCCSMatrixInitializer over that subdomain alone (the map from global to local indices is the position in the sorted subdomain), so that the arrays are those of C23; then C79 for the objects and C55 for the preconditioner.",
 "C83": "FastAmgSpd.v: C48 (FastAMG::apply is the textbook V cycle with one forward and one backward Gauss-Seidel sweep) reduces the statement to the one on cycles of C71: the two sweeps equal one SOR sweep with relaxation factor 1 from zero, which are adjoint and contract; the Krylov and loop solvers as in C72; FastAMG::pre by induction over the rows.",
 "C84": "IoSvg.v: induction over the depth; per level the offset vectors are computed to be the partial sums of the widths (the fold keeps the first size per index, the minimum over the vector is the least known size since unknown ones hold the largest number), without overflow by monotonicity; reading back the items with a stack of origins gives the picture; distances from the partial sums."
}