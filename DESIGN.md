# Formal model of dune-istl in Coq 8.16

## 1. Method

* Every modelled C++ function is a computable (or, over the reals, definable) Gallina function with a comment citing the file and lines in
  /repo it models and what is simplified. Exceptions, undefined behaviour and normal results are distinct outcomes (`Ok`, `Throw`, `UB`;
  with the state left behind where an exception is thrown from a method).
* Specifications are written with mathematics only (finite sums, sets of positions, permutations, dense matrices `den A i j`, Krylov
  spaces), independent of the helpers of the model. They are in Ring.v, Sparse.v, BcrsSpec.v and in a section "Specification" of the other
  files, or directly in the statement.
* Theorems that MANIFEST.json lists are named after their property (`C15_ilu0`). Beside them stand `Example`s (or `_example` theorems)
  that run the model on a concrete, non-trivial input meeting the hypotheses.
* `_refuted` marks theorems showing that a part of a property that one could expect FAILS for the code as it is (a concrete reachable
  counterexample, or a whole family), beside the strongest version that holds; the text of the property names the deviation. `_partial` marks
  theorems that prove only a part of what is stated (none is left in the manifest).
* `tools/`: mkprops.py and claims.py/mkmanifest.py generate properties.jsonl and MANIFEST.json; assumptions.py prints the axioms of every
  theorem; mkdesign.py generates this file; mutlog.py turns the results of the mutation runs into seeded/LOG.jsonl.

## 2. Global modelling decisions

* **Numbers.** Block entries are elements of an arbitrary (noncommutative) unital ring (`Ring` record, Leibniz equality) with a partial
  inverse `inv : R -> option R` satisfying `inv a = Some b -> ab = ba = 1` (None = the C++ code throws FMatrixError) and an optional
  anti-involution for transposes/conjugates. `FieldMatrix<K,n,n>` blocks form such a ring; `FieldVector<K,n>` blocks are embedded as square
  matrices with one nonzero column (rectangular blocks as zero padded square ones), so "block times vector" is ring multiplication. Nested
  block levels are handled by instantiating the ring again. Scalars (relaxation factors, alpha) are central elements. Arithmetic is exact:
  floating point rounding is NOT modelled. Exceptional values (NaN, inf) are modelled where the property is about them (C26, C49, C57).
* **Vectors of the Krylov solvers** are elements of an arbitrary module (`vspace`) with an arbitrary scalar product; where square roots occur
  (C28, C29, C51, C54, C57) the field is Coq's `R`.
* **Sizes** are `nat`; where wrap-around of `size_t` matters (C24, C25) arithmetic is explicit mod 2^64.
* **Memory.** For BCRSMatrix, BlockVector, VariableBlockVector and Matrix the arrays are modelled with offsets into them (windows), because
  sharing, in-place compaction and reallocation matter there. Elsewhere a finished sparse matrix is a list of rows of (column, value) pairs, as
  seen through the iterators; C01-C08 show that the objects built by any call sequence present such rows.
* **Solvers and preconditioners passed as arguments** are arbitrary functions with their own state; hypotheses (linearity, exactness) are
  stated in the theorem that needs them.
* **Parallel code.** Processes are indices, local-to-global maps and attributes are functions; the communication interface is the list of
  (source, destination) pairs selected by the attribute sets; message delivery order is an arbitrary permutation (quantified).

## 3. What is modelled and what is not

Modelled (the line ranges are in the comments): bcrsmatrix.hh (build modes, iterators, access, copies, arithmetic, products), bvector.hh,
vbvector.hh, basearray.hh (what the containers use), matrix.hh, matrixindexset.hh, matrixmatrix.hh, matrixutils.hh (dimension queries,
checks), bdmatrix.hh, btdmatrix.hh, scaledidmatrix.hh, multitypeblock{vector,matrix}.hh, foreach.hh, gsetc.hh, ilu.hh, ildl.hh, dilu.hh,
preconditioners.hh, overlappingschwarz.hh (sequential, with the simultaneous assembly for direct solvers) and ilusubdomainsolver.hh (sequential), solver.hh, solvers.hh (all solvers), solverfactory.hh /
solverregistry.hh / common/registry.hh, bccsmatrix.hh and bccsmatrixinitializer.hh, matrixmarket.hh (coordinate, array and distributed files),
scalarproducts.hh, owneroverlapcopy.hh, schwarz.hh, novlpschwarz.hh, paamg: aggregates.hh (search, Aggregator::build, dependency policies), graph.hh, parameters.hh (defaults),
renumberer.hh, indicescoarsener.hh, globalaggregates.hh, graphcreator.hh (excluded vertices), transfer.hh, galerkin.hh (sequential and parallel), amg.hh (pre, multiplicative and additive cycle, in parallel without redistribution, setup of the smoothers; the life of sequential objects), matrixhierarchy.hh (sequential; one coarsening step in parallel), hierarchy.hh, twolevelmethod.hh, smoother.hh, kamg.hh, fastamg.hh,
fastamgsmoother.hh; eigenvalue/poweriteration.hh; io.hh (Matlab export, printing, layout of the SVG export); repartition.hh (everything but the calls of (Par)METIS and debug output); matrixredistribute.hh (overlapping category); see section 5 for further files.

Not modelled: templates and overload resolution as such (each theorem is about the generic algorithm), debug output and allocation
failures (except where a property is about them), SIMD lanes, floating point rounding, the wrapper of ARPACK++
(arpackpp.hh) and the libraries behind the CHOLMOD, UMFPACK, LDL, SuperLU and SPQR wrappers of C63, C77, C78, C79 and C81 (they are parameters), MPI, ParMETIS,
the construction of RemoteIndices and the message protocol of IndicesSyncer in dune-common, Python bindings.

Assumed about dune-common: FieldMatrix/FieldVector/DynamicMatrix arithmetic is the mathematical one and their inversion throws FMatrixError for
singular matrices; ParallelIndexSet is a set of (global, local, attribute) triples ordered by global index; RemoteIndices / Interface /
BufferedCommunicator send to each neighbour the values of the indices whose attributes are in the source set here and in the destination set
there; ParameterizedObjectFactory is a map from keys to creators; std::map, std::set, std::lower_bound, std::sort behave as specified.

Known mismatches between code and model that no theorem depends on are mentioned in the comment of the definition concerned.

## 4. Trusted base

* The kernel of Coq 8.16.1 (coqc), and the standard library's definitions. No OCaml plugin, no kernel flag is changed.
* The axioms `Print Assumptions` lists for each theorem: section 6. They all belong to Coq's standard library: the axioms of the real
  numbers (`ClassicalDedekindReals.sig_forall_dec`, `ClassicalDedekindReals.sig_not_dec`) and `functional_extensionality_dep`, used only by the
  theorems over the reals. Everything else is closed under the global context. A checker that looks at loaded libraries rather than at theorems also sees
  `Classical_Prop.classic` (loaded with Reals) and the parameters of `Coq.ssr.ssrunder` (loaded with ssreflect by micromega/setoid tactics); no theorem uses them.
* No axiom, `Parameter`, `Admitted` or functor is added by this development.
* The correspondence between /repo and the model, which is by reading: the code was not compiled or run. seeded/LOG.jsonl records which wrong
  programs (mutants of the model) the theorems reject.

### Findings

Behaviour of the code that contradicts what a user would expect, each a theorem `_refuted` (section 5 counts them per property, the text of the
property explains them): among others sharing of index arrays after copying matrices with oversized rows (C06, C07), stale counts after
setSize (C45), double counting in nonoverlapping operators with the default masks (C46), MINRES mixing two norms (C51), dynamic relaxation of
overlapping Schwarz (C55), ILU(2) of a symmetric matrix not being symmetric (C56), the eigenvalue algorithms' silent NaN and the stale
iteration matrix (C57).

Observed while reading, not modelled: coldim(A,c) scans j_[0..nnz_), wrong for shrunk random rows; ScaledIdentityMatrix::frobenius_norm2 of
complex fields does not compile; MatrixIndexSet::exportIdx onto an implicit-mode target throws and drops columns >= cols(); BCCSMatrix::operator= and
free leave dangling pointers; the condition `overlapCount = 0 ? 1 : overlapCount` in repartition.hh; ILUNSubdomainSolver::setSubMatrix calls
an unqualified base member.

## 5. Per property: what is modelled, how it is proved

The status of every property is in MANIFEST.json; "deviations" are theorems named `_refuted`.

| id | property | files (rocq/theories) | model and proof method | theorems / deviations |
|---|---|---|---|---|
| C01 | Random build mode stores exactly the added pattern (proved) | BcrsProps | BCRSMatrix object = build stage + shared index array + rows as windows (offset, size); random mode calls setrowsize/incrementrowsize/endrowsizes/addindex/endindices as state transformers; invariant over every call sequence | 2 / 1 |
| C02 | Build-phase calls out of order throw and change nothing (proved) | BcrsFinal | same object; every call in every stage; exceptions leave the state | 2 / 1 |
| C03 | Row-wise build mode stores exactly the inserted pattern (proved) | BcrsFinal | CreateIterator steps with insertion into a sorted row; invariant over the rows created so far | 3 / 1 |
| C04 | Implicit build mode: entry() accumulates, compress() preserves (proved) | BcrsImplicitProps | entry() with the overflow map, compress() as two cursors over one array; loop invariant on consumed/produced prefixes; merge with sorted overflow | 2 / 2 |
| C05 | Element lookup agrees with the stored pattern (proved) | BcrsFinal | lower_bound on the row window; invariant of reachable objects | 1 / 0 |
| C06 | Copies are equal to and independent of their source (proved) | BcrsFinal | copy constructor and assignment with the shared index array and allocation windows; row windows into the index array, own arrays of rows after copying; later modifications of either object | 2 / 1 |
| C07 | Scalar scaling reaches every stored entry and nothing else (proved) | BcrsFinal | loops of operator*=, /= and = over the value array; theorem for compact matrices, deviation for rows that were shrunk | 1 / 1 |
| C08 | setSize gives a fresh matrix (proved) | BcrsFinal | setSize from every stage | 3 / 1 |
| C09 | Matrix-vector products equal the mathematical ones (proved) | MatVec | row loops of mv/umv/mmv/usmv/mtv/umtv/mhv... over an arbitrary noncommutative ring with involution; finite sums | 3 / 0 |
| C10 | In-place addition, subtraction and axpy of matrices (proved) | MatVec | iterator loops of +=, -=, axpy; dense meaning | 2 / 0 |
| C11 | MatrixIndexSet collects exactly the added positions (proved) | IndexSet | rows as FlatSet (sorted array) with switch to a tree; import/export | 3 / 0 |
| C12 | BlockVector keeps its window and storage in step (proved) | BVector | heap of vectors with (pointer, size, capacity, window); invariant over call histories | 2 / 0 |
| C13 | Triangular block solves solve the triangular system (proved) | Gs, GsSingular | recursion over rows; block levels by ring instances; finite sums | 4 / 0 |
| C14 | Jacobi, Gauss-Seidel and SOR sweeps (proved) | Gs, GsSingular | dbjac/dbgs/bsorf/bsorb loops; each sweep characterised by its splitting equation | 3 / 1 |
| C15 | ILU(0) reproduces the matrix on its pattern (proved) | Ilu | triple cursor loop of blockILU0Decomposition; invariant L U = A on the pattern for the finished rows | 2 / 0 |
| C16 | ILU(n) fill pattern and factorisation (proved) | Ilun | levels computed in the std::map; equality with the level-of-fill recursion; factorisation on that pattern | 3 / 2 |
| C17 | ILU back-substitution inverts LU, both storage forms agree (proved) | IluSolve | both back substitutions; L U v = d; refinement between the row and the CRS form | 2 / 2 |
| C18 | DILU (proved) | Dilu | row loop; diagonal recursion | 2 / 0 |
| C19 | ILDL (proved) | Ildl | column-wise row merges; L D L^H = A on the pattern | 4 / 0 |
| C20 | Sparse matrix products (proved) | MatMat | pattern closures and value accumulation; three product variants and transposes | 3 / 1 |
| C21 | Block tridiagonal solve (proved) | BTD | Thomas recursion; induction over rows | 2 / 1 |
| C22 | Block diagonal solve and invert (proved) | BTD, BTDStruct | diagonal loops; construction/resizing state machine | 5 / 1 |
| C23 | Conversion to column-compressed form keeps every entry (proved) | Bccs | counting, colstart, copy loops; permutation of (row, column, value) triples; row subsets | 2 / 0 |
| C24 | MatrixMarket write/read round trip (proved) | MatrixMarket | writer emits tokens, reader parses lines; round trip by induction; malformed files | 9 / 6 |
| C25 | Matrix dimension queries (proved) | MatUtils | loops of rowdim/coldim/countNonZeros; 64 bit wrap-around explicit | 7 / 3 |
| C26 | Iteration control: iteration bound and truthful result (proved) | Solvers, Gmres | IterativeSolver::Iteration as a state object; every solver loop; bounds and flags | 8 / 1 |
| C27 | The rhs vector returned by the solvers is the true residual (proved) | Solvers | loops over an abstract vector space with a stateful preconditioner; b = b0 - A x invariant | 5 / 1 |
| C28 | GMRES: the reported defect is the residual norm of the returned iterate (proved) | GmresReal, Gmres, GmresEx | full Arnoldi/Givens loop with least squares back substitution; QR invariant | 4 / 4 |
| C29 | Plane rotations (proved) | Rotations | real and complex case analysis with sqrt | 7 / 0 |
| C30 | Parallel scalar product equals the sequential one (proved) | ParOps | sum over owners; permutation of reductions | 2 / 2 |
| C31 | copyOwnerToAll makes vectors consistent for every message order (proved) | ParComm | processes, local to global maps, interfaces, messages; every delivery order | 3 / 0 |
| C32 | addOwnerCopyToOwnerCopy / addOwnerOverlapToAll sum contributions exactly once (proved) | ParComm | the same, with addition | 2 / 0 |
| C33 | Overlapping Schwarz operator applies the global operator (proved) | ParOps | local mv, project, copyOwnerToAll; global operator | 2 / 0 |
| C34 | Aggregation AMG transfer and Galerkin product (proved) | AmgTransfer, AggPattern, Aggregation | prolongation/restriction loops, Galerkin accumulation; R = P^T, coarse = P^T A P | 6 / 0 |
| C35 | Aggregates renumbering (proved) | AggPattern | graph search and renumbering; each aggregate one consecutive number | 2 / 1 |
| C36 | Multigrid / two-level cycle keeps defect and update in step (proved) | Amg | recursive cycle with level iterators as a zipper; refinement to the textbook cycle; symmetry; two-level method | 3 / 2 |
| C37 | Factory and registry look-up (proved) | Factory | registry as a tag list, factory as a map built by static initialisation order | 4 / 2 |
| C38 | Dense Matrix operations (proved) | Dense | row-major array with window; every operation | 8 / 4 |
| C39 | VariableBlockVector blocks partition the storage (proved) | VBVector | window list over one block array; histories of resize/assign/copy | 1 / 2 |
| C40 | ScaledIdentityMatrix behaves as p*I (proved) | ScaledId | direct, plus diagonal iterators | 7 / 0 |
| C41 | MultiTypeBlockMatrix / MultiTypeBlockVector act as block matrix / vector (proved) | MultiType | heterogeneous tuples as lists of blocks with sizes | 6 / 0 |
| C42 | flatVectorForEach / flatMatrixForEach enumerate scalar entries with consecutive flat indices (proved) | Foreach | recursion over block structure; flat indices | 3 / 2 |
| C43 | Preconditioner apply computes the documented linear map (proved) | Precond | preconditioner objects built on C14-C19; linear map computed by apply | 8 / 0 |
| C44 | Solver construction checks categories (proved) | Solvers | constructor checks as outcomes | 3 / 0 |
| C45 | Read-only queries do not influence later behaviour (proved) | BcrsQueries, BcrsFinal | every const query on every reachable object; simulation between histories with and without queries | 5 / 3 |
| C46 | NonoverlappingSchwarzOperator applies the global operator (proved) | Novlp | owner/copy processes, double counting masks; sum over processes | 2 / 1 |
| C47 | Building the aggregates (proved) | Aggregation | Aggregator::build with the front, isolated vertices, distance limits; each vertex in exactly one aggregate or isolated; connectivity | 2 / 4 |
| C48 | FastAMG applies the V-cycle (proved) | FastAmg | presmooth with residual, recursion; refinement to the V-cycle | 4 / 3 |
| C49 | Norms propagate NaN and otherwise return the mathematical value (proved) | Norms | values in a type with NaN/inf as in IEEE 754; loops with and without has_nan specialisation | 5 / 3 |
| C50 | Conjugate gradients computes the Krylov space minimiser (proved) | CgExact | conjugacy and orthogonality invariants; minimisation over the Krylov space | 4 / 0 |
| C51 | MINRES returns the minimiser of the preconditioned residual over the Krylov space (proved) | Minres, MinresReal | Lanczos + rotations; minimisation of the preconditioned residual | 6 / 1 |
| C52 | BiCGSTAB is the stabilised bi-orthogonal method: Krylov membership, bi-orthogonality, local minimisation, exact termination (proved) | Bicgstab | polynomial representation of iterates; bi-orthogonality | 3 / 0 |
| C53 | Flexible CG solvers: conjugate directions, optimal steps, same iterates as CG and as each other (proved) | Fcg, FcgExact | ring buffer of directions, restart; conjugacy; agreement with CG | 9 / 3 |
| C54 | GMRes and FGMRes minimise the residual over the Krylov space of the cycle (proved) | GmresReal | Arnoldi basis of the Krylov space, least squares optimum | 4 / 0 |
| C55 | Sequential overlapping Schwarz computes what its mode promises (proved) | SeqSchwarz | subdomain lists, local solves, additive / multiplicative / symmetric modes; sums of local corrections | 13 / 1 |
| C56 | The preconditioners conjugate gradients needs to be symmetric are symmetric (proved) | Adjoint, SymPrecond | adjoint of a sweep composition; LU with U = D L^H | 4 / 1 |
| C57 | Eigenvalue algorithms (power, inverse, Rayleigh quotient, TLIME) (proved) | PowerIter, PowerIterEx | loops with NaN outcome over a Euclidean space; loop invariants, Cauchy-Schwarz, spectral sums, limits | 13 / 7 |
| C58 | Distributed MatrixMarket files give every process its own data back (proved) | MarketParallel | character-level streams with eof/fail bits and a file system; induction over lines and neighbours, last-writer-wins lemma over any permutation of the writes | 9 / 5 |
| C59 | The AMG setup builds the Galerkin hierarchy, within the configured bounds, and AMG::apply cycles over exactly that hierarchy (proved) | AmgSetup | AmgSetup.v: the level loop of build over the models of buildAggregates (Aggregation.v), the pattern builder and the Galerkin product (AggPattern.v, AmgTransfer.v); induction over the remaining levels with the invariant square + symmetric pattern, using C47_coarsen for each step. The specification (hierarchy_of, shrinks, stops) is a predicate on the list of levels. AMG::apply is reached by showing hier_ok/shape (C36). recalculateGalerkin by induction with C34_galerkin, uniqueness by extensionality of sorted rows. getCoarsestAggregatesOnFinest: random drawing with explicit stream and fuel, prolongation by C34_prolongate. | 13 / 3 |
| C60 | Amg::Hierarchy behaves like a list of levels, also for copies and for iterators that outlive the hierarchy (proved) | HierarchyCont | HierarchyCont.v: machine with a heap of elements, weak/shared pointers and liveness by reachability; specification machine of plain lists; forward simulation (relation: the element ids of every list, linked in both directions) over all operations, and an invariant on the specification machine for the copy. | 2 / 1 |
| C61 | Strength of connections: what the AMG criteria mark (proved) | Strength | Strength.v: the three policies as records of member functions with their state, buildDependency as the two passes over each row and the edge loop with its column iterator. Proof: edge_loop is a fold over the off-diagonal entries (edge_loop_fold), the running maximum is characterised by max_spec, marks are tracked by the relation `marked`; rows_marks accumulates over the rows. | 11 / 3 |
| C62 | AMG graphs: edge descriptors, subgraphs and properties (proved) | Graphs | Graphs.v: start array, edge iterator as a walk over the rest of the row with the skip of the diagonal, findEdge with wrap-around; SubGraph constructor as the loop filling start_, end_, edges_; properties as vectors indexed by descriptors, histories of writes. Proof by induction over the (sorted) rows, closed forms for the arrays (loop_ok), and a simulation between vectors and functions for the properties. | 8 / 3 |
| C63 | Cholmod: the matrix handed over and the solution taken back (proved) | Cholmod | Cholmod.v on top of Foreach.v (the calls of flatMatrixForEach): setMatrix as the counting, prefix-sum and filling loops with out-of-bounds accesses as UB, apply as the two copying traversals; the state keeps the index map and counts unreleased factors. Proof: the calls are row-wise increasing (fmfe_sorted, by induction on the nesting); the arrays hold the picked entries row by row (countLoop_ok, accumulate_ok, fillLoop_ok); dofs are numbered by rank, an order isomorphism between the kept dofs and [0,N). | 6 / 3 |
| C64 | KAMG: the Krylov cycle (proved) | KAmg | KAmg.v: ksolvers as a list whose elements refer to earlier ones by index, pre() as the loop from the coarsest level; apply as a recursion over the levels below the shared context, running the Krylov program against the stored vectors. Proof: kpre_entry locates the element for each level; tg_ok by induction over the levels, with krun_ok (running against state = evaluating) for every program; C64_gamma_cycle by induction over levels and steps. | 4 / 3 |
| C65 | Matlab export of matrices and vectors (proved) | IoMatlab | Model (IoMatlab.v): nested matrices with values over the size queries of C25; colOffset prefix sums modulo 2^64, conversion to int, the loops of writeMatrixToMatlabHelper. Proof: by induction on the nesting, the calls of the loops over block rows and columns are exactly the stored scalars shifted by the offsets, disjoint by the partition lemmas of C42. | 2 / 3 |
| C66 | Pretty printing of vectors and matrices (proved) | IoPrint | Model (IoPrint.v): a stream with flags, precision, width and output tokens; the printers produce lists of stream operations. Proof: the counter modulo columns cuts the entries into pieces (spec cut); print_row by induction on the nesting gives the cells of a scalar row; the while loop of printSparseMatrix by induction on the pieces, non-termination for width <= 0 for every fuel. | 3 / 3 |
| C67 | Repartitioning: the new distribution (proved) | Repartition | Model (Repartition.v): the vectors and sets of buildCommunication per process, messages in an arbitrary order of arrival, the resulting index set, interface lists and neighbour ranks. Proof: the owners received are a permutation of the moving owners, sorting makes the result independent of the order; mergeVec is set difference of sorted lists; the interface lists coincide with the owner-owner interface of Parallel.v. rp_run is a run with three processes. | 5 / 2 |
| C68 | Redistribution of matrices and vectors (proved) | Redistribute | Model (Redistribute.v): the three communications of redistributeMatrix (row sizes, pattern, values) as loops over the messages in any order, pattern as vector of sets, values possibly uninitialised, then the Dirichlet rows. Proof: every communication is one loop over the list of arriving items (the receiver cuts the messages with the row sizes of the first communication); writes to one place all carry the same value because owners are unique. Products: the entries of old and new row, in global numbers, are permutations of each other. Backward redistribution is forward redistribution with exchanged index sets. | 4 / 3 |
| C69 | graphRepartition: the graph given to ParMETIS and what is made of its answer (proved) | RepartPrep | Model (RepartPrep.v): fillIndexSetHoles (maximum over all processes, offsets by prefix sums), the two passes of ParmetisDuneIndexMap with the communication of C31, the loop of getAdjArrays with explicit array bounds, getDomain with its ring of column messages, the greedy loop and the list of free ranks, and the loop that writes setPartition. Proof: prefix sums; numbers are vtxdist[p] plus the rank among the owned local vertices; the greedy loop has an invariant (assigned so far is injective, nobody better was free); the partition vector inherits agreement of copies from copyOwnerToAll (C31_in_place). | 9 / 2 |
| C70 | commGraphRepartition and isValidGraph (proved) | CommGraph | Model (CommGraph.v): neighbour lists as increasing lists of ranks, adjncy filled with explicit bounds, gathered arrays as concatenations, the in-place shift of gxadj, isValidGraph with explicit reads. Proof: invariant of the shift (entries up to i are prefix sums, entries 2k+1 for k>=i untouched); isValidGraph equals a conjunction over the segments; legality as in C69. | 4 / 1 |
| C71 | SOR, SSOR and AMG are positive definite preconditioners for positive definite matrices (proved) | AmgSpd | AmgSpd.v: the energy identity of one SOR step (Ostrowski-Reich) by algebra on one row, summed over a sweep by induction; strictness because the entry updated first with nonzero residual moves. AMG: quadratic forms of the cycle by induction over the levels (cycle_forms): Galerkin products of definite matrices are definite since no aggregate is empty (C47_coarsen, covers) and prolongation is injective; the recursion over gamma is the even/odd power identity T_even/T_odd. The refuted parts by computation over the rationals. | 2 / 3 |
| C72 | CGSolver and LoopSolver with SSOR, SOR or AMG solve every positive definite system (proved) | SpdSolve | SpdSolve.v: vectors of length n as a vector space (subset type), the matrix product of C09 as operator, C71 for the preconditioners; CG by C50 (Galerkin, optimality), finite termination because n+1 vectors of length n are dependent (Gaussian elimination, induction on n) so the Krylov space stops growing, and the iteration control does not change when the limit is raised after convergence. LoopSolver by an invariant over the iterations. AMG::pre: induction over the rows. | 5 / 0 |
| C73 | Parallel coarsening gives a consistent coarse level on all processes (proved) | ParCoarsen | ParCoarsen.v: the sweep with breadth first search of C35 with a renumberer carrying global index, attribute and public flag (invariant: it knows one of the vertices seen); the attribute vector as a fold; IndicesSyncer as a fold over messages in arbitrary order; the communication of C31 run on the maps seen through GlobalAggregatesMap; periodic renumbering modulo the number of values of the vertex type. | 8 / 4 |
| C74 | The parallel AMG hierarchy represents iterated global Galerkin products (proved) | ParGalerkin | ParGalerkin.v: the sweep of C34 with the list of overlap vertices, sorted by aggregate in any order within an aggregate (Permutation and StronglySorted); invariant of the second loop: the rows up to the iterator are complete and the list holds the vertices of the others. Values: C34 on each process, the communication of C31 for the diagonal, local sums rewritten as global sums by re-indexing over the index set. The hypotheses of both come from C73 (maps with the same partition have the same lowest vertices); levels is an inductive relation, induction over it. | 7 / 3 |
| C75 | The parallel multigrid cycle computes the global one (proved) | ParAmg | ParAmg.v: the programs of all processes together as sets of outcomes with a bind; pok m Q says that m can run, never fails and all results satisfy Q. Simulation: the invariant is that the right hand side represents a global residual (right at owners, zero at copies) and update and left hand side are consistent vectors; each operation preserves it (C09, C31, C74), induction over smoothing steps, gamma and levels. The global cycle is defined independently on functions of global indices. | 5 / 2 |
| C76 | The additive multigrid cycle is the sum of the corrections of all levels and a CG preconditioner (proved) | Additive, ParAdditive | Additive.v: three passes over the levels (restrict, correct, prolongate) with invariants that say what the vectors hold; addcycle is the closed formula. Symmetric positive definite: induction over the levels from build_loop_ok and hierarchy_spd (C71), the transfer operators are adjoint, Jacobi's correction solves D v = w d. CG: C72. ParAdditive.v: the same invariants for consistent and defect representations with the lemmas of C75. | 5 / 3 |
| C77 | The UMFPACK wrapper: what is factorised, who owns what, and when apply may be called (proved) | Umfpack | Umfpack.v: pointers as a four-valued type (uninitialised, null, dangling, live), so that every delete or library call on a wrong pointer is undefined behaviour in the model; the invariant [holds] ties the pointer state and the contents of the arrays to what the client knows (nothing, empty system, k x k system, file); induction over the history. Arrays: the calls of flatMatrixForEach are sorted by row in every column, and the three loops are a bucket sort (lemmas of C63); index sets through C23. | 5 / 6 |
| C78 | The LDL wrapper: what is factorised, in which order the factors are used, who owns what (proved) | Ldl | Ldl.v: one pointer state per array, delete and new on lists of arrays, an invariant between pointers, arrays and what the client knows, induction over the history (as C77). That the five calls of apply solve the system is algebra over any ring: reindexing by the permutation and exchanging sums. Whole matrices through C23_copyToBCCSMatrix, index sets through C77's copySubset_entry. | 4 / 5 |
| C79 | The SuperLU wrapper: what is factorised, who owns what, and when apply may be called (proved) | Superlu, Ldl | Superlu.v: as C77 and C78; ten pointer members with one state each (B.Store and X.Store depend on the flags first and reusevector), the invariant ties them to what the client knows, induction over the history for every constructor. | 2 / 7 |
| C80 | AMG objects over their life: copies, changed matrices, recalculateHierarchy, pre, apply and post in any order (proved) | AmgLife | AmgLife.v: a heap of matrices, shared parts, vectors and objects, one step function per member; the cycle with the convergence flag by induction over the levels (C36 gives the cycle itself); an invariant ties the heap to what the client knows (values at construction and at the last recalculation), every hierarchy is determined by its finest matrix and its aggregates; induction over the history. C59 and C72 give build and pre. | 6 / 4 |
| C81 | The SPQR wrapper: which system is solved, in which sense, and what happens to its memory (proved) | Spqr | Spqr.v: as C77-C79 for rectangular systems; the arrays of C23 are shown to denote the scalar matrix; least squares from A E = Q R with orthogonal Q (the residual in the basis of the columns of Q vanishes above the rank, R below it); induction over the history. | 4 / 6 |
| C82 | Overlapping Schwarz with direct subdomain solvers: all local matrices assembled in one sweep (proved) | DirectSchwarz | DirectSchwarz.v: the passes over rows and entries hand each item to the subdomains of its row; projected onto one subdomain a pass is the pass of BCCSMatrixInitializer over that subdomain alone (the map from global to local indices is the position in the sorted subdomain), so that the arrays are those of C23; then C79 for the objects and C55 for the preconditioner. | 7 / 3 |
| C83 | FastAMG as a preconditioner of symmetric positive definite systems (proved) | FastAmgSpd | FastAmgSpd.v: C48 (FastAMG::apply is the textbook V cycle with one forward and one backward Gauss-Seidel sweep) reduces the statement to the one on cycles of C71: the two sweeps equal one SOR sweep with relaxation factor 1 from zero, which are adjoint and contract; the Krylov and loop solvers as in C72; FastAMG::pre by induction over the rows. | 3 / 1 |
| C84 | SVG export of nested matrices (proved) | IoSvg | IoSvg.v: induction over the depth; per level the offset vectors are computed to be the partial sums of the widths (the fold keeps the first size per index, the minimum over the vector is the least known size since unknown ones hold the largest number), without overflow by monotonicity; reading back the items with a stack of origins gives the picture; distances from the partial sums. | 5 / 2 |

## 6. Print Assumptions of every theorem in MANIFEST.json

* **Closed under the global context** (no axioms): `C01_random_build_pattern`, `C01_random_build_throws`, `C01_nonzeroes_overreports_refuted`, `C02_misuse_throws_and_keeps_matrix`, `C02_exception_keeps_matrix`, `C02_rejected_setSize_destroys_matrix_refuted`, `C03_rowwise_build_pattern`, `C03_contains`, `C03_contains_next_row`, `C03_zero_rows_refuted`, `C04_implicit_build`, `C04_no_overflow_no_exception`, `C04_zero_average_refuted`, `C04_empty_matrix_nonzeroes_refuted`, `C05_lookup_agrees_with_iteration`, `C06_copy_constructor`, `C06_copy_assignment`, `C06_copy_corrupts_source_refuted`, `C07_scaling`, `C07_scaling_after_nonzeroes_refuted`, `C08_setSize_then_random`, `C08_setSize_then_rowwise`, `C08_compress_setSize_then_implicit`, `C08_overflow_survives_setSize_refuted`, `C09_products`, `C09_transposed_products`, `C09_conjugate_transposed_products`, `C10_matrix_arithmetic`, `C10_missing_entry_throws`, `C11_collects_positions`, `C11_import`, `C11_export`, `C12_contents`, `C12_strong_guarantee`, `C13_triangular_solves`, `C13_relaxed_triangular_solves`, `C13_nested_triangular_solves`, `C13_singular_diagonal`, `C14_sweeps`, `C14_fixed_point`, `C14_singular_diagonal`, `C14_nested_step_moves_solution_refuted`, `C15_ilu0`, `C15_missing_diagonal_throws`, `C16_ilun`, `C16_low_levels`, `C16_complete`, `C16_level2_excess_refuted`, `C16_level2_missing_refuted`, `C17_backsolve`, `C17_crs_agrees`, `C17_convert_zero_rows_refuted`, `C17_convert_reused_refuted`, `C18_dilu`, `C18_backsolve`, `C19_ildl`, `C19_ildl_symmetric`, `C19_backsolve`, `C19_missing_diagonal_throws`, `C20_matMultMat`, `C20_transposeMatMultMat`, `C20_matMultTransposeMat`, `C20_zero_rows_refuted`, `C21_btd_solve`, `C21_btd_solve_regular`, `C21_empty_refuted`, `C22_bd_solve`, `C22_bd_invert`, `C22_new_pattern`, `C22_setSize_pattern`, `C22_setSize_throws_refuted`, `C22_default_and_copies_cannot_resize`, `C23_copyToBCCSMatrix`, `C23_copySubset`, `C24_read`, `C24_describes_unique`, `C24_read_filled`, `C24_matrix_roundtrip`, `C24_vector_roundtrip`, `C24_vector_reject`, `C24_real_words`, `C24_banner`, `C24_banner_roundtrip`, `C24_no_rows_refuted`, `C24_symmetric_diagonal_refuted`, `C24_partial_blocks_refuted`, `C24_tall_blocks_assert_refuted`, `C24_complex_words_refuted`, `C24_banner_default_refuted`, `C25_countNonZeros`, `C25_rowdim`, `C25_coldim`, `C25_rowdim_at`, `C25_coldim_at`, `C25_check_diagonal`, `C25_check_level0`, `C25_empty_row_refuted`, `C25_empty_column_refuted`, `C25_check_unchecked_refuted`, `C26_loop`, `C26_gradient`, `C26_cg`, `C26_bicgstab`, `C26_minres`, `step_aborts`, `C26_apply4`, `C26_apply4_restore_refuted`, `C26_gmres`, `C27_loop`, `C27_gradient`, `C27_cg`, `C27_bicgstab`, `C27_minres`, `C27_minres_refuted`, `C28_terminates`, `C28_restart0_refuted`, `C28_stale_restart_refuted`, `C28_reduction_argument_refuted`, `C28_breakdown_refuted`, `C30_global_sum`, `C30_dot`, `C30_complex_dot_refuted`, `C30_stale_mask_refuted`, `C31_safe`, `C31_copyOwnerToAll`, `C31_in_place`, `C32_addOwnerCopyToOwnerCopy`, `C32_addToAll`, `C33_overlapping_apply`, `C33_apply_and_sync`, `C34_prolongate`, `C34_restrict`, `C34_galerkin`, `C34_pattern`, `C34_galerkin_product`, `C47_coarsen`, `C35_renumber`, `C35_bijective`, `C35_disconnected_refuted`, `C36_amg`, `C36_two_level`, `C36_symmetric`, `C36_sticky_flag_refuted`, `C36_one_level_refuted`, `C37_lookup`, `C37_passed_preconditioner`, `C37_calls_independent`, `C37_passed_preconditioner_stays_refuted`, `C37_registry_get`, `C37_duplicate_names_refuted`, `C38_history`, `C38_alloc_failure_refuted`, `C38_products`, `C38_transposed_products`, `C38_transpose`, `C38_product`, `C38_arithmetic`, `C38_iteration`, `C38_no_columns_refuted`, `C38_exists`, `C38_exists_refuted`, `C38_transpose_blocks_refuted`, `C39_history`, `C39_zero_blocks_refuted`, `C39_resize_keeps_sizes_refuted`, `C40_products`, `C40_algebra`, `C40_solve`, `C40_frobenius`, `C40_row_sums`, `C40_determinant`, `C40_to_dense`, `C41_products`, `C41_transposed_products`, `C41_vector_arithmetic`, `C41_vector_sums`, `C41_frobenius`, `C41_matrix_arithmetic`, `C42_vector`, `C42_matrix`, `C42_dimensions_unique`, `C42_no_columns_refuted`, `C42_no_rows_refuted`, `C43_sweeps_linear`, `C43_jac`, `C43_sor`, `C43_ssor`, `C43_richardson`, `C43_ilu`, `C43_dilu`, `C43_ildl`, `C44_two_args`, `C44_three_args`, `C44_config`, `C45_query_unnoticed`, `C45_setSize_forgets`, `C45_finished`, `C45_query_twice`, `C45_nonzeroes_keeps_view`, `C45_nonzeroes_breaks_random_build_refuted`, `C45_stale_count_refuted`, `C46_apply`, `C46_double_count_refuted`, `lowest_rank_one_sided`, `C47_build`, `C47_min_gt_max_refuted`, `C47_max_size_refuted`, `C47_merge_isolated_refuted`, `C47_one_count_refuted`, `C48_presmooth`, `C48_postsmooth`, `C48_presmooth_defect`, `C48_fastamg`, `C48_gamma_iterative_refuted`, `C48_wcycle_refuted`, `C48_block_symmetric_refuted`, `C49_infinity_norm`, `C49_exact_norms`, `C49_sum_norms_nan`, `C49_frobenius_nan`, `C49_matrix_infinity_norm`, `C49_spurious_nan_refuted`, `C49_two_large_entries_refuted`, `C49_multitype_drops_nan_refuted`, `C50_cg_galerkin`, `C50_cg_optimal`, `C50_cg_terminates`, `C50_gradient`, `C51_minres`, `C51_minres_optimal`, `C51_minres_exact`, `C51_minres_total`, `C51_mixed_norms_refuted`, `C52_bicgstab`, `C52_terminates`, `C52_local_minimum`, `C53_fcg_reports`, `C53_fcg_terminates`, `C53_gpcg_terminates`, `C53_fcg_conjugate`, `C53_fcg_optimal`, `C53_fcg_exact_hit`, `C53_fcg_galerkin`, `C53_fcg_is_cg`, `C53_gpcg_is_fcg`, `C53_fcg_mmax0_refuted`, `C53_gpcg_restart1_refuted`, `C53_fcg_abort_refuted`, `C55_additive`, `C55_multiplicative`, `C55_multiplicative_dynamic`, `C55_total`, `C55_on_the_fly`, `C55_solution_stays`, `C55_exact`, `C55_symmetric`, `C55_local_matrix`, `C55_ilu0`, `C55_ilu0_hermitian`, `C55_dynamic`, `C55_rows_to_domains`, `C55_dynamic_relax_refuted`, `C56_symmetric`, `C56_ilu`, `C56_dilu`, `C56_ildl`, `C56_ilu2_refuted`, `C58_split_filename`, `C58_names_distinct`, `C58_index_roundtrip`, `C58_store_load`, `C58_store_load_seq`, `C58_store_load_int`, `C58_local_file`, `C58_errors`, `C58_wrong_word`, `C58_truncated_refuted`, `C58_truncated_neighbours_refuted`, `C58_final_newline_refuted`, `C58_same_name_refuted`, `C58_stale_file_refuted`, `C59_build`, `C59_geometric`, `C59_strict`, `C59_symmetric`, `C59_amg`, `C59_recalculate`, `C59_unique`, `C59_recalculate_again`, `C59_symmetric_amg`, `C59_coarsest_on_finest`, `C59_coarsest_same`, `C59_coarsest_ends`, `C59_coarsest_isolated_refuted`, `C59_coarsest_single_refuted`, `C59_destroy`, `C59_destroy_unbuilt_refuted`, `C60_refines`, `C60_copy`, `C60_assign_refuted`, `C61_symmetric`, `C61_unsymmetric`, `C61_symmetric_matrix`, `C61_zero_diagonal`, `C61_symmetric_connected`, `C61_unsymmetric_connected`, `C61_scaling`, `C61_row_scaling`, `C61_closure`, `C61_hierarchy`, `C61_parameters`, `C61_unsymmetric_norms_refuted`, `C61_isolated_strong_refuted`, `C61_symmetric_matrix_refuted`, `C62_iteration`, `C62_descriptors`, `C62_noEdges`, `C62_find`, `C62_properties`, `C62_matrix_properties`, `C62_subgraph`, `C62_subgraph_of_matrix`, `C62_find_refuted`, `C62_find_self_refuted`, `C62_empty_refuted`, `C63_matrix`, `C63_solve`, `C63_ready`, `C63_nothing`, `C63_rejects`, `C63_no_leak`, `C63_leak_refuted`, `C63_stale_none_refuted`, `C63_stale_ignore_refuted`, `C64_kcycle`, `C64_loop_fits`, `C64_gamma_cycle`, `C64_single_level`, `C64_growth_refuted`, `C64_single_level_refuted`, `C64_divergence_refuted`, `C65_matrix`, `C65_vector`, `C65_no_columns_refuted`, `C65_empty_column_refuted`, `C65_empty_row_refuted`, `C66_vector`, `C66_matrix`, `C66_sparse`, `C66_columns_zero_refuted`, `C66_sparse_width_refuted`, `C66_empty_column_refuted`, `C67_index_set`, `C67_interface`, `C67_partition`, `C67_neighbours`, `C67_neighbours_symmetric`, `C67_no_owner_refuted`, `C67_shared_refuted`, `C68_matrix`, `C68_repartitioned`, `C68_vector`, `C68_vector_back`, `C68_overlap_refuted`, `C68_empty_row_refuted`, `C68_unbuilt_refuted`, `C69_holes`, `C69_numbering`, `C69_bijection`, `C69_graph`, `C69_graph_edges`, `C69_domains`, `C69_graphRepartition`, `C69_balance`, `C69_partition_respected`, `C69_partition_refuted`, `C69_my_domain_refuted`, `C70_graph`, `C70_assert`, `C70_legal`, `C70_isValidGraph`, `C70_bound_refuted`, `C71_sweeps`, `C71_amg`, `C71_default_damping_refuted`, `C71_jacobi_refuted`, `C71_even_damping_refuted`, `C72_cg`, `C72_loop`, `C72_pre`, `C72_sor`, `C72_amg`, `C73_index_set`, `C73_runs`, `C73_coarse_level`, `C73_attribute`, `C73_publish_safe`, `C73_publish`, `C73_publish_copy`, `C73_periodic`, `C73_lowest_global_refuted`, `C73_gmax_refuted`, `C73_periodic_isolated_refuted`, `C73_periodic_twice_refuted`, `C74_pattern`, `C74_calculate`, `C74_restrict`, `C74_prolongate`, `C74_apply`, `C74_step`, `C74_hierarchy`, `C74_owned_number_refuted`, `C74_gap_refuted`, `C74_overlap_row_refuted`, `C75_apply`, `C75_throws`, `C75_single_level_refuted`, `C75_block`, `C75_block_deterministic`, `C75_consensus`, `C75_overlap_defect_refuted`, `C76_additive`, `C76_spd`, `C76_cg`, `C76_parallel`, `C76_parallel_throws`, `C76_single_level_refuted`, `C76_stationary_refuted`, `C76_stale_guess_refuted`, `C77_matrix`, `C77_history`, `C77_history_file`, `C77_construct`, `C77_no_file`, `C77_failure_refuted`, `C77_loaded_refuted`, `C77_free_refuted`, `C77_hollow_leak_refuted`, `C77_construct_leak_refuted`, `C77_not_square_refuted`, `C78_matrix`, `C78_history`, `C78_throws`, `C78_construct`, `C78_failure_refuted`, `C78_ordering_refuted`, `C78_sizes_refuted`, `C78_empty_refuted`, `C78_hollow_leak_refuted`, `C79_history`, `C79_failure_refuted`, `C79_memory_refuted`, `C79_not_square_refuted`, `C79_empty_row_refuted`, `C79_free_refuted`, `C79_arrays_refuted`, `C79_hollow_leak_refuted`, `C80_apply`, `C80_history`, `C80_amg`, `C80_determined`, `C80_memory`, `C80_recalculated`, `C80_protocol_refuted`, `C80_direct_refuted`, `C80_stale_coarse_solver_refuted`, `C80_mixed_refuted`, `C81_history`, `C81_matrix`, `C81_submatrix`, `C81_construct`, `C81_freed_refuted`, `C81_unset_refuted`, `C81_sizes_refuted`, `C81_memory_refuted`, `C81_complex_refuted`, `C81_subset_refuted`, `C82_assemble`, `C82_constructors`, `C82_superlu`, `C82_local_solver`, `C82_schwarz`, `C82_schwarz_steps`, `C82_schwarz_exact`, `C82_short_refuted`, `C82_duplicate_refuted`, `C82_empty_domain_refuted`, `C83_fastamg`, `C83_solvers`, `C83_pre`, `C83_default_damping_refuted`, `C84_layout`, `C84_document`, `C84_once`, `C84_disjoint`, `C84_header`, `C84_sizes_refuted`, `C84_empty_refuted` (498 theorems).
* **ClassicalDedekindReals.sig_forall_dec** (all from the standard library): `C57_shift_matrix_refuted` (1 theorems).
* **ClassicalDedekindReals.sig_forall_dec, FunctionalExtensionality.functional_extensionality_dep** (all from the standard library): `C57_operator`, `C57_shift_matrix` (2 theorems).
* **ClassicalDedekindReals.sig_forall_dec, ClassicalDedekindReals.sig_not_dec, FunctionalExtensionality.functional_extensionality_dep** (all from the standard library): `C28_fgmres_residual`, `C28_gmres_residual`, `C29_unit`, `C29_isometry`, `C29_annihilates`, `C29_cutoff`, `C29_unit_complex`, `C29_isometry_complex`, `C29_annihilates_complex`, `C51_rotation`, `C51_minres_real`, `C54_gmres_minimal`, `C54_fgmres_minimal`, `C54_fgmres_any_preconditioner`, `C54_defects_fall`, `C57_power`, `C57_power_converges`, `C57_eigenvalue_near`, `C57_inverse`, `C57_inverse_inexact`, `C57_inverse_converges`, `C57_rqi`, `C57_tlime`, `C57_tlime_no_assert`, `C57_power_example`, `C57_inverse_example`, `C57_zero_start_refuted`, `C57_power_dominant_refuted`, `C57_flag_dropped_refuted`, `C57_stale_matrix_refuted`, `C57_extrnl_refuted`, `C57_leaves_J_refuted` (32 theorems).
