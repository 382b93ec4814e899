{"id": "C01", "title": "Random build mode stores exactly the added pattern", "statement": "After setrowsize/incrementrowsize calls, endrowsizes(), any number of addindex(i,j) calls in any order with repetitions that never throws, and endindices(): iterating row i visits exactly the columns j that were added to row i, each once, in strictly increasing order, and nonzeroes() is the number of distinct added positions unless more nonzeros were preallocated than added (then it reports the preallocated number: proved as a deviation).", "quantifier": "all matrix sizes, all row-size declarations, all finite addindex sequences", "why_tests_cant": "the set of addindex orders and duplicate patterns is infinite; an off-by-one in slot search shows only for particular row fillings", "anchors": ["dune/istl/bcrsmatrix.hh: BCRSMatrix::setrowsize, incrementrowsize, endrowsizes, addindex, endindices, nonzeroes"]}
{"id": "C02", "title": "Build-phase calls out of order throw and change nothing", "statement": "Calling a build method in the wrong build mode or build stage (setrowsize/incrementrowsize/getrowsize/endrowsizes/addindex/endindices outside random mode or out of order, entry()/compress() outside implicit mode or after compress, createbegin on a finished matrix, setBuildMode on an allocated matrix, setSize/access on a matrix with unknown mode) reports BCRSMatrixError (or the documented exception) and leaves the matrix as it was; addindex with a column >= M() throws, adding a new column to a full row throws, and in both cases the stored pattern is unchanged.", "quantifier": "all reachable matrix states and all calls", "why_tests_cant": "needs all (state, call) pairs and all histories reaching the state", "anchors": ["dune/istl/bcrsmatrix.hh: setSize, setBuildMode, setrowsize, endrowsizes, addindex, endindices, entry, compress, CreateIterator"]}
{"id": "C03", "title": "Row-wise build mode stores exactly the inserted pattern", "statement": "Walking CreateIterator from createbegin() to createend() with arbitrary insert(j) calls per row yields a matrix whose row i holds exactly the inserted columns once, increasing; contains(j) answers whether j was inserted into the current row; with a preallocated nnz the walk throws 'allocated nnz too small' exactly if the sum of the row sizes exceeds it. (A matrix with 0 rows cannot be walked: createend() throws; proved as a deviation.)", "quantifier": "all sizes, all insertion sequences, with or without preallocated nonzeros", "why_tests_cant": "infinitely many insertion sequences; the contiguous-storage and per-row-storage variants diverge only on particular sums", "anchors": ["dune/istl/bcrsmatrix.hh: CreateIterator::operator++, insert, contains, size"]}
{"id": "C04", "title": "Implicit build mode: entry() accumulates, compress() preserves", "statement": "In implicit mode, after any sequence of entry(i,j) accesses (each write through the returned reference) compress() either throws ImplicitModeCompressionBufferExhausted or succeeds with a matrix whose pattern is exactly the set of accessed positions, with at each position the last value written through entry(i,j). It succeeds whenever the overflow area is large enough in the documented sense.", "quantifier": "all sizes, all average row sizes >= 1, all overflow fractions, all access sequences", "why_tests_cant": "the in-place left/right compaction is order dependent; buffer exhaustion depends on the prefix sums of row lengths", "anchors": ["dune/istl/bcrsmatrix.hh: implicit_allocate, entry, compress, setImplicitBuildModeParameters"]}
{"id": "C05", "title": "Element lookup agrees with the stored pattern", "statement": "For a finished matrix, exists(i,j) is true iff (i,j) is in the pattern; A[i][j] returns the stored value at (i,j) if it is in the pattern and throws ISTLError otherwise; find(j) returns the matching iterator or end.", "quantifier": "all finished matrices and all (i,j)", "why_tests_cant": "binary search errors appear only for particular row contents", "anchors": ["dune/istl/basearray.hh: compressed_base_array_unmanaged::find, operator[]", "dune/istl/bcrsmatrix.hh: exists, operator[]"]}
{"id": "C06", "title": "Copies are equal to and independent of their source", "statement": "Copy construction and copy assignment of a finished BCRSMatrix give a matrix with the same pattern and values; the source keeps its pattern and values; later changes of values in one do not show in the other. This holds for every build mode, in random mode provided the declared row sizes were used up; without that proviso it is false (copying changes the pattern the source shows; proved as a deviation).", "quantifier": "all finished matrices however they were built", "why_tests_cant": "sharing of the index array between copies makes corruption depend on the build history", "anchors": ["dune/istl/bcrsmatrix.hh: BCRSMatrix(const BCRSMatrix&), operator=, copyWindowStructure, setWindowPointers"]}
{"id": "C07", "title": "Scalar scaling reaches every stored entry and nothing else", "statement": "For a finished matrix A*=k and A/=k multiply/divide every stored value by k and keep the pattern, whatever read-only calls (nonzeroes(), copying) happened before. The one exception is a matrix built row by row without preallocation after its nonzeroes() has been asked for: there scaling always dereferences a null pointer (proved as a deviation).", "quantifier": "all finished matrices, all scalars, all preceding histories of read-only calls", "why_tests_cant": "the implementation chooses between two traversals depending on cached state set by earlier calls", "anchors": ["dune/istl/bcrsmatrix.hh: operator*=, operator/=, nonzeroes"]}
{"id": "C08", "title": "setSize gives a fresh matrix", "statement": "After setSize on a matrix in any state, building again produces only what is built afterwards: no pattern or value of the earlier life of the object shows up. In implicit mode this needs the earlier build to have been completed by compress(); otherwise old overflow entries reappear (proved as a deviation).", "quantifier": "all histories followed by setSize and a new build", "why_tests_cant": "requires all histories before the reset", "anchors": ["dune/istl/bcrsmatrix.hh: setSize, deallocate, allocate, implicit_allocate"]}
{"id": "C09", "title": "Matrix-vector products equal the mathematical ones", "statement": "mv, umv, mmv, usmv, mtv, umtv, mmtv, usmtv, umhv, mmhv, usmhv compute y=Ax, y+=Ax, y-=Ax, y+=aAx, y=A^Tx, y+=A^Tx, y-=A^Tx, y+=aA^Tx and the conjugate-transposed variants, where A is the matrix with the stored entries and zeros elsewhere, for arbitrary (also non-commuting) blocks.", "quantifier": "all sparse matrices, all vectors, all scalars, all block rings", "why_tests_cant": "universally quantified over values and patterns", "anchors": ["dune/istl/bcrsmatrix.hh: mv, umv, mmv, usmv, mtv, umtv, mmtv, usmtv, umhv, mmhv, usmhv"]}
{"id": "C10", "title": "In-place addition, subtraction and axpy of matrices", "statement": "A+=B, A-=B, A.axpy(k,B) give the entrywise result on A's pattern if B's pattern is contained in A's, keep A's pattern, and throw ISTLError if some row of B has an entry that A lacks.", "quantifier": "all pairs of finished matrices", "why_tests_cant": "pattern-mismatch cases are combinatorial", "anchors": ["dune/istl/bcrsmatrix.hh: operator+=, operator-=, axpy", "dune/istl/bvector.hh: compressed_block_vector_unmanaged::operator+=, axpy"]}
{"id": "C11", "title": "MatrixIndexSet collects exactly the added positions", "statement": "After any sequence of add(i,j), rowsize(i) is the number of distinct columns added to row i, size() the number of distinct positions, contents are in increasing order whatever storage (sorted vector or set) is in use, import adds exactly the shifted positions of a matrix, resize keeps the positions of surviving rows, and exportIdx builds a matrix with exactly the collected positions, provided all columns are < cols() and the target matrix is not in implicit build mode.", "quantifier": "all add sequences, all maxVectorSize thresholds, all sizes", "why_tests_cant": "switching storage kind at a threshold depends on insertion history", "anchors": ["dune/istl/matrixindexset.hh: MatrixIndexSet::add, size, rowsize, columnIndices, import, exportIdx"]}
{"id": "C12", "title": "BlockVector keeps its window and storage in step", "statement": "After any sequence of construct/resize/reserve/copy/move/swap/assign operations size() equals the number of accessible blocks, access i<size() reaches storage, resize keeps the first min(old,new) blocks, copies are independent; an operation throws only if an allocation fails and then no object has changed.", "quantifier": "all operation sequences on any number of vectors", "why_tests_cant": "dangling-pointer bugs depend on reallocation history", "anchors": ["dune/istl/bvector.hh: BlockVector::resize, reserve, operator=, swap, syncBaseArray"]}
{"id": "C13", "title": "Triangular block solves solve the triangular system", "statement": "bltsolve/butsolve (and their unit-diagonal and relaxed forms) return v with (L+D) v = d, (D+U) v = d, (I+L)v=d, (I+U)v=d, respectively the relaxed variants (D + w L) v = w d, where L, D, U are the strictly lower, diagonal and strictly upper stored entries; bdsolve returns D^{-1} d. With block recursion level 2 the diagonal blocks are replaced by their own triangular part. If some stored diagonal block is singular (the dense block solver rejects it) the solves that use the diagonal throw FMatrixError rather than return.", "quantifier": "all square sparse matrices with stored invertible diagonal blocks, all right-hand sides, all relaxation factors", "why_tests_cant": "universally quantified over values and patterns, noncommuting blocks", "anchors": ["dune/istl/gsetc.hh: bltsolve, ubltsolve, butsolve, ubutsolve, bdsolve, algmeta_btsolve, algmeta_bdsolve"]}
{"id": "C14", "title": "Jacobi, Gauss-Seidel and SOR sweeps", "statement": "One dbjac step gives x + w D^{-1}(b-Ax); one dbgs/bsorf/bsorb step satisfies the defining forward/backward relations row by row, each using already updated values of earlier (later) rows; x with Ax=b is a fixed point of each (block recursion level 1; with level 2 bsorf and dbjac move a solution because the inner sweep does not start from 0: proved as a deviation). If some stored diagonal block is singular every sweep throws FMatrixError.", "quantifier": "all square sparse matrices with invertible stored diagonal, all b, x, w", "why_tests_cant": "universally quantified", "anchors": ["dune/istl/gsetc.hh: dbjac, dbgs, bsorf, bsorb, algmeta_itsteps"]}
{"id": "C15", "title": "ILU(0) reproduces the matrix on its pattern", "statement": "blockILU0Decomposition keeps the pattern and either throws MatrixBlockError (with the row) or returns factors with (L U)_{ij} = A_{ij} at every stored position, L unit lower triangular, the diagonal storing the inverted pivot.", "quantifier": "all square sparse matrices with stored diagonal, all block rings", "why_tests_cant": "universally quantified; loops over three cursors", "anchors": ["dune/istl/ilu.hh: ILU::blockILU0Decomposition"]}
{"id": "C16", "title": "ILU(n) fill pattern and factorisation", "statement": "blockILUDecomposition(A,n,ILU) creates a pattern between A's pattern and the complete fill-in of Gaussian elimination - exactly A's pattern for n=0, exactly the entries of fill level <= 1 for n=1, the complete fill-in for n >= N() - and its factors reproduce A on the whole new pattern (0 at fill-in; everywhere for n >= N()), or it throws on a singular pivot. For n >= 2 the pattern is not the classical level-of-fill pattern: proved as deviations in both directions (entries of level > 2 present, entries of level 2 missing in ILU(2)).", "quantifier": "all square sparse matrices with diagonal, all n", "why_tests_cant": "symbolic factorisation is a data dependent closure computation", "anchors": ["dune/istl/ilu.hh: ILU::blockILUDecomposition"]}
{"id": "C17", "title": "ILU back-substitution inverts LU, both storage forms agree", "statement": "blockILUBacksolve returns v with L U v = d for the stored factors; converting a matrix with at least one row to fresh CRS objects by convertToCRS and back-substituting there gives the same v. Provisos, proved as deviations: with zero rows the conversion writes out of bounds, and converting into CRS objects that already hold a matrix of that size keeps using the old off-diagonal entries.", "quantifier": "all factor matrices, all d", "why_tests_cant": "universally quantified; reversed storage of the upper factor", "anchors": ["dune/istl/ilu.hh: blockILUBacksolve, convertToCRS, CRS"]}
{"id": "C18", "title": "DILU", "statement": "blockDILUDecomposition computes D with diag((D+L)D^{-1}(D+U)) = diag(A) or throws; blockDILUBacksolve returns v with (D+L)D^{-1}(D+U) v = d.", "quantifier": "all square sparse matrices with stored diagonal", "why_tests_cant": "universally quantified", "anchors": ["dune/istl/dilu.hh: blockDILUDecomposition, blockDILUBacksolve"]}
{"id": "C19", "title": "ILDL", "statement": "bildl_decompose gives L, D with (L D L^T)_{ij} = A_{ij} on the stored lower pattern (for symmetric A on the whole pattern, D symmetric) and leaves entries right of the diagonal alone, or throws (singular pivot, or diagonal entry missing); bildl_backsolve returns v with L D L^T v = d.", "quantifier": "all symmetric sparse block matrices", "why_tests_cant": "universally quantified", "anchors": ["dune/istl/ildl.hh: bildl_decompose, bildl_backsolve"]}
{"id": "C20", "title": "Sparse matrix products", "statement": "matMultMat, transposeMatMultMat and matMultTransposeMat give a matrix whose values are A B, A^T B, A B^T and whose pattern is the structural product pattern (with at least one row in the result; a product without rows is undefined behaviour, proved as a deviation); mismatching sizes throw ISTLError.", "quantifier": "all pairs of sparse matrices", "why_tests_cant": "pattern counting, pattern creation and accumulation are three separate traversals that must agree for every pair of patterns", "anchors": ["dune/istl/matrixmatrix.hh: matMultMat, transposeMatMultMat, matMultTransposeMat, MatrixInitializer, EntryAccumulator"]}
{"id": "C21", "title": "Block tridiagonal solve", "statement": "BTDMatrix::solve(x,rhs) returns x with A x = rhs for every block tridiagonal A with at least one row for which all pivots are invertible, and throws FMatrixError exactly when a pivot of the block elimination is singular (a matrix without rows fails to allocate, proved as a deviation).", "quantifier": "all sizes n>=1, all block values, all right-hand sides", "why_tests_cant": "universally quantified", "anchors": ["dune/istl/btdmatrix.hh: BTDMatrix::solve, setSize"]}
{"id": "C22", "title": "Block diagonal solve and invert", "statement": "BDMatrix::solve returns x with A x = rhs, invert() replaces every diagonal block by its inverse; BDMatrix(n)/BTDMatrix(n) and setSize(n) on an object in random build mode give an n x n diagonal (tridiagonal) pattern for any previous content (on a default-constructed object, a copy or an assignment target setSize(n) throws: proved as a deviation).", "quantifier": "all sizes, values and previous states", "why_tests_cant": "histories", "anchors": ["dune/istl/bdmatrix.hh: BDMatrix::solve, invert, setSize", "dune/istl/btdmatrix.hh: setSize"]}
{"id": "C23", "title": "Conversion to column-compressed form keeps every entry", "statement": "The CCS matrix handed to direct solvers has, per scalar column, exactly the scalar entries of the BCRS matrix in increasing row order with the right values; row-subset extraction gives exactly the submatrix.", "quantifier": "all sparse block matrices, block sizes and row subsets", "why_tests_cant": "universally quantified; counting sort by columns", "anchors": ["dune/istl/bccsmatrixinitializer.hh: BCCSMatrixInitializer, copyToBCCSMatrix", "dune/istl/bccsmatrix.hh"]}
{"id": "C24", "title": "MatrixMarket write/read round trip", "statement": "Reading back what writeMatrixMarket wrote yields a matrix (with at least one row; asserts off or blocks not taller than wide) or a vector with the same size, pattern and values. In general a coordinate file yields the block matrix of its entries and their mirror images (first occurrence wins, missing scalars are zero), provided every occurring block is listed completely and symmetric/hermitian files list the whole diagonal; vector files of the wrong shape are rejected and a banner is accepted exactly in its documented form. Proved as deviations: omitted zero diagonals or partial blocks are rejected with BCRSMatrixError, matrices without rows and complex matrices cannot be read back, the row assertion fails for tall blocks, and after a broken banner not the announced default header is used.", "quantifier": "all matrices/vectors, all supported headers", "why_tests_cant": "parser input space is infinite", "anchors": ["dune/istl/matrixmarket.hh: writeMatrixMarket, readMatrixMarket, readSparseEntries, calculateNNZ, readMatrixMarketBanner"]}
{"id": "C25", "title": "Matrix dimension queries", "statement": "countNonZeros is the number of stored scalars of a nested block matrix; MatrixDimension reports the true number of scalar rows/columns, per block row/column and in total, provided every block row/column holds a block or has a static block size; CheckIfDiagonalPresent (with checking enabled, or for one level) accepts iff every row has a stored diagonal on the requested levels and throws ISTLError otherwise. Proved as deviations: empty rows are not counted, every empty column subtracts 1 modulo 2^64, and deeper levels are not checked at all without DUNE_ISTL_WITH_CHECKING.", "quantifier": "all sparse block matrices", "why_tests_cant": "universally quantified; unsigned wrap-around", "anchors": ["dune/istl/matrixutils.hh: MatrixDimension, countNonZeros, CheckIfDiagonalPresent"]}
{"id": "C26", "title": "Iteration control: iteration bound and truthful result", "statement": "Every iterative solver performs at most maxit iterations, reports res.converged only if the last defect met the stopping rule def < def0*reduction or def < 1e-30, reports res.iterations and res.reduction accordingly (BiCGSTAB counts half iterations and reports the whole ones), stops at the first iteration that meets the rule, and aborts with SolverAbort on a non-finite defect. Proved as deviation: if the solve aborts, the reduction given to the four-argument apply stays configured.", "quantifier": "all sequences of defects, all maxit and reduction", "why_tests_cant": "all defect histories", "anchors": ["dune/istl/solver.hh: IterativeSolver::Iteration::step, finalize", "dune/istl/solvers.hh: LoopSolver, GradientSolver, CGSolver, BiCGSTABSolver, MINRESSolver, RestartedGMResSolver"]}
{"id": "C27", "title": "The rhs vector returned by the solvers is the true residual", "statement": "After LoopSolver, GradientSolver, CGSolver or BiCGSTABSolver::apply(x,b,res) returns, b contains b0 - A x (exact arithmetic) for the returned x, whatever preconditioner (also nonlinear or variable) is used, and it is the norm of this vector that convergence was decided on. (x is the iterate before the preconditioner's post, b0 the right-hand side after its pre.) Proved as deviation: MINRESSolver always leaves the residual of the initial guess in b.", "quantifier": "all linear operators, preconditioners, right-hand sides, initial guesses and iteration counts", "why_tests_cant": "needs induction over iterations for arbitrary preconditioners", "anchors": ["dune/istl/solvers.hh: LoopSolver::apply, GradientSolver::apply, CGSolver::apply, BiCGSTABSolver::apply"]}
{"id": "C28", "title": "GMRES: the reported defect is the residual norm of the returned iterate", "statement": "In exact real arithmetic, when RestartedFlexibleGMResSolver::apply returns, the last reported defect is the norm of b - A x for the x it returns, for any preconditioner (also one that changes from call to call); for RestartedGMResSolver with a linear preconditioner W it is the norm of W(b - A x); with restart >= 1 both terminate within maxit iterations with a truthful result. Proviso: no rotation hit the 1e-15 cut-off, and not (iterations = maxit > 1 and maxit-1 a multiple of restart). Proved as deviations: in that last case the solver can claim convergence with a residual that is too large and grew in the last iteration; the reduction passed to the four-argument apply is ignored; restart = 0 never terminates; an exhausted Krylov space (exact solution found) throws SolverAbort.", "quantifier": "all real Euclidean spaces, operators, preconditioners, right-hand sides, restart lengths, maxit", "why_tests_cant": "continuous domain; induction over inner and outer loops; interplay of maxit and restart boundaries", "anchors": ["dune/istl/solvers.hh: RestartedGMResSolver::apply, update, applyPlaneRotation; RestartedFlexibleGMResSolver::apply"]}
{"id": "C29", "title": "Plane rotations", "statement": "generatePlaneRotation/applyPlaneRotation used by MINRES and GMRES are orthogonal (c^2+|s|^2=1 for all arguments), keep the norm of every pair, and annihilate the second component exactly unless a component is below the cut-off 1e-15, in which case less than 1e-15 remains.", "quantifier": "all real and complex pairs", "why_tests_cant": "continuous domain", "anchors": ["dune/istl/solvers.hh: generateGivensRotation, generatePlaneRotation, applyPlaneRotation"]}
{"id": "C30", "title": "Parallel scalar product equals the sequential one", "statement": "If every global index is owned by exactly one process and the owner entries of the local vectors are those of global vectors (copy and overlap entries may hold anything), ParallelScalarProduct::dot and norm return on every process the global sum of products / of squares, plus the contribution of positions in no index pair; every later call with unchanged index sets returns the same. Proved as deviations: for complex numbers dot multiplies without conjugating; after the index sets changed without a change of the vector size a stale mask is used.", "quantifier": "all numbers of processes, all distributions, all vectors", "why_tests_cant": "all distributions", "anchors": ["dune/istl/owneroverlapcopy.hh: OwnerOverlapCopyCommunication::dot, norm", "dune/istl/scalarproducts.hh"]}
{"id": "C31", "title": "copyOwnerToAll makes vectors consistent for every message order", "statement": "copyOwnerToAll(source,dest) over index sets with at most one owner per index: for every order of message arrival no access leaves the vectors, no process waits for ever, and afterwards every process holds in dest at each index the owner's source value where another process owns it; all other entries of dest are unchanged. With source = dest the vector becomes consistent and doing it again changes nothing.", "quantifier": "all process counts, distributions, values and message delivery orders", "why_tests_cant": "message interleavings", "anchors": ["dune/istl/owneroverlapcopy.hh: copyOwnerToAll, buildOwnerToAllInterface, CopyGatherScatter"]}
{"id": "C32", "title": "addOwnerCopyToOwnerCopy / addOwnerOverlapToAll sum contributions exactly once", "statement": "addOwnerCopyToOwnerCopy(y,y) leaves at every owner/copy index the sum over all processes holding it as owner or copy of their previous values and other entries unchanged; addOwnerOverlapToAll, addOwnerCopyToAll (source, dest) add to dest at every index the sum of the source values of the other processes holding the index with a sending attribute; for every message order.", "quantifier": "all process counts, distributions, values, message orders", "why_tests_cant": "message interleavings", "anchors": ["dune/istl/owneroverlapcopy.hh: addOwnerCopyToOwnerCopy, addOwnerOverlapToAll, AddGatherScatter"]}
{"id": "C33", "title": "Overlapping Schwarz operator applies the global operator", "statement": "If each process stores complete rows for its owner (and overlap) indices, OverlappingSchwarzOperator::apply/applyscaleadd computes on every owner (and complete overlap) index the global A x resp. y + alpha A x, and zero on copies (project); followed by copyOwnerToAll the result is the global A x at every index of every process.", "quantifier": "all distributions, matrices, vectors", "why_tests_cant": "all distributions", "anchors": ["dune/istl/schwarz.hh: OverlappingSchwarzOperator", "dune/istl/owneroverlapcopy.hh: project"]}
{"id": "C34", "title": "Aggregation AMG transfer and Galerkin product", "statement": "With P the 0/1 prolongation of an aggregates map (isolated vertices have zero rows): prolongateVector adds P c to the fine vector after scaling the coarse vector c by the damping factor, restrictVector stores P^T f, and the sequential GalerkinProduct computes exactly P^T A P; its pattern, built beforehand, holds entry (I,J) exactly if I = J or some stored fine entry couples the two aggregates, so the computation never throws or writes outside the pattern - provided aggregates are connected in the matrix graph and numbered by their lowest vertex (which build guarantees, C47).", "quantifier": "all matrices, all aggregate maps", "why_tests_cant": "universally quantified", "anchors": ["dune/istl/paamg/galerkin.hh: BaseGalerkinProduct::calculate, GalerkinProduct::build", "dune/istl/paamg/transfer.hh"]}
{"id": "C35", "title": "Aggregates renumbering", "statement": "renumberAggregates maps the aggregates bijectively to 0..k-1 in the order of their lowest vertices, vertices are in the same aggregate afterwards iff they were before, isolated vertices stay isolated, provided every aggregate is connected to its lowest vertex by edges inside it. Proved as deviation: a disconnected aggregate is split.", "quantifier": "all graphs and aggregate maps", "why_tests_cant": "graph search on arbitrary graphs", "anchors": ["dune/istl/paamg/renumberer.hh", "dune/istl/paamg/aggregates.hh: AggregatesMap::breadthFirstSearch"]}
{"id": "C36", "title": "Multigrid / two-level cycle keeps defect and update in step", "statement": "Although the code updates defects incrementally, sequential AMG::apply(v,d) returns exactly the textbook multigrid cycle of d - presmoothing steps u += S(d - A u), gamma recursive coarse corrections c += B(R(d - A u) - A_c c) (one exact solve on the coarsest level), u += damp P c, postsmoothing - independent of v and of the vectors left by earlier calls; TwoLevelMethod::apply(v,d) returns v plus the two-level cycle of d. With equal numbers of steps, symmetric operators, mutually adjoint pre- and postsmoother and symmetric coarse solve the cycle is a symmetric operator for every gamma, so it may precondition CG. Proved as deviations: after one failed coarse solve every later AMG::apply throws MathError; with a single level a failed coarse solve is not reported; TwoLevelMethod ignores the coarse solver's result.", "quantifier": "all operators, smoothers, numbers of smoothing steps, coarse solvers", "why_tests_cant": "universally quantified", "anchors": ["dune/istl/paamg/twolevelmethod.hh: TwoLevelMethod::apply", "dune/istl/paamg/smoother.hh: presmooth, postsmooth", "dune/istl/paamg/amg.hh: mgc"]}
{"id": "C37", "title": "Factory and registry look-up", "statement": "After any history of registrations, definitions and factory calls: a solver or preconditioner name yields the object made by the creator last defined under it, unknown or missing names throw; for a parallel operator a sequential preconditioner is wrapped to the category of the operator and an iterative solver is obtained iff the categories fit; a preconditioner passed at run time is the one used, whatever is configured; calls of the factory do not influence later calls. Proved as deviations: a passed preconditioner stays in the factory under a reserved name that a configuration can select; registryGet uses the first registration of a name, the factories the last.", "quantifier": "all registration histories", "why_tests_cant": "histories", "anchors": ["dune/istl/solverfactory.hh", "dune/istl/common/registry.hh", "dune/istl/solverregistry.hh"]}
{"id": "C38", "title": "Dense Matrix operations", "statement": "For any history of constructions, setSize, copies, assignments, fills, writes and destructions of Dune::Matrix objects (allocations succeeding): no memory error, sizes and entries are those of independent 2d arrays. mv/umv/mmv/usmv and transposed variants, transpose, product, +=, -=, scaling equal the mathematical operations; iteration visits every row (matrices with at least one column). Proved as deviations: a failed allocation in setSize or assignment leaves a dangling pointer; matrices without columns have no rows to iterate over; exists() with checking tests the row index against the number of columns; transpose() does not transpose blocks.", "quantifier": "all sizes including 0 rows or columns, all entries", "why_tests_cant": "universally quantified", "anchors": ["dune/istl/matrix.hh: Matrix, DenseMatrixBase"]}
{"id": "C39", "title": "VariableBlockVector blocks partition the storage", "statement": "For any history of constructions, createbegin() sizing (complete or broken off), resizes, copies, moves, assignments, swaps, fills, writes and destructions: no memory error; N() is the number of blocks; the block sizes and entries are those of independent lists of blocks; the whole array is the concatenation of the blocks in order; copies do not alias. Proved as deviations: completing the creation of a vector with no blocks is undefined; resize(n) keeps the old sizes of blocks that are not set again.", "quantifier": "all block-size sequences and histories", "why_tests_cant": "histories", "anchors": ["dune/istl/vbvector.hh"]}
{"id": "C40", "title": "ScaledIdentityMatrix behaves as p*I", "statement": "mv-type functions, +=, -=, scaling, comparison, solve, invert, determinant, row-sum and Frobenius norms of ScaledIdentityMatrix, and its conversion to a dense matrix, agree with the dense matrix p*I (real fields: the Frobenius norm does not compile for complex ones).", "quantifier": "all n, p, vectors", "why_tests_cant": "universally quantified", "anchors": ["dune/istl/scaledidmatrix.hh"]}
{"id": "C41", "title": "MultiTypeBlockMatrix / MultiTypeBlockVector act as block matrix / vector", "statement": "mv, umv, mmv, usmv (and transposed and conjugate transposed variants) of a MultiTypeBlockMatrix of sparse blocks equal the action of the assembled matrix on the concatenated vectors; its Frobenius norm and +=, -= (patterns included) are those of the assembled matrix; assignment, +=, -=, axpy, scaling, dot products, 1- and 2-norms and dim of MultiTypeBlockVector are those of the concatenation.", "quantifier": "all numbers of block rows/columns and entries", "why_tests_cant": "universally quantified", "anchors": ["dune/istl/multitypeblockmatrix.hh", "dune/istl/multitypeblockvector.hh"]}
{"id": "C42", "title": "flatVectorForEach / flatMatrixForEach enumerate scalar entries with consecutive flat indices", "statement": "flatVectorForEach calls the functor once per scalar entry with offsets offset, offset+1, ..., in order and returns the number of entries; flatMatrixForEach passes each stored scalar its flat row and column, distinct entries get distinct positions, and returns the flat dimensions, for well aligned matrices with at least one row and column (sparse ones may be empty). Proved as deviations: a dense matrix with rows but no columns makes the code read an uninitialised variable; a dense matrix without rows is reported as 0 x 0 and aborts inside a sparse one.", "quantifier": "all nestings of blocked vectors/matrices", "why_tests_cant": "recursion over arbitrary nesting", "anchors": ["dune/istl/foreach.hh"]}
{"id": "C43", "title": "Preconditioner apply computes the documented linear map", "statement": "For a square matrix with stored, invertible diagonal blocks and a relaxation factor w commuting with the blocks: SeqJac, SeqSOR (both directions) and SeqSSOR with any number of steps yield a result linear in (v,d); with v=0 and one step they solve D v = w d, (D+wL) v = w d (backward: (D+wU) v = w d) and (D+wL) D^-1 (D+wU) v = w(2-w) d. SeqILU(n, resort or not), SeqDILU and SeqILDL yield v = w M^-1 d, independent of the old v, where M is the incomplete factorization agreeing with A on the stored pattern (lower triangle for ILDL, diagonal for DILU); SeqILDL throws ISTLError when a diagonal entry is missing. Richardson yields w d.", "quantifier": "all matrices, vectors v and d, relaxation factors, numbers of steps, orders n, block types", "why_tests_cant": "universally quantified over matrices, right-hand sides and iteration counts", "anchors": ["dune/istl/preconditioners.hh: SeqJac, SeqSOR, SeqSSOR, SeqILU, SeqDILU, SeqILDL, Richardson"]}
{"id": "C44", "title": "Solver construction checks categories", "statement": "Constructing an IterativeSolver from operator, scalar product, preconditioner succeeds iff all three have the same category; otherwise InvalidSolverCategory is thrown; without a scalar product (or from a configuration) operator and preconditioner must be sequential.", "quantifier": "all category triples and constructors", "why_tests_cant": "small but part of every parallel history", "anchors": ["dune/istl/solver.hh: IterativeSolver"]}
{"id": "C45", "title": "Read-only queries do not influence later behaviour", "statement": "Calling nonzeroes() in any state, at any point of a history, leaves everything shown (iteration, exists, element access, N, M, build mode and stage) as it was, and every later call returns, or throws the same exception, exactly as without the query and shows the same afterwards, as long as no later call looks at the remembered count: scaling, and in the build phase endrowsizes() and the row-wise creation iterators. A successful setSize() forgets the query completely; on a finished matrix only scaling can notice it; asking twice gives the same answer. Proved as deviations for the three calls that do look: a query between setrowsize calls makes endrowsizes() throw and later counts stale, and scaling a matrix built row by row without preallocation after nonzeroes() is undefined.", "quantifier": "all reachable states and later calls", "why_tests_cant": "requires all interleavings of queries and building calls", "anchors": ["dune/istl/bcrsmatrix.hh: nonzeroes, endrowsizes, operator*="]}
{"id": "C46", "title": "NonoverlappingSchwarzOperator applies the global operator", "statement": "If every index has one owner, every process stores the full global entry for each pair of indices it holds as owner or copy, every nonzero is known to some process, and never does the owner of g hold h as copy while another process owns h and holds g as copy, then apply / the scaled product of applyscaleadd yields alpha*(A x)_g at every owner and copy index g on every process, for every message order: each entry is contributed by exactly one process. Proved as deviation: without the last condition entries are counted twice.", "quantifier": "all process counts, distributions, matrices, vectors, message orders", "why_tests_cant": "all distributions and schedules", "anchors": ["dune/istl/novlpschwarz.hh: NonoverlappingSchwarzOperator::apply, applyscaleadd, novlp_op_apply"]}
{"id": "C47", "title": "Building the aggregates", "statement": "For every graph with symmetric edges and no self edges, and whatever the dependency criterion says about strength and isolation, Aggregator::build with minAggregateSize <= maxAggregateSize and maxAggregateSize >= 1 terminates without touching a front position that does not exist; afterwards no vertex is unaggregated; the first returned number is the number of aggregates, which are numbered 0,1,... by their lowest vertex and none of them empty and each connected to its lowest vertex by edges inside it; the second is the number of aggregates whose lowest vertex is isolated; if every excluded border vertex is also isolated, every isolated entry is an excluded border vertex or a skipped isolated vertex and the fourth number counts them. Hence the coarse matrix is P^T A P for every structurally symmetric matrix. Proved as deviations: with minAggregateSize > maxAggregateSize build may loop for ever; merging single vertices can exceed maxAggregateSize; a vertex may be merged into the isolated ones without being counted as skipped; the number of one-vertex aggregates counts aggregates that later grow.", "quantifier": "all graphs, all criteria results (including arbitrary floating point comparisons), all parameters", "why_tests_cant": "the growth heuristics depend on the graph; termination and connectivity are for all graphs", "anchors": ["dune/istl/paamg/aggregates.hh: Aggregator::build, growAggregate, growIsolatedAggregate, mergeNeighbour, Aggregate::add"]}
{"id": "C48", "title": "FastAMG applies the V-cycle", "statement": "FastAMG::apply on a hierarchy whose matrices have every diagonal block stored and invertible and equal blocks at mirrored positions computes, for gamma = 1, exactly the V-cycle of its right-hand side with one solve with L+D as presmoother and one solve with D+U as postsmoother per level, whatever the stored vectors held before; the residual that presmoothing leaves for the next level is then b - A x. The parameters for the number of smoothing steps do not matter. Proved as deviations: gamma >= 2 with a direct coarse solver still gives the V-cycle and not the W-cycle; gamma >= 2 on two levels with an iterative coarse solver (which overwrites the right-hand side with the defect) loses the coarse correction; for a symmetric matrix whose mirrored blocks are only transposes of each other, the residual after presmoothing is wrong.", "quantifier": "all hierarchies, sizes, blocks over a noncommutative ring, right-hand sides and start contents", "why_tests_cant": "the saved residual computation is right only under conditions on the matrix; equality with the textbook cycle is an algebraic identity over all levels", "anchors": ["dune/istl/paamg/fastamg.hh: apply, mgc, moveToCoarseLevel, moveToFineLevel", "dune/istl/paamg/fastamgsmoother.hh: GaussSeidelPresmoothDefect, GaussSeidelPostsmoothDefect"]}
{"id": "C49", "title": "Norms propagate NaN and otherwise return the mathematical value", "statement": "For every vector (BlockVector, VariableBlockVector, MultiTypeBlockVector, nested to any depth) of floating point numbers: infinity_norm() is NaN if some entry is NaN; it is the largest absolute value if all entries are finite and for no container 1 plus the sum of its blocks' norms overflows (in particular if 1 + one_norm() is representable). one_norm(), two_norm2() and frobenius_norm2() are NaN exactly when some entry is NaN; one_norm() is the sum of absolute values when nothing is rounded. infinity_norm() of BCRSMatrix and Matrix is NaN if a stored entry is NaN and the nested row-sum norm if nothing overflows. Holds with rounding. Proved as deviations: infinity_norm() is NaN although no entry is, whenever an entry is infinite or the internal NaN tracker overflows (e.g. two entries equal to the largest finite number); MultiTypeBlockMatrix::infinity_norm() silently drops a NaN that is not in the last block row.", "quantifier": "all vectors and matrices of any block nesting, all machine numbers including NaN and infinities, every monotone rounding", "why_tests_cant": "Tests use a few small finite vectors; the failing inputs are near overflow or have the NaN in a particular row.", "anchors": ["dune/istl/bvector.hh: one_norm, two_norm2, infinity_norm", "dune/istl/bcrsmatrix.hh: infinity_norm, frobenius_norm2", "dune/istl/matrix.hh: infinity_norm", "dune/istl/multitypeblockvector.hh: infinity_norm", "dune/istl/multitypeblockmatrix.hh: infinity_norm"]}
{"id": "C50", "title": "Conjugate gradients computes the Krylov space minimiser", "statement": "In exact arithmetic, with a symmetric positive definite operator A and preconditioner W: after m iterations CGSolver::apply has changed x by an element of K_m = span(W r, (WA) W r, ..., (WA)^(m-1) W r), r the initial residual, and the residual left in b is orthogonal to K_m; hence the energy norm of the error is minimal over x + K_m, and the residual is exactly zero as soon as the Krylov vectors become linearly dependent (at the latest after dim iterations). GradientSolver::apply: the last step is an exact line search along the preconditioned residual.", "quantifier": "all vector spaces over all commutative fields, all such operators and preconditioners, all right-hand sides, starting vectors and iteration counts", "why_tests_cant": "Conjugacy is a statement about all pairs of iterations; a wrong recurrence still converges on small tests, only more slowly.", "anchors": ["dune/istl/solvers.hh: CGSolver::apply", "dune/istl/solvers.hh: GradientSolver::apply"]}
{"id": "C51", "title": "MINRES returns the minimiser of the preconditioned residual over the Krylov space", "statement": "Let the scalars be exact reals, A selfadjoint and injective (possibly indefinite), the preconditioner application a fixed symmetric positive definite linear map W, and let the plane rotations be computed without hitting their 1e-15 cut-off. Then MINRESSolver::apply returns for every starting guess, right hand side, maxit and reduction; if it reports m iterations, the iterate x2 it hands to Preconditioner::post differs from the one left by pre by an element of the Krylov space K_m = span(W r, (WA)W r, ..., (WA)^(m-1) W r), no other element of that affine space has a smaller <b-Ax, W(b-Ax)>, the exact solution is returned as soon as it lies in it, and for m>0 the last defect reported is sqrt <b-A x2, W(b-A x2)> for this very x2. Proved as deviation: the defect number 0 is ||W r|| and not sqrt<r,W r>, so the reported reduction compares two different norms: a run can report convergence with reduction 1/100 while x has not been changed at all.", "quantifier": "all vector spaces, operators, preconditioners, starting guesses, right hand sides, maxit, reductions, iteration counts", "why_tests_cant": "the claim is an optimality statement over an infinite set of candidates for all problems and iteration counts; a test compares single runs with tolerances", "anchors": ["dune/istl/solvers.hh: MINRESSolver::apply, generateGivensRotation"]}
{"id": "C52", "title": "BiCGSTAB is the stabilised bi-orthogonal method: Krylov membership, bi-orthogonality, local minimisation, exact termination", "statement": "In exact arithmetic, for linear A and a linear preconditioner application W: if BiCGSTABSolver::apply returns after m half iterations (r the initial residual left by pre, B = A W), then the iterate handed to post differs from the starting one by an element of span(W r, (WA)W r, ..., (WA)^(m-1) W r), the vector b left behind is its residual, b = (I - w_1 B)...(I - w_k B) rho with k = floor(m/2) factors where rho = r - A y, y in the Krylov space of dimension ceil(m/2), satisfies <r, B^j rho> = 0 for all j < ceil(m/2) (rho is the BiCG residual); after a whole iteration the last factor is optimal: the residual is orthogonal to B rh, hence no longer than rh - s B rh for any s; and the residual is exactly 0 as soon as these orthogonality conditions leave only the zero vector. The returned iteration count is floor(m/2).", "quantifier": "all vector spaces, operators, preconditioners, starting guesses, right hand sides, maxit, reductions, numbers of half iterations, all runs that do not abort", "why_tests_cant": "the statement quantifies over all iteration counts and problems and over polynomials in the operator; tests can only observe convergence of a few runs", "anchors": ["dune/istl/solvers.hh: BiCGSTABSolver::apply"]}
{"id": "C53", "title": "Flexible CG solvers: conjugate directions, optimal steps, same iterates as CG and as each other", "statement": "RestartedFCGSolver, CompleteFCGSolver and GeneralizedPCGSolver, in floating point or exact arithmetic and with any preconditioner: if apply returns, the recorded history is that of consecutive iterations 0..k with k <= maxit, all defects finite, the reported iterations/converged/reduction are those of the last entry, b is the defect of the returned x, and if not converged then k = maxit; the stopping rule failed at iteration 0 and at every earlier iteration at which the stored directions are recycled (after mmax+1, then every mmax iterations; CompleteFCG every mmax+1). apply always returns or throws for mmax >= 1 (CompleteFCG: mmax >= 0; GeneralizedPCG: restart >= 2). In exact arithmetic with a selfadjoint operator and any, even varying, preconditioner: each step goes along the preconditioned defect made conjugate to the stored directions (RestartedFCG: windows of mmax+1 steps overlapping in one; CompleteFCG: the last mmax), the new defect is orthogonal to all of them, and no other correction by the preconditioned defect and these directions has a smaller energy error. With a fixed spd preconditioner the iterate after k steps is exactly that of CGSolver after k steps, for every mmax >= 1. GeneralizedPCG with restart = m+1 gives exactly the result of RestartedFCG with mmax = m (it only always takes a first step and checks convergence after it). Proved as deviations: RestartedFCG with mmax = 0 and GeneralizedPCG with restart = 1 never return unless they converge in the first iteration (or it is the last allowed); all three continue a window after convergence, so a system solved exactly before the end of a window makes apply throw SolverAbort instead of reporting convergence.", "quantifier": "all operators, preconditioners (with state), scalar products, right hand sides, initial guesses, iteration limits, window sizes and numbers of rounds", "why_tests_cant": "the conjugacy and optimality of every step of every run, and non-termination, cannot be sampled; tests use problems whose tolerance is met at a window end", "anchors": ["dune/istl/solvers.hh: RestartedFCGSolver::apply, orthogonalizations, cycle; CompleteFCGSolver; GeneralizedPCGSolver::apply"]}
{"id": "C54", "title": "GMRes and FGMRes minimise the residual over the Krylov space of the cycle", "statement": "In exact real arithmetic, when RestartedGMResSolver::apply returns after k = q*restart + j iterations (1 <= j <= restart unless k = 0), with a linear preconditioner W, the returned x differs from the iterate xc at the last restart (the initial guess if q = 0) by an element of the Krylov space spanned by W r, (WA) W r, ..., (WA)^(j-1) W r with r = b - A xc, and no other element of xc + that space has a smaller norm of W(b - A x). RestartedFlexibleGMResSolver with a linear preconditioner minimises the norm of b - A x over the same space; with an arbitrary, even changing, preconditioner it minimises over the span of j vectors the preconditioner returned. The defects both solvers report never grow from one iteration to the next, also across restarts. Proviso as in C28: no rotation hit the 1e-15 cut-off; the minimality statements exclude the case (iterations = maxit > 1 and maxit-1 a multiple of restart), where C28_stale_restart_refuted shows they fail.", "quantifier": "all real inner product spaces, linear operators, preconditioners, right-hand sides, initial guesses, restart lengths and iteration limits", "why_tests_cant": "A test checks one matrix and one tolerance; that nothing in the space does better is a statement about infinitely many competitors.", "anchors": ["dune/istl/solvers.hh: RestartedGMResSolver, RestartedFlexibleGMResSolver, update"]}
{"id": "C55", "title": "Sequential overlapping Schwarz computes what its mode promises", "statement": "SeqOverlappingSchwarz::apply(x,b) with subdomains d_1..d_m (sets of rows): in AdditiveSchwarzMode x' = x + w sum_i E_i z_i where z_i is what the subdomain solver returns for the residual b - A x of the old x restricted to d_i and E_i puts it back on the rows of d_i; in MultiplicativeSchwarzMode the subdomains are corrected one after the other, each with the residual of the current x; SymmetricMultiplicativeSchwarzMode does this forward and then backward. The row-to-domain constructor builds exactly the subdomains listed. apply succeeds whenever the subdomain solvers do, and gives the same result with onTheFly. With ILU0SubdomainSolver the constructor reports the row of a singular local pivot or the solves are exactly with the incomplete factors of the local matrix A(d,d) whatever the length of the work arrays. A solution of A x = b stays unchanged; with relaxation 1 and an exact subdomain solver the residual on the last subdomain is zero afterwards. For a Hermitian matrix and Hermitian subdomain solvers (ILU0SubdomainSolver if the pattern is symmetric) the additive and the symmetric multiplicative mode are Hermitian operators, and the multiplicative mode on the reversed subdomain list is the adjoint of the multiplicative mode. Proved as deviation: with DynamicMatrixSubdomainSolver and relaxation w the multiplicative modes scale the k-th row (from 0) of every subdomain by w^(k+1), not by w.", "quantifier": "all matrices, subdomain lists, relaxation factors, vectors, modes, and subdomain solvers", "why_tests_cant": "Every overlap structure and ordering gives another composition of local solves; no finite set of examples covers the row bookkeeping or symmetry.", "anchors": ["dune/istl/overlappingschwarz.hh: SeqOverlappingSchwarz, OverlappingAssigner, AdditiveAdder, MultiplicativeAdder, SeqOverlappingSchwarzApplier, DynamicMatrixSubdomainSolver", "dune/istl/ilusubdomainsolver.hh: ILUSubdomainSolver::copyToLocalMatrix, ILU0SubdomainSolver"]}
{"id": "C56", "title": "The preconditioners conjugate gradients needs to be symmetric are symmetric", "statement": "For a matrix A that is Hermitian with respect to an involution of its entries (identity, complex conjugation, block transposition) and a self-adjoint central relaxation w, what apply(v,d) computes from v = 0 is a Hermitian operator of d: <B d, e> = <d, B e> for SeqJac and SeqSSOR with any number of steps, SeqILU with n = 0 and n = 1 (with or without resort, symmetric pattern), SeqDILU and SeqILDL. Backward SeqSOR is the adjoint of forward SeqSOR with the same number of steps. Proved as deviation: SeqILU with n = 2 is not symmetric for a 5x5 symmetric matrix with symmetric pattern, because the fill-in pattern it computes is not symmetric.", "quantifier": "all Hermitian matrices with stored invertible diagonal, all numbers of steps, all vectors, noncommutative block entries included", "why_tests_cant": "Symmetry is an identity between all pairs of vectors; a test can only sample pairs, and the ILU(2) failure needs a particular sparsity pattern.", "anchors": ["dune/istl/preconditioners.hh: SeqJac, SeqSOR, SeqSSOR, SeqILU, SeqDILU, SeqILDL", "dune/istl/gsetc.hh: dbjac, bsorf, bsorb", "dune/istl/ilu.hh: blockILUDecomposition", "dune/istl/dilu.hh: blockDILUDecomposition"]}
{"id": "C57", "title": "Eigenvalue algorithms (power, inverse, Rayleigh quotient, TLIME)", "statement": "PowerIteration_Algorithms in exact real arithmetic. applyPowerIteration with start vector x0 returns after the first n >= 1 for which x_n = A^n x0/|A^n x0| has |A x_n - lambda x_n| <= epsilon with lambda = x_n.A x_n, and yields exactly that x and lambda; it throws ISTLError if and only if none of the first nIterationsMax iterates qualifies (getIterationCount() is then nIterationsMax+1). applyInverseIteration, applyRayleighQuotientIteration and applyTLIMEIteration, when they return, give |x| = 1, lambda = x.Ax and |Ax - lambda x| <= epsilon, provided the linear solver is exact and works with the current A - mu I, or with avoidLinSolverCrime for any solver; for an inexact solver without it the residual exceeds epsilon by at most |(A-gamma I)y - b|/|y| of the last solve. If A has an orthonormal eigenbasis, an eigenvalue lies within epsilon of lambda. With a strictly dominant (resp. strictly closest to gamma) eigenvalue and a start vector not orthogonal to its eigenvector, power (resp. inverse) iteration returns for every epsilon > 0 if nIterationsMax is large enough. TLIME: extrnl = false implies that (gamma-eta,gamma+eta) contains an eigenvalue, and the internal assert never fails, whatever the solver does. getIterationOperator() is A - mu I; a matrix obtained by getIterationMatrix() before the first shift is always A - mu I. Proved as deviations: a zero start vector gives a normal return with NaN; the overload of applyInverseIteration without shift ignores avoidLinSolverCrime; getIterationMatrix() first called after a shift returns the unshifted matrix and a rerun with the same shift then returns a wrong eigenvalue; a missing diagonal block is accessed by the shift; power iteration may return a non-dominant eigenvalue; TLIME's extrnl = true does not mean that the interval is free of eigenvalues, and with extrnl = false the result may lie outside the interval.", "quantifier": "every linear operator on a Euclidean space of any dimension, every start vector, epsilon, shift, iteration limit, linear solver (with state, inexact, throwing) and history of calls on the object", "why_tests_cant": "tests run a few matrices with a few solvers; the statement ranges over all operators, start vectors, solvers and histories, and the convergence claims are limits", "anchors": ["dune/istl/eigenvalue/poweriteration.hh: PowerIteration_Algorithms::applyPowerIteration, applyInverseIteration, applyRayleighQuotientIteration, applyTLIMEIteration, getIterationOperator, getIterationMatrix, getIterationCount, updateShiftMu; Impl::ScalingLinearOperator, LinearOperatorSum"]}
{"id": "C58", "title": "Distributed MatrixMarket files give every process its own data back", "statement": "storeMatrixMarket(matrix, name, comm) followed by loadMatrixMarket(matrix, name, comm) under the same name: whatever the name, the number of processes, the index sets, the neighbour sets, the files that existed before and the order in which the processes write, every process reads exactly the text that it wrote for its matrix (or vector), and its communication object gets the same index set (global index, local index, attribute, public flag of every index) and the same neighbours; also for empty index and neighbour sets. Other files are not touched. The name of a file is name_rank plus extension, where exactly a trailing .mm or .mtx counts as an extension (otherwise .mm is written, and .mm, then .mtx is looked for); files of different processes have different names; without indices the communication object is left alone; the variants without communication round-trip, too, and read a single process' part as name_rank. Failures are reported by IOError (matrix file: nothing changed; index file: matrix already replaced), InvalidIndexSetState for a non-empty index set (matrix already replaced), MatrixMarketFormatError when the word after the indices is not 'neighbours:'. Assumed of the global index type: what it prints is read back, is not empty and does not begin with the letter n (proved for integers). Proved as deviations: an index file that ends after complete index lines is not rejected but adds an indeterminate index; one that ends inside the neighbour list loads silently with fewer neighbours; white space at the end of the file (e.g. a final newline from an editor) adds an indeterminate neighbour; objects stored under the same name overwrite each other; loading 'name' after storing 'name.mtx' reads an older name_rank.mm if there is one.", "quantifier": "all file names, process counts, ranks, index sets, neighbour sets, old file systems, interleavings of the writes, and truncated or extended files", "why_tests_cant": "tests use one name and a few small index sets on one or two processes; parsing state (eof/fail bits), every truncation point and every interleaving cannot be enumerated", "anchors": ["dune/istl/matrixmarket.hh: storeMatrixMarket", "dune/istl/matrixmarket.hh: loadMatrixMarket", "dune/istl/matrixmarket.hh: splitFilename", "dune/istl/matrixmarket.hh: lineFeed"]}
{"id": "C59", "title": "The AMG setup builds the Galerkin hierarchy, within the configured bounds, and AMG::apply cycles over exactly that hierarchy", "statement": "Sequentially, for every square matrix with symmetric sparsity pattern, every outcome of the strength-of-connection criterion and all parameters with minAggregateSize <= maxAggregateSize, 1 <= maxAggregateSize, MatrixHierarchy::build terminates without error; the finest level is the given matrix; there are at most maxLevel coarsenings; every coarse matrix is the Galerkin product P^T A P of the next finer one for the piecewise constant prolongation of its aggregates map, and stores exactly the diagonal and the entries such a product can fill; every step reduces the number of unknowns at least by the factor minCoarsenRate (so the number of levels is logarithmic, and the sizes strictly decrease for a rate above 1); it stops only at maxLevel, at coarsenTarget unknowns, or because the next aggregation yields no aggregates or a rate below minCoarsenRate. Symmetric matrices give symmetric matrices on all levels. The vectors and smoothers allocated for it have the shapes AMG::apply needs, so AMG::apply runs the multigrid cycle of that hierarchy for all smoothers and coarse solvers that keep sizes; with adjoint smoothers and a symmetric coarse solver the preconditioner is symmetric. recalculateGalerkin after the finest values change (same pattern) yields the Galerkin hierarchy of the new matrix with the same patterns and aggregates, independent of what it was recalculated for before. getCoarsestAggregatesOnFinest, whenever the random numbering ends (it does if every number is drawn again and again), gives two vertices that belong to coarsest aggregates the same number iff it is the same aggregate. Building and destroying deletes every aggregates map and array exactly once. Proved as deviations: a vertex that is isolated on some level shares number 0 with the coarsest aggregate numbered 0; getCoarsestAggregatesOnFinest on a hierarchy without coarser level is undefined behaviour; so is destroying a MatrixHierarchy that was never built.", "quantifier": "all square matrices with symmetric pattern over every ring, all strength criteria, all parameters, all numbers of levels, all random streams", "why_tests_cant": "The result depends on every matrix, on the aggregation decisions on every level and on the parameters; tests build a handful of hierarchies and check convergence only.", "anchors": ["dune/istl/paamg/matrixhierarchy.hh:MatrixHierarchy::build", "dune/istl/paamg/matrixhierarchy.hh:recalculateGalerkin", "dune/istl/paamg/matrixhierarchy.hh:coarsenVector", "dune/istl/paamg/matrixhierarchy.hh:coarsenSmoother", "dune/istl/paamg/matrixhierarchy.hh:getCoarsestAggregatesOnFinest", "dune/istl/paamg/matrixhierarchy.hh:~MatrixHierarchy"]}
{"id": "C60", "title": "Amg::Hierarchy behaves like a list of levels, also for copies and for iterators that outlive the hierarchy", "statement": "For every history of calls on any number of Amg::Hierarchy objects (construction from a shared_ptr, empty construction, copy construction, destruction, addCoarser, addRedistributedOnCoarsest) and of level iterators (finest, coarsest, copy, ++, --, comparison, reading and writing the container and its redistributed version, addRedistributed, deleteRedistributed, dropping), all observations are those of lists: a hierarchy is a list of levels, finest first; addCoarser appends; levels() is the length; ++ moves to the next coarser level and becomes null after the coarsest; -- moves to the next finer one; iterators are equal iff they denote the same level of the same hierarchy; an iterator keeps its level and all finer ones usable after the hierarchy is gone, while coarser levels vanish unless another iterator keeps them. The copy constructor always succeeds and makes a deep copy: the same number of levels, every container and redistributed container a new object with the same value, all distinct. Proved as deviation: the implicitly generated copy assignment is shallow: afterwards adding a level to one hierarchy shows up when traversing the other, whose levels() and coarsest() do not change.", "quantifier": "all finite histories of calls on all numbers of hierarchies and iterators", "why_tests_cant": "Lifetimes depend on the order in which hierarchies and iterators are created, copied and destroyed; tests use one hierarchy that outlives its iterators.", "anchors": ["dune/istl/paamg/hierarchy.hh:Hierarchy", "dune/istl/paamg/hierarchy.hh:LevelIterator", "dune/istl/paamg/hierarchy.hh:addCoarser", "dune/istl/paamg/hierarchy.hh:Hierarchy(const Hierarchy&)"]}
{"id": "C61", "title": "Strength of connections: what the AMG criteria mark", "statement": "buildDependency (the first step of AMG aggregation) on the graph of a finished square matrix whose diagonal blocks are stored, with any norm functor, 0 <= alpha and exact arithmetic, accesses only stored entries and leaves exactly these flags. SymmetricCriterion (diagonal norms nonzero): with s_ij = |a_ij||a_ji|/(|a_ii||a_jj|) over the connections where both entries are stored and, for sign preserving norms, one is negative, a vertex is isolated iff all its s_ij < beta; the edge is strong, in both directions and as both depends and influences, iff for one of its ends v (not isolated) s > alpha * max of the s at v. UnSymmetricCriterion: i is isolated iff -|a_ij| < beta*|a_ii| for all j; i depends on j iff i is not isolated and -|a_ij| >= alpha * max_k(-|a_ik|); i influences j iff j depends on i and the edge exists. SymmetricMatrixDependency (0 <= beta): as the symmetric one with s_ij = |a_ij|^2/(|a_ii||a_jj|), but only the edge seen from its own row is marked; a zero diagonal norm throws ISTLError. On the first level exactly the rows without non-zero off-diagonal block are excluded, on other levels none. A vertex that is not isolated has a strong connection (alpha < 1 resp. <= 1, beta > 0). Positive row and column scaling (resp. row scaling) changes nothing. On every level of the AMG hierarchy the same holds, because the diagonals of the coarse matrices are stored; setDefaultValuesIsotropic/Anisotropic give minimal size diameter^dim <= maximal size 1.5*diameter^dim. Proved as deviations: with a norm that is never negative (RowSum, FrobeniusNorm, AlwaysOneNorm) UnSymmetricCriterion finds every vertex isolated; SymmetricMatrixDependency marks some edges of a symmetric matrix in one direction only; an isolated vertex can still be marked as depending on another one by SymmetricCriterion.", "quantifier": "all finished square matrices with stored diagonals over any ring of blocks, all norms, all alpha >= 0 and beta, first and other levels", "why_tests_cant": "The strong set depends on comparing all entries of the row and on the order of two passes; a test shows it for one matrix.", "anchors": ["dune/istl/paamg/aggregates.hh: buildDependency", "dune/istl/paamg/aggregates.hh: SymmetricDependency", "dune/istl/paamg/aggregates.hh: Dependency", "dune/istl/paamg/aggregates.hh: SymmetricMatrixDependency", "dune/istl/paamg/parameters.hh: setDefaultValuesIsotropic"]}
{"id": "C62", "title": "AMG graphs: edge descriptors, subgraphs and properties", "statement": "MatrixGraph of a finished square matrix: iterating the edges of a vertex shows the stored off-diagonal entries in column order, each once; an edge descriptor names one edge of the whole graph and is below noEdges(), which is the number of edges plus the number of stored diagonals; findEdge(s,t), s != t, returns the descriptor iteration shows, or max() if the entry is not stored, provided the diagonal entry of row s is stored or t < s. SubGraph of any graph with any exclusion vector: vertex iteration shows exactly the vertices not excluded, in increasing order; edge iteration the edges between them, sorted by target; descriptors are unique and below noEdges() = the number of these edges; findEdge finds exactly these; the edge array of size graph.noEdges() is never overrun. PropertiesGraph: after any history of writes to edge properties through iterators or by (source, target), and to vertex properties, reading either way returns what was last written to that edge or vertex, the default otherwise. Proved as deviations: without a stored diagonal findEdge(s,t) for t > s returns the descriptor of another edge; findEdge(i,i) returns the descriptor of another edge although the graph has no such edge; noEdges() of the SubGraph of an empty graph is never set.", "quantifier": "all finished square matrices, all exclusion vectors, all histories of property writes", "why_tests_cant": "Descriptors are computed in three places (iterator, findEdge, start array) that must agree for every pattern.", "anchors": ["dune/istl/paamg/graph.hh: MatrixGraph", "dune/istl/paamg/graph.hh: SubGraph", "dune/istl/paamg/graph.hh: PropertiesGraph"]}
{"id": "C63", "title": "Cholmod: the matrix handed over and the solution taken back", "statement": "Cholmod::setMatrix(matrix, ignore) of a blocked n x n matrix (any nesting, increasing columns per sparse row) with at least one dof that is not ignored hands CHOLMOD legal compressed-column arrays (starts nondecreasing and within the allocated size, row indices strictly increasing, inside the matrix, lower triangle only) that mean the symmetric matrix whose upper triangle is the matrix restricted to the dofs not ignored, in their order, whatever was set before. If the matrix is symmetric and CHOLMOD solves the system it is given, apply(x,b) sets the entries of x that are not ignored to a solution of the restricted system, leaves the ignored ones, b and the nesting untouched and reports one iteration and convergence; this holds for a new object and whenever every dof ignored now was ignored by the earlier ignore fields (without ignore field: none was ever given). If all dofs are ignored apply does nothing. Proved as deviations: after setMatrix with an ignore field, setMatrix without one keeps using the old index map (apply returns a wrong solution); an ignore field ignoring a dof the earlier one did not overwrites the ignored entry of x and solves with a wrong right hand side; every further setMatrix leaks the previous factorisation; apply before setMatrix dereferences a null pointer; with all dofs ignored the result record is not written.", "quantifier": "all blocked matrices, ignore fields, vectors, all states left by earlier calls, all solvers behind the CHOLMOD interface", "why_tests_cant": "Three traversals of the matrix must agree on what is skipped for every nesting and ignore field; the index map survives between calls.", "anchors": ["dune/istl/cholmod.hh: Cholmod::setMatrix", "dune/istl/cholmod.hh: Cholmod::apply", "dune/istl/foreach.hh: flatMatrixForEach"]}
{"id": "C64", "title": "KAMG: the Krylov cycle", "statement": "For every sequential hierarchy of at least two levels, every coarse solver and every Krylov method (any program calling its preconditioner any number of times, possibly throwing), after at least one pre() KAMG::apply(v,d) computes the K-cycle of d: relax from zero, restrict the residual, solve the coarse problem from zero with the Krylov method on that level's matrix preconditioned by the K-cycle of that level (on the coarsest level: the coarse solver), prolongate and add, relax; whatever v, the vectors stored in the levels and the number of pre() calls are; exceptions of the Krylov method are passed on. With LoopSolver and maxLevelKrylovSteps = g without early stop the result is that of AMG with gamma = g. Proved as deviations: every pre() appends a complete chain of solvers that post() does not remove; with a single level the content of v is used as start value; a coarse solver that does not converge is not noticed where AMG throws.", "quantifier": "all hierarchies, vectors, Krylov methods, coarse solvers, numbers of steps, histories of pre/apply", "why_tests_cant": "The chain of solver objects built from the coarsest level upwards must match the level of the shared context at every nested call, for every number of levels and every Krylov method.", "anchors": ["dune/istl/paamg/kamg.hh: KAMG::pre", "dune/istl/paamg/kamg.hh: KAMG::apply", "dune/istl/paamg/kamg.hh: KAmgTwoGrid::apply", "dune/istl/solvers.hh: LoopSolver"]}
{"id": "C65", "title": "Matlab export of matrices and vectors", "statement": "writeMatrixToMatlab writes, for a nested matrix of numbers, FieldMatrix blocks and BCRSMatrix blocks of any depth, exactly one line for every stored number, which carries the scalar row and column of the number in the flattened matrix, counted from 1, and its value; no other line, and no position twice.  writeVectorToMatlab writes the numbers of a block vector in order.  Required: every matrix has a column, and every block row and block column holds a block unless the block is a FieldMatrix.  Proved as deviations: a matrix without columns (a default constructed one) makes the writer access memory out of bounds; an empty column or row of a matrix of numbers is not counted, so that the following entries are written to wrong positions.", "quantifier": "all nested matrices and vectors with at most 2^31-1 scalar rows and columns, all values", "why_tests_cant": "A test exports a few matrices, usually without empty rows or columns; the positions must be right for every nesting and every pattern.", "anchors": ["dune/istl/io.hh: writeMatrixToMatlab, writeMatrixToMatlabHelper, writeVectorToMatlab", "dune/istl/matrixutils.hh: MatrixDimension"]}
{"id": "C66", "title": "Pretty printing of vectors and matrices", "statement": "printvector prints all numbers of a vector in order, the given number of columns per line, every line starting with the row text and the index of its first number; printmatrix prints one line per scalar row with one cell per scalar column, the stored number or a dot; printSparseMatrix terminates for width >= 1 and prints every stored block once, row by row, at most width blocks per line, with row and column index and all its entries.  Flags and precision of the stream are restored.  Proved as deviations: columns = 0 is a division by zero for every vector; printSparseMatrix with width <= 0 never terminates if the matrix has an entry; an empty column of a matrix of numbers gets no cell (documented in the source).", "quantifier": "all vectors, nested matrices and sparse matrices, all stream states, all format parameters", "why_tests_cant": "A test looks at the output of a few objects; the layout and termination must be right for all sizes and all line widths, in particular at the boundaries of the pieces.", "anchors": ["dune/istl/io.hh: printvector, recursive_printvector, printmatrix, print_row, fill_row, printSparseMatrix"]}
{"id": "C67", "title": "Repartitioning: the new distribution", "statement": "Redistributing a distributed graph with a partition vector (buildCommunication, used by graphRepartition and commGraphRepartition) gives every process exactly the vertices that were assigned to it as owner, every other end of an edge of one of its vertices as copy, and nothing else; local numbers are a permutation of 0..n-1 with the owners first in the order of their global indices; the result does not depend on the order in which the messages arrive.  Every index has again exactly one owner.  The redistribute interface sends for every pair of processes the owner indices that move from one to the other, in the same order on both sides.  A process takes part in the new communicator iff it gets a vertex; the neighbours of the new remote indices are, in the ranks of the new communicator, the owners of the copies (and possibly the process itself), and the neighbour relation is symmetric if the graph is.  Proviso: every index of every process has exactly one owner.  Proved as deviations: an index without an owner makes -1 a rank, which is undefined; two processes that hold a copy of the same index of a third process are not made neighbours.", "quantifier": "all numbers of processes, index sets, graphs, partition vectors that the processes agree on, and orders of arrival of the messages", "why_tests_cant": "A test runs a few graphs on a few processes; the order of the messages is up to MPI, and a wrong set in one of the processes only shows as a hang or a wrong result later on.", "anchors": ["dune/istl/repartition.hh: buildCommunication, getNeighbor, getOwnerOverlapVec, saveRecvBuf, mergeVec, RedistributeInterface"]}
{"id": "C68", "title": "Redistribution of matrices and vectors", "statement": "redistributeMatrix (overlapping category) gives every process a square matrix with one row per index of its new index set, columns sorted: the row of an owned index holds exactly those entries of the row of its former owner whose columns are in the new index set and were not in the former owner's overlap, with the same values; every other row is a row of the identity whose pattern is the diagonal and the transposed pattern of the owned rows; nothing is left uninitialised and the result does not depend on the order of arrival of the messages of the three communications.  If the new distribution comes from repartitioning the graph of a matrix without overlap, the owned rows are complete and the product with a vector has the same values as before.  redistribute copies exactly the values of owners to new owners, redistributeBackward after it gives every owner its value again.  Provisos: every row has an index, every index one owner, owned rows have a diagonal entry.  Proved as deviations: couplings of an owned row with overlap columns are lost even if the column is in the new index set (the test meant for ghosts tests the overlap attribute); an owned row without entries violates an assertion; if no column of the owned rows survives the matrix is left unbuilt.", "quantifier": "all numbers of processes, index sets, matrices over any ring, vectors, and orders of arrival", "why_tests_cant": "Whether rows, columns and values meet at the right place depends on three matching communications whose message order is arbitrary; tests see a few grids and partitions.", "anchors": ["dune/istl/matrixredistribute.hh: redistributeMatrix, redistributeSparsityPattern, redistributeMatrixEntries, RedistributeInformation::redistribute, redistributeBackward, setOverlapRowsToDirichlet"]}
{"id": "C69", "title": "graphRepartition: the graph given to ParMETIS and what is made of its answer", "statement": "Filling the holes of the index sets gives every vertex of every process an index, keeps the present ones, makes the new ones owned and globally unique and changes no communication interface.  The numbering given to ParMETIS is a bijection between the global indices and 0..n-1 that all processes that share an index agree on; process p owns the numbers vtxdist[p]..vtxdist[p+1]-1 in the order of its local vertices.  The arrays xadj/adjncy list for each owned vertex exactly its edges in these numbers (weights 3 for edges marked strong, else 1), without any array being overrun.  The mapping from domains to processes that each process computes is the same on all of them, injective, and greedy: a process with more vertices of a domain is passed over only if it got an earlier domain it has vertices of; domains nobody claims go to the smallest free ranks in order.  The resulting partition vector is legal input for the redistribution (C67) \u2014 every vertex is assigned an existing process, copies agree with the owner, for both categories of communication \u2014 and each domain gets as many vertices of a process as the partition says; it assigns each vertex its own domain if global and local order of the owned vertices agree.  Proved as deviations: the partition is read in the order of global indices although it is numbered in the order of local indices, so with holes or other local numberings vertices get the domains of other vertices; a process that gets a domain without having vertices of it is told -1 as its domain.", "quantifier": "all numbers of processes, index sets, graphs, numbers of parts up to the number of processes and answers of ParMETIS with domains below nparts", "why_tests_cant": "ParMETIS runs need MPI and particular graphs; whether numbering, graph and mapping agree on all processes for every distribution cannot be tested.", "anchors": ["dune/istl/repartition.hh: fillIndexSetHoles, ParmetisDuneIndexMap, getAdjArrays, getDomain, graphRepartition"]}
{"id": "C70", "title": "commGraphRepartition and isValidGraph", "statement": "commGraphRepartition gives METIS the graph of the processes: the gathered arrays, shifted in place, hold for each process exactly the other processes it shares indices with, in increasing order, and no array is overrun; the check of the graph (isValidGraph) succeeds if sharing is symmetric.  All vertices a process owns go to the process METIS chooses for it (to process 0 without ParMETIS or with one part), copies agree with their owner, and the result is legal input for the redistribution (C67).  isValidGraph on arrays of the right length accepts exactly the graphs whose offsets are within the number of edges, whose targets do not exceed the number of vertices and, if asked, in which each edge has exactly one opposite edge.  Proved as deviation: the bound on the targets is off by one, a target equal to the number of vertices is accepted, and with the symmetry check the offset array is then read behind its end.", "quantifier": "all numbers of processes, symmetric neighbour sets, index sets and answers of METIS", "why_tests_cant": "The in-place shift and the gathered arrays depend on the neighbourhood of all processes; tests run on a few processes with one grid.", "anchors": ["dune/istl/repartition.hh: commGraphRepartition, isValidGraph"]}
{"id": "C71", "title": "SOR, SSOR and AMG are positive definite preconditioners for positive definite matrices", "statement": "For every symmetric positive definite matrix, every relaxation factor w with 0 < w < 2 and every positive number of sweeps, SeqSOR (forward and backward) and SeqSSOR do not fail (no zero pivot, no exception), one application to the residual of any x that is not the solution, added to x, strictly reduces the energy norm of the error, the forward and backward SOR sweeps are adjoint to each other and SeqSSOR is a symmetric positive definite map, as CGSolver and MINRESSolver require. Sequentially, AMG set up for such a matrix (structurally symmetric pattern, any strength-of-connection criterion, any aggregation and coarsening parameters with minAggregateSize <= maxAggregateSize, 1 <= maxAggregateSize) with SOR smoothing (forward before, backward after, as the smoother traits do) or SSOR smoothing, the same positive number of pre- and postsmoothing steps and an exact coarse solver: the matrices on all levels are symmetric positive definite, the smoothers do not fail on any level, and AMG::apply is a symmetric positive definite map for odd gamma (default 1) with every prolongation damping factor >= 0 and for even gamma with damping factors up to 2; it reduces the energy norm of the error of every x that is not the solution if the damping factor is at most 1, or gamma is even and it is at most 2. Proved as deviations: with the default parameters (gamma 1, two steps, damping factor 1.6) a cycle used as a stationary iteration (LoopSolver) can increase the energy norm of the error; with Jacobi smoothing AMG::apply can be indefinite; with even gamma and a damping factor above 2 too.", "quantifier": "all sizes, all symmetric positive definite matrices over every ordered commutative ring in which the positive elements have an inverse, all relaxation and damping factors in the ranges, all numbers of sweeps, levels and cycles, all strength criteria and aggregation parameters", "why_tests_cant": "Definiteness is a statement about all vectors, all matrices and all aggregations; tests run a few model problems and look at convergence.", "anchors": ["dune/istl/preconditioners.hh:SeqSOR::apply", "dune/istl/preconditioners.hh:SeqSSOR::apply", "dune/istl/gsetc.hh:bsorf,bsorb", "dune/istl/paamg/amg.hh:AMG::apply,mgc", "dune/istl/paamg/smoother.hh:SmootherApplier", "dune/istl/paamg/matrixhierarchy.hh:MatrixHierarchy::build", "dune/istl/paamg/parameters.hh:DefaultParameters"]}
{"id": "C72", "title": "CGSolver and LoopSolver with SSOR, SOR or AMG solve every positive definite system", "statement": "For every symmetric positive definite n x n matrix and every right hand side and initial guess: CGSolver preconditioned with SeqSSOR (0 < w < 2, at least one sweep) or with sequential AMG (set up for the matrix with any strength criterion and aggregation parameters, SOR or SSOR smoothing, exact coarse solver, parameters as in C71, including the default damping factor) never breaks down or throws; if maxIt >= n it reports convergence after at most n iterations; the vector returned in b is the residual of the returned x, and zero if n iterations were done; the error of x in the energy norm is the smallest in the Krylov space searched, and not larger than that of the initial guess. LoopSolver with SeqSOR (forward or backward), SeqSSOR or AMG (damping factors as in C71) reduces the energy norm of the error unless it does no iteration or starts from the solution. AMG::pre satisfies the equations of all unknowns that are decoupled from the others and have a diagonal entry, changes no other unknown and leaves b alone, provides vectors of the sizes of all levels, does not increase the energy norm of the error for positive definite matrices, and throws FMatrixError exactly if the diagonal entry of a decoupled unknown is singular.", "quantifier": "all sizes n, all symmetric positive definite matrices over every ordered field, all right hand sides and initial guesses, all reductions and iteration limits, all AMG parameters of C71; AMG::pre: all square matrices over every ring", "why_tests_cant": "Finite termination and monotonicity in exact arithmetic are statements about all matrices and vectors; tests run model problems in floating point with tolerances.", "anchors": ["dune/istl/solvers.hh:CGSolver::apply", "dune/istl/solvers.hh:LoopSolver::apply", "dune/istl/preconditioners.hh:SeqSSOR,SeqSOR", "dune/istl/paamg/amg.hh:AMG::pre,AMG::apply,AMG::post", "dune/istl/operators.hh:MatrixAdapter::apply"]}
{"id": "C73", "title": "Parallel coarsening gives a consistent coarse level on all processes", "statement": "When the AMG setup coarsens the parallel information of a level (index set, remote indices, aggregates map) on all processes: (1) on each process the vertices it owns keep their partition into aggregates, numbered 0..K-1, isolated vertices stay isolated, and the coarse index set is sorted, with distinct local indices, and has exactly one entry for each aggregate with a vertex in the fine index set, whose global index and attribute are those of one of its vertices and which is public if one of its vertices is; nothing uninitialised is read. (2) After the synchronisation every coarse index has exactly one owner; a process holds the coarse index of an aggregate owned by another process iff it holds one of its vertices, with an attribute it has for one of them (copy if it has one as copy), and the remote index lists state exactly that attribute. (3) Publishing the aggregates never reads the coarse index of an aggregate that has none and never looks up an unknown global index, for any order of messages; afterwards all processes map a vertex to the same global coarse index, the one its owner chose, or all to isolated; the extra copy communication of the nonoverlapping category changes nothing. (4) Vertices in the overlap of the own process (periodic boundaries) get fresh numbers, equal iff they were equal, provided no vertex is isolated, the numbers stay below the mark of isolated vertices and no vertex occurs twice in the list. Proved as deviations: the coarse global index is not the lowest one of the aggregate, as the comment in the code says, but that of the vertex found last; an aggregate whose last vertex has the largest representable global index is missing in the coarse index set; with an isolated vertex the periodic renumbering makes a vertex unaggregated and the next one a member of aggregate 0; a vertex listed twice is put into aggregate 0.", "quantifier": "all numbers of processes, index sets with unique owners, graphs, aggregate maps in which every aggregate can be traversed from its lowest vertex, attributes, orders of messages", "why_tests_cant": "The consistency of the coarse level depends on all processes' index sets, the traversal order of each aggregate and the message order; tests run a few processes on structured grids.", "anchors": ["dune/istl/paamg/indicescoarsener.hh: ParallelIndicesCoarsener::coarsen, buildCoarseIndexSet, buildCoarseRemoteIndices, ParallelAggregateRenumberer", "dune/istl/paamg/globalaggregates.hh: GlobalAggregatesMap, AggregatesPublisher::publish", "dune/istl/paamg/graphcreator.hh: PropertiesGraphCreator::create"]}
{"id": "C74", "title": "The parallel AMG hierarchy represents iterated global Galerkin products", "statement": "Let a level be distributed such that every index has one owner and every owner stores its complete rows of a global matrix. After the index sets and aggregates have been coarsened (C73), building the coarse matrices of the parallel AMG succeeds on every process, for both solver categories, whatever order the sort of the overlap vertices leaves: no assertion fails, the row iterator never leaves the matrix, and a row has a column iff it is the diagonal one or a stored entry of the local matrix couples the two aggregates. Computing the values, also again with new values of a matrix with the same pattern (recalculateGalerkin) and whatever the coarse matrices held before and however messages are ordered, gives again such a level: owners store the complete rows of the global product P^T A P, and the diagonal entries of all rows, owned or not, are those of the product. So this holds on every level. On every level the local matrix products followed by the communication from the owners are products with the global matrix of the level; restriction gives at owned coarse indices the transposed global prolongation of the owned fine entries, and zero at copies; prolongation of consistent vectors is the global prolongation and consistent. Proved as deviations: off-diagonal entries of rows held as overlap are sums over the local entries only, not those of the global product (the rows at overlap indices are therefore not complete on coarse levels); with a map in which an overlap vertex has the number of an owned aggregate the row iterator runs past the end in the overlapping category, and a number no vertex has gives a row without diagonal entry (the maps of C73 contain neither).", "quantifier": "all numbers of processes, distributions, global matrices over a ring, aggregates with connected owned parts, orders of messages and of equal elements in the sort, numbers of levels", "why_tests_cant": "tests run a handful of process counts, matrices and message schedules", "anchors": ["dune/istl/paamg/galerkin.hh: GalerkinProduct::build, ConnectivityConstructor::examine, constructOverlapConnectivity, buildOverlapVertices, BaseGalerkinProduct::calculate", "dune/istl/paamg/transfer.hh: Transfer<V,V1,OwnerOverlapCopyCommunication>", "dune/istl/paamg/matrixhierarchy.hh: MatrixHierarchy::build, recalculateGalerkin", "dune/istl/schwarz.hh: OverlappingSchwarzOperator"]}
{"id": "C75", "title": "The parallel multigrid cycle computes the global one", "statement": "On a parallel AMG hierarchy as C74 describes it, with smoothers and coarse solver that return consistent vectors, AMG::apply (multiplicative, any numbers of pre- and postsmoothing steps and any gamma, for any state the internal vectors were left in and any start value in v) called on all processes with a defect that is right at the owners and zero at the copies finishes without undefined behaviour, exception or deadlock; and in whatever order messages arrive, v afterwards holds on every process and at every index it has, owned or not, the value of the textbook cycle on global vectors: presmoothing, restriction of the global residual with the transposed global prolongation, gamma recursive cycles with the residual in between (one direct solve on the coarsest level), damped global prolongation, postsmoothing. A sequential preconditioner in a BlockPreconditioner (or ParSSOR) is such a smoother, its global correction being at every index what the owner computes; without overlap indices it is a function of the global defect. If the coarse solver reports on one process that it has not converged, now or in an earlier call, and there is more than one level, the call throws MathError. Proved as deviations: with one level the failure of the coarse solver goes unnoticed; at overlap indices the right hand side of a coarse level is the sum over the local vertices only, so there the blocks work with values that are not those of the restricted global defect.", "quantifier": "all numbers of processes, levels, distributions, global matrices over a ring, smoothers, orders of messages, cycle parameters, start vectors and states of the internal vectors", "why_tests_cant": "tests run a handful of process counts and schedules and compare residual norms only", "anchors": ["dune/istl/paamg/amg.hh: AMG::apply, mgc, moveToCoarseLevel, moveToFineLevel", "dune/istl/paamg/smoother.hh: presmooth, postsmooth, SmootherApplier", "dune/istl/schwarz.hh: OverlappingSchwarzOperator, BlockPreconditioner, ParSSOR", "dune/istl/paamg/transfer.hh: Transfer"]}
{"id": "C76", "title": "The additive multigrid cycle is the sum of the corrections of all levels and a CG preconditioner", "statement": "AMG::apply of an AMG that was asked to be additive, with more than one level: the result is the sum over all levels of the prolongated corrections (damping factor 1) of the defect restricted to the level, where the smoother's apply starts from zero and the coarse solver from the vector the last call left on the coarsest level; if the coarse solver reports no convergence MathError is thrown.  For a symmetric positive definite matrix, SSOR (relaxation factor in (0,2), any number of sweeps) or one Jacobi sweep (any positive factor) and an exact coarse solver the call never fails and is, in every state of the object, one and the same symmetric positive definite map, and CGSolver with it solves every system within as many iterations as unknowns.  In parallel (any number of processes, any order of messages) the result is consistent and that of the same formula on global vectors, and MathError is thrown where the coarse solver failed.  Proved as deviations: with one level the behaviour is undefined (a map before the first one is accessed); as a stationary iteration it can increase the energy norm of the error; with an inexact coarse solver two calls with the same defect return different results because the coarse start vector is not reset.", "quantifier": "every ring of entries, number of levels, aggregates, smoothers, coarse solver, previous state of the vectors and defect; every symmetric positive definite matrix over an ordered ring and all coarsening parameters; in parallel every distribution and message order", "why_tests_cant": "the claims range over all hierarchies, matrices, states left by earlier calls and message orders; a test runs one solver on one model problem, and the symmetry of the preconditioner cannot be seen from finitely many applications", "anchors": ["dune/istl/paamg/amg.hh: AMG::apply, additiveMgc", "dune/istl/paamg/transfer.hh: Transfer", "dune/istl/paamg/parameters.hh: getAdditive", "dune/istl/preconditioners.hh: SeqSSOR, SeqJac", "dune/istl/solvers.hh: CGSolver"]}
{"id": "C77", "title": "The UMFPACK wrapper: what is factorised, who owns what, and when apply may be called", "statement": "Whatever sequence of setMatrix (with or without a bit vector), setSubMatrix, apply and free calls a client makes on a UMFPack object, constructed in any way, there is no undefined behaviour, apply(x,b,res) solves with the matrix that was set last, and the destructor releases everything, provided that matrices are square, that a bit vector has one flag per scalar row, that index sets are increasing and in range, that vectors do not consist of empty blocks only, and that free() is only called on an object that holds something. In detail: UMFPACK receives legal compressed column arrays (starts from 0 to the number of entries, increasing row indices in every column) of the matrix restricted to the rows and columns whose flag is not set, respectively to the block rows and columns of the index set, for matrices of any nesting; if UMFPACK factorises that matrix then apply leaves in x the solution of the restricted system and reports (1, converged); vectors of other dimensions and objects without a matrix are answered with ISTLError, empty vectors are ignored; a file that cannot be read is reported by the constructor that only loads (IOError), while the one that is also given a matrix decomposes it. Proved as deviations: if the factorisation fails, apply leaves x unchanged and reports convergence; a decomposition loaded from a file cannot be used with apply; free() on a new object, or twice, is undefined behaviour; the arrays of a system in which every row is excluded, or of an empty index set, are never released; an exception of the caching constructor leaks both UMFPACK objects; a matrix that is not square is not rejected: with more columns than rows the leading block is solved and convergence reported, with more rows than columns UMFPACK reads out of bounds.", "quantifier": "all nested block matrices and bit vectors, all index sets, all vectors, all libraries that keep UMFPACK's contract, all histories of calls", "why_tests_cant": "The state of six raw pointers depends on the whole history of calls, and the index arithmetic on the whole pattern; a test covers a few histories of a few matrices, and UMFPACK is not available everywhere.", "anchors": ["dune/istl/umfpack.hh: UMFPack", "dune/istl/bccsmatrix.hh: BCCSMatrix", "dune/istl/bccsmatrixinitializer.hh: copyToBCCSMatrix", "dune/istl/foreach.hh: flatMatrixForEach"]}
{"id": "C78", "title": "The LDL wrapper: what is factorised, in which order the factors are used, who owns what", "statement": "Whatever sequence of setMatrix, setSubMatrix, apply and free calls a client makes on an LDL object, there is no undefined behaviour and apply(x,b,res) (as well as apply on plain arrays) leaves in x the solution of the system that was set last and reports (1, converged), provided that matrices are square with square blocks, that index sets are increasing and in range, that AMD does not run out of memory, that vectors have the size of the system, that the matrix is symmetric and that LDL factorises it completely; the destructor releases all arrays. In detail: AMD and LDL receive legal compressed column arrays of the matrix respectively of the block rows and columns in the index set; if P A P^T = L D L^T then permutation, forward solve, diagonal solve, backward solve and inverse permutation, called in the order and with the arrays of apply, solve A x = b; setting a matrix throws InvalidStateException if and only if the factorisation stops early, in which case the constructors leak seven arrays. Proved as deviations: after such an exception apply still solves with the incomplete factors and reports convergence; if AMD fails the object can be neither destroyed nor freed nor reused without undefined behaviour, and a constructor leaks nine arrays; vector sizes are not checked: only the leading entries of longer vectors are solved for, shorter vectors are read and written past their end; apply and free on an object that holds nothing are undefined; the ten arrays of an empty matrix or index set are never released.", "quantifier": "all block matrices of any order and block size, all index sets, all finite histories of calls with exceptions in between, all scalars, all behaviours of AMD and LDL that satisfy their documented contract", "why_tests_cant": "tests call a constructor and apply once with a good matrix; ownership after failures, reuse, empty systems and wrong sizes are never exercised, and no test can cover all histories", "anchors": ["dune/istl/ldl.hh: LDL (all members but the getters, setOption and setVerbosity)", "dune/istl/bccsmatrix.hh: BCCSMatrix", "dune/istl/bccsmatrixinitializer.hh: copyToBCCSMatrix"]}
{"id": "C79", "title": "The SuperLU wrapper: what is factorised, who owns what, and when apply may be called", "statement": "Whatever sequence of setMatrix, setSubMatrix, apply (on vectors or on plain arrays) and free calls a client makes on a SuperLU object, constructed by default or from a matrix, with or without reuse of the vectors, there is no undefined behaviour, apply(x,b,res) leaves in x the solution of the system that was set last and reports (1, converged), and the destructor releases everything, provided that matrices are square with square blocks and have no zero pivot, that index sets are increasing and in range, that SuperLU does not run out of memory, that plain arrays are long enough and that free() is only called on an object that holds something. In detail: SuperLU receives legal compressed column arrays of the matrix respectively of the block rows and columns in the index set; vectors of other dimensions and objects without a matrix are answered with ISTLError and change nothing; on plain arrays exactly the leading entries are solved for; b may be scaled. Proved as deviations: a zero pivot is not reported, apply reports convergence; if SuperLU runs out of memory nothing is thrown and the object can be neither used nor destroyed; a matrix that is not square is not rejected and leaves an object that cannot be destroyed, or column starts are read out of bounds; setSubMatrix is undefined if the first row of the matrix is empty; free() on a new object, or twice, is undefined behaviour; plain arrays that are too short are read or written past their end; the eleven objects of an empty matrix or index set are never released.", "quantifier": "all block matrices of any order and block size, all index sets, all finite histories of calls with exceptions in between, all constructors, all scalars, all behaviours of SuperLU that satisfy its documented contract", "why_tests_cant": "tests construct a solver, solve once or twice and destroy it; ownership across reuse, failures, empty systems and wrong sizes is never exercised, and no test can cover all histories", "anchors": ["dune/istl/superlu.hh: SuperLU (all members but setVerbosity and the statistics)", "dune/istl/supermatrix.hh: SuperLUMatrix, SuperMatrixInitializer", "dune/istl/bccsmatrix.hh: BCCSMatrix", "dune/istl/bccsmatrixinitializer.hh: copyToBCCSMatrix"]}
{"id": "C80", "title": "AMG objects over their life: copies, changed matrices, recalculateHierarchy, pre, apply and post in any order", "statement": "Whatever sequence of constructions, copies, assignments, changes of the values of the user's matrices, recalculateHierarchy, pre, apply, post and destructions of sequential AMG objects a client makes, nothing undefined happens and every call returns what is specified, provided that apply and post are only called on an object between its own pre and post (an object assigned to takes over this state, a copy does not) and that a matrix keeps its pattern. In detail: pre solves for the unknowns that are not coupled to others and leaves the rest, or throws FMatrixError; apply is the multigrid cycle with the present values of the finest matrix, the coarser matrices of the last recalculateHierarchy (or of the construction) of this AMG or one of its copies, and the smoothers and coarse solver made at the construction; it does not depend on what the vectors contain nor on earlier calls, except that it throws MathError iff there is more than one level and a coarse solve of this cycle or an earlier one on the same object did not converge; the hierarchy exists as long as some copy exists and not longer. If smoothers and coarse solver read the matrices when they are used, then after recalculateHierarchy the object is the AMG that would be constructed for the present matrix, if the same aggregates were chosen for it. Proved as deviations: apply after the pre of another object, on a copy made between pre and post, or after post is undefined, as is a second post; a direct coarse solver keeps the factorisation of the old coarse matrix after recalculateHierarchy, so that the operator is not that of an AMG for the present matrix; with one level and a direct solver no change of the matrix has any effect; without recalculateHierarchy levels of different matrices are mixed.", "quantifier": "all matrices with symmetric pattern over all rings, all smoothers, coarse solvers, aggregation parameters and step numbers, all finite histories of calls on any number of matrices and AMG objects", "why_tests_cant": "tests construct one AMG, call pre, apply and post once in order and destroy it; recalculateHierarchy, copies and failing coarse solvers in any order are never exercised, and no test covers all histories", "anchors": ["dune/istl/paamg/amg.hh: AMG (constructors, copy constructor, recalculateHierarchy, pre, apply, post, mgc, moveToCoarseLevel, moveToFineLevel, members)", "dune/istl/paamg/matrixhierarchy.hh: MatrixHierarchy::recalculateGalerkin, coarsenSmoother"]}
{"id": "C81", "title": "The SPQR wrapper: which system is solved, in which sense, and what happens to its memory", "statement": "Whatever sequence of setMatrix, setSubMatrix, apply and free calls a client makes on an SPQR object with real entries, constructed by default or from a matrix, there is no undefined behaviour and apply(x,b,res) leaves in x a least squares solution of the system set last (the normal equations hold), which is a solution if the system has one, and reports (1, converged), provided that a matrix was set before apply and free, that free is not called twice, that the vectors are long enough, that index sets are increasing and in range, that a matrix of which a part is taken has as many block rows as block columns, and that SPQR does not run out of memory. In detail: SPQR receives legal compressed column arrays of the whole matrix, rectangular blocks and matrices included, respectively of the block rows and columns in the index set; exactly the leading entries of longer vectors are used; b is not changed. Proved as deviations: after free() apply leaves x alone and reports convergence, a second free() is undefined; without a matrix apply and free() are undefined; vectors that are too short are read and written past their end; if SPQR runs out of memory nothing is thrown and apply dereferences a null pointer; with complex entries every matrix with a nonempty row is written past the end of an array; setSubMatrix of a matrix with more block columns than block rows can read out of bounds; every object leaks its cholmod_common, and six more objects for every empty system.", "quantifier": "all block matrices of any dimensions and block sizes, all index sets, all finite histories of calls, all commutative rings of scalars, all behaviours of SPQR that satisfy its documented contract (A E = Q R)", "why_tests_cant": "tests construct a solver for one square matrix, solve and destroy it; ownership across reuse, rectangular and inconsistent systems, empty and freed objects are never exercised, and no test can cover all histories", "anchors": ["dune/istl/spqr.hh: SPQR (all members but setVerbosity and the getters)", "dune/istl/bccsmatrix.hh: BCCSMatrix", "dune/istl/bccsmatrixinitializer.hh: copyToBCCSMatrix"]}
{"id": "C82", "title": "Overlapping Schwarz with direct subdomain solvers: all local matrices assembled in one sweep", "statement": "For every square block matrix and every family of subdomains, given as sorted sets of existing rows or as one list of subdomains per row in which no subdomain occurs twice, setting up the preconditioner with stored direct solvers, which fills the arrays of all local matrices in the same passes over the global matrix, has no undefined behaviour and gives every subdomain exactly the compressed column arrays that copying its block rows and columns alone gives (columns with increasing rows, each entry of the submatrix once). With SuperLU each local solver is then indistinguishable from a new object on which setSubMatrix was called for the subdomain (if the first row of the matrix is not empty): its application solves exactly the system of its subdomain, it releases all its memory, and the scratch vectors have the size of the largest local system. With scalar blocks, nonempty subdomains whose matrices SuperLU can factorise and enough memory, no application of the preconditioner fails in any mode, with stored solvers or solvers made on the fly; the additive mode adds to x the relaxation factor times the sum of the exact solutions of the local problems with the residual of the incoming x; the multiplicative modes treat the subdomains one after another (the symmetric one once forth and once back), each time adding the relaxation factor times the exact solution of the local problem with the residual of the current x; after the multiplicative mode without damping the equations of the subdomain treated last hold. Proved as deviations: with fewer row lists than rows the lists are read past their end; a row that lists a subdomain twice makes the assembly write outside of its arrays; with a subdomain without rows no application succeeds.", "quantifier": "all block matrices and block sizes, all families of subdomains of any number, size and overlap, all right hand sides and initial values, entries in any ring, all SuperLU implementations satisfying their contract", "why_tests_cant": "The assembly interleaves the subdomains: counters, maps and array positions of all of them advance during the same traversal, and mistakes show only for particular overlap patterns; tests check the effect of a few regular decompositions on convergence.", "anchors": ["dune/istl/overlappingschwarz.hh: IndexMap, OverlappingSchwarzInitializer, SeqOverlappingSchwarz constructors, SeqOverlappingSchwarzAssembler::assembleLocalProblems, apply", "dune/istl/bccsmatrixinitializer.hh: BCCSMatrixInitializer, copyToBCCSMatrix", "dune/istl/superlu.hh: SuperLU::setSubMatrix, decompose, apply", "dune/istl/supermatrix.hh: SuperMatrixInitializer::createMatrix"]}
{"id": "C83", "title": "FastAMG as a preconditioner of symmetric positive definite systems", "statement": "For every symmetric positive definite matrix and all coarsening parameters the hierarchy FastAMG builds consists of symmetric positive definite matrices, and with an exact coarse solver FastAMG::apply (V cycle; any gamma other than 0 if the result of the coarse solver does not depend on the initial value and it leaves the right hand side alone, as a direct solver does; with a single level applied to a zero vector) never fails and is a fixed symmetric positive definite linear map for every prolongation damping factor >= 0, whatever the content of its vectors; for damping factors up to 1 it reduces the energy norm of the error. CGSolver with FastAMG never breaks down or throws and, if maxIt >= n, reports convergence after at most n iterations with the properties of C72; LoopSolver with FastAMG and damping factors up to 1 reduces the energy norm of the error unless it does no iteration or starts from the solution. FastAMG::pre satisfies the equations of all unknowns that are decoupled from the others and have a nonzero diagonal entry, changes no other unknown and leaves b alone, provides vectors of the sizes of all levels, and throws FMatrixError exactly if a nonzero diagonal entry of a decoupled unknown is singular; a decoupled unknown with a stored zero on the diagonal is left alone, where AMG::pre throws. Proved as deviation: with the default damping factor 1.6 FastAMG used as a stationary iteration can increase the energy norm of the error.", "quantifier": "all sizes n, all symmetric positive definite matrices over every ordered field, all aggregation parameters and strength criteria, all damping factors >= 0, all vectors and states of the preconditioner; FastAMG::pre: all square matrices over every ring", "why_tests_cant": "FastAMG merges smoothing, residual computation and restriction into single sweeps; that the merged cycle is symmetric, definite and convergent for every matrix and hierarchy cannot be sampled, the tests run it on Laplace problems only.", "anchors": ["dune/istl/paamg/fastamg.hh:FastAMG::pre,FastAMG::apply,FastAMG::mgc,FastAMG::post", "dune/istl/paamg/fastamgsmoother.hh", "dune/istl/solvers.hh:CGSolver::apply,LoopSolver::apply", "dune/istl/paamg/parameters.hh:Parameters"]}
{"id": "C84", "title": "SVG export of nested matrices", "statement": "For every matrix whose entries are numbers or matrices down to any depth, and for all block and gap sizes: if every matrix of matrices has a stored entry and the sizes can be represented, writeSVGMatrix writes a document in which all svg elements are properly nested and that shows exactly this: each matrix at its absolute position with its size, each block in a window with the width of its column and the height of its row (those of the first stored block of the column or row, the smallest known size for one without blocks, partial sums with a gap before each), and every stored number once, with its multi-index and value, in row order, as a square of the given size. The pair that is returned is the size of the matrix; header (with this pair) and footer are written once, first and last, and only if wanted. If the blocks of each column have the same width and those of each row the same height, all numbers lie inside of the rectangle of the matrix with at least the gap as distance from its border and from each other. Proved as deviations: with blocks of different sizes in a column only the first gets room, numbers of the others are drawn outside of their window and over neighbours; a matrix of matrices without entries gets the size 2^64-1 per row and column, which wraps to -1 (or to an image of size 2^64-1 without gap).", "quantifier": "all depths of nesting, numbers of rows, columns and entries, patterns, block and gap sizes (natural numbers below 2^64), with and without header; every callback writeSVGBlock that draws what it is given", "why_tests_cant": "The layout is computed by a recursion that runs each level twice and fills gaps by guesses; tests compare no output, they only check that something is written.", "anchors": ["dune/istl/io.hh:writeSVGMatrix,Impl::writeSVGMatrix,Impl::writeSVGMatrixHeader"]}
