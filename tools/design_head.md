# Formal model of dune-istl in Coq 8.16

## 1. Method

* Every modelled C++ function is a computable (or, over the reals, definable) Gallina function with a comment citing the file and lines in
  /repo it models and what is simplified. Exceptions, undefined behaviour and normal results are distinct outcomes (`Ok`, `Throw`, `UB`;
  with the state left behind where an exception is thrown from a method).
* Specifications are written with mathematics only (finite sums, sets of positions, permutations, dense matrices `den A i j`, Krylov
  spaces), independent of the helpers of the model. They are in Ring.v, Sparse.v, BcrsSpec.v and in a section "Specification" of the other
  files, or directly in the statement.
* Theorems that MANIFEST.json lists are named after their property (`C15_ilu0`). Beside them stand `Example`s (or `_example` theorems)
  that run the model on a concrete, non-trivial input meeting the hypotheses.
* `_refuted` marks theorems showing that a part of a property that one could expect FAILS for the code as it is (a concrete reachable
  counterexample, or a whole family), beside the strongest version that holds; the text of the property names the deviation. `_partial` marks
  theorems that prove only a part of what is stated (none is left in the manifest).
* `tools/`: mkprops.py and claims.py/mkmanifest.py generate properties.jsonl and MANIFEST.json; assumptions.py prints the axioms of every
  theorem; mkdesign.py generates this file; mutlog.py turns the results of the mutation runs into seeded/LOG.jsonl.

## 2. Global modelling decisions

* **Numbers.** Block entries are elements of an arbitrary (noncommutative) unital ring (`Ring` record, Leibniz equality) with a partial
  inverse `inv : R -> option R` satisfying `inv a = Some b -> ab = ba = 1` (None = the C++ code throws FMatrixError) and an optional
  anti-involution for transposes/conjugates. `FieldMatrix<K,n,n>` blocks form such a ring; `FieldVector<K,n>` blocks are embedded as square
  matrices with one nonzero column (rectangular blocks as zero padded square ones), so "block times vector" is ring multiplication. Nested
  block levels are handled by instantiating the ring again. Scalars (relaxation factors, alpha) are central elements. Arithmetic is exact:
  floating point rounding is NOT modelled. Exceptional values (NaN, inf) are modelled where the property is about them (C26, C49, C57).
* **Vectors of the Krylov solvers** are elements of an arbitrary module (`vspace`) with an arbitrary scalar product; where square roots occur
  (C28, C29, C51, C54, C57) the field is Coq's `R`.
* **Sizes** are `nat`; where wrap-around of `size_t` matters (C24, C25) arithmetic is explicit mod 2^64.
* **Memory.** For BCRSMatrix, BlockVector, VariableBlockVector and Matrix the arrays are modelled with offsets into them (windows), because
  sharing, in-place compaction and reallocation matter there. Elsewhere a finished sparse matrix is a list of rows of (column, value) pairs, as
  seen through the iterators; C01-C08 show that the objects built by any call sequence present such rows.
* **Solvers and preconditioners passed as arguments** are arbitrary functions with their own state; hypotheses (linearity, exactness) are
  stated in the theorem that needs them.
* **Parallel code.** Processes are indices, local-to-global maps and attributes are functions; the communication interface is the list of
  (source, destination) pairs selected by the attribute sets; message delivery order is an arbitrary permutation (quantified).

## 3. What is modelled and what is not

Modelled (the line ranges are in the comments): bcrsmatrix.hh (build modes, iterators, access, copies, arithmetic, products), bvector.hh,
vbvector.hh, basearray.hh (what the containers use), matrix.hh, matrixindexset.hh, matrixmatrix.hh, matrixutils.hh (dimension queries,
checks), bdmatrix.hh, btdmatrix.hh, scaledidmatrix.hh, multitypeblock{vector,matrix}.hh, foreach.hh, gsetc.hh, ilu.hh, ildl.hh, dilu.hh,
preconditioners.hh, overlappingschwarz.hh (sequential, with the simultaneous assembly for direct solvers) and ilusubdomainsolver.hh (sequential), solver.hh, solvers.hh (all solvers), solverfactory.hh /
solverregistry.hh / common/registry.hh, bccsmatrix.hh and bccsmatrixinitializer.hh, matrixmarket.hh (coordinate, array and distributed files),
scalarproducts.hh, owneroverlapcopy.hh, schwarz.hh, novlpschwarz.hh, paamg: aggregates.hh (search, Aggregator::build, dependency policies), graph.hh, parameters.hh (defaults),
renumberer.hh, indicescoarsener.hh, globalaggregates.hh, graphcreator.hh (excluded vertices), transfer.hh, galerkin.hh (sequential and parallel), amg.hh (pre, multiplicative and additive cycle, in parallel without redistribution, setup of the smoothers; the life of sequential objects), matrixhierarchy.hh (sequential; one coarsening step in parallel), hierarchy.hh, twolevelmethod.hh, smoother.hh, kamg.hh, fastamg.hh,
fastamgsmoother.hh; eigenvalue/poweriteration.hh; io.hh (Matlab export, printing, layout of the SVG export); repartition.hh (everything but the calls of (Par)METIS and debug output); matrixredistribute.hh (overlapping category); see section 5 for further files.

Not modelled: templates and overload resolution as such (each theorem is about the generic algorithm), debug output and allocation
failures (except where a property is about them), SIMD lanes, floating point rounding, the wrapper of ARPACK++
(arpackpp.hh) and the libraries behind the CHOLMOD, UMFPACK, LDL, SuperLU and SPQR wrappers of C63, C77, C78, C79 and C81 (they are parameters), MPI, ParMETIS,
the construction of RemoteIndices and the message protocol of IndicesSyncer in dune-common, Python bindings.

Assumed about dune-common: FieldMatrix/FieldVector/DynamicMatrix arithmetic is the mathematical one and their inversion throws FMatrixError for
singular matrices; ParallelIndexSet is a set of (global, local, attribute) triples ordered by global index; RemoteIndices / Interface /
BufferedCommunicator send to each neighbour the values of the indices whose attributes are in the source set here and in the destination set
there; ParameterizedObjectFactory is a map from keys to creators; std::map, std::set, std::lower_bound, std::sort behave as specified.

Known mismatches between code and model that no theorem depends on are mentioned in the comment of the definition concerned.

## 4. Trusted base

* The kernel of Coq 8.16.1 (coqc), and the standard library's definitions. No OCaml plugin, no kernel flag is changed.
* The axioms `Print Assumptions` lists for each theorem: section 6. They all belong to Coq's standard library: the axioms of the real
  numbers (`ClassicalDedekindReals.sig_forall_dec`, `ClassicalDedekindReals.sig_not_dec`) and `functional_extensionality_dep`, used only by the
  theorems over the reals. Everything else is closed under the global context. A checker that looks at loaded libraries rather than at theorems also sees
  `Classical_Prop.classic` (loaded with Reals) and the parameters of `Coq.ssr.ssrunder` (loaded with ssreflect by micromega/setoid tactics); no theorem uses them.
* No axiom, `Parameter`, `Admitted` or functor is added by this development.
* The correspondence between /repo and the model, which is by reading: the code was not compiled or run. seeded/LOG.jsonl records which wrong
  programs (mutants of the model) the theorems reject.

### Findings

Behaviour of the code that contradicts what a user would expect, each a theorem `_refuted` (section 5 counts them per property, the text of the
property explains them): among others sharing of index arrays after copying matrices with oversized rows (C06, C07), stale counts after
setSize (C45), double counting in nonoverlapping operators with the default masks (C46), MINRES mixing two norms (C51), dynamic relaxation of
overlapping Schwarz (C55), ILU(2) of a symmetric matrix not being symmetric (C56), the eigenvalue algorithms' silent NaN and the stale
iteration matrix (C57).

Observed while reading, not modelled: coldim(A,c) scans j_[0..nnz_), wrong for shrunk random rows; ScaledIdentityMatrix::frobenius_norm2 of
complex fields does not compile; MatrixIndexSet::exportIdx onto an implicit-mode target throws and drops columns >= cols(); BCCSMatrix::operator= and
free leave dangling pointers; the condition `overlapCount = 0 ? 1 : overlapCount` in repartition.hh; ILUNSubdomainSolver::setSubMatrix calls
an unqualified base member.
