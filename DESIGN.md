# Formal model of fdaPDE-core: design

## 1. Trusted base

* Coq 8.16.1 kernel (`coqc`, re-checked by `coqchk`).
* Axioms: only those of the standard library that `Print Assumptions` lists under a
  theorem. Files that only use `nat`, `N`, `Z`, `Q`, `list`, `bool` are axiom free
  ("Closed under the global context"). Files using `Coq.Reals` depend on the
  standard axioms of the reals (`ClassicalDedekindReals.sig_forall_dec`,
  `ClassicalDedekindReals.sig_not_dec`, `FunctionalExtensionality.functional_extensionality_dep`,
  possibly `Classical_Prop.classic`).  Section 5 lists the result per theorem.
* The correspondence between `/repo` and the model is by reading: every definition of a
  `*Model.v` file carries a comment with the file and lines it models, and every
  simplification is stated in that comment.
* External code that is not modelled but *quantified over* (its documented contract is an
  explicit hypothesis or argument of the theorem): `std::nth_element`, `std::shuffle`,
  iteration order of `std::unordered_map`, the thread scheduler, Eigen's linear solvers
  (exact solve), `std::from_chars` / `std::stod`, the objective functions, the mesh data.

## 2. Conventions

* One directory, `rocq/theories`. For each area `X`: `XModel.v` (definitions only, with
  citations), optionally `XSpec.v` (small independent specification), `XProofs.v` (lemmas),
  `XProps.v` (only the property theorems closed by `exact`, with `Example`s showing
  that hypotheses are satisfiable, and `Print Assumptions`).
* C++ outcomes: `Res A = Ok a | Throw | UB | OutOfFuel` (`Base.v`). An out-of-range access, null
  dereference, shift by the word width, infinite loop, ... is `UB`/`OutOfFuel`, never a default value.
* `std::size_t`/`int` are unbounded `nat`/`Z` unless wrap-around is the point (64-bit packs are
  `N` with explicit masks; big/little endian codecs use `mod 2^k`).
* `double` is idealised: an abstract ordered type for order-only algorithms, `Q` (exact
  rationals) or `R` for arithmetic; rounding errors are outside the model. This is the main
  simplification of the numerical parts and is repeated in each file. Exceptions, stated on
  IEEE binary64 (Flocq): the comparators (C90), `almost_equal` (C134), the quadrature loops, row sums
  and line searches of C191-C194, and later properties whose plan row names Flocq.
* When the code violates the property, the theorem is `..._refuted` with a concrete witness and
  the true part is `..._partial`. Section 4 lists these findings.

## 3. Plan per property

(see `MANIFEST.json` for the status and the theorem names; section 5 gives the file of each theorem)

| Property | Model | How proved |
|---|---|---|
| C01-C15, C94, C95 | `BinMatModel`: packs as `list N`, masks and shifts as in the code | refinement to a function `nat -> nat -> bool`; induction over call lists and expression trees |
| C16 | `CombModel`: `prev_permutation` on the bit mask, loop as in the code | induction on N (block decomposition of the enumeration) |
| C17-C22, C123 | `TreeModel`: arena heap of nodes with parent/child pointers | refinement of the heap to inductive trees, induction on trees and push lists |
| C23-C27, C93, C124 | `FrameModel`: frame state, operations return `Res` | invariant over operation lists |
| C28-C29 | `SpBlockModel` | induction over block partitions |
| C30-C32 | `KronModel` (products and lumping) | div/mod arithmetic, list induction |
| C33 | `SmwProps` (mathcomp matrices over a field) | matrix algebra |
| C34-C37 | `KdModel`, nth_element as an arbitrary function satisfying its contract | induction on the tree |
| C38-C39 | `IntervalModel` | binary search invariant |
| C40-C45, C96-C99 | `TriModel`, specification `TriSpec` | invariant over the constructor loop (`TriProofs`, `TriProofs2`) |
| C46 | `NetModel` | invariant over the constructor loop |
| C47 | `WalkModel` | pigeonhole on visited cells; convexity argument |
| C48, C100-C102 | `SimplexModel` over `R` with `LinAlg` | linear algebra |
| C49, C50, C92, C103 | `HyperProps`, `SimplexModel` | orthogonality, Cauchy-Schwarz |
| C51 | `ClockProps` | sign of the cross product |
| C52-C56, C104-C107 | `OptModel` | induction on iterations, line searches as arbitrary callbacks |
| C57-C60, C125 | `ConcQueueModel`, `ThreadPoolModel`: labelled transition systems | invariants over all schedules, well-founded progress measure for liveness; refutations by explicit schedules |
| C61-C63 | `PolyModel`, `LagrangeProps` | induction, linear independence |
| C64, C65, C70, C74, C110 | `FemModel` | sums over triplet lists, induction on the operator expression |
| C66, C79, C80, C111, C112 | `SolverModel` | matrix rows, induction on steps and histories |
| C67, C113 | `DofModel` | invariant over the cells |
| C68, C114 | `EvalModel` | sums over the basis, affine pull-back |
| C69 | `QuadModel` | moments computed in `Q`, lifted to all polynomials by linearity |
| C71-C73, C108, C109 | `FieldModel` | structural induction on expressions; Taylor bounds |
| C75-C78, C115, C116 | `SplineModel` | induction on the order (Cox-de Boor), derivatives |
| C81, C82, C117 | `CsvModel` | induction on strings and lines |
| C83-C86, C118, C119 | `ShpModel` | byte arithmetic, encoders as inverse, list induction |
| C87 | `ErasureModel` | heap invariant over histories |
| C88-C90 | `TraitsModel` | list induction; Flocq comparison |
| C91, C120-C122 | `FspaiModel` | invariant over the loops; quadratic form minimisation |
| C126 | `WrapModel` | function tables, dispatch by index |
| C127 | `VorLineModel` | list induction over `Q` |
| C128-C130 | `VorPlaneModel` over `R` | permutation of facets around a node, shoelace formula |
| C131-C133 | `CellModel` | set insertion, index arithmetic |
| C134-C136 | `SymbolsModel` | Flocq rounding lemmas; bounds of exp and ln; heap refinement |
| C137-C140 | `FemEnergy` | the assembled matrix as a bilinear form of finite element functions: bilinearity of sums over cells and quadrature points, induction on operator expressions; positivity from positive weights; definiteness from unisolvence, which is checked once per reference element by exact rational Gauss elimination | 
| C141-C142 | `MeasureModel`, `MeasureProps` | cofactor formulas for determinants up to 3 x 3 and the Gram determinant of surface cells; invariance under rigid motions and scaling, additivity under subdivision by algebra |
| C143-C145 | `FemKernel` | zero energy forces zero gradients at the quadrature points, unisolvence of gradients forces cell-wise constants, the dof graph carries them across cells; injective square systems are invertible (`LinAlg`) |
| C146-C148 | `FemMesh` | instantiation of all hypotheses of the previous theorems from node and cell tables alone: the mesh tables of `Tri*`, dof tables of `Dof*`, geometry of `Simplex*` |
| C149 | `FemPatch` | the divergence theorem on the discrete level: outward normals of the faces of a simplex add up to zero, contributions of shared faces cancel in pairs over a conforming mesh |
| C150-C153 | `FemTime` | energy estimate of one implicit Euler step (Young's inequality in the mass inner product), induction over the steps; completion of the square for the energy |
| C154 | `FemInterp` | the affine pull-back keeps the monomial space, nodal interpolation is exact on it, hence evaluation rows reproduce it |
| C155-C158 | `SplineSolverModel`, `SplineSolverProps` | life cycle of the spline PDE object as a fold over call lists with an invariant; affine invariance of the Cox-de Boor recursion by induction on the order |
| C159-C163 | `SplineZeros`, `SplineSpace` | local independence on one knot interval by induction on the order (differentiate, sum by parts); Greville identity by the same recursion; quadratic form of the assembled matrix as a sum of squares at the quadrature nodes; zeros of splines counted by Rolle's theorem on the glued pieces, down to piecewise affine functions; counting of nodes against dimensions for the refutations |
| C164 | `KdBalance` | trees with holes: the sets on the stack are the unfinished branches; every insertion fills the first hole, halves it, and keeps the tree ordered and weight balanced |
| C165 | `TriCount` | double counting of the incidences of cells and facets: two duplicate-free lists with the same elements |
| C166 | `NodePatch` | corollary of the exactness of TreeSearch; a vertex is a convex combination of the vertices |
| C167 | `MeshCopyModel`, `MeshCopyProps` | memory of mesh objects with a pointer in the cached policy; simulation of a specification in which meshes are values, by induction on the history |
| C168 | `MeshCopyModel`, `MeshCopyProps` | accesses of each thread to the member as a small automaton; invariant over all schedules |
| C169 | `VorEdges` | edges and edge of a cell, edges of the diagram with the set of visited pairs; invariant of the visited set over the cells, any traversal order |
| C170 | `ShpFolder` | std::string find and substr with 64-bit positions, the loop over the slashes, the three files looked up in an abstract file system; induction on the number of components, and witnesses for the final slash and the missing keyword |
| C171 | `ShpFolder` | the loop printing the columns with its unsigned bound, the names of the shape types |
| C172 | `FemMax` | the gradients of the barycentric coordinates are inward normals, hence the entries of the stiffness matrix outside the diagonal are not positive; the positive part of the solution minus the bound has no energy |
| C173 | `SplinePoly` | induction on the order: the sums of products of knots weighted by the basis functions satisfy Pascal's rule; uniqueness from C159 |
| C174 | `SplinePoly` | partition of unity, positivity and local support |
| C175 | `SplinePoly` | where m knots coincide both neighbouring pieces of degree m have the values of one index, and the recursion keeps them equal; the derivative of two pieces that agree |
| C176 | `IterModel`, `IterProps` | index and stored item of the filtered iterators, ++ and -- as the loops over the filter; the position of an item is the number of kept items before it, an invariant of every walk |
| C177 | `IterModel`, `IterProps` | the default filter as the bits of the packs of `Ones(n_edges)`; reading past them is UB |
| C178 | `IterModel`, `IterProps` | the mask after i calls of `std::prev_permutation` in closed form, then the loop over the index iterator; points on the boundary by convex combinations |
| C179 | `FemApprox` | the values of the basis of first order at a point are its barycentric coordinates |
| C180 | `FemApprox` | the tangent plane at the point is reproduced, the remainder is a convex combination of remainders; distances by Jensen's inequality |
| C181 | `SplineShape` | the derivative of a piece has the differences of the coefficients as coefficients; pieces compared at the knots between them for every multiplicity |
| C182 | `SplineShape` | a supporting line at every point, from the slopes on the pieces |
| C183 | `OptConv` | every pass with a large gradient lowers the objective by a fixed amount; the last iterate could be lowered once more; the accepted step of the backtracking loop is bounded below |
| C184 | `OptConv` | the same passes, multiplying the gaps |
| C185 | `KronAlg` | entries by quotient and remainder of the indices; definiteness by elimination of one row at a time (Schur complements) applied to a form with values in the second factor |
| C186 | `FemLump` | row sums of the mass matrix are the form at a basis function and the constant 1; quadrature of the barycentric coordinates on the tables |
| C187 | `ShareModel`, `ShareProps` | memory with use counts; refinement to references: for every object the duplicate-free list of its owners has the length of the count, a temporary owner stands for the swap idiom |
| C188 | `ShareModel`, `ShareProps` | the caller's memory is explicit; refinement to pointers, types fixed at creation; undefined calls on dead objects |
| C189 | `DiffModel`, `DiffProps` | the constructors build the field expressions of `FieldModel`; evaluation of a list of functions; composition with C183 |
| C190 | `DiffProps` | descent with a gradient known up to d: every pass above the tolerance still lowers the value; the error of the differences comes from C109 |
| C191 | `FloatModel`, `FloatProps` | the loops of the integrator on Flocq's binary64; error of recursive sums and dot products; monotone roundings |
| C192 | `FloatProps` | a sum is any binary tree over a permutation of the entries and zeros; induction over the tree |
| C193 | `FloatModel`, `FloatSearch` | the step underflows to zero within 2099 halvings and a zero step passes the test; a stalling run for larger factors |
| C194 | `FloatSearch` | invariant of an endless bisection: all trial values round to 1, the decrease test refuses large steps and the curvature test small ones |
| C195 | `FloatSplineModel`, `FloatSpline` | relative error carried through the Cox-de Boor recursion: nonnegative terms only, so no cancellation; gaps bounded below exclude overflow of the reciprocals |
| C196 | `FloatSpline` | error bound of a floating point dot product on top of C195 |
| C197 | `FloatDiffModel`, `FloatDiff` | error of the two rounded points through a Lipschitz bound, Taylor for the exact quotient, then two roundings; absorption: a double within a quarter of its ulp rounds back |
| C198 | `FloatDiff` | both entries are sums of the same four values in another order; counterexample evaluated in the kernel |
| C199 | `FloatDiff2` | as C197 with five points, five terms and a rounded divisor |
| C200 | `FloatCellModel`, `FloatCell` | relative errors carried as powers of 1 + u through differences, products, determinant, reciprocal and matrix-vector product; sum of absolute products bounded by the distortion; counterexamples evaluated in the kernel |
| C201 | `OptObjModel`, `OptObj` | objects as records of settings, members and results; two runs from states which agree on the live members stay in agreement at every pass |
| C202 | `FloatOptModel`, `FloatOpt` | invariant of the loop: the error is that of the current point; counterexamples evaluated in the kernel |
| C203 | `FloatOptModel`, `FloatOpt` | first minimum of the rows seen so far, for the partial order of doubles |
| C204 | `BinMat32Model`, `BinMat32` | simulation: every checked operation returns the unbounded result when the sizes fit; error of a rounded quotient and product against the distance to the next integer |
| C205 | `OptModel`, `OptNewton` | remainder of the linear model of the gradient by the mean value theorem; contraction of the scaled distance along the loop |
| C206 | `OptModel`, `OptWolfe` | curvature condition bounds the step below; decrease summed over the run, with enough fuel for each search |
| C207 | `OptModel`, `OptBfgs` | inverse of the BFGS matrix as a ghost; determinant of rank one updates by elimination; trace - ln det bounds the angles of the directions, combined with the objective into a Lyapunov function |
| C208 | `OptModel`, `OptNewtonWolfe` | angle of the Newton direction from the eigenvalue bounds; decrease of each pass summed over the run |
| C209 | `FemModel`, `SolverModel`, `FemConv` | residual of the exact solution in each row by Taylor and the moments of the quadrature rule; comparison with the barrier (x - a)(b - x)/2 by the discrete maximum principle |
| C210 | `OptModel`, `OptBfgsBack` | as C207, with the ratio of norm and form of the ghost matrix kept in the potential: it pays for the short decrease of an accepted first step |
| C211 | `OptModel`, `OptNewtonBack` | as C208, the step bounded below by the last rejected one |
| C212 | `SolverModel`, `FemHeat` | consistency as in C209 plus the difference quotient interpolated in space (Taylor at the quadrature nodes); energy step with the Cauchy inequality of the mass matrix; induction on the time points |
| C213 | `FemModel`, `FemRate`, `FemGrid` | the gradient of the exact solution integrated over the faces of the cells cancels in pairs (as in C149); Taylor on each cell leaves a consistency error of first order; Young and coercivity of the form |
| C214 | `FemModel`, `FemRate`, `FemPoincare`, `FemGrid` | the flux of the position times the square of the function cancels over the faces, which leaves a discrete Poincare inequality; Galerkin orthogonality up to the consistency error of C213 and Young |
| C215 | `SolverModel`, `FemHeatRate` | the consistency error of C213 at each time plus the difference quotient of the interpolant; the step tested with the error, the discrete Poincare inequality of C214 absorbs the values; induction on the time points |
| C216 | `FloatClockModel`, `FloatClock` | sign symmetry of the rounded difference for all doubles; on a grid every operation is exact (53 bits suffice for the differences of products), so C51 transfers; a cycle of three points by computation |
| C217 | `CombIntModel`, `CombInt` | products of ints with overflow as undefined behaviour; induction on the argument, Pascal's recursion from C16 |
| C218 | `FloatKdModel`, `FloatKd` | doubles other than NaN are embedded in the rationals so that build and range search transfer from C34-C36; the rounded scaling is monotone and stays in [0, 1] because x fl(1/x) rounds to at most 1; on a flat axis every comparison is with NaN and the search never leaves the first levels |
| C219 | `FloatPlaneModel`, `FloatPlane` | every computed quantity is the exact one times a factor between (1+u)^-k and (1+u)^k, closed under products, quotients, square roots and sums of one sign; the norm is compared with the tolerance by monotonicity of rounding; the counterexamples are computed |
| C220 | `FloatLinspaceModel`, `FloatLinspace` | each node is the exact one up to four roundings, with the factor calculus of C219; the gap of two exact nodes exceeds the two errors; location by C38 on the rational values of the computed nodes |
| C221 | `FloatMeasureModel`, `FloatMeasure` | products by the factor calculus of C219; sums by the bound (1+u)^k - 1 times the sum of the absolute values; underflow is absorbed because a term which does not vanish is at least 2^-300; the counterexample is computed |
| C222 | `FloatFemModel`, `FloatFem` | commutativity of the product of doubles; monotonicity of rounding for the sign; an error calculus (relative part, absolute part, bound) closed under products and sums; the errors of determinant and measure enter as a common factor |
| C223 | `PoolRaceModel`, `PoolRace` | accesses of every statement of the pool and queue; a race is two enabled conflicting steps of different threads in a reachable state; case analysis under the mutex invariants, witnesses by schedules |
| C224 | `PoolFutureModel`, `PoolFuture` | pool of C58 extended with closures, shared memory, argument variables and the shared states of futures; invariant tying futures to the pool's histories |
| C225 | `PoolDestroyModel`, `PoolDestroy` | the implicit destructor on the states of C224; accounting of the tasks when all workers have exited |
| C226 | `FloatAssemblyModel`, `FloatAssembly` | triplets of all cells in doubles; the list of the contributing local entries, rounding analysis of the sums of lists, on top of C222 |
| C227 | `FloatLoadModel`, `FloatLoad` | the vector updated in place, reduced to one list of terms for each entry; monotonicity of rounding; error calculus of C222 with the measure of C221, for segments, triangles and tetrahedra |
| C228 | `FloatMassModel`, `FloatMass` | assembly with any local entries; the list of terms of an entry; accuracy of the assembly from the accuracy of the local entries, error calculus of C222 with the measure of C221 |
| C229 | `FloatFem3Model`, `FloatFem3` | cofactors, determinant by the first column (either order of additions), inverse, gradients and products by the error calculus of C222; assembly by C228 |
| C230 | `FloatOperModel`, `FloatOper` | induction over the operator expression with errors relative to the absolute weak form; gradients from C222 and C229, measure from C227, assembly from C226 and C228 |
| C231 | `FloatStepModel`, `FloatStep` | rounding errors of the quotient, the sum and the product of the mass matrix and the previous column (C191), added to the backward error of the linear solver |
| C232 | `FloatGalerkinModel`, `FloatGalerkin` | accuracy of the matrix (C230) and of the load (C227) combined with the backward error of the linear solver; constrained rows are exactly unit rows |
| C233 | `FloatParabolicModel`, `FloatParabolic` | perturbation of a row of the implicit Euler system (matrices and load within a relative error of the exact ones), with the accuracies of C227, C228, C230 and the step of C231 |
| C234 | `FloatParabolicModel`, `FloatDrift` | energy argument: the difference of the computed and the exact columns solves the scheme with the residual of C233 as data; Cauchy-Schwarz for the mass matrix, induction on the number of steps |

### Code that is not modelled

* Eigen, the standard library containers and algorithms, `std::thread`, `std::mutex`: used through their contracts.
* Floating point rounding, except for the properties whose plan row names Flocq; overflow of `int` and `std::size_t`, except where stated.
* Compile-time machinery beyond the type lists: SFINAE overload selection, `constexpr` tables are taken as the values they compute.
* `utils/assert.h` (an assertion is the outcome `Throw`), `utils/concepts.h`, the selector headers (`*_selector.h`), forwarding headers.
* Members that no instantiation can compile (listed as findings in section 4) have no behaviour to model.

## 4. Findings (places where the code violates the property)

Found by reading the code for the model; where a theorem proves it, the manifest entry names it (`..._refuted`).
Items marked (reading) were seen in the source but are outside of the model (compile errors, leaks, data races).

**BinaryMatrix** (`linear_algebra/binary_matrix.h`)
* `all()` uses a wrong mask for the last pack for sizes above 64 that are not multiples of 64 (C05); `any()` for sizes 1..63 (C06).
* `==` and `!=` shift a 64-bit word by 64, undefined, when the size is a multiple of 64 (C08).
* Materialising a block wraps at the wrong place; an empty block is undefined (C11). Block assignment never clears a bit (C12).
* The range constructor divides by the number of rows instead of columns (C15). Negative indexes are accepted (C94).
* Assigning an Eigen matrix to a static matrix keeps the old true bits (C95).

**Binary trees** (`utils/data_structures/binary_tree.h`)
* The leaf iterator skips the root of a one-node tree (C18). BST `find` never finds a key held by a leaf and may dereference null (C20).
* Self copy-assignment is undefined, copying an empty tree throws, self-move loses the content, children moved with the tree keep a dangling parent (C21).
* `erase` of a proper subtree drops the whole tree (C22). `push` of an empty list and `push_left` at a null iterator are undefined.

**BlockFrame** (`utils/data_structures/block_frame.h`)
* An empty first block lets later blocks differ in height (C23). `head(n)` views n + 1 rows; the assertion of `col()` is inverted (C26).
* `remove` of a missing key erases `end()`; one key used with two types leaves stale data; the flag position is computed from an iterator already invalidated (C124). `rows_` is never reset.

**Sparse block matrix, Kronecker product**
* The iterator's row offset always grows by the height of block row 0 (C29). The const `coeff()` cannot be instantiated (reading).
* The constructor of the sparse Kronecker iterator reads the index of an empty column (reading).

**KD tree, tree search, interval**
* `nn_search` never searches the far side of a split and dereferences a missing child on the near side (C36). An empty matrix or a default tree is undefined. The split dimension advances per iteration, not per depth.
* A mesh that is flat along an axis divides by zero in TreeSearch.
* `Interval::locate` of the right end point reads past the nodes (C38); a one-cell interval gets the non-existing neighbour 1 (C39).
* The tree is not balanced: n coinciding points give depth n, and twelve points with distinct coordinates in the plane give depth 5 (C164).

**Triangulations** (`geometry/triangulation.h`, `triangle.h`, `tetrahedron.h`, `segment.h`, `utils.h`)
* `boundary_node_iterator` visits the interior nodes (C44). Filtered 3D iterators never visit the last item (C45).
* `surface()` leaves the last row uninitialised when the last face is on the boundary (C97).
* Edge markers in 3D mark interior edges between boundary nodes (C99); `on_boundary` of a cell likewise (C132).
* `is_edge_on_boundary` does not exist for `Triangulation<3,3>`; the default filter of `face_iterator` has the size of the edges; the cell-level `edge_iterator` and `face_iterator` constructors read `n_edges` through a pointer not yet initialised; the postfix operators of `index_based_iterator` cannot be instantiated (reading).
* `it + k` moves `it` itself and dereferences past the end when it reaches it (C133).
* A mesh copied or moved after a point query keeps, in its cached search structure, a pointer to the mesh it was copied from: it answers for the old mesh, or reads freed memory (C167).
* `locate() const` creates the search structure on demand without synchronisation: two first calls in different threads race (C168).
* `--` on the filtered three-dimensional iterators reads one past the current item, and past the filter at the end (C176); the default filter of the face iterator has one bit per edge (C177).

**Linear network, simplex, hyperplane, walk search, Voronoi**
* `neighbors()` of a network cell reads out of bounds for every cell (C46).
* A point on an edge of a tetrahedron is classified INSIDE (C48); `nearest()` returns a vertex for every outside point (C102).
* The normal of a line is not orthogonal unless |t0| = |t1| and not of unit length; for M > 2 the kernel of the wrong matrix is taken (C50).
* Walk search steps to cell -1 on non-convex meshes or outside points, and may cycle forever (C47).
* The 1D Voronoi diagram inherits the read past the nodes (C127). `locate` in 2D returns the nearest vertex of the containing triangle, which is not the nearest site (C129). Cells next to obtuse boundary triangles leave the domain (C130).
* `linear_network.h` is included nowhere and can not be instantiated as a whole: `range_` has mismatched sizes and `node_to_cells()` is missing (reading).
* `VoronoiCell::edge(i)` does not stop negative indexes (C169).

**Optimisation**
* Copying an optimizer leaves `optimum()` and `value()` of the copy indeterminate; assigning to one leaves its old results next to the new settings (C201).
* BFGS on an exactly zero gradient returns the previous iterate (C53, C207). The Wolfe search loops forever on unbounded descent directions.
* In double arithmetic the line searches can loop forever: backtracking with a factor above 1/2 stalls at the smallest positive double (C193), and the Wolfe search with its default parameters does not end close to the minimiser of 1 + y^2/2 (C194).
* With numerical derivatives of step h the descent stops at once on a sine of period 2 h, anywhere (C190).

**Thread pool** (`multithreading/ThreadPool.h`)
* `sync()` may return while a popped task has not started; two concurrent callers may leave one asleep forever (C59).
* A popped task is lost and queued tasks are dropped on shutdown; calling it twice throws (C60).
* Data races on `kill_`, `sync_`, `state_` and `empty()` (reading; accesses are atomic in the model).

**Fields** (`fields/`)
* A row as right operand of `dot` contributes its first product only; a row of a non-square matrix has the wrong length (C71).
* Unary functions, partial derivatives and wrapped fields do not forward their parameter (C72).
* `MatrixMatrixProduct` lacks `coeff`; the return type of `MatrixNegationOp::forward` is swapped; `dot` of two constant vectors does not compile; negation of dynamic expressions loses the size; `dot` of dynamic vectors has inner size 0 (reading).

**Finite elements and PDEs**
* Every diffusion operator is flagged symmetric, so non-symmetric tensors give a wrong upper triangle (C65).
* Dof 0 is always treated as a boundary dof (C66, C79, C111). Only t[1] - t[0] is used as time step; without boundary data the parabolic solver reads out of bounds (C79).
* `remove_operator` loses a sign and leaves constants behind (C74). Callable coefficients are evaluated at the reference node (C110).
* The elliptic solver with a multi-column forcing leaves part of the force unset (reading). Order 2 in 3D does not compile (C67); the quadratic tetrahedron's node order does not match its edges, and its mass matrix is integrated with too weak a rule (reading).
* `LagrangianBasis::operator()` uses the vertex ids, out of bounds for order 2, and `cell(-1)` outside of the domain (C114).
* The PDE wrapper invokes `eval_functional_basis` with another return type than it has (reading).
* With dof 0 in the interior of the domain its equation is lost when boundary data are imposed (C111).
* For second order triangles the lumped mass matrix has vertex entries which are rounding error of the tables (C186).

**Splines**
* The absolute tolerance at the right end makes two pieces active when the last interval is shorter (C75) and accepts points outside (C76).
* Operators not flagged symmetric read past the basis (C78). Cubic mass matrices are not exact (C115).
* `dofs_coords()` returns the knots; areal evaluation and the force are not implemented (reading).
* Three quadrature nodes per interval are too few for high orders: the mass matrix is singular for orders above twice the number of intervals (C161), the penalty has a kernel that is too large above twice the number of intervals plus two (C162), and smoothing systems can be singular above five times the number of intervals (C163).

**CSV, shapefile, dBase**
* An empty separator loops forever (C81). An empty token leaves a cell unset and a longer line writes out of range (C82); an empty value in a triplet file repeats the line before (C117). CRLF files and quoted separators are not handled; NA becomes 0 for integral types.
* Polygon rings but the last lose their last point (C84); z and m of multipoints are read into a copy and lost (C85); null shapes desynchronise the reader; the read buffer leaks (reading).
* A dBase text that does not convert repeats an earlier value (C86). Fields above 127 bytes are read as negative lengths and a table without rows has no columns (C119).
* A shapefile folder written with a final slash is not found (C170). A .prj file without GEOGCS gives a piece of its text as name, or an exception (C170). Printing a shapefile without columns reads out of bounds, and shapes with z or m coordinates are printed without a name (C171).

**Type erasure, traits, utilities**
* Self copy-assignment of a wrapper is a use after free, self-move a double free, a copy of an empty wrapper has an indeterminate size, a moved-from wrapper tests true (C87).
* The corners which lie in `vtable_handler` are the same with shared and with non-owning storage (C187, C188).
* Vector comparators are not strict weak orders with NaN (C90). `index_of` is wrong for duplicate types; the second definition of `has_type` is never selected (reading).
* `almost_equal` is false for equal infinities (C134). `log1pexp` drops at 33.3 (C135). `SparseLU` stays true after a failed compute and shares its solver through `operator->` (C136).

**FSPAI** (`linear_algebra/fspai.h`)
* A single candidate, or equal ones, are never selected, so tridiagonal matrices keep a diagonal factor (C121). Index sets are not reset between columns and calls (C122).
* The header includes `../utils/Symbols.h` with the wrong case and defines non-inline functions; a row without entries throws; alpha = 0 gives a null factor (reading).

**Spline PDE solver** (`splines/solvers`)
* `force_` is never assembled and `set_dirichlet_bc` does nothing: after `init()`, `solve()` either reports failure or passes a 0 x 0 right-hand side to the factorisation (C157).
* `dofs_coords()` returns the n nodes of the domain while there are n + r - 1 degrees of freedom (C158).

**Numerical derivatives in doubles** (`fields/field_derivatives.h`)
* `derive_twice()` is not symmetric in doubles: x*y at (1, 2) with the default step (C198). Each entry moves the point by rounded additions and adds the four values in its own order.
* With the default step the derivative of every field is zero at coordinates above about 7e13 (C197).

**Cell membership in doubles** (`geometry/simplex.h`)
* `contains` compares barycentric coordinates with 10 machine epsilons whatever the shape of the cell: a point of the mesh near the common edge of two thin triangles (aspect about 50) is OUTSIDE of both, so it is located nowhere (C200).
* The barycentric coordinates of a degenerate triangle are NaN, all comparisons are false, and `contains` answers INSIDE (C200).

**Optimizers in doubles** (`optimization`)
* `error > tol_` is false for NaN: gradient descent that overflows stops early and reports NaN as its optimum; Newton started at a stationary point with singular Hessian leaves it for NaN (C202).
* `Grid` returns its first row when the objective is NaN there, whatever the other values (C203).

**Machine integers** (`linear_algebra/binary_matrix.h`)
* The number of bits of a matrix is an `int`: 46341 x 46341 overflows in the constructor, and `count()` overflows when the size is within 64 of 2^31 - 1 (C204).
* The first row of a bitpack of a block is computed as `floor(i * (64 / (double)n_cols))`: pack 49 of a block of 49 columns starts at row 63 instead of 64 (C204).

**Clockwise order** (`geometry/utils.h`, `geometry/voronoi.h`)
* In double arithmetic `clockwise_order` around the computed mean is not transitive: the doubles nearest to (0.03, 0.01), (0.12, 0.04), (0.15, 0.05) form a cycle around the mean of these and (0.57, 0.19), so `std::sort` gets no strict weak ordering (C216).

**Counting with ints** (`utils/combinatorics.h`, `geometry/utils.h`)
* `ct_binomial_coefficient(n, k)` overflows for every n >= 13, also when the result is small, because it forms n!; `combinations<K, N>` and `ct_nnodes` inherit the limit (C217).

**Flat meshes** (`geometry/tree_search.h`)
* On a mesh whose nodes share one coordinate (a planar surface mesh at constant height, a straight network along an axis) `c_` is infinite and the scaled boxes are NaN: the search never goes below the first levels of the tree, so that most cells cannot be located (C218).
* `contains` of a segment of a network or of a triangle of a surface compares the distance from the supporting line or plane with the absolute tolerance 2.2e-15: from sizes of about ten on, cells reject their own nodes (segment (0, 0)-(1, 13), triangle (0, 0, 0), (1, 1, 0), (4, 5, 0)), and `locate` returns -1 there (C219).
* `Triangulation<1, 1>(a, b, n)` yields coinciding nodes, without complaint, when (b - a) / n is below the spacing of the doubles around a and b (C220).
* `measure()` of a cell which is not flat can be 0: its determinant cancels (triangle (0, 0), (1 + e, 1), (1 + 2e, 1 + e), e = 2^-52; C221).
- C223: five data races in `ThreadPool` (`if(kill_)` at line 43 against shutdown; `if(sync_)` at 47 against sync; `state_` writes at 44/46 against sync's `all_of`; `task_queue_.empty()` in sync against push and pop) and `size()`/`empty()` of `ConcurrentQueue` against its modifying operations.
- C224: after `shutdown()` the futures of the tasks left in the queue never become ready while the pool object lives.
- C225: `ThreadPool` has no destructor: an idle pool going out of scope without `shutdown()` calls `std::terminate`.

## 5. Assumptions per theorem

Output of `Print Assumptions` for every theorem of the manifest. `-`: closed under the global context. Otherwise the axioms of the standard library it lists: `C` = `Classical_Prop.classic`, `D` = `ClassicalEpsilon.constructive_indefinite_description`, `E` = `FunctionalExtensionality.functional_extensionality_dep`, `F` = `ClassicalDedekindReals.sig_forall_dec`, `N` = `ClassicalDedekindReals.sig_not_dec`.

* `BinMatProps.v`
  * -: `C01_history`, `C01_history_from`, `C01_out_of_range_throws`, `C02_layout`, `C02_no_collision`, `C02_expressions`, `C03_coefficient`, `C03_materialize`, `C03_mismatch_throws`, `C04_ones`, `C04_zero`, `C04_identity`, `C04_resize`, `C05_all_partial`, `C05_all_refuted`, `C05_all_refuted_false_positive`, `C05_all_exact`, `C06_any_partial`, `C06_any_refuted_missed`, `C06_any_refuted_padding`, `C06_any_exact_small`, `C07_count`, `C08_equality_partial`, `C08_undefined_on_multiples_refuted`, `C08_mismatch_throws`, `C09_which`, `C10_select_dense`, `C10_select_sparse`, `C10_mismatch_throws`, `C11_view_reads_parent`, `C11_named_views`, `C11_view_out_of_range_throws`, `C11_view_set_clear`, `C11_row_materialize`, `C11_col_materialize`, `C11_materialize_partial`, `C11_materialize_refuted`, `C11_materialize_empty_refuted`, `C12_block_assign_partial`, `C12_block_assign_refuted`, `C12_block_assign_exact`, `C13_repeat_coefficient`, `C13_repeat_materialize`, `C13_repeat_count`, `C14_reshape_sequence`, `C14_vector_view`, `C14_reshape_round_trip`, `C14_reshape_mismatch_throws`, `C14_reshape_materialize`, `C15_range_square_partial`, `C15_range_vector`, `C15_range_refuted_throws`, `C15_range_refuted_misplaced`, `C94_negative_column_refuted`, `C94_negative_row_refuted`, `C95_of_dense`, `C95_assign_dense_dynamic`, `C95_assign_dense_static_partial`, `C95_assign_dense_static_refuted`
* `CombProps.v`
  * -: `combinations_spec`, `combinations_nodup`
* `TreeProps.v`
  * -: `dfs_preorder`, `bfs_level_order`, `leaf_iteration_partial`, `leaf_iteration_refuted`, `leaf_iteration_single`, `push_from_empty`, `push_from_empty_bst`, `push_one`, `push_empty_list_ub`, `search_tree_sorted`, `bst_find_partial`, `bst_find_sound`, `bst_find_leaf_never`, `bst_find_refuted`, `copy_deep_partial`, `push_frame`, `clear_frame`, `move_transfers`, `copy_self_refuted`, `copy_empty_refuted`, `self_move_refuted`, `move_parent_refuted`, `erase_root_partial`, `erase_subtree_refuted`
* `FrameProps.v`
  * -: `frame_is_a_map`, `frame_heights_partial`, `frame_refuses`, `stack_layout`, `frame_heights_refuted`, `remove_two_types_refuted`, `dirty_flags`, `extract_unique_spec`, `range_view`, `tail_view`, `row_view`, `list_view`, `range_view_many`, `head_view_exact`, `head_full_refuted`, `col_refuted`, `shuffle_common_permutation`, `block_vector_block`, `block_vector_blocks`, `block_vector_head`, `block_vector_tail`, `block_vector_bounds`, `block_vector_write`, `block_vector_disjoint`, `block_vector_init`
* `SpBlockProps.v`
  * -: `sbm_make_ok`, `sbm_make_inconsistent_throws`, `sbm_coeff`, `sbm_cover`, `sbm_out_of_range_throws`, `sbm_iterate_partial`, `sbm_iterate_exact`, `column_entries_spec`, `sbm_iterate_refuted`
* `KronProps.v`
  * F: `kron_dense_coeff`, `kron_dense_block`, `kron_sparse_iterate`, `kron_sparse_sorted`, `lump_dense_row_sums`, `lump_not_square_throws`
  * EF: `kron_mixed_product`, `kron_sparse_coefficient`, `lump_sparse_row_sums`, `lump_preserves_ones`
* `SmwProps.v`
  * -: `smw_correct`, `smw_regular_iff`
* `KdProps.v`
  * -: `kd_build_spec`, `kd_build_empty_ub`, `kd_range_search`, `kd_range_search_default_ub`, `kd_nn_search_partial`, `kd_nn_search_refuted`, `tree_search_locate`, `tree_search_exact`, `bounding_box_hull`, `bounding_box_tight`
* `IntervalProps.v`
  * -: `interval_locate_partial`, `interval_locate_points_partial`, `interval_locate_right_end`, `interval_locate_refuted`, `interval_neighbours_partial`, `interval_neighbours_refuted`
* `TriProps.v`
  * -: `tri2_adjacency`, `tri2_adjacency_symmetric`, `tri2_edges`, `tri2_boundary_edges`, `tri3_faces`, `boundary_nodes_visits_the_interior`, `boundary_nodes_iteration_partial`, `boundary_nodes_iteration_refuted`, `iteration3_misses_last`, `iteration3_partial`, `iteration3_refuted`, `edges3_iteration_refuted`, `tri3_edges`, `surface_partial`, `surface_refuted`, `edges2_iteration`, `boundary_edges2_iteration`, `tri3_edge_marker_partial`, `tri3_edge_marker_refuted`
* `NetProps.v`
  * -: `network_partial`, `network_node_patch`, `network_adjacency`, `network_adjacency_order_free`, `network_cell_neighbors_refuted`
* `WalkProps.v`
  * EF: `C47_result_contains`, `C47_result_contains_exact`, `C47_stops_or_cycles`, `C47_never_leaves_partial`, `C47_never_leaves_refuted`
* `SimplexProps.v`
  * EF: `C48_full_dimensional`, `C48_manifold`, `C48_contains_outside`, `C48_contains_tolerance`, `C48_contains_vertex`, `C48_contains_boundary_partial`, `C48_contains_face`, `C48_contains_boundary_refuted`, `C100_barycenter`, `C100_barycenter_inside`, `C101_circumcenter`, `C101_circumcenter_segment`, `C101_circumcenter_surface`
  * -: `C102_nearest_partial`
  * EFN: `C102_nearest_refuted`
* `HyperProps.v`
  * EFN: `C49_project`, `C49_line`, `C49_plane`, `C49_gram_schmidt`, `C50_plane`, `C50_line_partial`, `C50_line_refuted`, `C92_exact_projection`, `C103_plane_eval`, `C103_line_eval`
  * EF: `C49_coordinates`, `C50_general_refuted`
* `ClockProps.v`
  * EF: `C51_strict_weak_ordering`, `C51_sorts_by_turn`
* `OptProps.v`
  * EF: `C52_grid`, `C52_grid_early_stop`, `C56_loop_stops`, `C105_secant`, `C105_symmetric`, `C105_positive_definite`, `C105_descent_direction`, `C105_identity`
  * EFN: `C53_consistent`, `C53_converged`, `C53_bfgs_converged_partial`, `C53_bfgs_converged_refuted`, `C56_pass_stops`, `C104_monotone`, `C107_newton_quadratic`
  * -: `C56_all_hooks_run`
* `LineSearchProps.v`
  * EF: `C54_backtracking`, `C54_not_descent`, `C54_no_larger_step`, `C54_callback`, `C55_wolfe`, `C55_bracket`, `C55_callback`, `C106_backtracking_terminates`, `C106_unbounded_refuted`
  * EFN: `C104_backtracking`
  * CEFN: `C106_wolfe_terminates`
* `ConcQueueProps.v`
  * -: `queue_linearizable`, `queue_mutual_exclusion`, `queue_fifo_no_loss`
* `ThreadPoolProps.v`
  * -: `pool_at_most_once`, `pool_fifo`, `pool_no_lost_wakeup`, `pool_no_deadlock`, `pool_never_calls_empty`, `pool_mutual_exclusion`, `sync_waits_partial`, `sync_waits_no_window`, `sync_waits_refuted`, `sync_no_lost_wakeup_partial`, `sync_two_clients_refuted`, `shutdown_accounting_partial`, `no_shutdown_no_drop`, `shutdown_finishes_started`, `shutdown_joins_all`, `shutdown_drops_refuted`, `shutdown_twice_refuted`
* `ThreadPoolLive.v`
  * -: `pool_executes_all`, `sync_returns_partial`, `shutdown_terminates`, `pool_runs_are_bounded`, `sync_returns_single_client`
* `PolyProps.v`
  * -: `C61_table`
  * EF: `C62_eval`, `C62_derive`, `C62_polynomial`
* `LagrangeProps.v`
  * EF: `C63_nodal`, `C63_reproduces`, `C63_partition_of_unity`, `C63_reference_elements`
* `FemProps.v`
  * EF: `C64_assembly`, `C64_sparsity`, `C64_forcing`, `C65_symmetric_partial`, `C65_symmetric_refuted`
* `SolverProps.v`
  * F: `C66_imposed`, `C66_boundary_rows_partial`
  * EF: `C66_again`, `C66_solution`, `C79_implicit_euler_partial`, `C79_no_boundary_data_refuted`, `C80_throws_before_init`, `C80_never_throws_after_init`, `C111_elliptic_free`, `C111_elliptic_dirichlet_partial`, `C112_last_data`, `C112_init_forgets_history`
  * CDEF: `C66_interior_refuted`, `C79_interior_refuted`, `C79_nonuniform_refuted`, `C111_interior_refuted`
* `DofProps.v`
  * -: `C67_dofs`, `C67_first_order`, `C67_local_position`
  * EF: `C113_dofs_coords`
* `EvalProps.v`
  * EF: `C68_point_values`, `C68_areal_means`, `C68_pointwise`, `C68_areal`, `C114_values_partial`, `C114_expansion_partial`
  * F: `C114_second_order_refuted`, `C114_outside_refuted`
* `QuadProps.v`
  * CEFN: `C69_exactness`, `C69_sharp`, `C69_gauss_legendre`, `C69_spline_interval`
  * EF: `C69_weights`
  * -: `C69_standard`
* `FemOps.v`
  * EF: `C70_additive`, `C70_linear`, `C70_constants`, `C70_constants_rounding`, `C70_sampled`, `C74_combination`, `C74_symmetric_closed`, `C74_remove_partial`, `C74_remove_refuted`, `C110_sampled_partial`, `C110_callable_refuted`
  * -: `C74_kinds`
* `FieldProps.v`
  * EF: `C71_eval_partial`, `C71_eval_without_rows`, `C71_eval_refuted`, `C72_forward_partial`, `C72_forward_wrapped_refuted`, `C73_gradient`, `C73_gradient_component`, `C73_second`, `C73_mixed`, `C73_hessian_component`, `C108_hessian_symmetric`
  * -: `C72_forward_again`
  * CEFN: `C72_forward_refuted`
* `SplineProps.v`
  * EF: `C75_partition_of_unity_partial`, `C75_close_knots_refuted`, `C76_local_support`, `C76_right_end`, `C76_beyond_end_refuted`, `C78_assembly_partial`, `C78_nonsymmetric_refuted`, `C116_pointwise`, `C116_expansion`
  * CEFN: `C77_derivative`, `C115_mass_partial`, `C115_mass_cubic_refuted`
* `CsvProps.v`
  * -: `C81_split`, `C81_split_join`, `C81_empty_separator_refuted`, `C82_dense_partial`, `C82_empty_token_refuted`, `C82_long_line_refuted`, `C117_sparse_partial`, `C117_wrong_format`, `C117_empty_value_refuted`
* `ShpProps.v`
  * -: `C83_little_endian`, `C83_big_endian`, `C83_double`, `C83_short_buffer`, `C84_single_ring_partial`, `C84_rings_refuted`, `C85_multipoint_partial`, `C85_zm_refuted`, `C86_rows_partial`, `C86_general`, `C86_missing`, `C86_previous_row_refuted`, `C118_points`, `C118_polygons`, `C119_table_partial`, `C119_long_field_refuted`, `C119_empty_table_refuted`
* `ErasureProps.v`
  * -: `C87_value_semantics_partial`, `C87_self_assign_refuted`, `C87_self_move_refuted`, `C87_copy_of_empty_refuted`, `C87_moved_from_refuted`
* `TraitsProps.v`
  * -: `C88_dispatch`, `C88_unknown_interface`, `C88_short_limit`, `C89_unique_types`, `C89_index_of`, `C89_has_type`, `C89_has_instance_of`, `C89_switch_type`, `C89_get`, `C89_merge`, `C89_split`, `C90_equivalent`, `C90_strict_weak_order`
  * CEFN: `C90_doubles`, `C90_vectors_partial`, `C90_nan_refuted`
* `FspaiProps.v`
  * -: `C91_step`, `C91_pattern`, `C91_constructed`
* `FieldErr.v`
  * CEFN: `C109_gradient_error`, `C109_second_error`
* `FieldMixed.v`
  * CEFN: `C109_mixed_error`
* `FspaiValues.v`
  * EFN: `C120_columns`, `C121_best_enters_partial`, `C121_single_candidate_refuted`
  * EF: `C122_values_partial`
  * -: `C122_again_refuted`, `C122_other_columns_refuted`
* `TreePutProps.v`
  * -: `C123_push_child`, `C123_null_undefined`
* `FrameRemoveProps.v`
  * -: `C124_remove_partial`, `C124_missing_refuted`
* `WrapProps.v`
  * -: `C126_pde`, `C126_optimizer`
* `VorLineProps.v`
  * -: `C127_cells`, `C127_total`, `C127_locate_partial`, `C127_contains_partial`, `C127_contains_outside`, `C127_locate_refuted`
* `VorPlaneProps.v`
  * EFN: `C128_vertices`, `C128_interior`, `C130_area_refuted`
  * EF: `C129_locate_partial`, `C129_contains_partial`, `C129_locate_refuted`, `C130_measure_partial`
* `VorNearest.v`
  * EF: `C129_nearest_partial`
* `CellProps.v`
  * -: `triangle_views`, `tetrahedron_views`, `cell_boundary_flag`, `cell_boundary_partial`, `cell_boundary_refuted`, `iterator_visits`, `iterator_walk`, `iterator_plus_end_refuted`
* `SymbolsProps.v`
  * CEFN: `almost_equal_sym`, `almost_equal_sound`, `almost_equal_complete`, `almost_equal_refl_partial`, `almost_equal_refl_refuted`, `log1pexp_accuracy`, `log1pexp_monotone_refuted`
  * -: `sparse_lu_partial`, `sparse_lu_flag_refuted`, `sparse_lu_arrow_refuted`
* `FemEnergy.v`
  * EF: `C137_bilinear_form`, `C138_constants`, `C138_lagrangian`, `C139_energy`, `C140_mass`, `C140_standard`
* `MeasureProps.v`
  * EFN: `C141_gram`, `C141_positive`, `C142_unit`, `C142_affine`, `C142_translation`, `C142_order`, `C142_subdivision`
  * EF: `C141_inverse`
* `FemKernel.v`
  * EF: `C143_kernel`, `C143_neumann`, `C143_standard`, `C144_dirichlet`, `C145_reaction`
* `FemMesh.v`
  * EFN: `C146_first_order`, `C146_second_order`, `C147_mass`, `C147_stiffness`, `C147_dirichlet`, `C147_reaction`, `C148_dirichlet`
* `FemPatch.v`
  * EFN: `C149_patch`
* `FemTime.v`
  * EF: `C150_parabolic`, `C151_contraction`, `C151_decay`, `C152_steady`, `C153_minimum`
  * EFN: `C150_mesh`
* `FemInterp.v`
  * EFN: `C154_first_order`, `C154_nodes`, `C154_second_order`
* `SplineSolverProps.v`
  * EF: `C155_reference`, `C155_degenerate`, `C156_init`, `C156_order`, `C156_setters`, `C157_never_partial`, `C158_nodal_partial`, `C158_values_partial`, `C158_refuted`
  * CDEF: `C157_refuted`
* `SplineSpace.v`
  * CEFN: `C159_independent`, `C160_only`, `C161_definite_partial`, `C161_distinct_partial`, `C162_kernel_partial`, `C162_refuted`, `C163_smoothing_partial`
  * EF: `C159_supports`, `C160_straight`, `C161_refuted`, `C162_semidefinite`, `C163_refuted`
* `KdBalance.v`
  * -: `C164_balanced_partial`, `C164_equal_points_refuted`, `C164_balanced_refuted`
* `TriCount.v`
  * -: `C165_triangles`, `C165_tetrahedra`, `C165_closed`
* `NodePatch.v`
  * -: `C166_vertices`, `C166_patch`
* `MeshCopyProps.v`
  * -: `C167_values_partial`, `C167_dangling_refuted`, `C167_moved_refuted`, `C167_mixed_refuted`, `C168_after_first_partial`, `C168_single_partial`, `C168_refuted`
* `VorEdges.v`
  * -: `C169_cell`, `C169_edge`, `C169_edges`, `C169_boundary`
* `ShpFolder.v`
  * -: `C170_files_partial`, `C170_gcs_partial`, `C170_no_prj`, `C170_slash_refuted`, `C170_gcs_refuted`, `C171_columns_partial`, `C171_type_partial`, `C171_no_columns_refuted`, `C171_type_refuted`
* `FemMax.v`
  * EFN: `C172_maximum`, `C172_minimum`
* `SplinePoly.v`
  * EF: `C173_polynomials`, `C174_local_bounds`, `C174_bounds`
  * CEFN: `C173_only`, `C175_smooth`
* `IterProps.v`
  * -: `C176_edges`, `C176_nodes_partial`, `C176_3d_refuted`, `C177_faces_partial`, `C177_faces_refuted`, `C178_facets`, `C178_vertex`
  * EF: `C178_boundary`
* `FemApprox.v`
  * EFN: `C179_between`, `C180_accuracy`
* `SplineShape.v`
  * CEFN: `C181_increasing`, `C181_decreasing`, `C182_convex`
* `OptConv.v`
  * CEFN: `C183_lipschitz`
  * EFN: `C183_fixed_step`, `C183_backtracking`, `C184_fixed_step`, `C184_backtracking`
* `KronAlg.v`
  * F: `C185_transpose`
  * EF: `C185_associative`, `C185_inverse`, `C185_definite`, `C185_sparse`
* `FemLump.v`
  * EFN: `C186_lumped`
  * EF: `C186_second_order`
* `ShareProps.v`
  * -: `C187_shared_semantics_partial`, `C187_self_assign_refuted`, `C187_copy_of_empty_refuted`, `C187_moved_from_refuted`, `C188_view_semantics_partial`, `C188_dangling`, `C188_self_assign_refuted`, `C188_copy_of_empty_refuted`
* `DiffProps.v`
  * EF: `C189_differentiable`, `C189_twice_differentiable`, `C190_computes`
  * EFN: `C189_descent`, `C190_inexact`, `C190_aliasing`
  * CEFN: `C190_differences`, `C190_numerical`, `C190_default`
* `FloatProps.v`
  * CEFN: `C191_error`, `C191_linear`, `C191_monotone`, `C191_nonneg`, `C192_error`, `C192_dominates`
  * EF: `C191_model`
* `FloatSearch.v`
  * CEFN: `C193_backtracking_partial`, `C193_stalls_refuted`, `C194_sound_partial`, `C194_wolfe_refuted`
* `FloatSpline.v`
  * CEFN: `C195_accuracy`, `C195_partition_of_unity`, `C195_close_knots`, `C196_expansion`, `C196_size`
* `FloatDiff.v`
  * CEFN: `C197_gradient`, `C197_far`, `C198_symmetry_partial`, `C198_symmetry_refuted`
* `FloatDiff2.v`
  * CEFN: `C199_second`
* `FloatDiff3.v`
  * CEFN: `C199_mixed`
* `FloatCell.v`
  * CEFN: `C200_accuracy`, `C200_contains_partial`, `C200_outside`, `C200_position_partial`, `C200_gap_refuted`, `C200_degenerate_refuted`
* `OptObj.v`
  * EFN: `C201_reuse`, `C201_report`, `C201_defined`, `C201_copy_behaves`, `C201_copy_refuted`, `C201_assign_refuted`
  * EF: `C201_line_searches`
* `FloatOpt.v`
  * CEFN: `C202_stop`, `C202_first`, `C202_directions`, `C202_converged_partial`, `C202_descent_refuted`, `C202_newton_refuted`, `C203_grid_partial`
  * -: `C203_grid_refuted`
* `BinMat32.v`
  * CEFN: `C204_expressions`, `C204_visitors_partial`, `C204_count_refuted`, `C204_row_offset_refuted`
  * -: `C204_history_partial`, `C204_size_refuted`
* `OptNewton.v`
  * CEFN: `C205_quadratic`, `C205_tolerance`
* `OptWolfe.v`
  * CEFN: `C206_tolerance`, `C206_geometric`
* `OptBfgs.v`
  * CEFN: `C207_tolerance_partial`, `C207_zero_is_minimum`
  * EFN: `C207_returned_refuted`
* `OptNewtonWolfe.v`
  * CEFN: `C208_tolerance`
* `FemConv.v`
  * CEFN: `C209_nodes`, `C209_everywhere`, `C209_sine`
* `OptBfgsBack.v`
  * CEFN: `C210_tolerance_partial`
  * EFN: `C210_returned_refuted`
* `OptNewtonBack.v`
  * CEFN: `C211_tolerance`
* `FemHeat.v`
  * CEFN: `C212_heat`, `C212_cooling`
* `FemRate.v`
  * CEFN: `C213_energy`
* `FemGrid.v`
  * CEFN: `C213_square`
* `FemPoincare.v`
  * EFN: `C214_poincare`, `C214_stability`
  * CEFN: `C214_poisson`, `C214_square`
* `FemHeatRate.v`
  * CEFN: `C215_heat`, `C215_decay`, `C215_plate`
* `FloatClock.v`
  * CEFN: `C216_order_partial`, `C216_exact`, `C216_asymmetric`, `C216_irreflexive`, `C216_cycle`, `C216_refuted`
* `CombInt.v`
  * -: `C217_factorial`, `C217_binomial_partial`, `C217_nnodes_partial`, `C217_nedges`, `C217_refuted`
* `FloatKd.v`
  * CEFN: `C218_candidates_partial`, `C218_locate_partial`, `C218_triangles_partial`, `C218_flat_refuted`
* `FloatPlane.v`
  * CEFN: `C219_contains_partial`, `C219_first_node`, `C219_outside`, `C219_segment_refuted`, `C219_triangle_refuted`
* `FloatLinspace.v`
  * CEFN: `C220_nodes_partial`, `C220_locate_partial`, `C220_unit`, `C220_refuted`
* `FloatMeasure.v`
  * CEFN: `C221_measure_partial`, `C221_relative_partial`, `C221_length`, `C221_refuted`
* `FloatFem.v`
  * CEFN: `C222_symmetric`, `C222_diagonal`, `C222_accuracy`, `C222_rows`
* `PoolRace.v`
  * -: `C223_races_partial`, `C223_no_race_without_sync_or_shutdown`, `C223_queue_partial`, `C223_refuted`, `C223_queue_refuted`
* `PoolFuture.v`
  * -: `C224_result`, `C224_once`, `C224_status`, `C224_stable`, `C224_all_ready_partial`, `C224_runs`, `C224_effects`, `C224_left_pending`, `C224_refuted`
* `PoolDestroy.v`
  * -: `C225_after_shutdown_partial`, `C225_terminates`, `C225_refuted`
* `FloatAssembly.v`
  * CEFN: `C226_half`, `C226_symmetric`, `C226_pattern`, `C226_diagonal`, `C226_accuracy`, `C226_rows`
* `FloatLoad.v`
  * CEFN: `C227_local`, `C227_absent`, `C227_monotone`, `C227_nonneg`, `C227_zero`, `C227_accuracy`, `C227_total`
* `FloatMass.v`
  * CEFN: `C228_symmetric`, `C228_pattern`, `C228_half`, `C228_nonneg`, `C228_accuracy`, `C228_rows`
* `FloatFem3.v`
  * EF: `C229_inverse`
  * CEFN: `C229_symmetric`, `C229_diagonal`, `C229_local`, `C229_matrix`, `C229_accuracy`, `C229_rows`
* `FloatOper.v`
  * CEFN: `C230_symmetric`, `C230_pattern`, `C230_accuracy`, `C230_rows`
* `FloatStep.v`
  * CEFN: `C231_data`, `C231_step`
* `FloatGalerkin.v`
  * CEFN: `C232_boundary`, `C232_galerkin`
* `FloatParabolic.v`
  * CEFN: `C233_data`, `C233_step`, `C233_no_overflow`
* `FloatDrift.v`
  * CEFN: `C234_drift`
  * EF: `mass_sym`, `mass_pos`
