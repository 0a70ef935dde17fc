{"id": "C01", "title": "BinaryMatrix reads reflect the last write", "statement": "After any sequence of set(i,j), clear(i,j) calls and block-wise set()/clear() calls with non-negative coordinates on an r x c BinaryMatrix, reading (i,j) returns the effect of the last call that addressed (i,j) and no call changes any other coefficient; a set/clear beyond the last row or column throws and leaves the matrix unchanged.", "quantifier": "all matrix sizes, all call sequences, all coordinates", "why_tests_cant": "coefficients share 64-bit words; aliasing depends on the size and on the whole history", "anchors": ["fdaPDE/linear_algebra/binary_matrix.h:BinaryMatrix::set, clear, operator()"]}
{"id": "C02", "title": "BinaryMatrix packing is row-major and collision free", "statement": "For every matrix produced by the API, bit b of bitpack k is the coefficient with row-major position 64k+b, distinct coordinates never share a bit and every valid coordinate lies inside the allocated packs.", "quantifier": "all sizes and coordinates", "why_tests_cant": "index arithmetic must hold for every size around every multiple of 64", "anchors": ["fdaPDE/linear_algebra/binary_matrix.h:pack_of, n_bitpacks, bitpack"]}
{"id": "C03", "title": "Bitwise expressions are pointwise", "statement": "For any tree of ~, &, |, ^ over equally sized matrices, every coefficient of the expression, and of the matrix obtained by materialising it, equals the boolean expression of the operand coefficients; binary operators on different sizes throw.", "quantifier": "all expression trees, sizes and coordinates", "why_tests_cant": "expression trees and sizes are unbounded, and evaluation goes through packs when materialised and through bits when indexed", "anchors": ["fdaPDE/linear_algebra/binary_matrix.h:UnOp, BinOp, BinaryMatrix::operator="]}
{"id": "C04", "title": "BinaryMatrix factories and resize", "statement": "Ones(r,c) is true everywhere, Zero(r,c) false everywhere, Identity(r,c) true exactly on the diagonal, and resize(r,c) always leaves an all-false r x c matrix whatever was stored before.", "quantifier": "all sizes, previous contents and coordinates", "why_tests_cant": "size classes modulo 64 are unbounded", "anchors": ["fdaPDE/linear_algebra/binary_matrix.h:Ones, Identity, Zero, resize"]}
{"id": "C05", "title": "all() decides 'every coefficient is set'", "statement": "m.all() returns true exactly when every coefficient of m is true.", "quantifier": "all sizes, contents and expressions", "why_tests_cant": "depends on mask arithmetic in the last pack, size mod 64 and on the padding bits left by earlier operations", "anchors": ["fdaPDE/linear_algebra/binary_matrix.h:all_visitor, linear_bitpack_visit"]}
{"id": "C06", "title": "any() decides 'some coefficient is set'", "statement": "m.any() returns true exactly when some coefficient of m is true.", "quantifier": "all sizes, contents and expressions", "why_tests_cant": "depends on mask arithmetic in the last pack, size mod 64 and on the padding bits left by earlier operations", "anchors": ["fdaPDE/linear_algebra/binary_matrix.h:any_visitor, linear_bitpack_visit"]}
{"id": "C07", "title": "count() counts coefficients", "statement": "m.count() is the number of true coefficients of m, for matrices and for every expression, independently of padding bits.", "quantifier": "all sizes, contents and expressions", "why_tests_cant": "sizes and expressions are unbounded", "anchors": ["fdaPDE/linear_algebra/binary_matrix.h:count_visitor, linear_bit_visit"]}
{"id": "C08", "title": "Equality of binary matrices is coefficientwise", "statement": "For equally sized a and b, a == b returns true exactly when all coefficients agree, a != b is its negation, and the comparison is defined for every size.", "quantifier": "all sizes and contents", "why_tests_cant": "the final masked word comparison is only exercised by particular sizes", "anchors": ["fdaPDE/linear_algebra/binary_matrix.h:operator==, operator!="]}
{"id": "C09", "title": "which() lists the set positions in order", "statement": "which(v) returns exactly the positions of the true entries of v, each once, in increasing order.", "quantifier": "all vectors", "why_tests_cant": "unbounded length and contents", "anchors": ["fdaPDE/linear_algebra/binary_matrix.h:which"]}
{"id": "C10", "title": "select() masks Eigen data pointwise", "statement": "mask.select(X) has the value of X where the mask is true and 0 elsewhere, for dense and for sparse X.", "quantifier": "all masks and matrices of equal size", "why_tests_cant": "unbounded sizes and contents", "anchors": ["fdaPDE/linear_algebra/binary_matrix.h:select"]}
{"id": "C11", "title": "Row, column and block views read and write the parent", "statement": "m.block(i,j,r,c), row(i), col(j), topRows, bottomRows, leftCols and rightCols read exactly the parent coefficient at the shifted coordinate; set()/clear() on the view change exactly the viewed coefficients; materialising a view yields the viewed coefficients.", "quantifier": "all parents, positions, view sizes and coordinates", "why_tests_cant": "packing of the view and of the parent differ; needs every offset modulo 64", "anchors": ["fdaPDE/linear_algebra/binary_matrix.h:BinMtxBlock"]}
{"id": "C12", "title": "Assigning to a block overwrites the block", "statement": "After m.block(...) = e, the viewed coefficients of m equal e and all others are unchanged.", "quantifier": "all parents, blocks and right-hand sides", "why_tests_cant": "depends on previous contents of the parent", "anchors": ["fdaPDE/linear_algebra/binary_matrix.h:BinMtxBlock::operator="]}
{"id": "C13", "title": "repeat() tiles the expression", "statement": "m.repeat(a,b) is (a*rows) x (b*cols), its (i,j) coefficient is m(i mod rows, j mod cols) whether read by coefficient or by pack, and count() multiplies by a*b.", "quantifier": "all matrices and repetition counts", "why_tests_cant": "tile boundaries cross pack boundaries in unboundedly many ways", "anchors": ["fdaPDE/linear_algebra/binary_matrix.h:BinMtxRepeatOp"]}
{"id": "C14", "title": "reshape and vector_view preserve the row-major sequence", "statement": "m.reshaped(r,c) with r*c = size has the same row-major coefficient sequence as m; reshaping back gives m; a size mismatch throws.", "quantifier": "all matrices and shapes", "why_tests_cant": "unbounded sizes", "anchors": ["fdaPDE/linear_algebra/binary_matrix.h:ReshapedOp, vector_view, reshaped"]}
{"id": "C15", "title": "Construction from a range fills row-major", "statement": "BinaryMatrix(begin,end,r,c) has coefficient (i,j) true exactly when the (i*c+j)-th element of the range converts to true.", "quantifier": "all ranges and shapes", "why_tests_cant": "square shapes hide index mistakes", "anchors": ["fdaPDE/linear_algebra/binary_matrix.h:BinaryMatrix(iterator) constructor"]}
{"id": "C16", "title": "combinations<K,N> lists every K-subset once", "statement": "The rows of combinations<K,N>() are increasing, contain only values 0..N-1, and every K-element subset of {0,..,N-1} appears exactly once, in lexicographic order; there are binomial(N,K) rows.", "quantifier": "all K <= N", "why_tests_cant": "K and N unbounded; enumeration by repeated permutation stepping", "anchors": ["fdaPDE/utils/combinatorics.h:combinations, ct_binomial_coefficient"]}
{"id": "C17", "title": "Depth-first and breadth-first traversals visit each node once in order", "statement": "Iterating a BinaryTree with the dfs iterator yields the preorder sequence of its nodes and with the bfs iterator the level order; both visit every reachable node exactly once and terminate.", "quantifier": "all tree shapes", "why_tests_cant": "tree shapes are unbounded", "anchors": ["fdaPDE/utils/data_structures/binary_tree.h:dfs_iterator, bfs_iterator"]}
{"id": "C18", "title": "Leaf iteration yields exactly the leaves", "statement": "Iterating from begin_leaf() to the end yields exactly the nodes without children, each once, in left-to-right order.", "quantifier": "all tree shapes", "why_tests_cant": "degenerate shapes", "anchors": ["fdaPDE/utils/data_structures/binary_tree.h:leaf_iterator"]}
{"id": "C19", "title": "Node count and search order are maintained by push", "statement": "Starting from an empty tree and pushing any list of keys with the ordering comparator, the tree holds exactly those keys with multiplicity, n_nodes equals their number, everything left of a node is smaller, everything right is not smaller, and depth along every path is consistent.", "quantifier": "all push histories", "why_tests_cant": "histories are unbounded", "anchors": ["fdaPDE/utils/data_structures/binary_tree.h:BinaryTree::push, BST"]}
{"id": "C20", "title": "BST find locates stored keys", "statement": "find(x) on a BST returns a node holding x when x was pushed and the end iterator otherwise, without undefined behaviour.", "quantifier": "all push histories and queries", "why_tests_cant": "hits, misses and leaf/inner positions over all shapes", "anchors": ["fdaPDE/utils/data_structures/binary_tree.h:BST::find"]}
{"id": "C21", "title": "Copying a tree is deep and independent", "statement": "A copied BinaryTree has the same shape and contents as the original, shares no node with it, and later modification of either leaves the other unchanged; self-assignment is harmless; moving transfers the content.", "quantifier": "all trees and later histories", "why_tests_cant": "pointer sharing is invisible to value comparisons", "anchors": ["fdaPDE/utils/data_structures/binary_tree.h:clone_, move_, operator="]}
{"id": "C22", "title": "erase removes the addressed subtree only", "statement": "erase(pos) removes exactly the nodes of the subtree rooted at pos, keeps all the others reachable and updates the node count accordingly.", "quantifier": "all trees and positions", "why_tests_cant": "root-only tests hide the rest", "anchors": ["fdaPDE/utils/data_structures/binary_tree.h:erase"]}
{"id": "C23", "title": "BlockFrame behaves as a map from names to equal-height blocks", "statement": "After any sequence of insert and stack calls, has_block(k) holds exactly for inserted keys, get<T>(k) returns the last block inserted under k, all blocks have rows() rows, and an insertion with a different number of rows throws and changes nothing.", "quantifier": "all call histories", "why_tests_cant": "unbounded histories mixing types and keys", "anchors": ["fdaPDE/utils/data_structures/block_frame.h:insert, stack, get, has_block"]}
{"id": "C24", "title": "BlockFrame dirty flags track unread insertions", "statement": "is_dirty(k) is true exactly when k was inserted (with the dirty flag requested) after the last clear_dirty_bit(k); dirty_cols() lists exactly the dirty blocks, each once.", "quantifier": "all call histories", "why_tests_cant": "history dependent", "anchors": ["fdaPDE/utils/data_structures/block_frame.h:is_dirty, clear_dirty_bit, insert"]}
{"id": "C25", "title": "extract_unique keeps the first occurrence of every distinct row", "statement": "extract_unique(k) returns the distinct rows of block k in order of first occurrence, each exactly once.", "quantifier": "all blocks", "why_tests_cant": "contents and duplicates unbounded", "anchors": ["fdaPDE/utils/data_structures/block_frame.h:extract_unique"]}
{"id": "C26", "title": "Row-range views of a BlockFrame", "statement": "df(b,e) views rows b..e inclusive of every block, df.tail(b) the rows from b to the end, df.head(n) the first n rows, and col(k,j) the j-th column of block k.", "quantifier": "all frames and bounds", "why_tests_cant": "off-by-one at every boundary", "anchors": ["fdaPDE/utils/data_structures/block_frame.h:operator(), head, tail, col, BlockView"]}
{"id": "C27", "title": "shuffle permutes all blocks consistently", "statement": "shuffle(seed) returns a frame whose blocks are those of the original with rows reordered by one common permutation, whatever permutation the generator produces.", "quantifier": "all frames whose blocks are non-empty (hence of equal height, C23) and all permutations produced by the generator", "why_tests_cant": "random permutation sampled", "anchors": ["fdaPDE/utils/data_structures/block_frame.h:shuffle"]}
{"id": "C28", "title": "SparseBlockMatrix addresses the right block", "statement": "For consistent blocks, coefficient (i,j) of the block matrix is the coefficient of the block containing (i,j) at the local offset, for every (i,j); inconsistent block sizes throw.", "quantifier": "all block partitions and coordinates", "why_tests_cant": "all offset combinations", "anchors": ["fdaPDE/linear_algebra/sparse_block_matrix.h:constructor, coeffRef, indexToBlock, outerBlockIndex"]}
{"id": "C29", "title": "Column iteration of SparseBlockMatrix enumerates the column's non-zeros", "statement": "Iterating InnerIterator over column j yields exactly the stored entries of column j, each once, with their global row index and value.", "quantifier": "all block partitions and sparsity patterns", "why_tests_cant": "needs three or more block rows with unequal heights and empty blocks", "anchors": ["fdaPDE/linear_algebra/sparse_block_matrix.h:InnerIterator"]}
{"id": "C30", "title": "Kronecker product of dense matrices", "statement": "Kronecker(A,B)(i,j) = A(i div rowsB, j div colsB) * B(i mod rowsB, j mod colsB), with shape (rowsA*rowsB) x (colsA*colsB); the mixed product law (A(x)B)(C(x)D) = AC (x) BD holds.", "quantifier": "all sizes and entries", "why_tests_cant": "sizes and entries unbounded", "anchors": ["fdaPDE/linear_algebra/kronecker_product.h:KroneckerTensorProduct<...Dense>::coeff"]}
{"id": "C31", "title": "Sparse Kronecker iteration equals the dense definition", "statement": "Iterating the columns of a sparse Kronecker product yields exactly the entries of the product of the stored entries, row indices increasing, each once.", "quantifier": "all sparsity patterns incl. empty columns", "why_tests_cant": "pattern combinations unbounded", "anchors": ["fdaPDE/linear_algebra/kronecker_product.h:InnerIterator"]}
{"id": "C32", "title": "Lumping preserves row sums", "statement": "lump(M) is diagonal with the row sums of M on the diagonal, so lump(M)*1 = M*1; a non-square argument throws.", "quantifier": "all square matrices", "why_tests_cant": "unbounded sizes and patterns", "anchors": ["fdaPDE/linear_algebra/lumping.h:lump"]}
{"id": "C33", "title": "SMW::solve solves the perturbed system", "statement": "If the supplied solvers are exact and G is invertible, the returned x satisfies (A + U C V) x = b.", "quantifier": "all dimensions and all matrices over a field", "why_tests_cant": "algebraic identity over all matrices", "anchors": ["fdaPDE/linear_algebra/smw.h:SMW::solve"]}
{"id": "C34", "title": "KDTree construction stores every point exactly once and is a k-d tree", "statement": "For any non-empty point set and any behaviour of the median selection, the tree contains every point index exactly once, and at each node at depth d the left subtree is smaller and the right subtree not smaller than the node in coordinate d mod K.", "quantifier": "all point sets and all median selections", "why_tests_cant": "std::nth_element is underspecified; ties", "anchors": ["fdaPDE/geometry/kd_tree.h:KDTree constructor"]}
{"id": "C35", "title": "KDTree range search is exact", "statement": "range_search([ll,ur]) returns exactly the indices of the points p with ll <= p <= ur in every coordinate, each once.", "quantifier": "all point sets, trees and boxes", "why_tests_cant": "pruning must be safe on ties and boundaries", "anchors": ["fdaPDE/geometry/kd_tree.h:range_search"]}
{"id": "C36", "title": "KDTree nearest neighbour is nearest", "statement": "nn_search(p) returns an index whose point minimises the distance to p and never has undefined behaviour on a non-empty tree.", "quantifier": "all point sets and queries", "why_tests_cant": "wrong pruning returns near-misses only on some configurations", "anchors": ["fdaPDE/geometry/kd_tree.h:nn_search"]}
{"id": "C37", "title": "TreeSearch locates the containing cell", "statement": "locate(p) returns a cell whose closed region contains p if one exists and -1 otherwise; all_locate(p) returns exactly the set of cells containing p.", "quantifier": "all meshes and points", "why_tests_cant": "points on shared faces, outside points, arbitrary cells", "anchors": ["fdaPDE/geometry/tree_search.h:locate, all_locate"]}
{"id": "C38", "title": "Interval mesh point location", "statement": "For a sorted 1D mesh, locate(x) terminates and returns the index i of a cell with nodes[i] <= x <= nodes[i+1] for each x in the domain and -1 for every x outside.", "quantifier": "all meshes and all x", "why_tests_cant": "boundary points and binary-search termination", "anchors": ["fdaPDE/geometry/interval.h:locate"]}
{"id": "C39", "title": "Interval mesh neighbours", "statement": "In a 1D mesh cell i has neighbours i-1 and i+1 where these exist and -1 otherwise; exactly the first and last nodes are boundary nodes.", "quantifier": "all mesh sizes", "why_tests_cant": "smallest meshes", "anchors": ["fdaPDE/geometry/interval.h:constructor, is_node_on_boundary"]}
{"id": "C40", "title": "Cell adjacency of a 2D triangulation is exact and symmetric", "statement": "For a mesh in which no edge belongs to more than two cells, neighbors(i) contains j at the position opposite to the shared edge exactly when i and j share that edge, it is -1 exactly when no other cell has the edge, and adjacency is symmetric.", "quantifier": "all conforming cell lists and orderings", "why_tests_cant": "all meshes and hash orders", "anchors": ["fdaPDE/geometry/triangulation.h:Triangulation<2,N> constructor"]}
{"id": "C41", "title": "Edges of a 2D triangulation are enumerated once", "statement": "Every edge of every cell appears exactly once in the edge table with sorted node ids, no other edge appears, and cell_to_edges names for each cell exactly its three edges.", "quantifier": "all conforming cell lists", "why_tests_cant": "all meshes", "anchors": ["fdaPDE/geometry/triangulation.h:Triangulation<2,N> constructor"]}
{"id": "C42", "title": "Boundary edges are the edges of exactly one cell", "statement": "is_edge_on_boundary(e) holds exactly when e belongs to exactly one cell, and edge_to_cells(e) lists the one or two cells of e.", "quantifier": "all conforming cell lists", "why_tests_cant": "all meshes", "anchors": ["fdaPDE/geometry/triangulation.h:edges_markers_, edge_to_cells_"]}
{"id": "C43", "title": "Faces, adjacency and boundary of a 3D triangulation", "statement": "The analogous statements hold for the faces of a tetrahedral mesh: each face listed once, adjacency symmetric through shared faces, boundary faces are those of one cell, cell_to_faces is consistent.", "quantifier": "all conforming cell lists", "why_tests_cant": "all meshes", "anchors": ["fdaPDE/geometry/triangulation.h:Triangulation<3,3> constructor"]}
{"id": "C44", "title": "Boundary node iteration visits exactly the boundary nodes", "statement": "Iterating boundary_nodes_begin..end visits exactly the node ids whose marker is set, each once, in increasing order.", "quantifier": "all marker patterns", "why_tests_cant": "patterns unbounded", "anchors": ["fdaPDE/geometry/triangulation.h:boundary_node_iterator"]}
{"id": "C45", "title": "Edge and face iteration of a 3D triangulation is complete", "statement": "Iterating edges, boundary edges and boundary faces visits exactly the items selected, each once, including the last one.", "quantifier": "all marker patterns and sizes", "why_tests_cant": "the last element only matters for certain patterns", "anchors": ["fdaPDE/geometry/triangulation.h:Triangulation<3,3>::iterator"]}
{"id": "C46", "title": "Linear network adjacency", "statement": "node_patch(v) lists exactly the cells incident to node v (each once), the neighbors() matrix is symmetric and non-zero exactly at the pairs of distinct cells sharing a node, and cell(c).neighbors() returns exactly the other cells sharing a node with c.", "quantifier": "all networks without self-loops, all hash iteration orders", "why_tests_cant": "all graphs", "anchors": ["fdaPDE/geometry/linear_network.h:Triangulation<1,2> constructor, node_patch, CellType::neighbors"]}
{"id": "C47", "title": "Walk search returns a containing cell", "statement": "If the barycentric walk terminates, the returned cell contains the query point; it never leaves the mesh through a boundary edge.", "quantifier": "all meshes and query points", "why_tests_cant": "walk paths unbounded", "anchors": ["fdaPDE/geometry/walk_search.h:locate"]}
{"id": "C48", "title": "Barycentric coordinates", "statement": "For a non-degenerate simplex, barycentric_coords(p) sums to one and reproduces p as the combination of the vertices; contains(p) classifies p as inside/on boundary/outside consistently with convex combinations.", "quantifier": "all non-degenerate simplices and points", "why_tests_cant": "continuous domain", "anchors": ["fdaPDE/geometry/simplex.h:barycentric_coords, contains"]}
{"id": "C49", "title": "Hyperplane projection", "statement": "project(x) lies on the hyperplane, is idempotent, x - project(x) is orthogonal to the hyperplane and distance(x) is the minimal distance to it.", "quantifier": "all hyperplanes and points", "why_tests_cant": "continuous domain", "anchors": ["fdaPDE/geometry/hyperplane.h:project, distance"]}
{"id": "C50", "title": "Hyperplane normals are orthogonal", "statement": "The normal() of a hyperplane built from points is orthogonal to it and has unit length.", "quantifier": "all point choices", "why_tests_cant": "continuous domain", "anchors": ["fdaPDE/geometry/hyperplane.h:constructors"]}
{"id": "C51", "title": "clockwise_order is a strict weak ordering", "statement": "The comparator used to sort polygon vertices around a centre is irreflexive, asymmetric, and transitive with transitive incomparability, as std::sort requires.", "quantifier": "all triples of points", "why_tests_cant": "triples of positions; violations are undefined behaviour in std::sort", "anchors": ["fdaPDE/geometry/utils.h:clockwise_order"]}
{"id": "C52", "title": "Grid search returns the first minimiser", "statement": "Without early stop, Grid::optimize returns the first grid point attaining the minimum of the objective over the whole grid and that minimum as value().", "quantifier": "all objectives and grids", "why_tests_cant": "unbounded grids, ties", "anchors": ["fdaPDE/optimization/grid.h:optimize"]}
{"id": "C53", "title": "Iterative optimizers stop and report a consistent result", "statement": "GradientDescent, Newton and BFGS perform at most max_iter iterations, return on convergence, and value() is the objective at optimum().", "quantifier": "all objectives, starting points and tolerances", "why_tests_cant": "unbounded iteration histories", "anchors": ["fdaPDE/optimization/gradient_descent.h", "fdaPDE/optimization/newton.h", "fdaPDE/optimization/bfgs.h"]}
{"id": "C54", "title": "Backtracking line search satisfies the Armijo condition", "statement": "Along a descent direction, if backtracking returns, the step is the first of alpha, alpha*beta, alpha*beta^2, ... to satisfy the Armijo sufficient-decrease condition, so no larger tried step satisfied it; along any other direction the initial step is used.", "quantifier": "all objectives and directions", "why_tests_cant": "unbounded backtracking", "anchors": ["fdaPDE/optimization/callbacks/backtracking_line_search.h:pre_update_step"]}
{"id": "C55", "title": "Wolfe line search satisfies the Wolfe conditions", "statement": "If the bisection line search returns, the step satisfies both Wolfe conditions, and its bracket always keeps a failing-decrease upper bound and a failing-curvature lower bound.", "quantifier": "all objectives and directions", "why_tests_cant": "unbounded bisection histories", "anchors": ["fdaPDE/optimization/callbacks/wolfe_line_search.h:pre_update_step"]}
{"id": "C56", "title": "Optimizer callbacks are all executed", "statement": "Every registered callback's hook runs at each stage and the optimizer stops exactly when some callback or the objective requests it.", "quantifier": "all callback tuples", "why_tests_cant": "all combinations", "anchors": ["fdaPDE/optimization/callbacks/callbacks.h:execute_pre_update_step, execute_post_update_step, execute_obj_stopping_criterion"]}
{"id": "C57", "title": "ConcurrentQueue is a linearizable FIFO queue", "statement": "Under every interleaving of producers and consumers, pops return pushed items at most once and in push order, and nothing is lost.", "quantifier": "all schedules", "why_tests_cant": "schedules unbounded", "anchors": ["fdaPDE/multithreading/ConcurrentQueue.h"]}
{"id": "C58", "title": "ThreadPool runs each task at most once and loses no wakeup", "statement": "Under every schedule each submitted task is started at most once, tasks are dequeued in submission order, and while a task is queued and the pool is alive some worker is not stuck waiting.", "quantifier": "all schedules, worker counts and submissions", "why_tests_cant": "schedules unbounded", "anchors": ["fdaPDE/multithreading/ThreadPool.h:execute, send_async"]}
{"id": "C59", "title": "ThreadPool::sync waits for all submitted tasks", "statement": "When sync() returns, every task submitted before it has finished.", "quantifier": "all schedules", "why_tests_cant": "race windows", "anchors": ["fdaPDE/multithreading/ThreadPool.h:sync"]}
{"id": "C60", "title": "ThreadPool::shutdown does not lose dequeued tasks", "statement": "Every task taken from the queue is executed even if shutdown() is called concurrently.", "quantifier": "all schedules", "why_tests_cant": "race windows", "anchors": ["fdaPDE/multithreading/ThreadPool.h:shutdown, execute"]}
{"id": "C61", "title": "Polynomial exponent table is complete", "statement": "The exponent table for N variables and degree R has binomial(N+R,R) rows and lists every exponent vector of total degree at most R exactly once.", "quantifier": "all N >= 1 and R", "why_tests_cant": "N, R unbounded", "anchors": ["fdaPDE/finite_elements/basis/multivariate_polynomial.h:ct_poly_exp"]}
{"id": "C62", "title": "Polynomial evaluation and gradient", "statement": "operator() evaluates the polynomial with the given coefficients and derive()[i] is its partial derivative with respect to x_i at every point.", "quantifier": "all N, R, coefficients, points", "why_tests_cant": "continuous domain, all degrees", "anchors": ["fdaPDE/finite_elements/basis/multivariate_polynomial.h:MonomialSum, PolynomialDerivative"]}
{"id": "C63", "title": "Lagrangian basis is nodal", "statement": "If the Vandermonde system is solved exactly, basis function i is 1 at node i and 0 at every other node, and when the nodes are unisolvent the basis sums to one everywhere and reproduces every polynomial of the space.", "quantifier": "all orders, dimensions, node sets with invertible Vandermonde matrix", "why_tests_cant": "continuous domain", "anchors": ["fdaPDE/finite_elements/basis/lagrangian_basis.h:compute_coefficients_"]}
{"id": "C64", "title": "FEM assembly sums the local contributions", "statement": "Entry (a,b) of the discretised operator is the sum over all cells and local pairs mapped to (a,b) of the quadrature of the weak form; rows/columns of dofs with no common cell are zero; forcing is the analogous vector sum.", "quantifier": "all meshes, dof tables and forms", "why_tests_cant": "unbounded meshes", "anchors": ["fdaPDE/finite_elements/fem_assembler.h:discretize_operator, discretize_forcing"]}
{"id": "C65", "title": "Symmetric assembly equals full assembly", "statement": "For an operator flagged symmetric whose local form is symmetric, the matrix obtained from the half assembly is symmetric and equal to the full assembly; every operator flagged symmetric has a symmetric local form.", "quantifier": "all meshes, dof tables and forms", "why_tests_cant": "unbounded meshes", "anchors": ["fdaPDE/finite_elements/fem_assembler.h:discretize_operator", "fdaPDE/finite_elements/operators/diffusion.h"]}
{"id": "C66", "title": "Dirichlet conditions are imposed on the boundary dofs only", "statement": "set_dirichlet_bc replaces exactly the rows of boundary dofs by identity rows with the boundary datum on the right-hand side and leaves all other rows unchanged; applying it again changes nothing; any exact solution takes the datum on each boundary dof.", "quantifier": "all systems and boundary patterns", "why_tests_cant": "patterns unbounded", "anchors": ["fdaPDE/finite_elements/solvers/fem_solver_base.h:set_dirichlet_bc, boundary_dofs_iterator"]}
{"id": "C67", "title": "Second-order dof enumeration is conforming", "statement": "For second-order elements dofs are numbered 0..n_dofs-1 without gaps, the vertex dofs are the node ids, two cells get the same edge dof exactly for the same shared edge, and the local position matches the reference element.", "quantifier": "all conforming meshes", "why_tests_cant": "all meshes", "anchors": ["fdaPDE/finite_elements/basis/lagrangian_basis.h:enumerate_dofs"]}
{"id": "C68", "title": "Areal and pointwise evaluation matrices", "statement": "Row i of the pointwise evaluation has the basis values at the point located in its cell and is empty for points outside; areal rows average over the subdomain so constant functions are reproduced.", "quantifier": "all meshes, locations and incidence matrices", "why_tests_cant": "unbounded meshes", "anchors": ["fdaPDE/finite_elements/basis/lagrangian_basis.h:pointwise_evaluation, areal_evaluation"]}
{"id": "C69", "title": "Quadrature rules are exact up to rounding of their tables", "statement": "Each tabulated rule integrates every polynomial of its declared degree over the reference element with an error bounded by the table rounding times the coefficient size, and weights sum to one (up to table rounding).", "quantifier": "all polynomials of the degree, every rule", "why_tests_cant": "continuous coefficient space", "anchors": ["fdaPDE/utils/integration/integrator_tables.h"]}
{"id": "C70", "title": "Mesh integration is additive, linear and affine covariant", "statement": "integrate(mesh,f) is the sum over the cells, linear in f, and is exact for constants: it equals the measure times the constant up to table rounding.", "quantifier": "all meshes and integrands", "why_tests_cant": "unbounded", "anchors": ["fdaPDE/utils/integration/integrator.h"]}
{"id": "C71", "title": "Field expressions evaluate pointwise", "statement": "For every expression built with field arithmetic (scalar, vector, matrix, dot and matrix products), evaluation at x is the corresponding arithmetic of the operands evaluated at x.", "quantifier": "all expression trees and points", "why_tests_cant": "trees unbounded", "anchors": ["fdaPDE/fields/scalar_expressions.h", "fdaPDE/fields/vector_expressions.h", "fdaPDE/fields/matrix_expressions.h", "fdaPDE/fields/dot_product.h"]}
{"id": "C72", "title": "Space-varying coefficients are forwarded everywhere in an expression", "statement": "After forward(i) every discretised field inside the expression evaluates to its i-th datum.", "quantifier": "all expression trees and indices", "why_tests_cant": "trees unbounded", "anchors": ["fdaPDE/fields/scalar_expressions.h:forward", "fdaPDE/fields/vector_expressions.h:forward", "fdaPDE/fields/matrix_expressions.h:forward", "fdaPDE/fields/dot_product.h:forward"]}
{"id": "C73", "title": "Numerical derivatives are exact on low-degree polynomials", "statement": "For every non-zero step, each component of derive() is the exact partial derivative when the field is a polynomial of degree at most two in that coordinate; the diagonal entries of derive_twice() are exact up to degree five in the coordinate, the mixed entries up to degree two in each of the two coordinates.", "quantifier": "all points, steps and polynomials", "why_tests_cant": "continuous domain", "anchors": ["fdaPDE/fields/field_derivatives.h:FieldPartialDerivative, ScalarExprGradient, ScalarExprHessian"]}
{"id": "C74", "title": "Differential operator expressions", "statement": "The weak form of a combined operator is the combination of the weak forms, is_symmetric is sound for +,-,scalar *, and removing an operator from an expression yields the expression without its contribution.", "quantifier": "all operator expressions", "why_tests_cant": "trees unbounded", "anchors": ["fdaPDE/pde/differential_expressions.h:DifferentialBinOp, remove_operator"]}
{"id": "C75", "title": "Spline basis is a partition of unity", "statement": "For every sorted knot vector (at least two knots, repetitions allowed) and every order, the basis functions sum to one at every x of the knot span including its right end, and take values in [0, 1].", "quantifier": "all knot vectors, orders and points", "why_tests_cant": "continuous domain and all orders", "anchors": ["fdaPDE/splines/basis/spline.h:Spline::operator()", "fdaPDE/splines/basis/spline_basis.h:SplineBasis"]}
{"id": "C76", "title": "Spline basis functions have local support", "statement": "Basis function i of order R and its derivatives vanish outside [u_i, u_{i+R+1}) (padded knots), the right end of the span being closed: there the last function is one and the others vanish.", "quantifier": "all knot vectors, orders and points", "why_tests_cant": "continuous domain", "anchors": ["fdaPDE/splines/basis/spline.h:Spline::operator()"]}
{"id": "C77", "title": "Spline derivative formula", "statement": "derive<1>() of a basis function is its derivative at each point of the span that is not a knot, and derive<K+1>() is the derivative of derive<K>().", "quantifier": "all knot vectors, orders >= 1, points", "why_tests_cant": "continuous domain", "anchors": ["fdaPDE/splines/basis/spline.h:derive"]}
{"id": "C78", "title": "Spline assembly covers the support of each product", "statement": "Spline assembly reads no knot and no basis function out of range, returns a symmetric matrix for symmetric operators, and each entry equals the quadrature of the weak form over every knot interval, i.e. the intervals skipped contribute nothing.", "quantifier": "all knot vectors, orders and index pairs", "why_tests_cant": "index arithmetic for all sizes", "anchors": ["fdaPDE/splines/spline_assembler.h:discretize_operator"]}
{"id": "C79", "title": "Parabolic solver computes the implicit Euler recurrence", "statement": "With an exact linear solver and boundary data at every time, column 0 of the solution is the initial condition and each next column solves the implicit Euler equation for its time interval on the interior dofs and takes the boundary datum on the boundary dofs; without boundary data the same holds with no datum imposed.", "quantifier": "all numbers of time steps and data", "why_tests_cant": "unbounded time steps", "anchors": ["fdaPDE/finite_elements/solvers/fem_linear_parabolic_solver.h:solve"]}
{"id": "C80", "title": "Solvers refuse to run before initialisation", "statement": "solve() throws before a successful init() and never throws for that reason after it, for any sequence of setter calls in between.", "quantifier": "all call histories", "why_tests_cant": "histories unbounded", "anchors": ["fdaPDE/finite_elements/solvers/fem_solver_base.h", "fdaPDE/pde/pde.h"]}
{"id": "C81", "title": "CSV line splitting", "statement": "Splitting a line at the separator and joining the tokens with it gives back the line, and tokens contain no separator.", "quantifier": "all strings and separators", "why_tests_cant": "all strings", "anchors": ["fdaPDE/utils/IO/csv_reader.h:split_string, remove_char"]}
{"id": "C82", "title": "CSV dense parsing places tokens", "statement": "For a rectangular file, entry (i,j) of the parsed matrix is the value of token j+1 of data line i+1, NA/NaN tokens become NaN, quotes and blanks are ignored; no cell is left unset and no out-of-range write occurs.", "quantifier": "all files", "why_tests_cant": "all files", "anchors": ["fdaPDE/utils/IO/csv_reader.h:parse_file"]}
{"id": "C83", "title": "Shapefile integers are decoded with the declared endianness", "statement": "read<T> with big (little) endian tag decodes exactly the bytes written by the corresponding encoder and advances the cursor by sizeof(T).", "quantifier": "all values and widths", "why_tests_cant": "all values", "anchors": ["fdaPDE/utils/IO/shp_reader.h:read"]}
{"id": "C84", "title": "Shapefile polygon rings contain all their points", "statement": "Iterating the rings of a polygon yields every point of the record exactly once, grouped by ring.", "quantifier": "all records", "why_tests_cant": "multi-ring records", "anchors": ["fdaPDE/utils/IO/shp_reader.h:sf_polygon_t, ring_iterator"]}
{"id": "C85", "title": "Shapefile multipoint records keep z and m values", "statement": "After reading a MultiPointZ/M record its z and m vectors contain the values stored in the file.", "quantifier": "all records", "why_tests_cant": "value lost silently", "anchors": ["fdaPDE/utils/IO/shp_reader.h:read_zm_block"]}
{"id": "C86", "title": "DBF numeric columns are parsed row by row", "statement": "get_as<number>(col)[i] depends only on the text of row i.", "quantifier": "all tables", "why_tests_cant": "history-dependent parsing of malformed or padded cells", "anchors": ["fdaPDE/utils/IO/shp_reader.h:dbf_reader::get_as"]}
{"id": "C87", "title": "Type-erased values have value semantics", "statement": "Under any sequence of construction, copy, move, assignment and destruction of erased heap-stored values, no object is freed twice or used after being freed, every allocation is eventually freed, copies are independent, and invoking a method on a non-empty wrapper reaches the object it holds.", "quantifier": "all operation histories", "why_tests_cant": "histories unbounded", "anchors": ["fdaPDE/utils/type_erasure.h:heap_storage, vtable_handler, erase"]}
{"id": "C88", "title": "Type erasure dispatches to the right method", "statement": "invoke<R,N> on interface I of an erased object calls the N-th method listed by I for the stored type, for any number of interfaces and up to 32767 methods in total (the index is a short), whatever the wrapper held before; an interface the object does not implement is refused.", "quantifier": "all interface lists and indices", "why_tests_cant": "type lists unbounded", "anchors": ["fdaPDE/utils/type_erasure.h:init_vtable, invoke, offset table"]}
{"id": "C89", "title": "Type-list metafunctions", "statement": "unique_types holds exactly for duplicate-free lists, index_of returns the position of a type in a duplicate-free list or -1, has_type is membership, switch_type selects the first true case, get/merge index and concatenate.", "quantifier": "all type lists", "why_tests_cant": "lists unbounded", "anchors": ["fdaPDE/utils/traits.h", "fdaPDE/utils/type_erasure.h"]}
{"id": "C90", "title": "Vector comparators are strict weak orderings", "statement": "s_vector_compare / d_vector_compare are strict weak orders (lexicographic), so they are valid std::map keys.", "quantifier": "all vectors", "why_tests_cant": "all triples", "anchors": ["fdaPDE/utils/symbols.h"]}
{"id": "C91", "title": "Sparse approximate inverse keeps a lower triangular pattern", "statement": "Each column pattern contains the diagonal and only indices not above it, grows monotonically by at most beta indices per step, and the computation stops.", "quantifier": "all matrices and parameters", "why_tests_cant": "unbounded iterations", "anchors": ["fdaPDE/linear_algebra/fspai.h:compute"]}
{"id": "C92", "title": "Exact projection onto a mesh picks the best cell", "statement": "The exact projection returns, among the nearest points of all cells, one with the least distance.", "quantifier": "all meshes and points", "why_tests_cant": "unbounded", "anchors": ["fdaPDE/geometry/project.h"]}
{"id": "C93", "title": "BlockVector addresses disjoint consecutive blocks", "statement": "Block i of a BlockVector with block size m occupies rows i*m..i*m+m-1; writing a block changes exactly these rows; head(i)/tail(i) are the first/last i blocks.", "quantifier": "all sizes and indices", "why_tests_cant": "unbounded", "anchors": ["fdaPDE/utils/data_structures/block_vector.h"]}
{"id": "C94", "title": "Negative coordinates are rejected by BinaryMatrix", "statement": "set(i,j) and clear(i,j) with a negative i or j throw and leave the matrix unchanged, as for coordinates that are too large.", "quantifier": "all sizes and negative coordinates", "why_tests_cant": "wrap-around to another row happens only for particular combinations", "anchors": ["fdaPDE/linear_algebra/binary_matrix.h:BinaryMatrix::set, clear"]}
{"id": "C95", "title": "Conversion from a numeric matrix copies its non-zero pattern", "statement": "Constructing a BinaryMatrix from, or assigning it, an Eigen dense matrix makes coefficient (i,j) true exactly when the (i,j) entry is non-zero, whatever the BinaryMatrix held before.", "quantifier": "all matrices and previous contents", "why_tests_cant": "depends on previous contents and on static/dynamic storage", "anchors": ["fdaPDE/linear_algebra/binary_matrix.h:BinaryMatrix(const Eigen::MatrixBase&), operator=(const Eigen::MatrixBase&)"]}
{"id": "C96", "title": "Edges of a tetrahedral mesh are tabulated exactly", "statement": "In a conforming tetrahedral mesh every edge of every cell appears exactly once in edges(), no other edge appears, edge_to_cells(e) is exactly the set of cells having the edge, and face_to_edges(f) names exactly the three edges of face f.", "quantifier": "all conforming cell lists", "why_tests_cant": "all meshes and hash orders", "anchors": ["fdaPDE/geometry/triangulation.h:Triangulation<3,3> constructor"]}
{"id": "C97", "title": "The surface mesh contains every boundary face", "statement": "surface() returns a mesh whose cells are exactly the boundary faces of the tetrahedral mesh, with nodes renumbered without duplicates.", "quantifier": "all face tables and boundary patterns", "why_tests_cant": "the missing row depends on the position of the last boundary face", "anchors": ["fdaPDE/geometry/triangulation.h:surface"]}
{"id": "C98", "title": "Edge iteration of a 2D triangulation is complete", "statement": "Iterating edges and boundary edges of a 2D triangulation visits exactly the selected edges, each once, in increasing order.", "quantifier": "all filters, all conforming meshes", "why_tests_cant": "patterns unbounded", "anchors": ["fdaPDE/geometry/triangulation.h:Triangulation<2,N>::edge_iterator, boundary_edge_iterator"]}
{"id": "C99", "title": "Boundary edges of a tetrahedral mesh are those of boundary faces", "statement": "An edge of a tetrahedral mesh is reported on the boundary exactly when it belongs to a face of exactly one cell.", "quantifier": "all conforming cell lists", "why_tests_cant": "needs an interior edge joining two boundary nodes", "anchors": ["fdaPDE/geometry/triangulation.h:edges_markers_ of Triangulation<3,3>"]}
{"id": "C100", "title": "The barycenter is the average of the vertices", "statement": "barycenter() of any simplex is the arithmetic mean of its vertices and lies strictly inside it.", "quantifier": "all simplices of any dimension", "why_tests_cant": "dimension and coordinates unbounded", "anchors": ["fdaPDE/geometry/simplex.h:barycenter"]}
{"id": "C101", "title": "The circumcenter is equidistant from the vertices", "statement": "circumcenter() of a non-degenerate simplex is at the same distance from all the vertices; for a triangle in space it also lies in the plane of the triangle.", "quantifier": "all non-degenerate simplices", "why_tests_cant": "coordinates unbounded", "anchors": ["fdaPDE/geometry/simplex.h:circumcenter"]}
{"id": "C102", "title": "nearest is the best approximation in the simplex", "statement": "nearest(p) is a point of the simplex at least distance from p.", "quantifier": "all simplices and points", "why_tests_cant": "needs points whose projection falls inside a face", "anchors": ["fdaPDE/geometry/simplex.h:nearest"]}
{"id": "C103", "title": "Plane evaluation is the signed distance", "statement": "For a plane through three non-collinear points of space |eval(x)| equals distance(x), and eval(x) = 0 exactly for the points of the plane.", "quantifier": "all planes and points", "why_tests_cant": "coordinates unbounded", "anchors": ["fdaPDE/geometry/hyperplane.h:eval, distance"]}
{"id": "C104", "title": "Gradient descent with a line search never increases the objective", "statement": "GradientDescent whose step is chosen by a line search satisfying the Armijo condition (in particular BacktrackingLineSearch on an objective with Lipschitz gradient) returns a point whose objective value is not larger than at the starting point.", "quantifier": "all objectives, starting points, iteration counts and other passive callbacks", "why_tests_cant": "iteration histories unbounded", "anchors": ["fdaPDE/optimization/gradient_descent.h:optimize", "fdaPDE/optimization/callbacks/backtracking_line_search.h"]}
{"id": "C105", "title": "The BFGS matrix stays symmetric positive definite", "statement": "The BFGS inverse Hessian approximation satisfies the secant equation after each update, stays symmetric, stays positive definite whenever the curvature dx.dg is positive, and hence yields descent directions; it starts from the identity.", "quantifier": "all matrices, steps and gradient differences of any dimension", "why_tests_cant": "dimension and history unbounded", "anchors": ["fdaPDE/optimization/bfgs.h:optimize"]}
{"id": "C106", "title": "Line searches terminate on smooth objectives", "statement": "Backtracking returns for every objective differentiable along the direction (0<beta<1, gamma<1); the Wolfe bisection returns for every C1 objective bounded below along a descent direction (0<c1<c2<1).", "quantifier": "all objectives, directions and initial steps", "why_tests_cant": "termination cannot be tested", "anchors": ["fdaPDE/optimization/callbacks/backtracking_line_search.h", "fdaPDE/optimization/callbacks/wolfe_line_search.h"]}
{"id": "C107", "title": "Newton solves quadratics in one iteration", "statement": "Newton with unit step on a quadratic objective with invertible Hessian performs exactly one iteration and returns the stationary point.", "quantifier": "all quadratics, dimensions and starting points", "why_tests_cant": "dimension unbounded", "anchors": ["fdaPDE/optimization/newton.h:optimize"]}
{"id": "C108", "title": "The numerical Hessian is symmetric", "statement": "derive_twice() evaluated at any point is a symmetric matrix, for every scalar field and step, even where the field is not differentiable.", "quantifier": "all fields, points, dimensions and steps", "why_tests_cant": "all functions", "anchors": ["fdaPDE/fields/field_derivatives.h:FieldPartialDerivative<N,2,OP>, ScalarExprHessian"]}
{"id": "C109", "title": "Numerical derivatives have the documented order of accuracy", "statement": "On a field with bounded third derivative M along an axis the component of derive() is within M h^2/6 of the partial derivative; with bounded sixth derivative M the diagonal entry of derive_twice() is within M h^4/54 of the second derivative; with derivatives of orders (1, 3) and (3, 1) bounded by M1 and M2 a mixed entry is within (M1 + M2) h^2/6 of the mixed derivative.", "quantifier": "all smooth fields, points and steps", "why_tests_cant": "continuous domain, all functions", "anchors": ["fdaPDE/fields/field_derivatives.h:FieldPartialDerivative"]}
{"id": "C110", "title": "Space-varying coefficients are taken at the physical quadrature point", "statement": "When an operator has a space-varying coefficient, the assembled entry uses the value of the coefficient at the physical position of the quadrature point, whether it is given as a callable field or as data sampled at quadrature_nodes().", "quantifier": "all meshes, coefficients, cells and quadrature rules", "why_tests_cant": "all coefficient functions and meshes", "anchors": ["fdaPDE/utils/integration/integrator.h:integrate_weak_form, quadrature_nodes", "fdaPDE/finite_elements/fem_assembler.h:discretize_operator"]}
{"id": "C111", "title": "A successful elliptic solve satisfies the discrete problem", "statement": "After init() and solve() of an elliptic problem with an exact linear solver, either success is reported and the solution takes the Dirichlet datum on the boundary dofs and satisfies the assembled equation on every other dof, or failure is reported, the factorisation of exactly that system failed and the previous solution is kept.", "quantifier": "all meshes, operators, forcings and boundary data", "why_tests_cant": "all systems", "anchors": ["fdaPDE/finite_elements/solvers/fem_linear_elliptic_solver.h:solve", "fdaPDE/finite_elements/solvers/fem_solver_base.h:init, set_dirichlet_bc", "fdaPDE/pde/pde.h:solve"]}
{"id": "C112", "title": "Re-initialisation forgets the history", "statement": "Whatever setters, initialisations and solves came before, init() computes the same stiffness, mass and forcing as on a fresh PDE object with the operator and forcing currently set.", "quantifier": "all call histories", "why_tests_cant": "histories unbounded", "anchors": ["fdaPDE/finite_elements/solvers/fem_solver_base.h:init", "fdaPDE/pde/pde.h"]}
{"id": "C113", "title": "Coordinates of the second-order dofs", "statement": "On every conforming triangulation with second-order elements dofs_coords() gives a position to every dof: the vertex for a vertex dof and the midpoint of the edge for an edge dof, whichever cell sharing the edge is visited first.", "quantifier": "all conforming triangulations", "why_tests_cant": "all meshes", "anchors": ["fdaPDE/finite_elements/basis/lagrangian_basis.h:dofs_coords", "fdaPDE/finite_elements/basis/reference_element.h"]}
{"id": "C114", "title": "A basis expansion is evaluated at the given points", "statement": "LagrangianBasis::operator()(c, locs) returns, for each location, the value of the finite element function with coefficients c, for elements of every order and for any location.", "quantifier": "all meshes, element orders, coefficients and locations", "why_tests_cant": "continuous domain, all meshes", "anchors": ["fdaPDE/finite_elements/basis/lagrangian_basis.h:operator()"]}
{"id": "C115", "title": "Spline mass matrix is the Gram matrix of the basis", "statement": "For every knot vector and order, entry (i, j) of the discretised reaction operator with unit coefficient is the integral of the product of basis functions i and j over the span, up to the rounding of the quadrature table.", "quantifier": "all knot vectors, all orders, all index pairs", "why_tests_cant": "exactness depends on the order and on every interval; a test checks a few meshes at a tolerance", "anchors": ["fdaPDE/splines/spline_assembler.h:discretize_operator", "fdaPDE/utils/integration/integrator.h:Integrator<SPLINE>"]}
{"id": "C116", "title": "Spline evaluation matrix and expansion", "statement": "Row j of the pointwise evaluation matrix holds the values of all basis functions at location j and sums to one for locations of the span; evaluating an expansion returns sum_i c_i phi_i(x) at every location.", "quantifier": "all knot vectors, orders, coefficient vectors and location sets", "why_tests_cant": "continuous domain, all sizes", "anchors": ["fdaPDE/splines/basis/spline_basis.h:pointwise_evaluation", "fdaPDE/splines/basis/spline_basis.h:operator()"]}
{"id": "C117", "title": "CSV sparse parsing", "statement": "For a file of (row, column, value) lines the parsed sparse matrix holds exactly the listed values at the listed positions (indices start from one in the file), its size is the largest index in each direction, and a header of any other shape is rejected.", "quantifier": "all files of triplet lines", "why_tests_cant": "all files and values", "anchors": ["fdaPDE/utils/IO/csv_reader.h:parse_file<Eigen::SparseMatrix>"]}
{"id": "C118", "title": "Shapefile round trip", "statement": "Reading a shapefile of point or polygon records (with or without z and m values) returns the header fields and the records in order, each with its number, type, bounding box, ring starts and coordinates as stored.", "quantifier": "all files of point and polygon records, any number of records, rings and points", "why_tests_cant": "all byte sequences of the format", "anchors": ["fdaPDE/utils/IO/shp_reader.h:shp_reader::read", "fdaPDE/utils/IO/shp_reader.h:sf_point_t, sf_polygon_t"]}
{"id": "C119", "title": "dBase round trip", "statement": "Reading a dBase table returns the field names and types in order, and the column of each field is the list of the texts of its rows in order, for fields of any length and tables of any number of rows.", "quantifier": "all dBase tables", "why_tests_cant": "all byte sequences of the format", "anchors": ["fdaPDE/utils/IO/shp_reader.h:dbf_reader::read", "fdaPDE/utils/IO/shp_reader.h:dbf_reader::get_as"]}
{"id": "C120", "title": "Columns of the sparse approximate inverse solve their normal equations", "statement": "For a symmetric positive definite matrix and an exact inner solver, after compute(alpha, beta, epsilon) with alpha >= 1 each column l of L lives on a set P of indices of its pattern containing the diagonal k, A l vanishes on P except at k, l has unit A-norm and a positive diagonal.", "quantifier": "all sizes, matrices, parameters, starting states and iteration orders of the hash containers", "why_tests_cant": "all matrices and adaptive patterns", "anchors": ["fdaPDE/linear_algebra/fspai.h:FSPAI::compute"]}
{"id": "C121", "title": "The best candidate enters the pattern", "statement": "In each update of a column, if some candidate index improves the K-condition number by more than epsilon (and beta >= 1), an index of largest improvement is added to the pattern.", "quantifier": "all matrices, column states and parameters", "why_tests_cant": "depends on every combination of improvements, including ties", "anchors": ["fdaPDE/linear_algebra/fspai.h:FSPAI::compute"]}
{"id": "C122", "title": "A column of the approximate inverse depends only on its own data", "statement": "The result of compute(alpha, beta, epsilon) for column k depends on the matrix at and below k and on the parameters only: not on earlier calls of compute and not on the columns computed before.", "quantifier": "all matrices, parameters and call histories", "why_tests_cant": "quantifies over histories", "anchors": ["fdaPDE/linear_algebra/fspai.h:FSPAI::compute"]}
{"id": "C123", "title": "push_left, push_right and emplace set one child only", "statement": "push_left(pos, x), push_right(pos, x) and emplace at any node of a tree give that child of pos the value x: an existing child keeps its own children and the node count, a missing one is created as a leaf one level below with pos as its parent and the count grows by one; the returned iterator points at the child and the rest of the tree is unchanged.", "quantifier": "all trees, positions and values", "why_tests_cant": "all trees; aliasing and dangling pointers", "anchors": ["fdaPDE/utils/data_structures/binary_tree.h:push_left, push_right, emplace"]}
{"id": "C124", "title": "Removing a block from a frame", "statement": "remove<T>(key) on a frame takes the block, its column name and its dirty flag away and nothing else: every other block keeps its content and flag, the order of the remaining columns and the row count are unchanged, and get of the removed key is refused. Removing a key the frame does not have leaves the frame unchanged.", "quantifier": "all frames reachable by insert, stack, clear_dirty_bit and remove, all keys", "why_tests_cant": "quantifies over histories; the erased position must agree between two containers", "anchors": ["fdaPDE/utils/data_structures/block_frame.h:BlockFrame::remove"]}
{"id": "C125", "title": "Every submitted task is executed and shutdown returns", "statement": "If tasks return, every schedule of a pool makes only finitely many steps between two client calls; when nothing can move any more, a pool with a worker that was not shut down has executed every submitted task and left its clients outside send_async, and a pool that was shut down has ended all its workers and left no caller inside shutdown. sync() returns if one client synchronises at a time.", "quantifier": "all schedules, numbers of workers and clients", "why_tests_cant": "liveness over all schedules, with no bound on length", "anchors": ["fdaPDE/multithreading/ThreadPool.h:execute, send_async, sync, shutdown"]}
{"id": "C126", "title": "Calls on a type-erased PDE or optimizer reach the method of the same name", "statement": "Every method of the PDE and Optimizer wrappers runs the method of the same name of the wrapped object; eval_basis(0, .) runs the pointwise evaluation, eval_basis(1, .) the areal one and any other code yields an empty optional.", "quantifier": "all methods, all codes, all wrappers that combine the interface with others", "why_tests_cant": "indices and method lists are kept in step by hand; combining interfaces shifts them", "anchors": ["fdaPDE/pde/pde.h:PDE__", "fdaPDE/optimization/optimizer.h:Optimizer__"]}
{"id": "C127", "title": "The Voronoi diagram of an interval is the nearest-site partition", "statement": "The Voronoi diagram of a one-dimensional mesh has one cell per node, delimited by two vertices that cut out exactly the points of the interval nearest to that node; measure() is its length and the measures add up to the length of the interval; exactly the first and last cell are on the boundary; locate(p) returns a node nearest to p, and -1 outside.", "quantifier": "all increasing node vectors, all points, all hash iteration orders", "why_tests_cant": "nodes and points unbounded", "anchors": ["fdaPDE/geometry/voronoi.h:Voronoi<Triangulation<1, 1>>"]}
{"id": "C128", "title": "Vertices of the Voronoi cells of a plane triangulation", "statement": "Built from a triangulation without degenerate triangles and with its boundary nodes marked, the Voronoi diagram has one cell per node; its vertices are exactly the circumcentres of the triangles around the node, the midpoints of the boundary edges at the node and, on the boundary, the node itself, listed clockwise about their mean; vertex i is the circumcentre of triangle i and exactly the others are marked as boundary vertices; the cell of an unmarked node is not on the boundary.", "quantifier": "all conforming triangulations, all coordinates, all iteration orders of the hash map, all correct sorting routines", "why_tests_cant": "meshes, coordinates and hash orders unbounded", "anchors": ["fdaPDE/geometry/voronoi.h:Voronoi<Triangulation<2, 2>>, VoronoiCell::on_boundary"]}
{"id": "C129", "title": "Point location in a plane Voronoi diagram returns the nearest site", "statement": "For a Delaunay triangulation, locate(p) returns the node nearest to p if p is in the domain and -1 otherwise; contains(p) of a cell agrees with it.", "quantifier": "all Delaunay triangulations, all points", "why_tests_cant": "meshes and points unbounded", "anchors": ["fdaPDE/geometry/voronoi.h:Voronoi<Triangulation<2, 2>>::locate, VoronoiCell::contains"]}
{"id": "C130", "title": "The Voronoi cells of a plane triangulation partition its area", "statement": "measure() of a Voronoi cell is the area of the polygon of its vertices, and for a Delaunay triangulation the measures of all cells add up to the area of the domain.", "quantifier": "all Delaunay triangulations", "why_tests_cant": "meshes unbounded", "anchors": ["fdaPDE/geometry/voronoi.h:VoronoiCell::measure"]}
{"id": "C131", "title": "A cell lists its facets and edges once each", "statement": "For every conforming mesh, the edge views of a triangle are its three edges, the face views of a tetrahedron its four faces and the edge views its six edges, each once and regardless of the order of the hash set of edge ids; every face view lists its three edges. adjacent_cells() of a view are exactly the cells that contain it and on_boundary() of a facet view holds exactly when one cell contains it.", "quantifier": "all conforming triangular and tetrahedral meshes, all cells, all hash orders", "why_tests_cant": "meshes and hash orders unbounded", "anchors": ["fdaPDE/geometry/triangle.h:Triangle::edge, EdgeType", "fdaPDE/geometry/tetrahedron.h:Tetrahedron, edge, face, FaceType"]}
{"id": "C132", "title": "on_boundary of a cell means it has a facet on the boundary", "statement": "If the marked nodes are those of the boundary facets, on_boundary() of a segment, triangle or tetrahedron is true exactly when one of its facets lies on the boundary.", "quantifier": "all meshes, all cells", "why_tests_cant": "meshes unbounded", "anchors": ["fdaPDE/geometry/segment.h:Segment", "fdaPDE/geometry/triangle.h:Triangle", "fdaPDE/geometry/tetrahedron.h:Tetrahedron"]}
{"id": "C133", "title": "Index based iterators visit every item in order and walk both ways", "statement": "A loop from begin to end visits every item once in order; after any sequence of ++, --, + k, - k that stays in [begin, end], the iterator refers to the item at its position, and reaching end is defined.", "quantifier": "all containers, all sequences of moves", "why_tests_cant": "walks unbounded", "anchors": ["fdaPDE/geometry/utils.h:index_based_iterator", "fdaPDE/geometry/triangulation.h:cell_iterator"]}
{"id": "C134", "title": "almost_equal applies a relative and absolute tolerance", "statement": "almost_equal(a, b, eps) is symmetric, holds of a number and itself, and for eps > 0 returns true exactly when |a - b| < eps * max(1, |a|, |b|), up to the rounding of one operation.", "quantifier": "all doubles including infinities and NaN", "why_tests_cant": "2^192 triples", "anchors": ["fdaPDE/utils/symbols.h:almost_equal"]}
{"id": "C135", "title": "log1pexp is accurate everywhere", "statement": "log1pexp(x) differs from log(1 + exp(x)) by at most 2^-53 of its value, in exact arithmetic, for every x; and it is monotone.", "quantifier": "all reals", "why_tests_cant": "a continuum of arguments and three branch points", "anchors": ["fdaPDE/utils/symbols.h:log1pexp"]}
{"id": "C136", "title": "SparseLU is a copyable value", "statement": "After any history of constructions, copies and compute() calls, solve() of a wrapper uses the last matrix given to it or to the wrapper it was copied from, unaffected by what happens to other copies; the conversion to bool says whether that matrix was factorised.", "quantifier": "all histories", "why_tests_cant": "histories unbounded", "anchors": ["fdaPDE/utils/symbols.h:SparseLU"]}
{"id": "C137", "title": "The discretised operator is the bilinear form of the problem", "statement": "For an operator written with +, -, negation and scalar multiples of laplacian, diffusion, advection and reaction, and for all finite element functions u and v, u^T A v is the sum over the cells of the quadrature of the weak form of the operator at u and v (gradients, coefficients and values of the two functions, not of single basis functions).", "quantifier": "all meshes, finite element spaces, quadrature rules, operators and coefficient vectors", "why_tests_cant": "meshes, expressions and vectors are unbounded", "anchors": ["fdaPDE/finite_elements/fem_assembler.h:discretize_operator", "fdaPDE/finite_elements/operators"]}
{"id": "C138", "title": "Operators without reaction annihilate constants", "statement": "When the operator has no reaction term, every row of the stiffness matrix sums to zero, so constant fields are in its kernel; for symmetric operators so do the columns. This holds for every Lagrangian space of the library.", "quantifier": "all meshes, operators, orders", "why_tests_cant": "meshes and operators unbounded", "anchors": ["fdaPDE/finite_elements/fem_assembler.h:discretize_operator", "fdaPDE/finite_elements/basis/lagrangian_basis.h"]}
{"id": "C139", "title": "Elliptic operators have symmetric positive semidefinite matrices", "statement": "For nonnegative combinations of minus a diffusion with symmetric positive semidefinite tensor and of reactions with nonnegative coefficient, with nonnegative weights and measures, the matrix is symmetric and v^T A v >= 0 for every v.", "quantifier": "all meshes, tensors, coefficients, vectors", "why_tests_cant": "a continuum of tensors and vectors on unbounded meshes", "anchors": ["fdaPDE/finite_elements/fem_assembler.h:discretize_operator", "fdaPDE/finite_elements/operators/diffusion.h", "fdaPDE/finite_elements/operators/reaction.h"]}
{"id": "C140", "title": "The mass matrix is symmetric positive definite and adds up to the measure of the domain", "statement": "The mass matrix is the matrix of the quadrature inner product of finite element functions; its entries add up to the measure of the domain (up to a relative 2e-15, the error of the tabulated weights); on the Lagrangian spaces of order 1 and 2 in 1D and 2D and of order 1 in 3D with the standard quadrature it is positive definite on any mesh of cells of positive measure.", "quantifier": "all meshes and vectors, every space the library can build", "why_tests_cant": "meshes and vectors unbounded", "anchors": ["fdaPDE/finite_elements/solvers/fem_solver_base.h:mass", "fdaPDE/utils/integration/integrator_tables.h", "fdaPDE/finite_elements/fem_assembler.h"]}
{"id": "C141", "title": "A cell knows its measure and its inverse map", "statement": "measure() of a segment, triangle or tetrahedron, also embedded in a higher dimension, is the square root of the Gram determinant of its edges over d!; it is positive exactly when the vertices are affinely independent, and then invJ() is a left inverse of the Jacobian (and a right inverse when the cell fills the space).", "quantifier": "all coordinates, all cell types", "why_tests_cant": "a continuum of cells", "anchors": ["fdaPDE/geometry/simplex.h:Simplex::initialize, measure, invJ"]}
{"id": "C142", "title": "measure() is a volume", "statement": "The unit simplex has measure 1/d!; the measure does not change under translations or reordering of the vertices, is multiplied by |det A| by a linear map A, and when a cell is cut at any of its points the measures of the pieces add up to it.", "quantifier": "all cells, affine maps, vertex orders and cut points", "why_tests_cant": "a continuum of cells and cut points", "anchors": ["fdaPDE/geometry/simplex.h:Simplex::initialize, measure, Unit"]}
{"id": "C143", "title": "The kernel of a diffusion matrix is the constants", "statement": "For an operator with positive definite diffusion and no reaction on a connected mesh of nondegenerate cells, A v = 0 exactly when v is constant; hence without boundary values solve() reports failure and leaves the solution untouched. This holds for the Lagrangian spaces the library can build with their standard quadrature.", "quantifier": "all connected meshes, operators, vectors", "why_tests_cant": "meshes, operators and vectors unbounded", "anchors": ["fdaPDE/finite_elements/fem_assembler.h:discretize_operator", "fdaPDE/finite_elements/solvers/fem_linear_elliptic_solver.h"]}
{"id": "C144", "title": "The discrete Dirichlet problem has exactly one solution and solve() returns it", "statement": "For an operator with positive definite diffusion (plus reaction with nonnegative coefficient), on a mesh in which every dof is linked through cells to a boundary dof, and dof 0 on the boundary, the system with the boundary values imposed is invertible: init() and solve() succeed, the solution satisfies the boundary values and the assembled equations, and no other vector does.", "quantifier": "all meshes, operators, forcings and boundary data", "why_tests_cant": "meshes and data unbounded", "anchors": ["fdaPDE/finite_elements/solvers/fem_linear_elliptic_solver.h", "fdaPDE/finite_elements/solvers/fem_solver_base.h:set_dirichlet_bc", "fdaPDE/pde/pde.h"]}
{"id": "C145", "title": "With a positive reaction the discrete problem has exactly one solution without boundary values", "statement": "For an elliptic operator with a positive reaction term, when every dof belongs to a cell, solve() without boundary data succeeds and returns the only vector that satisfies the assembled equations.", "quantifier": "all meshes, operators and forcings", "why_tests_cant": "meshes and data unbounded", "anchors": ["fdaPDE/finite_elements/solvers/fem_linear_elliptic_solver.h", "fdaPDE/pde/pde.h"]}
{"id": "C146", "title": "A Lagrangian space on a mesh of nondegenerate cells is ready for assembly", "statement": "On every mesh whose cells have distinct nodes of the mesh and positive measure, the space of order 1 (segments, triangles, tetrahedra, also surface meshes) and of order 2 (triangles) built by the library has: dof indices in range, distinct dofs on each cell, a basis that adds up to one, inverse Jacobians that invert, positive quadrature, and every dof located where its reference node is mapped.", "quantifier": "all meshes (any size), all node coordinates", "why_tests_cant": "meshes unbounded, coordinates a continuum", "anchors": ["fdaPDE/finite_elements/basis/lagrangian_basis.h", "fdaPDE/geometry/simplex.h", "fdaPDE/utils/integration/integrator_tables.h"]}
{"id": "C147", "title": "Elliptic problems of order 1 on a mesh behave as the theory says", "statement": "For first order elements on any mesh of nondegenerate cells: the mass matrix is symmetric, its entries add up to the measure of the mesh (relative error 2e-15) and it is positive definite; the kernel of a diffusion matrix is the constants when the mesh is in one piece; the Dirichlet problem on a mesh whose nodes are all joined to marked nodes by chains of cells is solved, and so is the problem with positive reaction without boundary values, in both cases with the only solution of the discrete equations.", "quantifier": "all meshes, operators, forcings, boundary data", "why_tests_cant": "meshes and data unbounded", "anchors": ["fdaPDE/finite_elements/fem_assembler.h", "fdaPDE/finite_elements/solvers/fem_linear_elliptic_solver.h", "fdaPDE/pde/pde.h", "fdaPDE/geometry/triangulation.h"]}
{"id": "C148", "title": "Dirichlet problems of order 2 on triangles are solved", "statement": "For second order elements on any conforming triangle mesh of nondegenerate cells whose nodes are joined to marked nodes by chains of cells, init() and solve() with boundary data succeed and return the only vector that takes the boundary values at the boundary dofs found by the library (marked nodes and midpoints of boundary edges) and satisfies the assembled equations elsewhere.", "quantifier": "all conforming triangle meshes, operators, forcings and boundary data", "why_tests_cant": "meshes and data unbounded", "anchors": ["fdaPDE/finite_elements/basis/lagrangian_basis.h:enumerate_dofs", "fdaPDE/finite_elements/solvers/fem_linear_elliptic_solver.h", "fdaPDE/pde/pde.h"]}
{"id": "C149", "title": "The patch test: affine solutions are reproduced exactly on every mesh", "statement": "With first order elements on any conforming mesh of segments, triangles or tetrahedra, for minus the Laplacian or a diffusion with constant symmetric positive definite tensor, zero forcing and the values of an affine function as Dirichlet data, the solution returned by solve() is that affine function at every node. Unmarked nodes have to be interior (every face through them separates two cells) and joined to marked nodes by chains of cells.", "quantifier": "all conforming meshes, all affine functions, all constant tensors", "why_tests_cant": "the tests check two affine solutions on a handful of meshes", "anchors": ["fdaPDE/finite_elements/solvers/fem_linear_elliptic_solver.h", "fdaPDE/finite_elements/fem_assembler.h", "fdaPDE/geometry/simplex.h", "fdaPDE/finite_elements/basis/lagrangian_basis.h", "test/src/fem_pde_test.cpp"]}
{"id": "C150", "title": "Time-dependent diffusion-reaction problems have one discrete solution, and solve() returns it", "statement": "For a problem dt + L with L a combination of diffusions with positive semidefinite tensor and reactions with nonnegative coefficient, on a uniform increasing time grid, with boundary data at every time point and dof 0 on the boundary, init() and solve() succeed for every time step length, and the matrix returned is the only sequence that starts at the initial condition and satisfies the implicit Euler equations and the boundary values at each later time point. This holds in particular for first order elements on every mesh of nondegenerate cells without isolated nodes.", "quantifier": "all meshes, time grids of any length and step, operators, forcings, boundary data and initial conditions", "why_tests_cant": "an unbounded number of time steps on unbounded meshes", "anchors": ["fdaPDE/finite_elements/solvers/fem_linear_parabolic_solver.h", "fdaPDE/pde/pde.h", "fdaPDE/finite_elements/solvers/fem_solver_base.h"]}
{"id": "C151", "title": "Time stepping is stable for every step length", "statement": "Under the conditions of C150, the discrete L2 distance between the solutions of two problems that differ only in the initial condition never grows from one time point to a later one, however long the step; with zero forcing and zero boundary values the discrete L2 norm of the solution itself never grows.", "quantifier": "all meshes, step lengths, numbers of steps and initial conditions", "why_tests_cant": "stability is a statement about every step length and arbitrarily many steps", "anchors": ["fdaPDE/finite_elements/solvers/fem_linear_parabolic_solver.h"]}
{"id": "C152", "title": "Steady states are preserved by time stepping", "statement": "If forcing and boundary data do not depend on time and the initial condition is the discrete solution of the stationary problem, every column returned by solve() equals the initial condition.", "quantifier": "all meshes, operators, data and time grids as in C150", "why_tests_cant": "the tests compare a few columns with a tolerance", "anchors": ["fdaPDE/finite_elements/solvers/fem_linear_parabolic_solver.h", "fdaPDE/finite_elements/solvers/fem_linear_elliptic_solver.h"]}
{"id": "C153", "title": "The discrete solution of a symmetric elliptic problem is the only minimiser of the energy", "statement": "For a symmetric operator with positive definite diffusion (plus nonnegative reactions) and Dirichlet data, the vector returned by solve() has the smallest energy (half the quadratic form of the operator minus the load) among all finite element functions with the same boundary values, and no other such function attains it.", "quantifier": "all problems as in C144 and all competing functions", "why_tests_cant": "the competitors form a continuum", "anchors": ["fdaPDE/finite_elements/solvers/fem_linear_elliptic_solver.h", "fdaPDE/finite_elements/fem_assembler.h"]}
{"id": "C154", "title": "Evaluation reproduces the polynomials of the space at every located point", "statement": "On any mesh of nondegenerate cells, the evaluation matrix of a first order space at any list of points maps the nodal values of an affine function to its values at the points located by the point search (for surface meshes: points in the plane of the located cell); the same holds for quadratic functions sampled at the coordinates of the dofs with second order triangles. Rows of located points add up to 1, and the row of a mesh node located in a cell containing it is a row of the identity.", "quantifier": "all meshes, point lists, affine or quadratic functions", "why_tests_cant": "points and functions form a continuum", "anchors": ["fdaPDE/finite_elements/basis/lagrangian_basis.h:pointwise_evaluation", "fdaPDE/finite_elements/basis/lagrangian_basis.h:dofs_coords", "fdaPDE/geometry/simplex.h"]}
{"id": "C155", "title": "The reference spline basis is the basis of the domain carried to [-1, 1]", "statement": "For any sorted list of nodes, the spline solver maps the nodes to sorted knots that start at -1 and end at 1, with as many basis functions as on the domain; at the image of a point each reference function has the value of the function of the domain, and its derivatives of order K differ by the factor ((b - a) / 2)^K. A domain with fewer than two distinct nodes has no reference basis.", "quantifier": "all node lists, orders, basis functions, derivative orders and points (except points other than the end within 1e-6 of it on one of the two intervals)", "why_tests_cant": "nodes and points form a continuum", "anchors": ["fdaPDE/splines/solvers/spline_solver_base.h:SplineSolverBase", "fdaPDE/splines/basis/spline_basis.h"]}
{"id": "C156", "title": "The spline solver assembles the operator in force when init is called and refuses to solve before", "statement": "After any sequence of calls on a spline PDE object, init() sets the stiffness matrix to the symmetric matrix of the operator now set and the mass matrix to the matrix of products of basis functions, for n + r - 1 degrees of freedom, and leaves operator, forcing and boundary data alone; solve() throws if init() was never called; no other call changes the two matrices.", "quantifier": "all node lists, orders, operators and call sequences", "why_tests_cant": "the property ranges over all histories of the object", "anchors": ["fdaPDE/splines/solvers/spline_solver_base.h:init", "fdaPDE/splines/solvers/spline_linear_elliptic_solver.h:solve", "fdaPDE/pde/pde.h"]}
{"id": "C157", "title": "The spline elliptic solver returns the discrete solution", "statement": "After init(), solve() returns the coefficient vector of the solution of the assembled system when its matrix is non-singular, and reports failure otherwise. (Refuted: the right-hand side is never assembled and stays 0 x 0, so with a non-singular matrix the call is undefined; no history gives a solution.)", "quantifier": "all node lists, orders, operators, forcing terms and call sequences", "why_tests_cant": "no finite set of calls shows that no history works", "anchors": ["fdaPDE/splines/solvers/spline_solver_base.h:init", "fdaPDE/splines/solvers/spline_linear_elliptic_solver.h:solve"]}
{"id": "C158", "title": "Degrees of freedom of the spline solver are the values at the coordinates it reports", "statement": "dofs_coords() lists one point per degree of freedom, and coefficient i of a spline is its value at point i. (True for order 1 with distinct nodes; refuted for every other order: there are n coordinates and n + r - 1 degrees of freedom.)", "quantifier": "all node lists, orders and coefficient vectors", "why_tests_cant": "nodes and coefficients form a continuum", "anchors": ["fdaPDE/splines/solvers/spline_solver_base.h:dofs_coords", "fdaPDE/splines/solvers/spline_solver_base.h:n_dofs"]}
{"id": "C159", "title": "The values of a spline on the domain determine its coefficients", "statement": "Two coefficient vectors whose basis expansions agree at every point of the domain are equal, exactly when every basis function has a support of positive length; this holds in particular whenever the nodes are strictly increasing.", "quantifier": "all sorted knot lists, orders, coefficient vectors and points", "why_tests_cant": "coefficients and points form a continuum", "anchors": ["fdaPDE/splines/basis/spline_basis.h:operator()", "fdaPDE/splines/basis/spline.h"]}
{"id": "C160", "title": "Splines reproduce straight lines", "statement": "For order r >= 1 the expansion with coefficients p + q g_i, g_i the average of the r knots inside the support of function i, equals p + q x at every point of the domain; when every function has a support of positive length, no other coefficients do.", "quantifier": "all sorted knot lists, orders r >= 1, lines and points", "why_tests_cant": "knots and points form a continuum", "anchors": ["fdaPDE/splines/basis/spline_basis.h:operator()", "fdaPDE/splines/basis/spline.h"]}
{"id": "C161", "title": "The spline matrix of a positive reaction is positive definite", "statement": "With supports of positive length and a reaction coefficient positive on the domain, the assembled matrix has positive quadratic form at every nonzero vector and is invertible. (True up to order 2, and with distinct knots up to twice the number of intervals; refuted for every larger order, e.g. cubic splines on one interval: the three-node quadrature makes the matrix singular.)", "quantifier": "all sorted knot lists, orders, coefficients and vectors", "why_tests_cant": "the vectors form a continuum", "anchors": ["fdaPDE/splines/spline_assembler.h:discretize_operator", "fdaPDE/splines/operators/reaction.h", "fdaPDE/utils/integration/integrator.h"]}
{"id": "C162", "title": "The bilaplacian penalty vanishes exactly on straight lines", "statement": "For order at least 2 the assembled bilaplacian matrix has non-positive quadratic form; the form is zero exactly when the spline is a straight line on the domain, and exactly then the coefficients are in the kernel of the matrix. (With strictly increasing nodes the kernel part is true for orders from 2 to twice the number of intervals plus 2; refuted for every larger order.)", "quantifier": "all sorted knot lists, orders and coefficient vectors", "why_tests_cant": "the vectors form a continuum", "anchors": ["fdaPDE/splines/spline_assembler.h:discretize_operator", "fdaPDE/splines/operators/bilaplacian.h"]}
{"id": "C163", "title": "The penalised spline smoothing system is uniquely solvable", "statement": "The matrix assembled for a positive reaction minus a positive multiple of the bilaplacian is positive definite and invertible. (True for orders from 2 to twice the number of intervals plus 2; refuted for every order larger than five times the number of intervals, where the quadrature makes it singular.)", "quantifier": "all strictly increasing knot lists, orders, positive coefficients and multiples", "why_tests_cant": "coefficients form a continuum", "anchors": ["fdaPDE/splines/spline_assembler.h:discretize_operator", "fdaPDE/splines/operators/bilaplacian.h", "fdaPDE/splines/operators/reaction.h"]}
{"id": "C164", "title": "The k-d tree has logarithmic depth", "statement": "The longest path from the root of a tree built from n points has at most 1 + log2(n) nodes, so that the number of nodes met by a descent is logarithmic. (True in one dimension when no two points are equal; refuted otherwise: points that agree in every coordinate form a list of depth n, and in two dimensions distinct coordinates do not suffice because the splitting direction does not follow the depth.)", "quantifier": "all point sets, dimensions and behaviours of std::nth_element", "why_tests_cant": "point sets of every size", "anchors": ["fdaPDE/geometry/kd_tree.h:KDTree", "fdaPDE/utils/data_structures/binary_tree.h:push"]}
{"id": "C165", "title": "The numbers of cells, facets and boundary facets are consistent", "statement": "For every conforming triangle mesh 3 n_cells() plus the number of boundary edges is 2 n_edges(), and for every conforming tetrahedral mesh 4 n_cells() plus the number of boundary faces is 2 n_faces(); a closed surface has exactly 3/2 as many edges as triangles.", "quantifier": "all conforming meshes of triangles and tetrahedra", "why_tests_cant": "meshes of every size", "anchors": ["fdaPDE/geometry/triangulation.h:n_edges", "fdaPDE/geometry/triangulation.h:n_faces", "fdaPDE/geometry/triangulation.h:boundary_edges_begin"]}
{"id": "C166", "title": "node_patch lists the cells around a node", "statement": "node_patch(id) of a mesh of triangles or tetrahedra lists, once each, cells that contain the point of node id, among them every cell that has id as a vertex; on a mesh without hanging nodes it lists exactly those.", "quantifier": "all meshes that are not flat along an axis, nodes, iteration orders and behaviours of std::nth_element", "why_tests_cant": "meshes and nodes of every size and position", "anchors": ["fdaPDE/geometry/triangulation.h:node_patch", "fdaPDE/geometry/tree_search.h:all_locate"]}
{"id": "C167", "title": "Copies of a mesh are independent of the original", "statement": "Point location on a mesh answers from the data of that mesh, whatever was copied, assigned, moved or destroyed before. (True for every history in which no mesh is copied, assigned or moved after points were located on it; refuted otherwise: the copy keeps a pointer to the original, which dangles once the original is gone or moved, and answers from the wrong cells once it is reassigned.)", "quantifier": "all sequences of constructions, copies, assignments, moves, destructions and queries", "why_tests_cant": "histories are unbounded", "anchors": ["fdaPDE/geometry/triangulation.h:locate", "fdaPDE/geometry/triangulation.h:location_policy_", "fdaPDE/geometry/tree_search.h:mesh_"]}
{"id": "C168", "title": "Points can be located on a mesh from several threads", "statement": "Concurrent calls of the const member function locate on one mesh do not race. (True once one call has completed, for any number of threads and any interleaving; refuted for the first calls: the search structure is created on demand without synchronisation.)", "quantifier": "all numbers of threads and all interleavings", "why_tests_cant": "interleavings cannot be enumerated by tests", "anchors": ["fdaPDE/geometry/triangulation.h:locate", "fdaPDE/geometry/triangulation.h:location_policy_"]}
{"id": "C169", "title": "The edges of a Voronoi diagram", "statement": "edges() of a Voronoi cell lists one row per vertex, row j joining vertex j of the cell to the next one and the last vertex to the first, so that every vertex is once the first and once the second end of a row. edge(i) is the segment of row i, and the assertion stops an index past the last row. edges() of a diagram lists every edge of every cell exactly once, whichever of the cells sharing it is visited first and in whichever direction they traverse it, with its two ids in increasing order, and nothing else. A cell is on the boundary exactly when one of its edges joins two boundary vertices.", "quantifier": "every planar diagram, every cell, every traversal order of the cells and of the set of visited edges", "why_tests_cant": "the order in which the hash containers are traversed and the way neighbouring cells list a common edge are not fixed; a test sees one of them", "anchors": ["fdaPDE/geometry/voronoi.h: VoronoiCell::edges, VoronoiCell::edge, VoronoiCell::on_boundary, Voronoi::edges"]}
{"id": "C170", "title": "A shapefile is read from its folder", "statement": "ShapeFile(folder) reads folder/name.shp, folder/name.dbf and folder/name.prj, where name is the last component of folder, and reports as coordinate system the text between the quotes after the first GEOGCS[ in the first line of the .prj file, or UNDEFINED when there is none.", "quantifier": "every folder name, every content of the files", "why_tests_cant": "it speaks about every folder name and every text of the .prj file, including those without the keyword", "anchors": ["fdaPDE/utils/IO/shp_reader.h: ShapeFile::ShapeFile"]}
{"id": "C171", "title": "The printed summary of a shapefile", "statement": "Printing a ShapeFile names its kind of shape and lists the name and type of each column of its table, separated by commas.", "quantifier": "every shape type, every table, with any number of columns", "why_tests_cant": "the loop bound is computed in unsigned arithmetic, so that the empty table is a case of its own, and there are twelve shape types", "anchors": ["fdaPDE/utils/IO/shp_reader.h: operator<<(std::ostream&, const ShapeFile&)"]}
{"id": "C172", "title": "The discrete solution obeys the maximum principle", "statement": "Solving the Poisson problem (minus the Laplacian) with first order elements and Dirichlet values on a mesh of segments, triangles or tetrahedra in which no two facets of a cell meet at an obtuse angle: when the forcing term is nowhere positive no nodal value exceeds the largest prescribed value, and when it is nowhere negative no nodal value falls below the smallest one.", "quantifier": "every mesh of simplices without obtuse angles whose nodes are all linked to the boundary, every choice of boundary nodes and values, every forcing term of one sign given as a function or by samples", "why_tests_cant": "meshes, boundary values and forcing terms are unbounded in number; the sign of every entry of the stiffness matrix is involved", "anchors": ["fdaPDE/pde/pde.h: PDE::solve", "fdaPDE/finite_elements/fem_assembler.h: Assembler::discretize_operator, Assembler::discretize_forcing", "fdaPDE/finite_elements/solvers/fem_linear_elliptic_solver.h: FEMLinearEllipticSolver::solve"]}
{"id": "C173", "title": "B-splines of order r contain the polynomials of degree r", "statement": "For every polynomial of degree at most r there are coefficients for which the expansion over a SplineBasis of order r equals it on the whole domain: coefficient i combines the average products of the knots strictly inside the support of function i. When no basis function lives on a point no other coefficients do.", "quantifier": "every sorted list of knots, repeated or not, every order, every polynomial, every point of the domain", "why_tests_cant": "it is an identity between functions for every order and every list of knots", "anchors": ["fdaPDE/splines/basis/spline_basis.h:operator()", "fdaPDE/splines/basis/spline.h:operator()"]}
{"id": "C174", "title": "A spline stays between its coefficients", "statement": "Between two consecutive knots the value of an expansion over a SplineBasis of order r lies between the smallest and the largest of the r + 1 coefficients of the functions alive there; on the whole domain it lies between the smallest and the largest coefficient.", "quantifier": "every list of knots, every order, every vector of coefficients, every point of the domain", "why_tests_cant": "it speaks about every order, list of knots and vector of coefficients", "anchors": ["fdaPDE/splines/basis/spline_basis.h:operator()", "fdaPDE/splines/basis/spline.h:operator()"]}
{"id": "C175", "title": "Smoothness of splines at the knots", "statement": "At a point of the open domain where m knots coincide (m = 0 away from the knots) every basis function of order r has continuous derivatives up to order r - m, and each function returned by derive<K>() up to that order is the derivative of the one before.", "quantifier": "every list of knots with any multiplicities, every order, every basis function, every point of the open domain", "why_tests_cant": "the one-sided limits at each knot of functions defined piece by piece have to agree; tests sample finitely many points", "anchors": ["fdaPDE/splines/basis/spline.h:operator()", "fdaPDE/splines/basis/spline.h:derive"]}
{"id": "C176", "title": "Filtered mesh iterators walk both ways", "statement": "From begin or end, after any sequence of ++ and -- that stays between one place before the first kept item and the end, an iterator over the edges, boundary edges, boundary nodes or faces of a mesh refers to the kept item at its position, and equals the end iterator exactly at the end.", "quantifier": "all meshes, filters and sequences of moves", "why_tests_cant": "walks and filters unbounded", "anchors": ["fdaPDE/geometry/triangulation.h:edge_iterator, boundary_node_iterator, Triangulation<3,3>::iterator"]}
{"id": "C177", "title": "All the faces of a tetrahedral mesh can be iterated", "statement": "A face iterator built without a filter can be advanced over all the faces of the mesh.", "quantifier": "all tetrahedral meshes", "why_tests_cant": "the defect needs a mesh with more faces than the packs of a bit vector over its edges", "anchors": ["fdaPDE/geometry/triangulation.h:face_iterator, Triangulation<3,3>::iterator", "fdaPDE/linear_algebra/binary_matrix.h:Ones"]}
{"id": "C178", "title": "The boundary of a simplex is visited facet by facet", "statement": "Looping from boundary_begin() to boundary_end() on a simplex of order d visits its d + 1 facets, each once: the i-th has the vertices of the simplex in their order without vertex d - i. The points of the facets visited are exactly the points on the boundary of the simplex.", "quantifier": "all simplices, dimensions and points", "why_tests_cant": "orders and coordinates unbounded", "anchors": ["fdaPDE/geometry/simplex.h:boundary_iterator, boundary_begin, boundary_end"]}
{"id": "C179", "title": "A first-order field stays between its nodal values", "statement": "Evaluated at a point of the cell it is located in, a field of first order lies between the smallest and the largest coefficient of that cell: the row of the evaluation matrix is non-negative and adds up to one.", "quantifier": "all meshes, points, coefficient vectors", "why_tests_cant": "coordinates and coefficients unbounded", "anchors": ["fdaPDE/finite_elements/basis/lagrangian_basis.h:pointwise_evaluation"]}
{"id": "C180", "title": "Evaluation of nodal values is accurate to second order", "statement": "If the nodal values of a function with a K-Lipschitz gradient are evaluated at a point of a cell of diameter at most h, the result differs from the value of the function by at most K h^2 / 2.", "quantifier": "all meshes, points and functions", "why_tests_cant": "functions and meshes unbounded", "anchors": ["fdaPDE/finite_elements/basis/lagrangian_basis.h:pointwise_evaluation"]}
{"id": "C181", "title": "Monotone coefficients give monotone splines", "statement": "If the coefficients of an expansion over a SplineBasis never decrease, its value never decreases over the domain; if they never increase, nor does the value.", "quantifier": "all lists of knots with any multiplicities, orders, monotone coefficient vectors, pairs of points", "why_tests_cant": "coefficients, knots and points unbounded; at repeated knots the spline may jump", "anchors": ["fdaPDE/splines/basis/spline_basis.h:operator()", "fdaPDE/splines/basis/spline.h:operator()"]}
{"id": "C182", "title": "Convex coefficients give convex splines", "statement": "If the slopes of the control polygon (coefficients over the averages of the knots inside the supports) never decrease, the expansion over a SplineBasis of order at least one is a convex function on the domain.", "quantifier": "all lists of knots where the spline is continuous, orders, coefficient vectors, pairs of points", "why_tests_cant": "coefficients, knots and points unbounded", "anchors": ["fdaPDE/splines/basis/spline_basis.h:operator()", "fdaPDE/splines/basis/spline.h:operator()"]}
{"id": "C183", "title": "Gradient descent reaches its tolerance", "statement": "On an objective bounded below whose gradient is L-Lipschitz, GradientDescent with a fixed step below 2 / L, or with the backtracking line search, returns a point whose gradient norm is at most the tolerance as soon as the maximum number of iterations is at least the initial gap divided by the guaranteed decrease per iteration (h (1 - L h / 2) tol^2 for a fixed step h, gamma min(alpha, 2 beta (1 - gamma) / L) tol^2 with backtracking).", "quantifier": "all smooth objectives bounded below, dimensions, starting points, steps, tolerances", "why_tests_cant": "objectives and numbers of iterations unbounded", "anchors": ["fdaPDE/optimization/gradient_descent.h:optimize", "fdaPDE/optimization/callbacks/backtracking_line_search.h:pre_update_step"]}
{"id": "C184", "title": "Gradient descent converges geometrically", "statement": "If moreover the squared gradient is at least 2 mu times the gap to the infimum (as for strongly convex objectives), the gap of the value returned is at most the initial gap times (1 - 2 mu c)^n after n iterations, with c the guaranteed decrease per squared gradient norm.", "quantifier": "all such objectives, dimensions, starting points and numbers of iterations", "why_tests_cant": "objectives and numbers of iterations unbounded", "anchors": ["fdaPDE/optimization/gradient_descent.h:optimize", "fdaPDE/optimization/callbacks/backtracking_line_search.h:pre_update_step"]}
{"id": "C185", "title": "Kronecker products behave as matrices", "statement": "The Kronecker product of transposes is the transpose of the product, the product is associative, the product of inverses is the inverse of the product, and the product of symmetric positive (semi)definite matrices is symmetric positive (semi)definite, for dense and for sparse operands.", "quantifier": "all conforming dense operands; all square sparse operands with row indices in range", "why_tests_cant": "sizes and entries unbounded", "anchors": ["fdaPDE/linear_algebra/kronecker_product.h:Kronecker"]}
{"id": "C186", "title": "The lumped mass matrix of first order spaces", "statement": "Lumping the mass matrix of a first order space on a mesh of M-dimensional cells yields a diagonal matrix whose entry for a node is the measure of the cells around the node divided by M + 1 (to the rounding of the quadrature tables), hence positive for every node of a cell, and whose entries add up to the measure of the mesh. For second order triangles the entry of a vertex is rounding error only.", "quantifier": "all meshes of nondegenerate cells of any kind", "why_tests_cant": "meshes unbounded", "anchors": ["fdaPDE/linear_algebra/lumping.h:lump", "fdaPDE/finite_elements/fem_assembler.h:discretize_operator"]}
{"id": "C187", "title": "Type-erased objects which share their content", "statement": "Wrappers with shared_storage behave as references: copies refer to the same object and every one of them sees the calls made through the others; the object is destroyed exactly when the last wrapper which refers to it is gone, and nothing is left allocated once all wrappers are gone. Calls reach the method of the type of the object.", "quantifier": "all histories of construction, copy, move, assignment, destruction, test and call on any number of wrappers", "why_tests_cant": "histories unbounded", "anchors": ["fdaPDE/utils/type_erasure.h:shared_storage", "fdaPDE/utils/type_erasure.h:erase", "fdaPDE/utils/type_erasure.h:vtable_handler"]}
{"id": "C188", "title": "Type-erased views of the caller's objects", "statement": "Wrappers with non_owning_storage behave as pointers to objects of the caller: calls act on the caller's object, the caller's changes are seen through the wrapper, copies and moved-from wrappers refer to the same object, and no operation on wrappers ends the life of an object. A wrapper does not keep its object alive: a call after the object is gone is undefined.", "quantifier": "all histories of operations on wrappers and objects", "why_tests_cant": "histories unbounded", "anchors": ["fdaPDE/utils/type_erasure.h:non_owning_storage", "fdaPDE/utils/type_erasure.h:erase", "fdaPDE/utils/type_erasure.h:vtable_handler"]}
{"id": "C189", "title": "Fields with analytic derivatives return them", "statement": "A DifferentiableScalarField evaluates as the function it was given and its derive() evaluates, component by component, as the functions it was given; a TwiceDifferentiableScalarField moreover returns the given Hessian, read row by row. Setting the step of the numerical derivatives changes neither. Lists whose length does not fit the dimension are refused. Gradient descent on such a field works with the supplied gradient.", "quantifier": "all dimensions, functions, lists and points", "why_tests_cant": "functions, lists and points unbounded", "anchors": ["fdaPDE/fields/differentiable_field.h:DifferentiableScalarField", "fdaPDE/fields/differentiable_field.h:TwiceDifferentiableScalarField", "fdaPDE/fields/vector_field.h:VectorField", "fdaPDE/fields/matrix_field.h:MatrixField"]}
{"id": "C190", "title": "Gradient descent with numerical derivatives", "statement": "On a ScalarField without analytic gradient, whose derivatives are centred differences of step h (1e-3 unless set_step is called), GradientDescent with a small enough fixed step returns a point whose true gradient norm is at most the tolerance plus sqrt(N) K h^2 / 6, with K a bound of the third derivatives along the axes, as soon as the maximum number of iterations reaches a bound known in advance. Without such a bound on the third derivatives the run can stop at once anywhere (a sine of period 2 h).", "quantifier": "all smooth objectives bounded below with bounded third derivatives, dimensions, starting points, steps, tolerances", "why_tests_cant": "objectives and numbers of iterations unbounded", "anchors": ["fdaPDE/optimization/gradient_descent.h:optimize", "fdaPDE/fields/scalar_expressions.h:derive", "fdaPDE/fields/field_derivatives.h:ScalarExprGradient"]}
{"id": "C191", "title": "Integrals over a mesh in double precision", "statement": "In double precision, integrating tabulated values over a mesh of n_cells cells with n quadrature nodes differs from the exact sum, when the result is finite, by at most ((1+u)^(n_cells+n+2) - 1) times the integral of the absolute values plus a multiple of the smallest subnormal, u = 2^-53. The computed integral is monotone in the values and is not negative for nonnegative values, weights and measures.", "quantifier": "all numbers of cells and nodes, all doubles as values, weights and measures", "why_tests_cant": "every rounding of every operation matters; sizes unbounded", "anchors": ["fdaPDE/utils/integration/integrator.h:integrate_cell", "fdaPDE/utils/integration/integrator.h:integrate"]}
{"id": "C192", "title": "Row sums in double precision", "statement": "Whatever the order in which the entries of a row are added, with or without additional zeros, a finite computed row sum, as used to lump a matrix, differs from the exact one by at most ((1+u)^(number of additions) - 1) times the sum of the absolute values; with nonnegative entries it is at least as large as every one of them, hence not zero unless all are.", "quantifier": "all rows, orders of summation", "why_tests_cant": "Eigen chooses the order of summation by vector width and alignment", "anchors": ["fdaPDE/linear_algebra/lumping.h:lump"]}
{"id": "C193", "title": "Backtracking stops in double precision", "statement": "Run in doubles, the backtracking line search returns after finitely many evaluations, with a step which passes the decrease test as computed, whatever the objective, the point, the direction and the parameters.", "quantifier": "all objectives, points, directions, initial steps, factors of at most one", "why_tests_cant": "objectives arbitrary; roundings decide whether the loop ends", "anchors": ["fdaPDE/optimization/callbacks/backtracking_line_search.h:pre_update_step"]}
{"id": "C194", "title": "The Wolfe line search stops in double precision", "statement": "Run in doubles on a smooth objective bounded below along a descent direction, the Wolfe line search returns, with a step which passes both of its tests as computed.", "quantifier": "all smooth objectives bounded below, points and descent directions", "why_tests_cant": "objectives arbitrary; roundings decide whether the loop ends", "anchors": ["fdaPDE/optimization/callbacks/wolfe_line_search.h:pre_update_step"]}
{"id": "C195", "title": "Spline values in double precision", "statement": "In double precision, on knots of magnitude at most 2^500 whose distinct values are at least 2^-500 apart, every basis function of order r up to 200 evaluated inside the knot span gives a finite, nonnegative double, off from the exact value e by at most ((1+u)^(7r) - 1) e + 16^r eta, with u = 2^-53 and eta half of the smallest subnormal; it is exactly zero outside of its support, and the values of the basis add up to 1 up to the same error. Knots closer than that can give values which are not finite.", "quantifier": "all orders up to 200, all such knot vectors, repeated knots included, all points of the span", "why_tests_cant": "every rounding of a recursion of depth r matters; cancellation must be excluded for all knots", "anchors": ["fdaPDE/splines/basis/spline.h:operator()", "fdaPDE/splines/basis/spline_basis.h:SplineBasis"]}
{"id": "C196", "title": "Spline expansions in double precision", "statement": "In double precision a finite value of an expansion with n coefficients c differs from the exact value by at most ((1+u)^(7r+n+1) - 1) times the sum of |c_i| N_i(x), plus a multiple of the smallest subnormal. A vector of coefficients of the wrong length is refused.", "quantifier": "all orders up to 200, knot vectors as above, all coefficients, all points of the span", "why_tests_cant": "every rounding matters; sizes unbounded", "anchors": ["fdaPDE/splines/basis/spline_basis.h:operator()"]}
{"id": "C197", "title": "Numerical gradients in double precision", "statement": "In double precision, if the values of a field are computed within e of a function with first and third derivatives bounded by L and M around x, a finite component of derive() differs from the derivative by at most (1+u)^2 (M h^2/6 + e/h + 2 u L (|x|+h)/h), plus rounding errors relative to the derivative itself. Where the coordinate exceeds 2^56 h the component is zero, whatever the field.", "quantifier": "all fields, points, axes and steps with finite results", "why_tests_cant": "rounding depends on every bit of the inputs; the function ranges over all smooth functions", "anchors": ["fdaPDE/fields/field_derivatives.h:FieldPartialDerivative<N,1,OP>", "fdaPDE/fields/scalar_expressions.h:derive"]}
{"id": "C198", "title": "The numerical Hessian is symmetric in double precision", "statement": "In double precision derive_twice() gives a symmetric matrix at every point.", "quantifier": "all fields, points and steps with finite results", "why_tests_cant": "depends on the order of the roundings", "anchors": ["fdaPDE/fields/field_derivatives.h:FieldPartialDerivative<N,2,OP>"]}
{"id": "C199", "title": "Numerical second derivatives in double precision", "statement": "In double precision, if the values of a field are bounded by V and computed within e of a function with first and sixth derivatives bounded by L and M around x, and h is at least 2^-500, a finite diagonal entry of derive_twice() differs from the second derivative by at most (1+4u) (M h^4/54 + 64 (e + L d + ((1+u)^4-1) V)/(12 h^2)) with d = ((1+u)^5-1) (|x|+2h), plus rounding errors relative to the derivative itself. A mixed entry is within (1+3u) ((M1+M2) h^2/6 + (e + 3 u L (|x_i|+|x_j|+2h) + ((1+u)^3-1) V)/h^2), with M1 and M2 bounding the derivatives of orders (1, 3) and (3, 1) and L the slopes, plus rounding errors relative to the derivative itself.", "quantifier": "all fields, points, axes and steps with finite results", "why_tests_cant": "rounding depends on every bit of the inputs; the function ranges over all smooth functions", "anchors": ["fdaPDE/fields/field_derivatives.h:FieldPartialDerivative<N,2,OP>"]}
{"id": "C200", "title": "Points of a triangle are recognised in double precision", "statement": "In double precision contains() does not answer OUTSIDE for a point of a triangle, answers OUTSIDE for a point clearly outside, and reports INSIDE, ON_FACE or ON_VERTEX rightly; barycentric_coords() is accurate to a few units in the last place times the distortion of the triangle.", "quantifier": "all triangles of the plane with edges up to 2^200 and area at least 2^-401, all points", "why_tests_cant": "rounding depends on every bit of the coordinates; shapes are unbounded", "anchors": ["fdaPDE/geometry/simplex.h:barycentric_coords, contains, initialize", "fdaPDE/utils/symbols.h:machine_epsilon"]}
{"id": "C201", "title": "An optimizer can be reused and copied", "statement": "A call of optimize() on a GradientDescent, Newton or BFGS object reports what a newly made object with the same parameters and callbacks would report, whatever was done with the object before; a copied or assigned optimizer behaves as its source and reports the same optimum() and value().", "quantifier": "all sequences of constructions, copies, assignments and calls, all objectives and starting points, all callbacks that read only members set by the current call", "why_tests_cant": "histories are unbounded; members left uninitialised may hold anything", "anchors": ["fdaPDE/optimization/gradient_descent.h:copy constructor, operator=, optimize", "fdaPDE/optimization/newton.h", "fdaPDE/optimization/bfgs.h"]}
{"id": "C202", "title": "Optimizers stop only at convergence, in double precision", "statement": "Run in doubles, GradientDescent and Newton return either after max_iter iterations or at a point where the norm of the gradient, as computed, does not exceed the tolerance; value() is the objective at optimum().", "quantifier": "all objectives, gradients, directions, steps, tolerances, starting points and numbers of iterations", "why_tests_cant": "overflow and NaN depend on the values along the whole run; objectives and iterations unbounded", "anchors": ["fdaPDE/optimization/gradient_descent.h:optimize", "fdaPDE/optimization/newton.h:optimize"]}
{"id": "C203", "title": "Grid search finds the minimum in double precision", "statement": "In doubles Grid returns the first row of the grid with the smallest value among the rows where the objective is a number.", "quantifier": "all grids and objectives, infinities and NaN included", "why_tests_cant": "NaN compares false with everything; grids unbounded", "anchors": ["fdaPDE/optimization/grid.h:optimize"]}
{"id": "C204", "title": "Binary matrices with machine integers", "statement": "What is promised of binary matrices (C01 to C07) holds for the ints and doubles the code computes with: no index, size or offset overflows or is rounded to a wrong value, for all matrices whose dimensions are ints.", "quantifier": "all dimensions, expressions, histories of calls", "why_tests_cant": "sizes near the limits of int need gigabytes; the rounding of an offset shows for few pairs of numbers", "anchors": ["fdaPDE/linear_algebra/binary_matrix.h:BinaryMatrix", "fdaPDE/linear_algebra/binary_matrix.h:BinMtxBlock::bitpack", "fdaPDE/linear_algebra/binary_matrix.h:linear_bit_visit"]}
{"id": "C205", "title": "Newton converges quadratically", "statement": "Started in a ball around a stationary point on which the Hessian is K-Lipschitz with inverse bounded by 1 / mu, the ball having radius at most 2 mu / K, Newton with unit step satisfies K dist_n / (2 mu) <= (K dist_0 / (2 mu))^(2^n) after n iterations, and returns a point with gradient norm at most the tolerance as soon as the maximum number of iterations makes the bound small enough.", "quantifier": "all objectives, dimensions, starting points, tolerances and numbers of iterations", "why_tests_cant": "objectives and iterations unbounded; a test sees a few iterates of one function", "anchors": ["fdaPDE/optimization/newton.h:optimize"]}
{"id": "C206", "title": "Gradient descent with the Wolfe search reaches its tolerance", "statement": "On an objective bounded below whose gradient is L-Lipschitz, GradientDescent with the Wolfe line search (0 < c1 < c2 < 1) returns a point whose gradient norm is at most the tolerance as soon as the maximum number of iterations is the initial gap divided by c1 (1 - c2) / L tol^2; if the squared gradient is at least 2 mu times the gap, the gap shrinks by the factor 1 - 2 mu c1 (1 - c2) / L per iteration. Every one of the line searches returns.", "quantifier": "all smooth objectives bounded below, dimensions, starting points, initial steps, tolerances", "why_tests_cant": "objectives, iterations and bisections unbounded", "anchors": ["fdaPDE/optimization/gradient_descent.h:optimize", "fdaPDE/optimization/callbacks/wolfe_line_search.h:pre_update_step"]}
{"id": "C207", "title": "BFGS with the Wolfe search reaches its tolerance", "statement": "On an objective bounded below whose gradient is L-Lipschitz and mu-strongly monotone (a strongly convex objective), BFGS with the Wolfe line search (0 < c1 < c2 < 1) never returns a larger value than at the starting point, and returns a point with gradient norm at most the tolerance as soon as the maximum number of iterations exceeds the initial gap divided by c1 (1 - c2) / L mu exp(1 - L^2 / mu) tol^2, whatever the dimension.", "quantifier": "all strongly convex smooth objectives, dimensions, starting points, initial steps, tolerances", "why_tests_cant": "objectives, iterations and the history of the matrix unbounded", "anchors": ["fdaPDE/optimization/bfgs.h:optimize", "fdaPDE/optimization/callbacks/wolfe_line_search.h:pre_update_step"]}
{"id": "C208", "title": "Newton with the Wolfe search converges from every starting point", "statement": "On an objective bounded below whose gradient is L-Lipschitz and whose Hessian has eigenvalues between mu > 0 and L, Newton with the Wolfe line search (0 < c1 < c2 < 1) never returns a larger value than at the starting point, and returns a point with gradient norm at most the tolerance as soon as the maximum number of iterations is the initial gap divided by c1 (1 - c2) / L (mu / L)^2 tol^2.", "quantifier": "all such objectives, dimensions, starting points, initial steps, tolerances", "why_tests_cant": "objectives, iterations and bisections unbounded", "anchors": ["fdaPDE/optimization/newton.h:optimize", "fdaPDE/optimization/callbacks/wolfe_line_search.h:pre_update_step"]}
{"id": "C209", "title": "Linear finite elements on segments converge with order two", "statement": "For - u'' = f on a mesh of segments of length at most h, with the boundary values of u, solve() returns values whose distance from u at a node x is at most (K h^2 / 5 + rounding of the quadrature tables) (x - a) (b - x) / 2, where K is a Lipschitz constant of f'; and the field evaluated at any point of the mesh is within that plus max |f| h^2 / 2 of u. For the sine on m equal segments of [0, 1] the error is at most 1 / (40 m^2) + 1e-14.", "quantifier": "all meshes of segments (numbering and lengths arbitrary), right-hand sides with a Lipschitz derivative, boundary sets, evaluation points", "why_tests_cant": "meshes and functions unbounded: a test measures the error on a few meshes", "anchors": ["fdaPDE/finite_elements/solvers/fem_linear_elliptic_solver.h:solve", "fdaPDE/finite_elements/fem_assembler.h:discretize_operator, discretize_forcing", "fdaPDE/finite_elements/basis/lagrangian_basis.h:pointwise_evaluation"]}
{"id": "C210", "title": "BFGS with the backtracking search reaches its tolerance", "statement": "On an objective bounded below whose gradient is L-Lipschitz and mu-strongly monotone (a strongly convex objective), BFGS with the backtracking line search (initial step alpha, 0 < beta < 1, 0 < gamma < 1) never returns a larger value than at the starting point, and returns a point with gradient norm at most the tolerance as soon as the maximum number of iterations exceeds the initial gap divided by gamma min(alpha / 2, 2 beta (1 - gamma) / L) mu exp(1 - L^2 / mu) tol^2, whatever the dimension.", "quantifier": "all strongly convex smooth objectives, dimensions, starting points, initial steps, tolerances", "why_tests_cant": "objectives, iterations and the history of the matrix unbounded", "anchors": ["fdaPDE/optimization/bfgs.h:optimize", "fdaPDE/optimization/callbacks/backtracking_line_search.h:pre_update_step"]}
{"id": "C211", "title": "Newton with the backtracking search converges from every starting point", "statement": "On an objective bounded below whose gradient is L-Lipschitz and whose Hessian has eigenvalues between mu > 0 and L, Newton with the backtracking line search (initial step alpha, 0 < beta < 1, 0 < gamma < 1) never returns a larger value than at the starting point, and returns a point with gradient norm at most the tolerance as soon as the maximum number of iterations is the initial gap divided by gamma min(alpha, 2 beta (1 - gamma) mu / L) mu / L^2 tol^2.", "quantifier": "all such objectives, dimensions, starting points, initial steps, tolerances", "why_tests_cant": "objectives, iterations and reductions of the step unbounded", "anchors": ["fdaPDE/optimization/newton.h:optimize", "fdaPDE/optimization/callbacks/backtracking_line_search.h:pre_update_step"]}
{"id": "C212", "title": "The heat equation on segments: order two in space, one in time", "statement": "For u_t - u_xx = f on a mesh of segments of length at most h, with the boundary values of u and f sampled at the quadrature nodes, solve() returns at every time t of a uniform grid of step dt a field whose distance from u in the discrete L2 norm is at most the distance at the initial time plus (t - t0) 2 sqrt(length) (K h^2 / 5 + B h^2 / 7 + 3/5 D dt + rounding of the quadrature tables), where K is a Lipschitz constant of u_xxx, B bounds u_txx and D bounds u_tt. For exp(-t) sin x on m equal segments and k steps up to time 1, the error is at most 7 / (10 m^2) + 6 / (5 k) + 1e-13.", "quantifier": "all meshes of segments (numbering and lengths arbitrary), smooth solutions, boundary sets, initial conditions, uniform time grids of any length", "why_tests_cant": "meshes, functions and numbers of time steps unbounded: a test measures the error of a few", "anchors": ["fdaPDE/pde/pde.h:pde::init, pde::solve", "fdaPDE/finite_elements/solvers/fem_linear_parabolic_solver.h:solve", "fdaPDE/finite_elements/fem_assembler.h:discretize_operator, discretize_forcing"]}
{"id": "C213", "title": "Linear elements converge at first order in the energy norm on segments, triangles and tetrahedra", "statement": "For - laplacian u + c u = f with c > 0 on a conforming mesh in dimension 1, 2 or 3 whose faces are either shared by two cells or have all their nodes marked as boundary, with cells of size at most h and slopes of the barycentric coordinates at most sigma over the size of the cell, and the boundary values of u, init and solve return a field whose distance from u at the nodes, in the energy norm (gradient and c times value), squared, is at most (1 + 2e-15) |mesh| h^2 times an explicit constant of d, c, sigma, the bound and the Lipschitz constant of the second derivatives. For sin x sin y on the unit square divided into 2 m^2 triangles the square of the error is at most 945 / m^2.", "quantifier": "all conforming meshes of segments, triangles or tetrahedra (numbering, sizes and shapes arbitrary), smooth solutions, boundary sets", "why_tests_cant": "meshes and functions unbounded: a test measures the error of a few", "anchors": ["fdaPDE/pde/pde.h:pde::init, pde::solve", "fdaPDE/finite_elements/solvers/fem_linear_elliptic_solver.h:solve", "fdaPDE/finite_elements/fem_assembler.h:discretize_operator, discretize_forcing"]}
{"id": "C214", "title": "The Poisson problem is stable and converges in dimension 1, 2 and 3", "statement": "On a conforming mesh whose faces are shared by two cells or lie on the boundary, in a cube of side s, every finite element function of order 1 which vanishes at the boundary nodes has squared L2 norm at most 4 d (d+1)^3 sigma^2 s^2 times that of its gradient, whatever the number and size of the cells. So for - laplacian u = f, init and solve return a field bounded by f in L2 (zero boundary values, any f), and a field whose distance from a smooth solution u at the nodes is of first order in h, with an explicit constant, in the L2 norms of gradient and value. For sin x sin y on the unit square divided into 2 m^2 triangles the squared errors are at most 44845 / m^2 and 216 times that.", "quantifier": "all conforming meshes of segments, triangles or tetrahedra, functions vanishing at the boundary, right-hand sides, smooth solutions", "why_tests_cant": "meshes and functions unbounded: a test measures the error of a few", "anchors": ["fdaPDE/pde/pde.h:pde::init, pde::solve", "fdaPDE/finite_elements/solvers/fem_linear_elliptic_solver.h:solve", "fdaPDE/finite_elements/fem_assembler.h:discretize_operator, discretize_forcing"]}
{"id": "C215", "title": "The heat equation in dimension 1, 2 and 3: convergence and decay of implicit Euler", "statement": "For u_t - laplacian u = f on a conforming mesh as in C214, with the boundary values of u and f sampled at the quadrature nodes, init and solve return at every time of a uniform grid a field whose squared L2 distance from u at the nodes, plus the energy the error has dissipated, is at most the initial one plus 2 (t - t0) C, where C is of order h^2 + dt^2 with explicit constants; and it is at most the initial one divided by (1 + dt / theta)^i plus 2 theta C after i steps, so the bound does not grow with time and the initial error is forgotten (theta the constant of C214). Without source and with zero boundary values the squared L2 norm is divided by at least 1 + dt / theta in each step, whatever the mesh. For exp(-2t) sin x sin y on the unit square divided into 2 m^2 triangles and k steps up to time 1 the squared error is at most 171200 / m^2 + 3460 / k^2.", "quantifier": "all conforming meshes of segments, triangles or tetrahedra, smooth solutions, boundary sets, initial conditions, uniform time grids of any length", "why_tests_cant": "meshes, functions and numbers of time steps unbounded: a test measures the error of a few", "anchors": ["fdaPDE/pde/pde.h:pde::init, pde::solve", "fdaPDE/finite_elements/solvers/fem_linear_parabolic_solver.h:solve", "fdaPDE/finite_elements/fem_assembler.h:discretize_operator, discretize_forcing"]}
{"id": "C216", "title": "The clockwise comparator in double precision", "statement": "clockwise_order, given the mean of a list of points of double coordinates as the centre, is a strict weak ordering on the list, as std::sort requires. For arbitrary doubles (infinities and NaN included) it is irreflexive and asymmetric. When the coordinates of the points and of the centre are integer multiples, below 2^25 in absolute value, of one power of two, it decides as exact arithmetic does and is a strict weak ordering.", "quantifier": "all centres, all lists of points of double coordinates", "why_tests_cant": "the triples of doubles cannot be enumerated and the violations come from the rounding of particular coordinates", "anchors": ["fdaPDE/geometry/utils.h:clockwise_order", "fdaPDE/geometry/voronoi.h:Voronoi"]}
{"id": "C217", "title": "Factorials and binomial coefficients with machine integers", "statement": "ct_factorial, ct_binomial_coefficient, ct_nnodes and ct_nedges return the factorial, the binomial coefficient, the number of nodes of a Lagrangian element and the number of edges of a simplex whenever that number fits an int. (True for factorials and edges; binomial coefficients and node counts are right exactly when the argument whose factorial is formed is at most 12, whatever the value.)", "quantifier": "all ints", "why_tests_cant": "the arguments are not bounded and the intermediate products overflow long before the result does", "anchors": ["fdaPDE/utils/combinatorics.h:ct_factorial, ct_binomial_coefficient, combinations", "fdaPDE/geometry/utils.h:ct_nnodes, ct_nedges"]}
{"id": "C218", "title": "Point location through the tree in double precision", "statement": "In double precision TreeSearch finds every cell which has a point: locate() returns a cell whose own test accepts the point, and -1 only if no cell whose bounding box has the point accepts it; all_locate() lists, once each, only cells which accept the point, and all of those whose bounding box has it. (True for meshes which are not flat along any axis. On a mesh flat along axis d, as a planar surface mesh at constant height, the scaling is 0 times infinity and only 2^(d+1) - 1 cells can ever be found.)", "quantifier": "all meshes with node coordinates up to 2^500 in absolute value and extent at least 2^-500, all points other than NaN, all behaviours of nth_element, all iteration orders of the candidates", "why_tests_cant": "the scaling rounds; the tree and the mesh are unbounded; NaN arises only on some meshes", "anchors": ["fdaPDE/geometry/tree_search.h:TreeSearch", "fdaPDE/geometry/kd_tree.h:KDTree", "fdaPDE/geometry/kd_tree.h:range_search", "fdaPDE/geometry/simplex.h:bounding_box"]}
{"id": "C219", "title": "Membership in a segment of a network or in a triangle of a surface in double precision", "statement": "In double precision contains() accepts every point of a cell whose dimension is smaller than that of the space, in particular the cell's own nodes, and reports its position (vertex or interior); it rejects the points away from the line or plane of the cell. (True for points of a segment of the plane at distance at most 1 from its first node and with coordinates at most 3; the first node is always accepted; points at distance 2^-46 W from the line, W a bound of the sizes, are always rejected. The tolerance on the distance does not scale with the cell, so larger cells reject their own nodes.)", "quantifier": "all segments of the plane and points whose coordinate differences are zero or between 2^-100 and 2^100", "why_tests_cant": "the rounding errors of the distance depend on every coordinate and are compared with an absolute tolerance", "anchors": ["fdaPDE/geometry/simplex.h:Simplex::contains", "fdaPDE/geometry/hyperplane.h:HyperPlane, project, distance", "fdaPDE/utils/symbols.h:machine_epsilon"]}
{"id": "C220", "title": "An interval divided into equal cells in double precision", "statement": "The mesh built from bounds a < b and a number n of cells has n + 1 nodes in double precision: the first is a, the last is b, they increase strictly, each is within 8 units of relative roundoff of its exact place, and every point of [a, b) is located in a cell which has it. (True when the cells are longer than 16 roundoffs of the larger bound; any interval with a bound 0 qualifies, whatever the number of cells. Otherwise cells of length zero arise.)", "quantifier": "all pairs of doubles up to 2^900, all numbers of cells below 2^31, all points", "why_tests_cant": "the roundings differ in every node and the bounds and the number of cells are not bounded", "anchors": ["fdaPDE/geometry/interval.h:Triangulation(double a, double b, int n), locate"]}
{"id": "C221", "title": "The measure of a cell in double precision", "statement": "In double precision the measure of a cell is finite and never negative, it is positive unless the cell is flat, and it agrees with the exact measure of the cell up to rounding. (True up to cancellation: the error is at most 10 roundoffs (1.1e-16 each) times the sum of the absolute values of the terms of the determinant over d!, so the relative error is 10 roundoffs times the ratio kappa of that sum to the determinant, and the measure is positive when kappa is below 9e14. The length of a segment of the plane is within 4 roundoffs, always. A triangle flatter than that may be given the measure zero.)", "quantifier": "all cells of the line, the plane and the space, and segments of the plane, whose edges have coordinates zero or between 2^-100 and 2^100", "why_tests_cant": "the rounding errors depend on every coordinate of every cell", "anchors": ["fdaPDE/geometry/simplex.h:Simplex::initialize, measure"]}
{"id": "C222", "title": "The local matrix of the Laplacian in double precision", "statement": "On a triangle of the plane, in double precision, the entry of the Laplacian for a pair of basis functions does not depend on the order of the pair, bit for bit; the entry of a function with itself is not positive; every entry is finite and differs from the exact value of the quadrature formula by at most (3 n + 60 kappa) roundoffs (1.1e-16 each) times the value formed with absolute values, n the number of quadrature nodes and kappa the distortion of the triangle; and the rows add up to zero up to these errors.", "quantifier": "all triangles of distortion up to 2^20 whose edges have coordinates zero or between 2^-100 and 2^100 (symmetry and sign: all triangles), all quadrature rules with at most 60 nodes and weights up to 1, all bases with reference gradients up to 1024", "why_tests_cant": "the rounding errors depend on every coordinate of every triangle", "anchors": ["fdaPDE/finite_elements/operators/laplacian.h:integrate", "fdaPDE/utils/integration/integrator.h:integrate_weak_form", "fdaPDE/fields/dot_product.h:DotProduct", "fdaPDE/geometry/simplex.h:Simplex::initialize, invJ, measure"]}
{"id": "C223", "title": "The pool and the queue are free of data races", "statement": "No execution of a ThreadPool in which several threads call send_async, sync and shutdown contains a data race, that is, two threads that can both take their next step and whose steps access the same unprotected memory, at least one writing it. The same holds for a ConcurrentQueue on which threads call push, emplace, pop, clear, size and empty ('can be queried by any thread'). (False: the test of kill_ after the lock is released races with shutdown(), the test of sync_ and the writes of the worker states race with sync(), and empty(), called by sync() or by the user without the lock, races with push and pop. The theorem lists all the racing pairs; without sync and shutdown, and without size and empty, there is none.)", "quantifier": "every number of workers and clients, every schedule of their statements, every state reached", "why_tests_cant": "a race shows up, if at all, in rare interleavings and as undefined behaviour", "anchors": ["fdaPDE/multithreading/ThreadPool.h: execute, send_async, sync, shutdown", "fdaPDE/multithreading/ConcurrentQueue.h: size, empty, push, pop, clear"]}
{"id": "C224", "title": "The future of send_async delivers the result of its call", "statement": "The future returned by send_async(f, args...) receives, once and for all, the value returned or the exception thrown by one call of f on copies of the arguments made when send_async was called, executed on the shared memory as it is when the task runs; exceptions do not stop the worker. Every future becomes ready once nothing is left to run. (True while the pool is not shut down. After shutdown() the tasks still in the queue are never run and their futures never become ready while the pool exists, so get() waits for ever; a task taken from the queue just before gets a broken promise.)", "quantifier": "every function, argument, number of workers and clients, schedule, and interference of other threads with memory and variables", "why_tests_cant": "depends on the interleaving of submission, execution and shutdown", "anchors": ["fdaPDE/multithreading/ThreadPool.h: send_async, execute, shutdown"]}
{"id": "C225", "title": "A thread pool can be destroyed when it has nothing left to do", "statement": "Destroying a ThreadPool whose tasks have all finished, while no thread is inside one of its operations, ends its threads and returns; after the destruction every future obtained from the pool is ready. (False unless shutdown() has returned before: the class has no destructor, so the threads are still joinable and the program is terminated, whatever the state of the pool. After shutdown() the destruction is harmless, the results of the tasks that ran stay available and every other future has a broken promise.)", "quantifier": "every number of workers and clients, every schedule before the destruction", "why_tests_cant": "the state in which the destructor finds the pool depends on the schedule", "anchors": ["fdaPDE/multithreading/ThreadPool.h: ThreadPool (implicit destructor), shutdown"]}
{"id": "C226", "title": "The assembled matrix of the Laplacian in double precision", "statement": "The matrix of the Laplacian assembled in double arithmetic over a triangulation of the plane is exactly symmetric; computing only its lower half, as the code does for symmetric operators, gives bit for bit the matrix that would have been computed in full; degrees of freedom without a common cell have a zero entry; the diagonal is never positive when the weights are not negative. Every entry is finite and equals the sum of the exact local integrals up to (3n + 60 kappa + 3m) units of rounding of the sum of the absolute terms, for n quadrature nodes, cells of conditioning at most kappa and m cells sharing the two degrees of freedom; the rows add up to zero up to the same errors.", "quantifier": "every mesh of up to a million cells around a pair of degrees of freedom, every numbering with distinct degrees of freedom in a cell, basis gradients and quadrature rule", "why_tests_cant": "rounding errors accumulate over the cells and differ for every mesh", "anchors": ["fdaPDE/finite_elements/fem_assembler.h: discretize_operator", "fdaPDE/utils/integration/integrator.h: integrate_weak_form", "fdaPDE/finite_elements/operators/laplacian.h"]}
{"id": "C227", "title": "The forcing vector in double precision", "statement": "The forcing vector assembled in double arithmetic over a mesh of segments, triangles or tetrahedra depends, entry by entry, only on the values of the forcing term in the cells that have the degree of freedom, and is zero where there is none; a zero forcing term gives a zero vector, one that is not negative gives no negative entry, and a larger one gives no smaller entry when weights and basis functions are not negative. Every entry is finite and equals the sum of the quadratures of the forcing term times the basis function over the exact cells up to (3n + 20 kappa + 3m + 3) units of rounding of the absolute terms, for n quadrature nodes, cells of conditioning at most kappa and m terms; the entries add up to the quadrature of the forcing term over the domain, up to the same errors, when the basis functions add up to one.", "quantifier": "every mesh whose degrees of freedom have up to a million terms, every numbering, basis, quadrature rule of up to 60 nodes and forcing term up to 2^300", "why_tests_cant": "rounding errors accumulate over nodes and cells and differ for every mesh and forcing term", "anchors": ["fdaPDE/finite_elements/fem_assembler.h: discretize_forcing", "fdaPDE/utils/integration/integrator.h: integrate", "fdaPDE/geometry/simplex.h: measure"]}
{"id": "C228", "title": "The mass matrix in double precision", "statement": "The matrix of a reaction term assembled in double arithmetic over a mesh of segments, triangles or tetrahedra is exactly symmetric for every coefficient, constant or varying in space; degrees of freedom without a common cell have a zero entry; for the mass matrix (coefficient 1) computing only the lower half gives bit for bit the matrix that would have been computed in full; the diagonal is not negative when weights and coefficient are not, and neither is any entry when the basis functions are not. Every entry is finite and equals the sum of the quadratures of the coefficient times the two basis functions over the exact cells up to (3n + 20 kappa + 3m) units of rounding of the absolute terms, for n quadrature nodes, cells of conditioning at most kappa and m terms; when the basis functions add up to one, each row adds up to the integral of the coefficient times the basis function, up to the same errors.", "quantifier": "every mesh with up to a million terms in an entry, every numbering, basis, quadrature rule of up to 60 nodes and coefficient up to 2^300", "why_tests_cant": "rounding errors accumulate over nodes and cells and differ for every mesh and coefficient", "anchors": ["fdaPDE/finite_elements/operators/reaction.h: Reaction::integrate", "fdaPDE/finite_elements/fem_assembler.h: discretize_operator", "fdaPDE/finite_elements/solvers/fem_solver_base.h: mass_", "fdaPDE/utils/integration/integrator.h: integrate_weak_form"]}
{"id": "C229", "title": "The matrix of the Laplacian on tetrahedra in double precision", "statement": "The matrix of the Laplacian assembled in double arithmetic over a mesh of tetrahedra is exactly symmetric; computing only its lower half gives bit for bit the matrix that would have been computed in full; degrees of freedom without a common cell have a zero entry; the local diagonal entries are never positive when the weights are not negative. Every entry is finite and equals the sum of the exact local integrals up to (3n + 90 kappa + 3m) units of rounding of the sum of the absolute terms, for n quadrature nodes, cells of conditioning at most kappa and m terms in the entry; the rows add up to zero up to the same errors. This holds for both orders in which the three products of the determinant may be added when the matrix of the edges is inverted.", "quantifier": "every mesh of tetrahedra whose edge coordinates are zero or between 2^-60 and 2^60, every numbering with distinct degrees of freedom in a cell, basis gradients and quadrature rule of up to 50 nodes", "why_tests_cant": "rounding errors in the cofactors, the determinant and the products accumulate and differ for every mesh", "anchors": ["fdaPDE/geometry/simplex.h: Simplex::invJ", "fdaPDE/finite_elements/operators/laplacian.h", "fdaPDE/utils/integration/integrator.h: integrate_weak_form", "fdaPDE/finite_elements/fem_assembler.h: discretize_operator"]}
{"id": "C230", "title": "The matrix of a general differential operator in double precision", "statement": "The matrix of any operator written with Laplacian, diffusion, advection, reaction, time derivative, sums, differences, negation and multiplication by numbers, assembled in double arithmetic over a mesh of triangles or tetrahedra, is finite in every entry and equals the sum over the cells of the quadratures of its weak form - minus grad psi_i . K grad psi_j for diffusion, psi_i (b . grad psi_j) for advection, c psi_i psi_j for reaction, with the coefficients taken at the nodes of that cell - up to (3n + 140 kappa + 3m) units of rounding of the absolute terms, for n quadrature nodes, cells of conditioning at most kappa and m terms in the entry, provided every diffusion tensor is symmetric when the operator is declared symmetric. Operators declared symmetric have exactly symmetric matrices, degrees of freedom without a common cell have a zero entry, and without a reaction term the rows add up to zero up to the same errors when the basis gradients do.", "quantifier": "every operator expression of up to ten nodes with coefficients up to 2^20, every mesh with up to a million terms in an entry, every numbering, basis and quadrature rule of up to 50 nodes", "why_tests_cant": "operators are composed at will by the user and rounding errors propagate through every composition", "anchors": ["fdaPDE/pde/differential_expressions.h", "fdaPDE/finite_elements/operators/diffusion.h: Diffusion::integrate", "fdaPDE/finite_elements/operators/advection.h: Advection::integrate", "fdaPDE/utils/integration/integrator.h: integrate_weak_form", "fdaPDE/finite_elements/fem_assembler.h: discretize_operator"]}
{"id": "C231", "title": "The time steps of the parabolic solver in double precision", "statement": "When the linear solver satisfies each row of the system it is given up to a relative error eps and an absolute error delta, the solution computed by the parabolic solver in double arithmetic satisfies M (u(i+1) - u(i)) / (t1 - t0) + A u(i+1) = f(i+1) in every row that is not constrained, at every time step, up to (2 eps + (3n + 9) u) times the sum of the absolute terms of that row, delta and underflow, where t1 - t0 is the exact length of the first time interval, n the number of degrees of freedom and u the unit of rounding. The first column is the initial condition exactly, and constrained degrees of freedom (those on the boundary, and the first one) hold the boundary values of that time up to eps and delta.", "quantifier": "every mass and stiffness matrix, forcing, boundary and initial data, linear solver, number of steps and up to 2^40 degrees of freedom, as long as the entries of the system are finite", "why_tests_cant": "rounding errors differ for every matrix, time step and state reached by earlier steps", "anchors": ["fdaPDE/finite_elements/solvers/fem_linear_parabolic_solver.h: FEMLinearParabolicSolver::solve", "fdaPDE/finite_elements/solvers/fem_solver_base.h: boundary_dofs_iterator"]}
{"id": "C232", "title": "The elliptic solver in double precision, end to end", "statement": "When the linear solver satisfies each row of the system it is given up to a relative error eps and an absolute error delta, the solution u computed by the elliptic solver in double arithmetic - assembly of operator and forcing term, boundary conditions, linear solver - satisfies the exact Galerkin equation sum_j a(psi_j, psi_i) u_j = F(psi_i) (integrals by the quadrature rule over the exact cells) for every degree of freedom i that is not constrained, up to 2 eps + (3n + 140 kappa + 3m) units of rounding of the absolute terms of the matrix, (3n + 20 kappa + 3k + 3) units of rounding of the absolute terms of the load, delta and underflow. With boundary data, the boundary values (and that of the first degree of freedom) are the given ones up to eps and delta.", "quantifier": "every operator expression of up to ten nodes with coefficients up to 2^20, every mesh of triangles or tetrahedra of conditioning at most kappa up to 2^20, numbering, basis, quadrature rule of up to 50 nodes, forcing values up to 2^300, boundary data and linear solver", "why_tests_cant": "it is a statement about every problem a user may pose, and about rounding errors of the whole computation", "anchors": ["fdaPDE/pde/pde.h: PDE::solve", "fdaPDE/finite_elements/solvers/fem_solver_base.h: init, set_dirichlet_bc", "fdaPDE/finite_elements/solvers/fem_linear_elliptic_solver.h: solve", "fdaPDE/finite_elements/fem_assembler.h"]}
{"id": "C233", "title": "The parabolic solver in double precision, end to end", "statement": "When the linear solver satisfies each row of the step matrix up to a relative error eps and an absolute error delta, the columns u(0), u(1), ... computed by the parabolic solver in double arithmetic - assembly of mass matrix, operator and forcing terms, boundary conditions, step matrix, right hand sides, linear solver - start at the initial condition and satisfy, at every step, the exact equations mass (u(i+1) - u(i)) / (t1 - t0) + a u(i+1) = F(i+1) (integrals by the quadrature rule over the exact cells) in every row that is not constrained, up to 4 eps + (6N + 3n + 140 kappa + 3m + 21) units of rounding of the absolute terms of the row, delta and underflow. Boundary values are the given ones up to eps and delta. No step overflows before the linear solver when the exact entries are at most 2^200, t1 - t0 at least 2^-100, and the previous column and the boundary data at most 2^100.", "quantifier": "every operator expression of up to ten nodes with coefficients up to 2^20, every mesh of triangles or tetrahedra of conditioning at most kappa up to 2^20, numbering, basis, quadrature rule of up to 50 nodes, forcing values up to 2^300, initial and boundary data, time step, number of steps and linear solver", "why_tests_cant": "it is a statement about every problem and every step, and about rounding errors of the whole computation", "anchors": ["fdaPDE/pde/pde.h: PDE::solve", "fdaPDE/finite_elements/solvers/fem_solver_base.h: init, set_dirichlet_bc", "fdaPDE/finite_elements/solvers/fem_linear_parabolic_solver.h: solve", "fdaPDE/finite_elements/fem_assembler.h"]}
{"id": "C234", "title": "Rounding errors of the parabolic solver do not amplify over time", "statement": "In the norm of the exact mass matrix, the columns computed by the parabolic solver in double arithmetic stay, after any number k of steps, within (t1 - t0) times the sum of the first k defects of the exact solution of the implicit Euler - Galerkin scheme with the same initial value and the boundary values of the computed columns: the defect of a step is the bound on its residual (assembly, step matrix, right hand side, linear solver) measured in the dual norm. The quadrature weights and the operator are not negative.", "quantifier": "every number of steps, operator expression of up to ten nodes, mesh of triangles or tetrahedra of conditioning at most kappa up to 2^20, numbering, basis, quadrature rule of up to 50 nodes with weights that are not negative, forcing values, initial and boundary data, time step and linear solver", "why_tests_cant": "accumulation of rounding errors over unboundedly many steps cannot be observed on a finite run", "anchors": ["fdaPDE/finite_elements/solvers/fem_linear_parabolic_solver.h: solve", "fdaPDE/finite_elements/solvers/fem_solver_base.h: init, set_dirichlet_bc", "fdaPDE/finite_elements/fem_assembler.h"]}
