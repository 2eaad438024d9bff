{"id": "C01", "title": "Dense matrix read-after-write", "statement": "After any history of creation, element writes, in-place transposes and row/column swaps on a dense matrix, reading position (r,c) returns the value last stored at that logical position; a read outside the current shape returns nothing; a write to one position never changes what another position reads; writes outside the shape are refused.", "quantifier": "every shape, every in-range and out-of-range position, every finite sequence of operations, any scalar values (no arithmetic laws are used, so NaN and rounding are covered)", "why_tests_cant": "The backing store is one flat buffer whose interpretation flips with every transpose; a test fixes a shape and a short history, whereas an aliasing slip shows up only for particular non-square shapes after particular histories.", "anchors": ["src/matrix/buffer.rs: LinearMatrix::{pos,get,get_mut,transpose,from_flat,zeros}", "src/matrix/mod.rs: MatrixLike::{put,swap_rows,swap_cols}"]}
{"id": "C02", "title": "Unchecked buffer accesses stay inside the buffer", "statement": "For every matrix that can be built through the public constructors (without arithmetic overflow of its size) and every index accepted by the bounds check, the offset handed to an unchecked slice access is smaller than the buffer length, for the dense, lower, upper, diagonal, compressed-row and both envelope layouts.", "quantifier": "every constructor argument, every operation history, every accepted index", "why_tests_cant": "An out-of-bounds unchecked access is undefined behaviour: a test that happens to read in-bounds memory or lucky garbage passes. Only a proof over all shapes excludes it.", "anchors": ["src/matrix/buffer.rs: unsafe get_unchecked in LinearMatrix, LowerTriangular, UpperTriangular, Diagonal", "src/matrix/sparse.rs: unsafe get_unchecked in CompressedRow, LowerRowEnvelope, BiEnvelope"]}
{"id": "C03", "title": "Size computations cannot wrap into undersized buffers", "statement": "Creating a dense matrix of any requested shape either fails or yields a buffer holding one cell per position, also when rows*columns exceeds the machine word (release builds wrap silently).", "quantifier": "every pair of 64-bit dimensions", "why_tests_cant": "The failing dimensions are astronomically rare among test inputs and the effect (unchecked access into an empty buffer) need not crash.", "anchors": ["src/matrix/buffer.rs: LinearMatrix::zeros, LinearMatrix::get", "src/matrix/sparse.rs: BiEnvelope::from_row_bounds"]}
{"id": "C04", "title": "Iteration order and equality are layout independent", "statement": "Iterating a matrix yields every position exactly once in row-major order, and two dense matrices compare equal exactly when they have the same shape and equal elements at every position, whatever their internal storage order; rows and columns obtained by iteration equal the individual reads.", "quantifier": "every pair of matrices of every shape and storage order", "why_tests_cant": "The number of shapes and of storage-order combinations is unbounded.", "anchors": ["src/matrix/mod.rs: MatrixAll, MatrixIndices, MatrixRow, MatrixCol", "src/matrix/buffer.rs: PartialEq for LinearMatrix"]}
{"id": "C05", "title": "Matrix product, sum and difference are the mathematical ones", "statement": "The product of two conforming matrices has at (i,j) the sum over k of a(i,k)*b(k,j); sums, differences and in-place additions are element-wise, scaling multiplies each element, also when the operands use different storage orders; non-conforming operands are refused.", "quantifier": "all conforming and non-conforming operand pairs, all storage orders", "why_tests_cant": "Requires agreement for all shapes and all values; a test samples a few small integer matrices.", "anchors": ["src/matrix/mod.rs: MatrixLike::mul, dot", "src/matrix/buffer.rs: Add, Sub, AddAssign, MulAssign for LinearMatrix"]}
{"id": "C06", "title": "Triangular substitution solves the triangular system", "statement": "Forward substitution on a lower-triangular matrix and back substitution on an upper-triangular matrix, both with non-zero diagonal, return the x for which the matrix times x equals the right-hand side (exact arithmetic).", "quantifier": "all sizes, all triangular matrices with non-zero diagonal, all right-hand sides, any field", "why_tests_cant": "Loops over unbounded n with partially filled vectors; a boundary error may cancel on test matrices with structure.", "anchors": ["src/matrix/buffer.rs: LowerTriangular::forward_sub, UpperTriangular::backward_sub"]}
{"id": "C07", "title": "Triangular inverses are inverses", "statement": "The inverse computed for a lower or an upper triangular matrix with non-zero diagonal multiplies with the original to the identity, on both sides.", "quantifier": "all sizes and all invertible triangular matrices over any field", "why_tests_cant": "Needs all n and all values.", "anchors": ["src/matrix/buffer.rs: LowerTriangular::tri_inv, UpperTriangular::tri_inv"]}
{"id": "C08", "title": "LU factors multiply back to the matrix", "statement": "If no pivot met during the decomposition is zero, the returned lower factor has unit diagonal, and lower times upper is the input matrix.", "quantifier": "all square matrices of every size over any field for which the pivots are non-zero", "why_tests_cant": "An induction over elimination steps; tests check a handful of fixed matrices.", "anchors": ["src/matrix/inverse.rs: Inverse::lu_decompose"]}
{"id": "C09", "title": "The computed determinant is the determinant", "statement": "Whenever the pivoting determinant routine reports success its value is the determinant of the matrix and is non-zero; when it reports a pivot failure the matrix is within 1e-100 (entry by entry) of a singular matrix; the two by two shortcut agrees with the determinant; non-square input is reported as a shape error.", "quantifier": "all square and non-square matrices of every size over an ordered field", "why_tests_cant": "Sign bookkeeping under row exchanges depends on the permutation, of which there are n!.", "anchors": ["src/matrix/inverse.rs: Inverse::{det_lu_pivot,determinant}"]}
{"id": "C10", "title": "The computed inverse is the inverse", "statement": "For 1x1 and 2x2 matrices with non-zero determinant, and for larger matrices whose elimination meets no zero pivot, the computed inverse multiplies with the matrix to the identity.", "quantifier": "all matrices of every size satisfying the stated pivot condition", "why_tests_cant": "Needs all sizes and values.", "anchors": ["src/matrix/inverse.rs: Inverse::{inverse,inv_lu}"]}
{"id": "C11", "title": "Every invertible matrix is inverted", "statement": "For every invertible square matrix the inverse routine returns its inverse.", "quantifier": "all invertible matrices", "why_tests_cant": "Tests use matrices that happen to need no row exchange.", "anchors": ["src/matrix/inverse.rs: Inverse::inverse"]}
{"id": "C12", "title": "Gaussian elimination returns a solution", "statement": "When dense Gaussian elimination meets no zero pivot, the returned vector solves the system; a right-hand side of the wrong length or a non-square matrix is refused.", "quantifier": "all systems of every size over an ordered field for which the selected pivots are non-zero", "why_tests_cant": "Elimination, row exchange and back substitution interact over all n.", "anchors": ["src/matrix/inverse.rs: Inverse::solve_gausselim", "src/matrix/solve/direct.rs: DenseGaussSolver"]}
{"id": "C13", "title": "Gaussian elimination solves every solvable stiffness system", "statement": "For every symmetric positive definite matrix (more generally every invertible matrix) the dense Gauss solver returns the solution, and a singular matrix is reported as an error.", "quantifier": "all invertible systems, all singular systems", "why_tests_cant": "Pivot selection by signed value only goes wrong for particular sign patterns that tests do not contain.", "anchors": ["src/matrix/inverse.rs: Inverse::solve_gausselim (pivot choice lines 38-45)"]}
{"id": "C14", "title": "Compressed rows agree with the dense matrix", "statement": "A compressed-row matrix built from a dense value list, or from labelled values in any order, reads back the same value at every position (zero where none was given), and its product with a vector or matrix is the mathematical product; a freshly created zero matrix reads zero everywhere.", "quantifier": "all shapes, all value lists, all orders of labelled values", "why_tests_cant": "Row-start bookkeeping differs for every pattern of empty rows.", "anchors": ["src/matrix/sparse.rs: CompressedRow::{from_labeled_vals,row_stored,pos,mul,from_flat,zeros}"]}
{"id": "C15", "title": "Envelope storage agrees with the dense matrix", "statement": "Converting a square sparse dictionary whose every row has an entry on or left of the diagonal into lower-envelope storage, or whose every row is non-empty into bi-envelope storage, preserves every element that storage represents (the lower triangle, respectively all), independent of hash iteration order; writes read back; elements outside the envelope read as zero.", "quantifier": "all sizes, all sparsity patterns meeting the precondition, all values, all hash iteration orders", "why_tests_cant": "The offset arithmetic depends on every row profile; tests use one or two patterns.", "anchors": ["src/matrix/sparse.rs: LowerRowEnvelope::{from_envelope,pos}, BiEnvelope::{from_row_bounds,pos}, From<Dictionary>, Dictionary::{envelope,row_bounds}"]}
{"id": "C16", "title": "Sparse dictionary operations are the matrix operations", "statement": "Reading, writing, permuting, masking, transposing and multiplying hash-backed sparse matrices give the same elements as the corresponding dense operations, whatever the hash iteration order.", "quantifier": "all sparse matrices, all permutations and masks, all hash iteration orders", "why_tests_cant": "Hash iteration order is randomised per process, so a test sees one order per run.", "anchors": ["src/matrix/sparse.rs: Dictionary::{permute,mask,mul_dict,transposed,get,put}"]}
{"id": "C17", "title": "Envelope triangular solves", "statement": "Solving with an envelope-stored lower triangle (plain, transposed, and on a trailing index window) with non-zero diagonal returns the exact solution when the work vector starts at zero.", "quantifier": "all sizes, all envelopes, all right-hand sides, all windows", "why_tests_cant": "The start column differs per row, giving unboundedly many profiles.", "anchors": ["src/matrix/sparse.rs: LowerRowEnvelope::{solve,solve_transposed,solve_submatrix}"]}
{"id": "C18", "title": "Envelope solve does not depend on the prior contents of the output vector", "statement": "The forward solve into a caller-supplied output vector gives the same result whatever that vector contained before.", "quantifier": "all output vectors", "why_tests_cant": "All callers in the test-suite pass zeroed vectors.", "anchors": ["src/matrix/sparse.rs: LowerRowEnvelope::solve, row_stored"]}
{"id": "C19", "title": "Banded matrix-vector product and scaled update", "statement": "The bi-envelope matrix-vector product equals the dense product, and adding a scaled bi-envelope matrix to a lower envelope changes exactly the stored lower triangle by scale times the other matrix, refusing rows that stick out to the left.", "quantifier": "all sizes, all row profiles, all vectors and scales", "why_tests_cant": "Offsets between two independent row profiles.", "anchors": ["src/matrix/sparse.rs: BiEnvelope::mul_vec, LowerRowEnvelope::{add_scaled_bienv,from_bienv}"]}
{"id": "C20", "title": "Cholesky factor reproduces the matrix", "statement": "For every symmetric positive definite matrix in envelope storage the factorisation yields a lower triangle L, with positive diagonal, inside the same envelope, with L times L-transpose equal to the matrix.", "quantifier": "all sizes, all envelopes, all symmetric positive definite matrices (real arithmetic)", "why_tests_cant": "Envelope truncation is only sound by an inductive no-fill argument over all profiles.", "anchors": ["src/matrix/solve/direct.rs: cholesky_envelope"]}
{"id": "C21", "title": "Root-free factorisation reproduces the matrix", "statement": "For every symmetric matrix in envelope storage whose successive pivots are non-zero, the root-free factorisation yields unit lower L and diagonal D with L*D*L-transpose equal to the matrix, and solving with the factors solves the original system.", "quantifier": "all sizes, all envelopes, all matrices with non-zero pivots, any field", "why_tests_cant": "As for Cholesky.", "anchors": ["src/matrix/solve/direct.rs: cholesky_envelope_no_root, solve_ldl"]}
{"id": "C22", "title": "Permutations are bijections and invert", "statement": "Every accepted index list defines a bijection; permuting then un-permuting an index or a slice restores it, inverting twice restores the permutation, and the slice action moves element i to position p(i); non-permutations are rejected.", "quantifier": "all lengths, all index lists, all slices", "why_tests_cant": "n! permutations for unbounded n.", "anchors": ["src/matrix/graph.rs: Permutation"]}
{"id": "C23", "title": "Bandwidth reordering returns a permutation of a connected graph", "statement": "For every connected undirected graph with at least one vertex the reordering terminates and returns a permutation of all its vertices in which vertices appear in order of decreasing distance from the start vertex; a disconnected graph makes it fail rather than return a wrong answer.", "quantifier": "all finite graphs", "why_tests_cant": "Unboundedly many graphs; tests use one.", "anchors": ["src/matrix/graph.rs: Graph::{reverse_cuthill_mckee,pseudo_peripheral,far_node}"]}
{"id": "C24", "title": "Farthest-vertex search is exact", "statement": "The farthest-vertex search returns the eccentricity of the start vertex within its component and a vertex at that distance, of least degree among those at that distance; the peripheral vertex search always terminates.", "quantifier": "all finite graphs and all start vertices", "why_tests_cant": "Correctness of breadth-first layers for all graphs.", "anchors": ["src/matrix/graph.rs: Graph::{far_node,pseudo_peripheral,adjacent_masked}"]}
{"id": "C25", "title": "Graphs built from edges keep all vertices and edges", "statement": "The graph built from a vertex count and an edge list has that many vertices, and two vertices are adjacent exactly when they are distinct and listed in some order, without duplicates, sorted.", "quantifier": "all vertex counts and edge lists", "why_tests_cant": "Isolated trailing vertices and duplicate edges interact with the index table.", "anchors": ["src/matrix/graph.rs: Graph::from_edges"]}
{"id": "C26", "title": "System assembly accumulates", "statement": "After any sequence of coefficient additions the global stiffness (and mass) entry at a position is the sum of all values added there, and each force entry is the sum of all loads added there, independent of hash order; a position outside the system is refused.", "quantifier": "all sequences of additions", "why_tests_cant": "Unbounded histories; hash order.", "anchors": ["src/matrix/solve/mod.rs: System::{add_k_coefficient,add_m_coefficient,add_force}"]}
{"id": "C27", "title": "Direct sparse solution in the caller's numbering", "statement": "For every symmetric positive definite system whose sparsity graph is connected, the envelope Cholesky solver returns, in the caller's original numbering, the vector x with K x = r, for every possible outcome of hash ordering.", "quantifier": "all connected SPD systems of at least two unknowns, all right-hand sides, all hash orders, real arithmetic", "why_tests_cant": "A wrong direction of the final un-permutation is invisible on symmetric or self-inverse permutations.", "anchors": ["src/matrix/solve/direct.rs: CholeskyEnvelopeSolver", "src/matrix/solve/mod.rs: System::{reduce_envelope,into_krp}"]}
{"id": "C28", "title": "Direct sparse solution of every SPD system", "statement": "The envelope Cholesky solver returns the solution for every symmetric positive definite system, including diagonal, one-unknown and disconnected ones.", "quantifier": "all SPD systems", "why_tests_cant": "Tests contain only connected systems.", "anchors": ["src/matrix/solve/direct.rs: CholeskyEnvelopeSolver", "src/matrix/graph.rs: from_edges, reverse_cuthill_mckee"]}
{"id": "C29", "title": "All solvers agree on a reordered system", "statement": "Solving a system gives the same answer in the caller's numbering with every solver and whether or not bandwidth reduction was requested beforehand.", "quantifier": "all systems, all solvers, both call orders", "why_tests_cant": "Call-order combinations are not tested.", "anchors": ["src/matrix/solve/direct.rs: DenseGaussSolver", "src/matrix/solve/iterative.rs: DenseGaussSeidelSolver", "src/matrix/solve/mod.rs: System::reduce_envelope"]}
{"id": "C30", "title": "Iterative solver stops only at a small step and its fixed points are solutions", "statement": "The Gauss-Seidel solver returns only if the last relative step is at most the tolerance or a round limit failure is raised; any vector left unchanged by a sweep solves the system, and conversely a solution is left unchanged.", "quantifier": "all systems with non-zero diagonal, all right-hand sides, any number of rounds", "why_tests_cant": "Unbounded inputs and rounds.", "anchors": ["src/matrix/solve/iterative.rs: gauss_seidel"]}
{"id": "C31", "title": "Iterative solver handles the zero load", "statement": "A zero right-hand side is solved by the zero vector.", "quantifier": "all systems with zero right-hand side", "why_tests_cant": "Tests use non-zero loads.", "anchors": ["src/matrix/solve/iterative.rs: gauss_seidel (ratio of norms)"]}
{"id": "C32", "title": "Eigenvalue search bookkeeping", "statement": "When the eigenpair search for n pairs returns, it returns exactly n pairs; each pair stems from a bracket whose two end counts differ by exactly one; the brackets are disjoint and increasing; bracket splitting never loses or duplicates a count.", "quantifier": "all counting oracles (any function giving the number of eigenvalues below a value), all n", "why_tests_cant": "Recursion depth and split pattern are data dependent and unbounded.", "anchors": ["src/matrix/solve/eigen.rs: EigenRange, DeterminantSearcher::{secant_iterate_one,process_eigenrange,find_eigens}"]}
{"id": "C33", "title": "Negative pivots count the eigenvalues below a shift", "statement": "The number of negative entries of the diagonal factor of K - mu M equals the number of generalised eigenvalues of (K,M) below mu.", "quantifier": "all symmetric K, all M with a full system of M-orthonormal eigenvectors, all shifts with non-zero pivots, any size", "why_tests_cant": "Sylvester's law of inertia; tests check single shifts of single matrices.", "anchors": ["src/matrix/solve/eigen.rs: DeterminantSearcher::{decompose,eigenvalues_under}", "src/matrix/buffer.rs: Diagonal::num_neg"]}
{"id": "C34", "title": "Returned eigenpairs are normalised with Rayleigh value", "statement": "Every vector produced by the inverse iteration has unit M-norm and the value reported with it is its Rayleigh quotient with respect to the original K and M.", "quantifier": "all K, M, shifts, start vectors and numbers of iterations", "why_tests_cant": "Unbounded iteration counts and inputs.", "anchors": ["src/matrix/solve/eigen.rs: inverse_iterate, inverse_iterate_times, rayleigh_quotient"]}
{"id": "C35", "title": "Gram-Schmidt removes known modes", "statement": "Orthogonalising a vector against a list of M-orthonormal vectors returns a vector M-orthogonal to each of them and differing from the input by a combination of them.", "quantifier": "all symmetric M, all lists of M-orthonormal vectors, all start vectors", "why_tests_cant": "Unbounded list lengths.", "anchors": ["src/matrix/solve/eigen.rs: gram_schmidt"]}
{"id": "C36", "title": "Eigenvalue bracketing terminates", "statement": "Bracketing the eigenvalues of a system terminates, also when the structure has repeated frequencies.", "quantifier": "all spectra", "why_tests_cant": "Non-termination cannot be observed by a test, and repeated eigenvalues arise from symmetry, not from random inputs.", "anchors": ["src/matrix/solve/eigen.rs: DeterminantSearcher::process_eigenrange"]}
{"id": "C37", "title": "Element stiffness is symmetric", "statement": "The element stiffness contributions are symmetric in the two degrees of freedom, so the assembled stiffness matrix is symmetric.", "quantifier": "all triangles, all materials, all strain conditions, all meshes", "why_tests_cant": "All geometries.", "anchors": ["src/element/element.rs: Element::calc_k", "src/element/mod.rs: ElementAssemblage::calc_k"]}
{"id": "C38", "title": "Rigid motions store no energy", "statement": "Translating an element in either direction, or rotating it infinitesimally, produces zero nodal forces in plane conditions (axial translation in the axisymmetric one); the same holds for the assembled structure.", "quantifier": "all non-degenerate triangles, materials and meshes", "why_tests_cant": "All geometries.", "anchors": ["src/element/element.rs: Element::{get_isopar_mats,calc_k}", "src/element/strain.rs: build_b"]}
{"id": "C39", "title": "Element stiffness is positive semidefinite", "statement": "For every counter-clockwise triangle, positive thickness and physically admissible material the element strain energy is non-negative for every displacement.", "quantifier": "all counter-clockwise triangles, admissible materials and displacement vectors", "why_tests_cant": "All geometries and displacements.", "anchors": ["src/element/element.rs: calc_k", "src/element/strain.rs: build_c"]}
{"id": "C40", "title": "Linear displacement fields give their exact strain", "statement": "For nodal displacements sampled from any affine field the strain computed at every point of the element is the gradient of that field (patch test), and interpolation weights sum to one.", "quantifier": "all non-degenerate triangles, all affine fields, all points of the element", "why_tests_cant": "All geometries and fields.", "anchors": ["src/element/element.rs: get_isopar_mats", "src/element/strain.rs: build_b"]}
{"id": "C41", "title": "Material matrices are Hooke's law", "statement": "The plane stress, plane strain and axisymmetric material matrices are exactly the isotropic Hooke law restricted to the respective condition.", "quantifier": "all Young's moduli and Poisson ratios outside the singular values, all strains", "why_tests_cant": "All parameters.", "anchors": ["src/element/strain.rs: Condition::build_c"]}
{"id": "C42", "title": "Mass matrix carries the element's mass", "statement": "For a unit acceleration in one direction the element mass contributions sum to density times thickness times element area.", "quantifier": "all triangles, densities and thicknesses", "why_tests_cant": "All geometries; unit tests with unit Jacobian hide the scaling.", "anchors": ["src/element/element.rs: Element::calc_m"]}
{"id": "C43", "title": "Edge loads have the right resultant", "statement": "Integrating a constant edge load over an element edge yields half of load times length at each of the two end nodes and nothing at the third, whichever edge and orientation is used; edges not of the element are refused.", "quantifier": "all triangles, all edges and orientations, all loads", "why_tests_cant": "All geometries.", "anchors": ["src/element/element.rs: Element::int_f_l", "src/element/integrate.rs: gauss_segment_mat"]}
{"id": "C44", "title": "Loads superpose", "statement": "The global load vector is the sum of all concentrated and distributed loads, independent of the order in which the hash maps are traversed.", "quantifier": "all load sets, all meshes, all hash iteration orders", "why_tests_cant": "Hash order is randomised; overlapping loads are a combination tests miss.", "anchors": ["src/element/mod.rs: ElementAssemblage::calc_load"]}
{"id": "C45", "title": "Computed displacements satisfy the supports", "statement": "Every displacement expanded from the reduced unknowns satisfies each node's support: fixed components are zero, and the component along a sliding support's angle is zero.", "quantifier": "all support assignments, angles and reduced solutions", "why_tests_cant": "All combinations.", "anchors": ["src/element/constraint.rs: DofTransform::{unbar_vec,unmask_vec}", "src/element/mod.rs: raw_to_node_disp"]}
{"id": "C46", "title": "The reduced system is the virtual-work projection", "statement": "Reducing loads is adjoint to expanding displacements, and the reduced stiffness represents exactly the energy of expanded displacements, so a solution of the reduced system is in equilibrium against every virtual displacement allowed by the supports.", "quantifier": "all support assignments, stiffness matrices, loads and displacements; real arithmetic", "why_tests_cant": "All combinations of supports and matrices.", "anchors": ["src/element/constraint.rs: DofTransform::{bar_vec,bar_matrix,unbar_vec,to_mat}"]}
{"id": "C47", "title": "Support combination is order independent and never releases a support", "statement": "Adding several supports to one node fixes every direction any of them fixes, in whatever order they are added.", "quantifier": "all sequences of supports", "why_tests_cant": "Sequences of overlapping supports are not tested.", "anchors": ["src/element/mod.rs: ElementAssemblage::add_constraint"]}
{"id": "C48", "title": "Distorted elements are rejected", "statement": "Adding an element whose nodes are degenerate or listed clockwise is refused.", "quantifier": "all triangles", "why_tests_cant": "All geometries.", "anchors": ["src/element/element.rs: jacobian_ratio", "src/element/mod.rs: add_element"]}
{"id": "C49", "title": "Equivalent stress and stress tensor", "statement": "The equivalent stress of a plane state equals the three-dimensional von Mises stress with the out-of-plane components zero, is never negative, and the Cauchy tensor returned for a state is symmetric; a stress vector of 1, 3, 4 or 6 entries is read as a bar, plane, axisymmetric or spatial state with these components and every other shape is refused.", "quantifier": "all stress states", "why_tests_cant": "All values; uniaxial tests cannot distinguish the formulas.", "anchors": ["src/element/stress.rs: StressState::{from_vector,von_mises,to_cauchy}"]}
{"id": "C50", "title": "Three-dimensional and axisymmetric equivalent stress is invariant", "statement": "The three-dimensional equivalent stress is unchanged by hydrostatic pressure, is zero exactly for hydrostatic states, and the axisymmetric one equals the three-dimensional one of the embedded state.", "quantifier": "all stress states", "why_tests_cant": "All values.", "anchors": ["src/element/stress.rs: StressState::von_mises"]}
{"id": "C51", "title": "Averages are arithmetic means", "statement": "The running average of any non-empty sequence is its arithmetic mean; the stress reported at a node is the component-wise mean over the elements around it, and its equivalent stress that of the mean, or zero without elements.", "quantifier": "all sequences of every length", "why_tests_cant": "Unbounded sequences.", "anchors": ["src/matrix/mod.rs: Average", "src/element/mod.rs: Deformation::{stresses,von_mises}"]}
{"id": "C52", "title": "Quadrature is exact to its order", "statement": "The three-point triangle rule integrates every quadratic polynomial exactly over the reference triangle. The two-point segment rule is exact for affine integrands and accurate to the precision of its stored constants for cubics. The segment rules of orders 1 to 4 integrate every polynomial of degree below twice the order to within 3e-15 times half the segment length and the sum of its absolute coefficients; other orders are refused.", "quantifier": "all polynomials up to the stated degree", "why_tests_cant": "Infinitely many integrands.", "anchors": ["src/element/integrate.rs: gauss_tri, gauss_segment_mat"]}
{"id": "C53", "title": "Boundary subdivision respects the target length", "statement": "Dividing a boundary segment at target length h yields pieces of equal length between h and sqrt(3)*h covering the segment in order, or fails exactly when no number of equal pieces meets those limits.", "quantifier": "all segments, all targets, real arithmetic", "why_tests_cant": "Real-valued thresholds.", "anchors": ["src/mesher/bounds.rs: PlaneBoundary::divide_segment"]}
{"id": "C54", "title": "Boundary stays a set of closed loops", "statement": "After storing polygons with distinct vertices and any sequence of segment splits and divisions, following the boundary from any polygon's start visits a closed loop, every boundary segment is visited exactly once, and the original vertices remain on it in order.", "quantifier": "all polygons, all sequences of splits and divisions, all hash orders", "why_tests_cant": "Unbounded refinement histories.", "anchors": ["src/mesher/bounds.rs: store_polygon, split_segment, divide_segment, Wall, AllWalls"]}
{"id": "C55", "title": "Loads and supports are inherited by refined segments", "statement": "When a segment carrying a distributed load or support is split or divided, the load and the support are carried by exactly the pieces replacing it.", "quantifier": "all refinement histories", "why_tests_cant": "Unbounded histories.", "anchors": ["src/mesher/bounds.rs: split_segment, divide_segment, all_constraints"]}
{"id": "C56", "title": "Triangulation tables stay consistent", "statement": "After any sequence of triangle insertions and deletions every triangle is found from each of its three directed edges, no directed edge belongs to two triangles, and nothing else is recorded.", "quantifier": "all operation histories, all geometric predicates", "why_tests_cant": "Unbounded histories.", "anchors": ["src/mesher/plane.rs: add_triangle, delete_triangle, adjacent"]}
{"id": "C57", "title": "Point insertion conserves the meshed region", "statement": "A successful point insertion leaves the oriented boundary of the triangulation, hence the total signed area, unchanged, and only adds counter-clockwise triangles.", "quantifier": "all triangulations, all points, all outcomes of the floating-point predicates", "why_tests_cant": "Unbounded meshes; predicates may misfire.", "anchors": ["src/mesher/plane.rs: bowyer_watson_insert, bowyer_watson_dig"]}
{"id": "C58", "title": "Initial triangulation covers the outline", "statement": "If the initial triangulation finishes every edge and no triangle lies on the outer side of a boundary segment, the oriented boundary of the triangles is exactly the outline, hence their total area is the outline's enclosed area.", "quantifier": "all outlines, all hash orders, all predicate outcomes", "why_tests_cant": "Unbounded outlines.", "anchors": ["src/mesher/plane.rs: gift_wrap, gift_wrap_finish"]}
{"id": "C59", "title": "Re-meshing starts from scratch", "statement": "Meshing a boundary a second time on the same object yields only the triangles of the second run.", "quantifier": "all call sequences", "why_tests_cant": "Tests mesh once per object.", "anchors": ["src/mesher/plane.rs: gift_wrap"]}
{"id": "C60", "title": "Mesh refinement meets its stopping criterion", "statement": "When size-controlled refinement returns, every triangle has circumradius at most the requested size; when quality-controlled refinement returns, every triangle also meets the radius-edge bound.", "quantifier": "all inputs for which refinement returns", "why_tests_cant": "Unbounded meshes.", "anchors": ["src/mesher/plane.rs: chew_mesh, ruppert_mesh, large_triangle"]}
{"id": "C61", "title": "Circumcentre is equidistant", "statement": "The circumcentre of three points, when reported, is equidistant from them, and it is reported exactly for non-collinear points.", "quantifier": "all point triples, exact arithmetic", "why_tests_cant": "Real-valued inputs.", "anchors": ["src/spatial/predicates.rs: circumcenter, Line"]}
{"id": "C62", "title": "Point-in-triangle and barycentric coordinates", "statement": "Barycentric coordinates sum to one and reproduce the point; the containment test accepts exactly the points of the closed triangle.", "quantifier": "all non-degenerate triangles and points, exact arithmetic", "why_tests_cant": "Real-valued inputs.", "anchors": ["src/spatial/predicates.rs: bary_coor, in_triangle"]}
{"id": "C63", "title": "In-circle and in-sphere tests", "statement": "For counter-clockwise triangles the in-circle test accepts a point only if it is strictly inside the circumcircle; the sphere test accepts exactly points inside the circumsphere.", "quantifier": "all triangles/tetrahedra and points, exact arithmetic", "why_tests_cant": "Real-valued inputs.", "anchors": ["src/spatial/predicates.rs: in_circle, in_sphere"]}
{"id": "C64", "title": "Line rasterisation", "statement": "The drawn line contains both endpoints, consists of max(|dx|,|dy|)+1 pixels each a king's move from the previous, stays inside the endpoints' bounding box, and every pixel is nearest to the ideal line.", "quantifier": "all integer endpoint pairs", "why_tests_cant": "Unboundedly many slopes.", "anchors": ["src/visual/bresenham.rs: line, line_low, line_high"]}
{"id": "C65", "title": "Clipped rasterisation keeps visible pixels", "statement": "Rasterising between pixels with non-negative coordinates loses no pixel of the line.", "quantifier": "all non-negative endpoints", "why_tests_cant": "Pixels in row or column zero are easily missed.", "anchors": ["src/visual/bresenham.rs: line_unsigned"]}
{"id": "C66", "title": "Pictures stay inside the image", "statement": "All node markers, lines and fills lie inside the image for every set of at least two distinct points and every image size of at least 25 pixels, and the picture keeps the aspect ratio.", "quantifier": "all point sets, all image sizes from 25", "why_tests_cant": "Real-valued inputs.", "anchors": ["src/visual/mod.rs: Visualizer::enpixel", "src/visual/fill.rs: dot_points"]}
{"id": "C67", "title": "Colour scale", "statement": "Values are mapped into the unit interval with the smallest at zero and the largest at one, monotonically, and the heat map has channels between 0 and 255, each non-decreasing, from black to white.", "quantifier": "all value lists with two distinct values", "why_tests_cant": "Real-valued inputs.", "anchors": ["src/visual/mod.rs: set_vals", "src/visual/color.rs: hot_map"]}
{"id": "C68", "title": "Mesh file round trip", "statement": "Writing an element assemblage to the mesh format and reading it back yields the same nodes, elements, supports, concentrated and distributed loads, material and condition, with every number replaced by its decimal rounding to the written precision.", "quantifier": "all assemblages with planar nodes, all hash orders", "why_tests_cant": "Codec laws range over all files.", "anchors": ["src/file/bmsh.rs: elas_to_bmsh, bmsh_to_elas"]}
{"id": "C69", "title": "Mesh files preserve numbers", "statement": "Writing and reading back an assemblage preserves its node coordinates, loads and thickness.", "quantifier": "all assemblages", "why_tests_cant": "Tests use short decimals.", "anchors": ["src/file/bmsh.rs: elas_to_bmsh", "src/element/strain.rs: ToString for Condition"]}
{"id": "C70", "title": "Mesh file validation", "statement": "A mesh file whose section counts disagree with the listed entries, or whose node or element indices are not consecutive from zero, is rejected with an error.", "quantifier": "all input texts", "why_tests_cant": "All malformed inputs.", "anchors": ["src/file/bmsh.rs: monotonic_list, section_parse, bmsh_to_elas"]}
{"id": "C71", "title": "Mesh to element model translation", "statement": "Assembling the mesh produces one node per vertex and one element per triangle with the vertices' coordinates, the supports of the boundary applied to the right nodes, and distributed loads attached to node pairs at the right places.", "quantifier": "all meshes, all hash orders", "why_tests_cant": "Unbounded meshes and hash order.", "anchors": ["src/mesher/plane.rs: assemble"]}
{"id": "C72", "title": "Degree-of-freedom numbering is a bijection", "statement": "Node/component pairs and global indices are in one-to-one correspondence, and element-local indices map to the element's own nodes.", "quantifier": "all node counts", "why_tests_cant": "Unbounded.", "anchors": ["src/element/mod.rs: NodeDof conversions", "src/element/element.rs: map_dof"]}
{"id": "C73", "title": "Tetrahedron orientation is the sign of the volume", "statement": "The orientation reported for four points of space is positive or negative exactly as their signed volume is; zero is reported only when changing the entries of the array by less than the pivot threshold makes it singular.", "quantifier": "all quadruples of three-dimensional points, exact arithmetic", "why_tests_cant": "Real-valued inputs; the degenerate quadruples have measure zero.", "anchors": ["src/spatial/predicates.rs: tetrahedron_dir"]}
{"id": "C74", "title": "The initial triangulation terminates", "statement": "The gift-wrapping loop of the initial triangulation stops (with a result or a panic) after at most as many steps as there are boundary segments plus twice the square of the number of vertices, whatever the geometric predicates and the hash set answer.", "quantifier": "all outlines, all hash orders, all predicate outcomes including inconsistent floating-point ones", "why_tests_cant": "Non-termination would depend on rounding and hash order; a test can only sample runs.", "anchors": ["src/mesher/plane.rs: gift_wrap, gift_wrap_finish, add_triangle"]}
{"id": "C75", "title": "Point insertion terminates", "statement": "Inserting a vertex that is not yet used by a triangle stops: the recursion through neighbouring triangles never goes deeper than the number of stored triangles.", "quantifier": "all reachable triangulations, all vertices, exact arithmetic and any orientation predicate that reports repeated points as degenerate", "why_tests_cant": "The recursion depth depends on the mesh; a cycle would need a particular configuration.", "anchors": ["src/mesher/plane.rs: bowyer_watson_dig, bowyer_watson_insert"]}
{"id": "C76", "title": "Refinement keeps covering the outline", "statement": "If the initial triangulation covers the outline, then after size-controlled or quality-controlled refinement the oriented boundary of the mesh is exactly the refined outline, and the mesh area is the area enclosed by it.", "quantifier": "all outlines, all refinement sizes, all hash orders, all predicate outcomes, all numbers of refinement steps", "why_tests_cant": "Holes or overlaps appear only for particular sequences of insertions and splits.", "anchors": ["src/mesher/plane.rs: chew_mesh, ruppert_mesh, ruppert_split_segment, bowyer_watson_insert"]}
{"id": "C77", "title": "Space pictures are orthogonal projections", "statement": "A three-dimensional point set is drawn by an orthogonal projection of the rigidly rotated points: together with a depth coordinate all distances are preserved.", "quantifier": "all non-empty lists of points of space", "why_tests_cant": "Real-valued inputs; a wrong sign in the rotation shears the picture only slightly.", "anchors": ["src/visual/mod.rs: rotation_matrix, project"]}
{"id": "C78", "title": "Fills interpolate linearly", "statement": "Filling a non-degenerate pixel triangle colours exactly the pixels inside or on it, each once, with the linear interpolation of the corner values, which lies between the smallest and the largest of them.", "quantifier": "all non-degenerate pixel triangles and corner values", "why_tests_cant": "Unboundedly many triangles.", "anchors": ["src/visual/fill.rs: triangle_interp"]}
{"id": "C79", "title": "Boundary files are read as written", "statement": "A boundary file made of well-formed items separated by newlines is read as those items: the polygons are stored in order, then conditions, materials, distributed loads and supports are set with the last one winning, labels standing for the last vertex that carries them; a load or support naming an unknown label gives an error.", "quantifier": "all sequences of well-formed items, all number formats and geometric predicates", "why_tests_cant": "Files of any length with any labels.", "anchors": ["src/file/bbnd.rs: bbnd_to_bounds, parse_file"]}
{"id": "C80", "title": "Boundary files may end with a newline", "statement": "A boundary file that is read is also read, with the same result, when a newline follows it.", "quantifier": "all boundary files", "why_tests_cant": "The example files all lack the final newline.", "anchors": ["src/file/bbnd.rs: parse_file"]}
{"id": "C81", "title": "Files are chosen by their extension", "statement": "The linear and modal commands read their input only when its last path component has a non-empty stem followed by \".bmsh\", the mesh command only for \".bbnd\"; any other input makes the command report an error and leave nothing behind.", "quantifier": "for all paths, file systems, file contents, arguments, hash orders and arithmetics", "why_tests_cant": "the set of paths and file contents is infinite; tests use one or two well-formed paths", "anchors": ["src/file/mod.rs:12-44", "src/main.rs:43-48", "src/main.rs:135-139"]}
{"id": "C82", "title": "A reported error leaves nothing behind", "statement": "When a command ends by reporting an error it has written no file and printed no result.", "quantifier": "for all commands, arguments, file systems, hash orders", "why_tests_cant": "depends on the order of checks and outputs along every path; a test exercises one path", "anchors": ["src/main.rs:37-127", "src/main.rs:129-192", "src/main.rs:194-271"]}
{"id": "C83", "title": "The linear study reports the maxima of the equilibrium solution", "statement": "When the linear command succeeds it saves one picture and prints one line; the two numbers are the greatest nodal equivalent stress and the greatest nodal displacement of a displacement field that satisfies the supports of the mesh in the file and is the only one in equilibrium with its loads.", "quantifier": "for all mesh files, options, hash orders and solvers whose method applies to the reduced matrix", "why_tests_cant": "quantifies over all meshes and displacement fields", "anchors": ["src/main.rs:37-127", "src/element/mod.rs:304-323"]}
{"id": "C84", "title": "A saved mesh can be analysed", "statement": "The file saved by the mesh command under a path ending in \".bmsh\" is read by the linear and modal commands, as the generated mesh with its numbers rounded as printed.", "quantifier": "for all boundary files, element sizes, meshers, hash orders", "why_tests_cant": "composes mesher, assembler, printer and parser over all inputs", "anchors": ["src/main.rs:129-192", "src/file/mod.rs:46-50", "src/file/bmsh.rs"]}
{"id": "C85", "title": "Results do not change from run to run", "statement": "Two runs of the linear command on the same file with the same arguments print the same result, although the hash maps are traversed in a different random order in every run.", "quantifier": "for all mesh files and all pairs of hash orders", "why_tests_cant": "hash orders are random; a test sees one order per run and cannot enumerate them", "anchors": ["src/main.rs:37-127", "src/element/mod.rs:254-280"]}
{"id": "C86", "title": "Picture options do not change the result", "statement": "Two successful runs of the linear command on the same file with the same solver and the same hash orders print the same numbers whatever the output path, scale, node value, colour map, image size and mesh display options.", "quantifier": "for all files and all pairs of option values", "why_tests_cant": "relates all pairs of option values", "anchors": ["src/main.rs:76-124"]}
{"id": "C87", "title": "Modal studies deliver one picture and one line per mode", "statement": "When the modal command succeeds it has saved and printed, alternately and in order, exactly as many pictures and frequencies as modes were asked for; the pictures have different names, so none overwrites another; the frequencies are the square roots of the values found by the eigenvalue search.", "quantifier": "for all mesh files, mode counts, options, hash orders", "why_tests_cant": "mode counts are unbounded; name collisions would only show for large counts", "anchors": ["src/main.rs:194-271", "src/element/mod.rs:325-352"]}
{"id": "C88", "title": "Invalid options are rejected", "statement": "A command given an unknown solver, mesher, node value or colour map name, or a number or truth value that cannot be read, never succeeds.", "quantifier": "for all option texts, files, hash orders", "why_tests_cant": "the set of option texts is infinite", "anchors": ["src/main.rs:60-66", "src/main.rs:76-109", "src/main.rs:147-176", "src/main.rs:204-255"]}
{"id": "C89", "title": "A mesh is held exactly when its supports admit no rigid motion", "statement": "For a mesh in one piece (triangles connected through common edges), of counterclockwise triangles and an admissible material: every displacement allowed by the supports, other than zero, stores strain energy, if and only if the only rigid motion the supports allow is zero. Hence two fixed nodes at different points hold it, so does a fixed node with a roller that stops the rotation, an axisymmetric body needs one axial support, and a plane body supported at one node only is not held.", "quantifier": "for all meshes in one piece, materials, conditions, supports", "why_tests_cant": "both meshes and displacement fields are unbounded families", "anchors": ["src/element/mod.rs:142-158", "src/element/mod.rs:190-229", "src/element/element.rs:91-260", "src/element/constraint.rs:1-189"]}
{"id": "C90", "title": "Every properly supported mesh can be analysed by the direct solvers", "statement": "For every mesh that is held by its supports and whose loads lie on it, the linear study with either direct solver returns displacements, and they are the only ones in equilibrium with the loads.", "quantifier": "for all held meshes, loads, hash orders", "why_tests_cant": "breakdown of a pivot depends on exact values of the matrix entries; a test set will miss the meshes concerned", "anchors": ["src/matrix/solve/direct.rs:9-156", "src/element/mod.rs:245-310", "src/main.rs:76-109"]}
{"id": "C91", "title": "Whole-row and whole-column writes do exactly what they say", "statement": "After any sequence of single-cell writes, in-place changes, row and column replacements, row and column maps, swaps and transposes, a dense matrix shows exactly the table obtained by doing the same operations on a plain table; a replacement row or column of the wrong length, or an index outside the matrix, stops the program. Adding or subtracting a matrix in place changes every cell by the matching cell and stops the program on different shapes.", "quantifier": "all scalar types (no laws assumed), all shapes, all initial data, all finite operation sequences, all functions applied to cells", "why_tests_cant": "The state is a buffer plus a layout flag flipped by transposes; an error needs a particular interleaving of row/column writes with transposes and swaps at particular indices.", "anchors": ["src/matrix/mod.rs:105-134", "src/matrix/mod.rs:215-278", "src/matrix/buffer.rs:36-49", "src/matrix/buffer.rs:195-247"]}
{"id": "C92", "title": "Plane rotation matrices rotate exactly the chosen plane", "statement": "For two different axes inside the dimension the rotation matrix has the cosine, minus sine, sine and cosine in the four cells of those axes and is the identity elsewhere; it is orthogonal; over the reals rotations of the same plane compose by adding angles. Equal or out-of-range axes stop the program.", "quantifier": "all dimensions, all axis pairs, all angles (entries: any arithmetic; orthogonality: any field where cos^2+sin^2=1; composition: the reals)", "why_tests_cant": "Tests sample a few dimensions and angles; orthogonality and composition are identities over a continuum of angles in every dimension.", "anchors": ["src/matrix/mod.rs:280-293"]}
{"id": "C93", "title": "Fixed-size matrices behave like dense ones or refuse", "statement": "A fixed-size matrix accepts exactly as many values as its shape has cells, and afterwards every sequence of writes shows the same table as on a plain table, with no read inside the shape failing.", "quantifier": "all sizes, shapes, initial data and operation sequences", "why_tests_cant": "The shape is not tied to the size in the type, so a mismatch shows only when a cell beyond the storage is touched.", "anchors": ["src/matrix/buffer.rs:173-188", "src/matrix/buffer.rs:619-678"]}
{"id": "C94", "title": "Points are vectors and distance is a metric", "statement": "Points made by the constructors and operations read back as coordinate lists on which sum, difference, midpoint, scaling, normalisation, dot product, norm and distance are the coordinate-wise ones; operands of different dimension are refused; distance is symmetric, non-negative, zero only for equal points, and obeys the triangle inequality; a normalised non-zero vector has length one.", "quantifier": "all points of dimension up to three, all reachable operation sequences, all real coordinates", "why_tests_cant": "Norm and distance always use three stored coordinates whatever the dimension; a leftover in an unused coordinate is invisible to reads and needs a particular mix of operations.", "anchors": ["src/spatial/mod.rs:36-94", "src/spatial/mod.rs:166-279"]}
{"id": "C95", "title": "The determinant from plain LU is the determinant", "statement": "When every proper leading block of a square matrix is non-singular, the determinant computed from the triangular factors without pivoting equals the mathematical determinant, also when that is zero.", "quantifier": "all orders, all fields, all matrices with non-singular proper leading blocks", "why_tests_cant": "The algebraic identity holds for every order and every entry; tests fix an order and compare rounded values.", "anchors": ["src/matrix/inverse.rs:108-111"]}
{"id": "C96", "title": "Equality of triangular matrices is equality of all entries", "statement": "Two triangular matrices made from zeros by cell writes compare equal exactly when they have the same shape and equal entries at every cell, including the cells that are not stored.", "quantifier": "all orders, all scalar types in which zero equals zero, all sequences of writes, both triangles", "why_tests_cant": "The buffers are over-allocated, so the comparison looks at cells no index reaches; whether they can differ depends on every possible write history.", "anchors": ["src/matrix/buffer.rs:51-143", "src/matrix/buffer.rs:400-404", "src/matrix/buffer.rs:480-484"]}
{"id": "C97", "title": "Assembled coefficients are correct up to rounding", "statement": "In rounded arithmetic, after any sequence of additions each stiffness, mass or load entry differs from the exact sum of the m contributions made to it by at most m u / (1 - m u) times the sum of their absolute values; double precision rounding (53 bits, nearest, no overflow or underflow) has u = 2^-53.", "quantifier": "all sequences of additions of machine numbers, all roundings of relative error u", "why_tests_cant": "Worst-case error accumulation over unbounded histories cannot be sampled.", "anchors": ["src/matrix/solve/mod.rs: System::{add_k_coefficient,add_m_coefficient,add_rhs_val}"]}
{"id": "C98", "title": "Envelope substitution is backward stable", "statement": "In rounded arithmetic forward substitution with a lower envelope matrix, and substitution with its transpose, return the exact solution of a triangular system whose every coefficient differs from the stored one by a relative error of at most (n+1) u / (1 - (n+1) u); entries outside the envelope stay exactly zero.", "quantifier": "all orders, all envelopes, all coefficients with non-zero diagonal, all right-hand sides, all roundings of relative error u", "why_tests_cant": "The claim is a bound over all coefficients and all ways rounding can fall.", "anchors": ["src/matrix/sparse.rs:235-252", "src/matrix/sparse.rs:286-307"]}
{"id": "C99", "title": "The Cholesky factor is backward stable and exists with a margin", "statement": "In rounded arithmetic the computed factor L, when its pivots are non-zero, satisfies |L L' - A| <= g |L| |L'| entry by entry with g = (n+2) u / (1 - (n+2) u); and all pivots are positive when the smallest eigenvalue of A scaled to a unit diagonal exceeds n (2n+4) u / (1 - (2n+4) u).", "quantifier": "all orders, envelopes, symmetric matrices, all roundings of relative error u", "why_tests_cant": "Whether rounding can make a pivot vanish is a worst-case question over all matrices.", "anchors": ["src/matrix/solve/direct.rs:92-140"]}
{"id": "C100", "title": "The direct solver is accurate in rounded arithmetic", "statement": "For every connected symmetric system whose scaled smallest eigenvalue lam exceeds n (2n+4) u / (1 - (2n+4) u), the envelope Cholesky solver returns an answer x, in the caller's numbering, that solves exactly (K + E) x = r with |E_ij| <= g sqrt(k_ii k_jj), g = (4n+5) u / (1 - (4n+5) u), and whose distance to the exact solution in the diagonal norm is at most n g / lam times the norm of x; in double precision with at most 1000 unknowns and lam >= 10^-6 this is a relative error of at most 10^-3.", "quantifier": "all assembled systems of at least two unknowns, all hash orders, all roundings of relative error u", "why_tests_cant": "Rounding errors depend on every operation; tests see a handful of systems and compare with tolerances chosen by eye.", "anchors": ["src/matrix/solve/direct.rs:20-60", "src/matrix/solve/direct.rs:92-156", "src/matrix/solve/mod.rs: System::{reduce_envelope,into_krp}"]}
{"id": "C101", "title": "Stresses of a linear displacement field are exact (stress patch test)", "statement": "When the nodal displacements sample a displacement field linear in the coordinates, an element of non-zero area reports at each corner the constitutive matrix applied to the strains of that field there (two stretches, shear and, for axisymmetric elements, the radial displacement over the radius), in its leading components and zero in the others; on every assembled mesh without degenerate elements the stress computation succeeds, every node of some element gets exactly that stress and every other node gets none.", "quantifier": "all elements, all meshes built through the interface, all three strain conditions, all materials, all linear fields, exact ordered arithmetic", "why_tests_cant": "A test compares a few meshes and fields within a tolerance; a missing material factor or swapped corner can cancel there.", "anchors": ["src/element/element.rs:298-329", "src/element/mod.rs:402-420", "src/element/stress.rs"]}
{"id": "C102", "title": "The deformed shape is the mesh moved by the scaled displacements", "statement": "displaced_nodes returns exactly when each node and its displacement have the same dimension; it then lists, in order, for every node with a displacement, the node plus the displacement times the scale in each coordinate.", "quantifier": "all meshes, displacement lists and scales, every arithmetic including binary64", "why_tests_cant": "A picture looks plausible for any scale; tests use one scale.", "anchors": ["src/element/mod.rs:392-400", "src/spatial/mod.rs: Point Add, Mul<f64>"]}
{"id": "C103", "title": "Every sweep of the iterative solver lowers the energy of the error, and the loop ends", "statement": "For a symmetric matrix with non-zero diagonal, one sweep of the relaxed Gauss-Seidel iteration lowers the energy of the error (e^T K e, e the distance to a solution) by exactly 2/beta - 1 times the sum of k_ii times the squared step of component i. Hence for every symmetric positive definite matrix, every non-zero right-hand side and every positive tolerance there is a round limit from which on the solver returns.", "quantifier": "all sizes, symmetric matrices, right-hand sides and start vectors; tolerances and all sufficiently large round limits", "why_tests_cant": "Convergence is a statement about unboundedly many rounds and all matrices.", "anchors": ["src/matrix/solve/iterative.rs:36-97"]}
{"id": "C104", "title": "The iterative solver agrees with the direct solver to its tolerance", "statement": "On a symmetric positive definite system the iterative solver returns within its 200 rounds an answer within one part in a thousand of the solution.", "quantifier": "all symmetric positive definite systems", "why_tests_cant": "Tests use well-conditioned systems; the stopping rule compares successive iterates, not the answer with the solution.", "anchors": ["src/matrix/solve/iterative.rs:12-34", "src/matrix/solve/iterative.rs:80-93"]}
{"id": "C105", "title": "The dense solver is accurate on well-conditioned systems", "statement": "In double precision the answer of the dense solver on a symmetric positive definite system far from singular satisfies every equation up to rounding errors that are small against the coefficients and the answer.", "quantifier": "all assembled systems whose elimination meets no zero pivot, all sizes, all rounding functions of relative error u", "why_tests_cant": "The loss of accuracy comes from pivots chosen by signed value after cancellation; most random systems do not show it.", "anchors": ["src/matrix/inverse.rs:22-79", "src/matrix/solve/direct.rs:14-27"]}
{"id": "C106", "title": "The eigenvalue count is right away from the eigenvalues", "statement": "In double precision the number of eigenvalues counted below a shift is the number of eigenvalues of the assembled problem below it, whenever no eigenvalue is close to the shift.", "quantifier": "all assembled systems of any size, all hash orders, all shifts, all rounding functions of relative error u", "why_tests_cant": "A wrong count needs a small pivot in the middle of the factorization, which almost no random shift produces; and the bound covers all shifts and all sizes.", "anchors": ["src/matrix/solve/eigen.rs:185-196", "src/matrix/solve/direct.rs:158-198", "src/matrix/sparse.rs:349-371"]}
{"id": "C107", "title": "Inverse iteration answers the eigenpair nearest to its shift", "statement": "From a start vector with a share in the eigenvector nearest to the shift, inverse iteration ends and answers a value close to that eigenvalue and a vector close to that eigenvector; in particular the search, which shifts by the midpoint of a bracket holding one eigenvalue, answers that eigenvalue.", "quantifier": "all assembled systems of any size with symmetric matrices and a complete set of eigenvectors, all hash orders, all shifts, all start vectors, all brackets", "why_tests_cant": "The start vector is drawn at random, so a run that stops between two eigenvalues is met rarely and cannot be repeated; termination for every start and shift is a statement about infinitely many iterations.", "anchors": ["src/matrix/solve/eigen.rs:197-221", "src/matrix/solve/eigen.rs:313-388"]}
{"id": "C108", "title": "Accepted outlines are simple, and refining keeps them simple", "statement": "Storing an outline fails exactly when two of its sides without a common corner meet, or a side meets a segment already stored; so the sides of an accepted outline meet only at common corners, and no sequence of splits and divisions, which store their pieces unchecked, makes two segments meet elsewhere.", "quantifier": "all outlines of any number of corners, all boundaries drawn before, all crossing tests, all histories of splits and divisions with any positive lengths", "why_tests_cant": "The check runs against every stored segment and is skipped for segments with a common end; an accepted outline that overlaps itself, or pieces that cross after many refinements, only appears for special corners or long histories.", "anchors": ["src/mesher/bounds.rs:184-212", "src/mesher/bounds.rs:258-292", "src/mesher/bounds.rs:321-470"]}
{"id": "C109", "title": "The sight test sees the outlines as drawn", "statement": "The sight test always answers once an outline is stored, and answers yes exactly when every wall of the outlines as they were drawn that meets the line from the middle of the edge to the vertex passes within 1e-6 of one of its two ends; no sequence of splits, divisions, added points, supports and loads changes the answer.", "quantifier": "all boundaries reachable by any history, all edges and vertices, all geometric predicates; the invariance also in floating point", "why_tests_cant": "Histories of refinement are unbounded and every pair of edge and vertex would have to be asked before and after.", "anchors": ["src/mesher/bounds.rs:294-319", "src/mesher/bounds.rs:478-481"]}
{"id": "C110", "title": "The quality mesher leaves no wall encroached", "statement": "After the wall splitting phase, and after the whole quality mesher, no vertex other than its ends lies in the circle over a wall and in sight of the middle of that wall.", "quantifier": "all outlines with walls of positive length, all triangulations they start from, all hash orders, all size limits, all numbers of splits", "why_tests_cant": "A wall is examined again only by the vertices still on the stack; whether a corner examined earlier comes into sight after a later split depends on the order of the corners and on the shape of the outline.", "anchors": ["src/mesher/plane.rs:414-433", "src/mesher/plane.rs:455-534"]}
{"id": "C111", "title": "What a pixel of the picture shows", "statement": "In a finished picture the marker of the last node within one pixel decides the colour of a pixel, by the colour number of the node; without a node nearby a pixel on a mesh line is green; a pixel with neither shows the colour of the last triangle that covers it, as in the picture without the wireframe; a pixel covered by nothing shows the background.", "quantifier": "all pictures made through the public interface whose points do not all project onto one point, all image sizes from 25, all colour maps, all pixels", "why_tests_cant": "The layers overwrite each other in the order of drawing, and which element and node covers a pixel last depends on the whole mesh.", "anchors": ["src/visual/mod.rs:164-221", "src/visual/color.rs:3-10"]}
{"id": "C112", "title": "Colour maps tell values apart", "statement": "Two values of the unit interval get different colours from the heat map when they are 2/765 apart, and from the rainbow map when they are 1/510 apart.", "quantifier": "all pairs of real numbers in the unit interval", "why_tests_cant": "The maps are continuous with rounding at the end; a range of values that share a colour shows only for particular values.", "anchors": ["src/visual/color.rs:12-43"]}
{"id": "C113", "title": "Exactly the well-formed boundary files are read", "statement": "A text is parsed as a list of boundary items exactly when it is the texts of these items with single newlines between them, where the texts of items follow a grammar written independently of the parser; a file that is read into a boundary is such a text, every label it uses is known, and the boundary is what the items say.", "quantifier": "all texts, all number formats and geometric predicates", "why_tests_cant": "Whether the parser accepts something outside the grammar is a statement about all texts.", "anchors": ["src/file/bbnd.rs: bbnd_to_bounds, parse_file"]}
{"id": "C114", "title": "Triangles have empty circles", "statement": "No vertex that is left of the edge a triangle of the initial triangulation was built on and sees its middle lies strictly inside the circle through the corners of the triangle; an edge is left without a triangle only when no vertex is left of it and sees it; inserting a vertex leaves no inner edge away from it whose two opposite corners lie inside each other's circle.", "quantifier": "all outlines, all orders of picking edges, all inserted vertices", "why_tests_cant": "A statement about all outlines and all pairs of triangle and vertex; violations depend on rounding at particular coordinates.", "anchors": ["src/mesher/plane.rs:256-370", "src/spatial/predicates.rs:67-100"]}
{"id": "C115", "title": "A picture shows every side of the mesh once", "statement": "Drawing a mesh never fails once there is a vertex; two nodes are joined by a line exactly when they are two corners of one triangle, every line is listed once and in one direction only; the same is expected of the pictures of results.", "quantifier": "all states the mesher can reach, all traversal orders of the hash tables", "why_tests_cant": "Which direction of a side is kept depends on the traversal order of a hash table, and every mesh has its own sides.", "anchors": ["src/mesher/plane.rs:536-566", "src/element/mod.rs:340-359", "src/element/mod.rs:431-439"]}
{"id": "C116", "title": "Stored rows of envelope matrices", "statement": "The stored part of a row of a lower envelope matrix ends at the diagonal, holds exactly the values reading gives, and every column outside it reads as zero; the variant without the diagonal leaves out just the last value; replacing the stored part changes this row and no other, and is refused for another length.", "quantifier": "all matrices reachable through constructors, writes and in-place operations, all rows", "why_tests_cant": "Row offsets accumulate over all earlier rows; an off-by-one shows only for particular envelopes.", "anchors": ["src/matrix/sparse.rs:148-233"]}
{"id": "C117", "title": "Exactly the well-formed mesh files are read", "statement": "A mesh file is read exactly when its lines, without blank lines and comments, are the header, node, element, support, force and line-force sections in this order, each with a right count and well-formed lines, nodes and elements numbered from zero; everything after the last section is ignored. The assemblage has the nodes of the file in order, one element per element line with the named corners, the supports of each node combined in the order of the file, and the last force given for each node or side; it is built exactly if every index names a node and every element has three corners and a Jacobian ratio that is not negative.", "quantifier": "all texts, all numbers of nodes, elements, supports and forces, all number formats", "why_tests_cant": "The set of accepted texts is infinite in every section; tests try a handful of files.", "anchors": ["src/file/bmsh.rs:26-291", "src/element/mod.rs:122-209"]}
{"id": "C118", "title": "The computed displacements obey the energy theorems", "statement": "Whenever the linear study returns displacements by a method that applies, they have the least potential energy (stored energy less work of the load) among all displacements the supports allow, and strictly the least if the mesh is held. The work of the load equals what is stored and is not negative. Two load cases on one body with the same supports do equal work on each other's displacements. If one load vector is a combination of two others, its displacements are that combination of theirs. Under the same load, a body with more supports yields no more work.", "quantifier": "all meshes, materials, supports, loads, hash orders, both direct solvers, all competing displacements", "why_tests_cant": "The minimum is over an infinite space of displacements, and reciprocity relates all pairs of load cases.", "anchors": ["src/element/mod.rs:215-323", "src/element/element.rs:208-260", "src/element/constraint.rs:71-200"]}
{"id": "C119", "title": "Displacements do not depend on where the body lies", "statement": "Take a body and a copy of it that is turned, shifted and enlarged (a body of revolution: only shifted along its axis), with supports holding the turned directions. If the load vector of the copy is the turned load vector of the body, the linear study gives the copy exactly the turned displacements of the body. If the copy has the size of the body, turning every point force and line load turns the load vector.", "quantifier": "all meshes with elements of non-zero area, materials, supports including angled ones, loads, frames, hash orders, both direct solvers", "why_tests_cant": "The claim relates two runs for a continuum of angles, shifts and sizes and for all meshes.", "anchors": ["src/element/mod.rs:215-323", "src/element/element.rs:96-260", "src/element/constraint.rs:71-200", "src/element/strain.rs:1-60"]}
{"id": "C120", "title": "The reported equivalent stress does not depend on the frame", "statement": "A body and its copy in another place, with supports and loads moved along, have the same equivalent stresses.", "quantifier": "all meshes, materials, supports, loads and frames", "why_tests_cant": "The claim relates two runs for a continuum of frames; the existing tests never turn a loaded body.", "anchors": ["src/element/stress.rs:102-126", "src/element/mod.rs:402-428", "src/element/element.rs:262-300"]}
{"id": "C121", "title": "Equal means equal in content", "statement": "Two graphs, diagonal matrices or fixed-size matrices compare equal exactly if they have the same shape and the same content in every place that can be read.", "quantifier": "all graphs, edge lists, shapes and entries", "why_tests_cant": "A test compares a few values; here every pair that can be built is compared, including those that differ only where nothing can be read.", "anchors": ["src/matrix/graph.rs:231-235", "src/matrix/buffer.rs:558-589", "src/matrix/buffer.rs:679-687"]}
{"id": "C122", "title": "The counts count what they say", "statement": "The masked degree of a vertex is the number of its neighbours in the mask; the number of non-zeros of a compressed matrix built from values is the number of non-zero values, and that of an envelope matrix the number of stored entries; the scaled product of a diagonal is the product times the power of the scale, and the mean times the number of entries is their sum.", "quantifier": "all graphs, masks, vertices, matrices, values and scales", "why_tests_cant": "The counts are over arbitrary graphs and matrices; the existing tests do not call these functions.", "anchors": ["src/matrix/graph.rs:131-137", "src/matrix/sparse.rs:88-90", "src/matrix/sparse.rs:312-314", "src/matrix/buffer.rs:155-161"]}
{"id": "C123", "title": "A triangle at a vertex is found exactly if there is one", "statement": "In every state the mesher reaches, looking for a triangle at a vertex gives the two other vertices of a triangle of the mesh in its orientation, and gives none only if the vertex is in no triangle.", "quantifier": "all meshing runs, predicates and vertices", "why_tests_cant": "The lookup goes through a cache that is updated by every insertion and removal; a stale entry shows only after particular sequences of operations.", "anchors": ["src/mesher/plane.rs:221-247"]}
{"id": "C124", "title": "The picture of an outline shows each segment once", "statement": "The picture of an outline has its vertices as points, in order, and an edge between two points exactly for every segment between these vertices, each once, in whatever order the set of segments is read; an outline without vertices is refused by a panic.", "quantifier": "all outlines that can be built and all orders in which the hash set is read", "why_tests_cant": "The order of a hash set changes from run to run; the existing tests only look at pictures.", "anchors": ["src/mesher/bounds.rs:507-527"]}
{"id": "C125", "title": "Supports balance the load", "statement": "The nodal forces missing to equilibrium at the computed displacements act at supported nodes only, only in the directions these hold, and their resultant and moment are opposite to those of the load.", "quantifier": "all meshes, materials, supports, loads and hash orders for which the study returns", "why_tests_cant": "Statics of every mesh and load; the existing tests do not compute support reactions.", "anchors": ["src/element/mod.rs:230-400", "src/element/constraint.rs:1-189", "src/element/element.rs:150-260"]}
{"id": "C126", "title": "Options left out mean their defaults", "statement": "Running a command without an option does exactly what running it with the option's default does: densegauss, scale 50, displacement, picture out.png of 1024 pixels, mesh drawn, chew, mesh file out.bmsh.", "quantifier": "all commands, files, argument lists, number formats, rasters and hash orders", "why_tests_cant": "There are hundreds of combinations of given and omitted options for every input file; the existing tests never call the commands.", "anchors": ["src/main.rs:36-137", "src/main.rs:139-203", "src/main.rs:205-276"]}
{"id": "C127", "title": "Materials known by name", "statement": "A name is known exactly if it is AL6061 or TEST; the material it stands for carries that name and the documented constants (68.9 GPa, 0.33, 2700 kg/m3; 1, 0, 1), and is physically admissible under every strain condition with a positive density.", "quantifier": "all names, strain conditions and ordered fields; binary64 for the constants themselves", "why_tests_cant": "A wrong constant passes every test that only compares runs with each other; admissibility is what positivity of all stiffness matrices rests on.", "anchors": ["src/element/material.rs:10-48"]}
{"id": "C128", "title": "The modal study solves the vibration problem of the supported body", "statement": "The matrices handed to the eigenvalue solver have as eigenvalues exactly the squared frequencies at which the supported body can vibrate (elastic work equals mu times inertial work for every displacement the supports allow); each returned shape respects the supports, is a vibration of frequency mu exactly if the solver's vector is an eigenvector for mu, and keeps its stiffness and mass products. For a held body of positive density and counterclockwise solid elements every squared frequency is positive, and shapes of different frequencies are orthogonal in mass and in stiffness.", "quantifier": "all meshes, supports (also at an angle), numbers of modes, search outcomes and hash orders; ordered fields", "why_tests_cant": "Tests compare a few frequencies; a wrong transformation of the mass matrix or of the shapes shows only with particular supports.", "anchors": ["src/element/mod.rs:230-243", "src/element/mod.rs:312-338", "src/element/constraint.rs", "src/element/element.rs:230-247"]}
{"id": "C129", "title": "Vibrations do not depend on where the body lies", "statement": "Turning and shifting the body together with its supports turns every vibration shape and leaves its frequency as it was.", "quantifier": "all meshes, supports, rotations, shifts and displacement shapes; ordered fields", "why_tests_cant": "Every test mesh lies in one place; an error in one direction of the mass or stiffness integration is symmetric there.", "anchors": ["src/element/mod.rs:214-243", "src/element/mod.rs:312-338", "src/element/element.rs:208-247"]}
{"id": "C130", "title": "A larger body vibrates more slowly", "statement": "Enlarging a plane body lam times (same thickness, material and supports) divides its squared natural frequencies by lam squared.", "quantifier": "all meshes, supports and sizes", "why_tests_cant": "The test suite holds one mesh per size, and no frequency is known independently.", "anchors": ["src/element/element.rs:230-247", "src/element/mod.rs:230-243", "src/element/mod.rs:312-338"]}
{"id": "C131", "title": "Which meshes the modal study accepts", "statement": "If every node left free lies in an element, the system of the modal study can be set up (from the constraints through renumbering to the envelope matrices) exactly if at least two unknowns are left and the nodes left free hang together through elements; on any other mesh no number of modes is returned.", "quantifier": "all meshes, supports and hash orders of both stages; ordered fields", "why_tests_cant": "Test meshes are simply connected plates; a body whose free nodes are cut apart by its fixed nodes is held and of one piece, yet stops the study.", "anchors": ["src/element/mod.rs:312-338", "src/matrix/solve/eigen.rs:138-162", "src/matrix/solve/mod.rs:143-172", "src/matrix/graph.rs:207-260"]}
{"id": "C132", "title": "The pivots count the vibrations of the body", "statement": "For a one-piece body of positive density with counterclockwise solid elements, the number of negative pivots found at a shift mu, when only the last may vanish, is the number of its vibrations (with multiplicity, mutually orthogonal in mass, as many as there are unknowns) whose squared frequency is below mu.", "quantifier": "all meshes, supports (also at an angle), shifts, complete families of vibrations and hash orders; ordered fields", "why_tests_cant": "The search relies on the counts to miss no mode; tests see only that the modes found are plausible.", "anchors": ["src/matrix/solve/eigen.rs:185-195", "src/element/mod.rs:312-338", "src/matrix/solve/direct.rs:158-200"]}
{"id": "C133", "title": "How displacements and stresses depend on modulus, thickness and load", "statement": "If the same mesh is given kE times the modulus, kT times the thickness (any density, same Poisson ratio) and s times the load, the displacements are s/(kE kT) times as large; if the load grows like the thickness, the equivalent stress at every node is unchanged; and the load vector itself depends neither on material nor on thickness.", "quantifier": "all meshes, supports, loads, materials, factors kE, kT not 0, hash orders and solvers of the linear study; ordered fields with cos^2+sin^2=1 (the load vector: any arithmetic, so f64)", "why_tests_cant": "Each test runs one material and one thickness; a modulus or thickness entering one matrix with the wrong power gives plausible results for that one.", "anchors": ["src/element/element.rs:114-176", "src/element/element.rs:208-228", "src/element/element.rs:249-329", "src/element/strain.rs:1-132", "src/element/mod.rs:215-310"]}
{"id": "C134", "title": "How vibrations depend on modulus, thickness and density", "statement": "If the same mesh is given kE times the modulus, kR times the density and kT times the thickness, its vibrations are the same shapes with kE/kR times the squared frequency, and no others.", "quantifier": "all meshes, supports, materials, factors not 0, shapes and frequencies; ordered fields", "why_tests_cant": "A thickness or density left out of the mass matrix still gives frequencies of the right order for the one body tested.", "anchors": ["src/element/element.rs:208-247", "src/element/mod.rs:215-243", "src/element/mod.rs:312-338"]}
{"id": "C135", "title": "Stress tensors turn with the body", "statement": "If a plane body is shifted, turned and enlarged lam times and its load vector and supports are turned with it, the stresses computed at every node are the tensors of the original body seen from the turned axes, divided by lam; in particular the sum and the product of the principal stresses at each node do not depend on where the body lies.", "quantifier": "all meshes of non-degenerate elements in plane stress or plane strain, frames, supports (also at an angle), loads, hash orders and solvers; ordered fields with cos^2+sin^2=1", "why_tests_cant": "Every test looks at a body along the axes; a shear entering with the wrong sign or factor shows only when the same body is computed turned.", "anchors": ["src/element/element.rs:298-329", "src/element/strain.rs:1-132", "src/element/mod.rs:402-420", "src/element/stress.rs:1-101"]}
{"id": "C136", "title": "The reported stresses balance the loads", "statement": "In plane stress and plane strain each element reports one stress tensor at its three corners, and in every displacement the supports allow, the work of these stresses over the elements (area times thickness times stress times strain of that displacement) equals the work of the load vector.", "quantifier": "all meshes of non-degenerate elements, supports, materials, thicknesses, loads, admissible displacements, hash orders and solvers; ordered fields with cos^2+sin^2=1", "why_tests_cant": "Stresses and stiffness are computed by different code; a factor missing in one of them gives plausible stresses that carry no part of the load, which no sampled value shows.", "anchors": ["src/element/element.rs:208-228", "src/element/element.rs:298-329", "src/element/mod.rs:245-310", "src/element/mod.rs:402-420"]}
{"id": "C137", "title": "Balanced stresses determine the result", "statement": "Conversely to C136, in plane stress and plane strain a displacement the supports allow, whose element stresses do the work of the loads in every allowed displacement, is the displacement the program computes. In particular a body whose loads are carried by an affine displacement with the same stress everywhere is computed exactly (patch test of the whole study).", "quantifier": "all meshes of non-degenerate elements, supports, materials, thicknesses, loads, affine fields, hash orders and solvers; ordered fields with cos^2+sin^2=1", "why_tests_cant": "A patch test checks one mesh and one state; a wrong weight at the shared sides of elements can cancel in it and show on another mesh.", "anchors": ["src/element/element.rs:208-228", "src/element/element.rs:298-329", "src/element/mod.rs:215-310", "src/element/mod.rs:340-420"]}
{"id": "C138", "title": "Mean stress of a body", "statement": "In plane stress and plane strain the reported element stresses, summed over the volume, are given by the forces at the nodes (loads and reactions of the supports) times the coordinates of the nodes: sx by x times fx, sy by y times fy, txy by y times fx and equally by x times fy.", "quantifier": "all meshes of non-degenerate elements, supports, materials, thicknesses, loads, hash orders and solvers; ordered fields with cos^2+sin^2=1", "why_tests_cant": "An identity of statics between the stress code, the stiffness code and the supports that holds of every mesh; a test checks single stress values.", "anchors": ["src/element/element.rs:208-228", "src/element/element.rs:298-329", "src/element/mod.rs:215-310", "src/element/mod.rs:402-420"]}
