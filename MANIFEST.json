{
 "claims": [
  {
   "property": "C01",
   "status": "proved",
   "theorems": [
    "C01_dense_read_after_write",
    "C01_dense_zeros"
   ],
   "note": "Any scalar type, hence also f64."
  },
  {
   "property": "C02",
   "status": "proved",
   "theorems": [
    "C02_dense",
    "C02_lower",
    "C02_upper",
    "C02_diagonal",
    "C02_compressed_row",
    "C02_lower_envelope",
    "C02_bi_envelope"
   ],
   "note": "Any scalar type; reachability covers every constructor argument and any sequence of writes and in-place operations; sizes are mathematical naturals here (see C03 for wrap-around)."
  },
  {
   "property": "C03",
   "status": "partial",
   "theorems": [
    "C03_refuted",
    "C03_debug",
    "C03_fits"
   ],
   "note": "False in release builds: a 2^32 x 2^32 request wraps to an empty buffer and an accepted read is out of bounds. Proved: debug builds panic instead, and all builds are right when the byte size fits."
  },
  {
   "property": "C04",
   "status": "proved",
   "theorems": [
    "C04_iteration",
    "C04_indices",
    "C04_equality",
    "C04_indices_zero_columns_refuted"
   ],
   "note": "Positions iterator proved for at least one column; for zero columns it yields non-existent positions (refuted separately)."
  },
  {
   "property": "C05",
   "status": "proved",
   "theorems": [
    "C05_product",
    "C05_elementwise"
   ],
   "note": "Any scalar type; sums in the order the code adds them."
  },
  {
   "property": "C06",
   "status": "proved",
   "theorems": [
    "C06_forward",
    "C06_backward",
    "C06_refuses"
   ],
   "note": "Exact arithmetic over any field; includes uniqueness of the solution."
  },
  {
   "property": "C07",
   "status": "proved",
   "theorems": [
    "C07_lower",
    "C07_upper"
   ],
   "note": "Exact arithmetic over any field; two-sided."
  },
  {
   "property": "C08",
   "status": "proved",
   "theorems": [
    "C08_lu"
   ],
   "note": "Exact arithmetic over any field; pivot condition stated as non-singular leading blocks."
  },
  {
   "property": "C09",
   "status": "proved",
   "theorems": [
    "C09_determinant",
    "C09_dispatch",
    "C09_determinant_mathcomp"
   ],
   "note": "Exact arithmetic over any ordered field; determinant characterised as the multilinear alternating normalised row function, and instantiated with the library determinant."
  },
  {
   "property": "C10",
   "status": "proved",
   "theorems": [
    "C10_inverse"
   ],
   "note": "Exact arithmetic over any field, two-sided inverse."
  },
  {
   "property": "C100",
   "status": "proved",
   "theorems": [
    "C100_solver",
    "C100_double"
   ],
   "note": "rounded tier: no overflow or underflow"
  },
  {
   "property": "C101",
   "status": "proved",
   "theorems": [
    "C101_element",
    "C101_mesh"
   ],
   "note": "exact arithmetic: one element over any field, meshes over any ordered field"
  },
  {
   "property": "C102",
   "status": "proved",
   "theorems": [
    "C102_shape",
    "C102_total"
   ],
   "note": "every arithmetic including binary64"
  },
  {
   "property": "C103",
   "status": "proved",
   "theorems": [
    "C103_sweep",
    "C103_ends"
   ],
   "note": "sweep over any field, termination over the reals"
  },
  {
   "property": "C104",
   "status": "partial",
   "theorems": [
    "C104_rounds_refuted",
    "C104_accuracy_refuted",
    "C104_partial",
    "C104_residual_partial"
   ],
   "note": "False in binary64: one positive definite system exhausts the rounds, another is accepted at about 1% of the solution. Over the reals an accepted answer is closer to the solution than the zero vector, in energy, and its residual is bounded by the tolerance times the norms of the matrix row and the answer."
  },
  {
   "property": "C105",
   "status": "partial",
   "theorems": [
    "C105_refuted",
    "C105_partial"
   ],
   "note": "False in binary64: on a positive definite system of four unknowns with small whole coefficients the default solver answers -1.5 for 5/21, because pivots are chosen by signed value. C105_partial: rounded arithmetic with any unit roundoff, the answer solves a system perturbed by at most 3nu/(1-3nu) times the product of the computed factors, and its distance to the solution follows; missing is a bound of these factors by the matrix, which does not exist."
  },
  {
   "property": "C106",
   "status": "partial",
   "theorems": [
    "C106_refuted",
    "C106_bracket_partial",
    "C106_exact_partial"
   ],
   "note": "False in binary64: one positive definite system of three unknowns, a shift at least 1/256 of the largest eigenvalue away from every eigenvalue, two eigenvalues below it and the code counts one, because a small pivot destroys the rest. C106_bracket_partial: rounded arithmetic with any unit roundoff, the count lies between the true counts at two shifts whose distance is bounded by the computed factors; C106_exact_partial: the count is right if no eigenvalue is that close. Missing is a bound of these factors by the matrix, which does not exist."
  },
  {
   "property": "C107",
   "status": "partial",
   "theorems": [
    "C107_refuted",
    "C107_converges_partial",
    "C107_bracket_partial"
   ],
   "note": "False in binary64: for stiffness [[3,-1],[-1,3]] and unit masses, with values 2 and 4, the search answers 2.79 for the lowest, because the test compares successive quotients only and a start exists for which they stall. C107_converges_partial: over the reals the iteration ends for every start with a share in the nearest value, and the errors of value and vector are bounded by the shares of the start and powers of the ratio of distances; C107_bracket_partial: the same for the midpoint of a bracket with one value, without earlier pairs. Missing is a bound that does not depend on the start, which does not exist."
  },
  {
   "property": "C108",
   "status": "partial",
   "theorems": [
    "C108_refuted",
    "C108_segment",
    "C108_polygon",
    "C108_checked",
    "C108_simple_partial",
    "C108_refine_partial"
   ],
   "note": "False: the check skips segments with a common end, so the outline (0,0),(2,0),(1,0), which runs back over itself, is accepted whatever the crossing test (C108_refuted). C108_segment and C108_polygon: exactly which segments and outlines are refused, for every crossing test (symmetric, for outlines); C108_checked: sides without a common corner never meet in an accepted drawing. C108_simple_partial: with a test that sees every common point, real coordinates and no overlap at common corners the drawing is simple; C108_refine_partial: over the reals every history of splits and divisions keeps a simple drawing simple. Missing is simplicity without the hypothesis on common corners, which is false."
  },
  {
   "property": "C109",
   "status": "proved",
   "theorems": [
    "C109_visible",
    "C109_refine"
   ],
   "note": "C109_visible over the reals, for every crossing test and distance function; C109_refine in every arithmetic, also binary64. The predicates of the external crate spacemath are parameters."
  },
  {
   "property": "C11",
   "status": "partial",
   "theorems": [
    "C11_refuted",
    "C10_inverse"
   ],
   "note": "False of the code: no pivoting, so an involutive permutation matrix is inverted to NaN. The part that holds is C10."
  },
  {
   "property": "C110",
   "status": "partial",
   "theorems": [
    "C110_refuted",
    "C110_walls_partial",
    "C110_mesh_partial"
   ],
   "note": "False: for a box with a spike from above and a dent from below, in binary64, the mesher returns with a wall that its own test finds encroached by a corner (C110_refuted): the corner was examined while the middle of the longer wall was out of its sight, and is not examined again after the split. C110_walls_partial and C110_mesh_partial: over the reals, for every geometry, a vertex in the circle over a wall was hidden from the middle of a segment that contains the wall; the second for the corners and the vertices added inside. Missing is exactly that case, and after the refinement loop the vertices put on walls."
  },
  {
   "property": "C111",
   "status": "proved",
   "theorems": [
    "C111_layers"
   ],
   "note": "Real arithmetic; the pixels of nodes are those of C66. What is covered by a triangle is stated by the rows between its rasterised sides."
  },
  {
   "property": "C112",
   "status": "proved",
   "theorems": [
    "C112_heat",
    "C112_rainbow",
    "C112_channels"
   ],
   "note": "Real arithmetic; C112_channels gives the exact channels of the rainbow map."
  },
  {
   "property": "C113",
   "status": "proved",
   "theorems": [
    "C113_grammar",
    "C113_accepted",
    "C113_number"
   ],
   "note": "Any arithmetic, number format and geometric predicates. The combinators of the crate nom are modelled by hand."
  },
  {
   "property": "C114",
   "status": "partial",
   "theorems": [
    "C114_refuted",
    "C114_apex_partial",
    "C114_grid_partial",
    "C114_insert_partial",
    "C114_side"
   ],
   "note": "False in binary64: C114_refuted gives four whole-number corners far from the origin. Proved in exact arithmetic: the initial triangulation over every ordered field up to near-singular in-circle arrays, without that exception for real coordinates on a grid, and that point insertion keeps the inner edges away from the new vertex. Missing: vertices behind the base edge, edges ending in an inserted vertex."
  },
  {
   "property": "C115",
   "status": "partial",
   "theorems": [
    "C115_mesh",
    "C115_corners",
    "C115_refuted",
    "C115_result_partial"
   ],
   "note": "Proved for pictures of meshes (C115_mesh). False for pictures of results: C115_refuted, the assembled quadrilateral lists its diagonal in both directions. C115_result_partial characterises their lines exactly."
  },
  {
   "property": "C116",
   "status": "proved",
   "theorems": [
    "C116_row",
    "C116_out",
    "C116_write"
   ],
   "note": "Any scalar type."
  },
  {
   "property": "C117",
   "status": "proved",
   "theorems": [
    "C117_grammar",
    "C117_built",
    "C117_accepted"
   ],
   "note": "Any scalar type and number format: exact grammar of accepted mesh files and exact description of the assemblage built from them."
  },
  {
   "property": "C118",
   "status": "proved",
   "theorems": [
    "C118_least",
    "C118_real",
    "C118_work",
    "C118_reciprocal",
    "C118_superpose",
    "C118_supports"
   ],
   "note": "Ordered fields whose sine and cosine satisfy the Pythagorean identity, and the reals; exact arithmetic, for every study that returns by dense Gauss with non-zero pivots or by Cholesky on a held mesh."
  },
  {
   "property": "C119",
   "status": "proved",
   "theorems": [
    "C119_moved",
    "C119_load",
    "C119_turned",
    "C119_real"
   ],
   "note": "Ordered fields whose sine and cosine satisfy the Pythagorean identity, and the reals; exact arithmetic, for every pair of studies that return by dense Gauss with non-zero pivots or by Cholesky on a held mesh. Line loads must be given in corresponding order, since their shares overwrite each other (C44)."
  },
  {
   "property": "C12",
   "status": "proved",
   "theorems": [
    "C12_gauss",
    "C12_refuses"
   ],
   "note": "Exact arithmetic over any ordered field; unique solution."
  },
  {
   "property": "C120",
   "status": "partial",
   "theorems": [
    "C120_refuted",
    "C120_stress_refuted",
    "C120_shift_partial"
   ],
   "note": "False of the code: the plane formula sqrt((sx-sy)^2 + 3 txy^2) is not an invariant of the stress tensor. One pulled triangle described in two frames (all hypotheses of C119 hold) is reported with 10.39 and with 11.88. Shown: shifting a body changes neither displacements nor equivalent stresses."
  },
  {
   "property": "C121",
   "status": "partial",
   "theorems": [
    "C121_const_refuted",
    "C121_vertices_refuted",
    "C121_graphs_partial",
    "C121_lists",
    "C121_diagonal",
    "C121_index",
    "C121_const_partial"
   ],
   "note": "False of the code: fixed-size matrices also compare the unused rest of their buffers, so that two of shape 1x2 in buffers of 4 with the same entries differ; graphs built from edges forget trailing vertices without edges, so that graphs on 2 and on 5 vertices are equal. Shown: graphs built from edges are equal exactly if the same different vertices are joined, graphs built from lists exactly if the lists are; diagonal matrices, and fixed-size matrices that fill their buffers, exactly if shapes and all entries agree. Structural, so f64 included."
  },
  {
   "property": "C122",
   "status": "proved",
   "theorems": [
    "C122_degree_masked",
    "C122_compressed",
    "C122_labeled",
    "C122_envelope",
    "C122_product"
   ],
   "note": "Structural, so f64 included; C122_product for ordered fields."
  },
  {
   "property": "C123",
   "status": "proved",
   "theorems": [
    "C123_found",
    "C123_finds"
   ],
   "note": "Structural: every reachable state of the mesher, every predicate."
  },
  {
   "property": "C124",
   "status": "proved",
   "theorems": [
    "C124_outline",
    "C124_empty"
   ],
   "note": "Structural: every outline that can be built, every order of the hash set."
  },
  {
   "property": "C125",
   "status": "proved",
   "theorems": [
    "C125_directions",
    "C125_balance",
    "C125_total"
   ],
   "note": "Ordered fields whose sine and cosine satisfy the Pythagorean identity; exact arithmetic, for every study that returns by dense Gauss with non-zero pivots or by Cholesky on a held mesh. Moments and the sideways resultant balance in plane studies only: in an axisymmetric study these are not rigid motions."
  },
  {
   "property": "C126",
   "status": "proved",
   "theorems": [
    "C126_linear",
    "C126_mesh",
    "C126_modal"
   ],
   "note": "Structural, every scalar type. The documented default of each option is a table of the specification; the colour map has none (the code takes its own)."
  },
  {
   "property": "C127",
   "status": "proved",
   "theorems": [
    "C127_numbers",
    "C127_admissible",
    "C127_binary64"
   ],
   "note": "Ordered fields; the constants also in binary64, against the decimals of the source read by the model of f64 parsing."
  },
  {
   "property": "C128",
   "status": "proved",
   "theorems": [
    "C128_problem",
    "C128_positive",
    "C128_apart"
   ],
   "note": "Ordered fields with cos^2+sin^2=1 for C128_problem. Whether the vector found is an eigenvector is the subject of C33-C36; C128 says what it means for the body."
  },
  {
   "property": "C129",
   "status": "proved",
   "theorems": [
    "C129_moved"
   ],
   "note": "Ordered fields; plane conditions (axisymmetric bodies may be shifted along the axis)."
  },
  {
   "property": "C13",
   "status": "partial",
   "theorems": [
    "C13_spd_refuted",
    "C13_singular_refuted",
    "C12_gauss"
   ],
   "note": "False of the code: pivots are chosen by signed value and never tested. The part that holds is C12."
  },
  {
   "property": "C130",
   "status": "partial",
   "theorems": [
    "C130_refuted",
    "C130_same_partial",
    "C130_only_partial"
   ],
   "note": "False: the element mass matrix is integrated without the determinant of the Jacobian (C42), so a body twice as large gets the same frequencies; the triangle of C130_refuted has squared frequency 3 in both sizes and 3/4 is none of the larger one. C130_same_partial: shapes and frequencies are the same at every size; C130_only_partial: the division by lam^2 is found only where it changes nothing."
  },
  {
   "property": "C131",
   "status": "proved",
   "theorems": [
    "C131_starts",
    "C131_needed"
   ],
   "note": "Ordered fields. C131_flap: a held one-piece plate whose flap lies behind the fixed edge cannot be studied with any hash order."
  },
  {
   "property": "C132",
   "status": "proved",
   "theorems": [
    "C132_counts"
   ],
   "note": "Ordered fields with cos^2+sin^2=1. That a full family of vibrations exists is the spectral theorem, not proved; C132_example shows one and the counts 0, 1, 2."
  },
  {
   "property": "C133",
   "status": "proved",
   "theorems": [
    "C133_load",
    "C133_displacement",
    "C133_stress"
   ],
   "note": "Ordered fields with cos^2+sin^2=1; C133_load in any arithmetic, so in f64."
  },
  {
   "property": "C134",
   "status": "proved",
   "theorems": [
    "C134_vibration"
   ],
   "note": "Ordered fields. Both directions: no other vibrations arise."
  },
  {
   "property": "C135",
   "status": "proved",
   "theorems": [
    "C135_tensors",
    "C135_invariants"
   ],
   "note": "Ordered fields with cos^2+sin^2=1, 1 - Poisson ratio not 0. The equivalent stress formed from these tensors does depend on the frame (C120)."
  },
  {
   "property": "C136",
   "status": "proved",
   "theorems": [
    "C136_virtual_work",
    "C136_affine"
   ],
   "note": "Ordered fields with cos^2+sin^2=1. The hypothesis that a field is affine on each element holds of every displacement (C136_affine). Element stresses, before averaging at the nodes."
  },
  {
   "property": "C137",
   "status": "proved",
   "theorems": [
    "C137_balanced",
    "C137_affine_state"
   ],
   "note": "Ordered fields with cos^2+sin^2=1. The loads of an affine state enter as the load vector; the example pulls two triangles by a line load."
  },
  {
   "property": "C138",
   "status": "proved",
   "theorems": [
    "C138_mean"
   ],
   "note": "Ordered fields with cos^2+sin^2=1. Element stresses, before averaging at the nodes."
  },
  {
   "property": "C14",
   "status": "partial",
   "theorems": [
    "C14_from_flat",
    "C14_from_labeled",
    "C14_product",
    "C14_zeros_refuted"
   ],
   "note": "The zero matrix cannot be read (refuted). Labelled values are taken to have distinct in-range labels, in any order."
  },
  {
   "property": "C15",
   "status": "proved",
   "theorems": [
    "C15_lower_envelope",
    "C15_bi_envelope",
    "C15_refuses"
   ],
   "note": "Any scalar type, all hash traversal orders."
  },
  {
   "property": "C16",
   "status": "partial",
   "theorems": [
    "C16_read_write",
    "C16_permute",
    "C16_mask",
    "C16_transposed_square",
    "C16_product",
    "C16_transposed_refuted"
   ],
   "note": "All hold for every hash order except transposition of non-square matrices, which keeps the shape (refuted); the square case is proved."
  },
  {
   "property": "C17",
   "status": "proved",
   "theorems": [
    "C17_forward",
    "C17_transposed",
    "C17_window"
   ],
   "note": "Exact arithmetic over any field; includes uniqueness."
  },
  {
   "property": "C18",
   "status": "partial",
   "theorems": [
    "C18_refuted",
    "C18_prior_contents"
   ],
   "note": "False of the code; C18_prior_contents states exactly how the prior contents enter."
  },
  {
   "property": "C19",
   "status": "proved",
   "theorems": [
    "C19_mul_vec",
    "C19_add_scaled"
   ],
   "note": "Exact arithmetic over any field. Row bounds must lie inside the matrix (the constructor does not check it)."
  },
  {
   "property": "C20",
   "status": "proved",
   "theorems": [
    "C20_cholesky"
   ],
   "note": "Real arithmetic. Every symmetric positive definite matrix with n >= 1 in lower envelope storage; the empty matrix makes the code panic."
  },
  {
   "property": "C21",
   "status": "proved",
   "theorems": [
    "C21_ldl"
   ],
   "note": "Any field; the only hypothesis is that the pivots met are non-zero."
  },
  {
   "property": "C22",
   "status": "proved",
   "theorems": [
    "C22_accepts",
    "C22_rejects"
   ],
   "note": "All index lists and slices."
  },
  {
   "property": "C23",
   "status": "proved",
   "theorems": [
    "C23_connected",
    "C23_disconnected"
   ],
   "note": "All finite graphs; the empty graph also fails."
  },
  {
   "property": "C24",
   "status": "proved",
   "theorems": [
    "C24_far_node",
    "C24_terminates"
   ],
   "note": "All finite graphs with repetition-free neighbour lists."
  },
  {
   "property": "C25",
   "status": "partial",
   "theorems": [
    "C25_from_edges",
    "C25_all_vertices",
    "C25_from_lists",
    "C25_refuted"
   ],
   "note": "Vertices after the last one with an edge are dropped (refuted); adjacency, order and absence of duplicates are proved, and the vertex count whenever the last vertex has an edge."
  },
  {
   "property": "C26",
   "status": "proved",
   "theorems": [
    "C26_assembly",
    "C26_order",
    "C26_from_matrices"
   ],
   "note": "Exact arithmetic of any field (the order of floating-point additions would matter)."
  },
  {
   "property": "C27",
   "status": "proved",
   "theorems": [
    "C27_solver"
   ],
   "note": "Real arithmetic; every symmetric positive definite connected system of at least two unknowns, every traversal order of the hash maps. Also proves that the answer is the only solution."
  },
  {
   "property": "C28",
   "status": "partial",
   "theorems": [
    "C28_refuted",
    "C28_disconnected",
    "C28_one_unknown",
    "C28_exactly_partial"
   ],
   "note": "False of the code: one-unknown, diagonal and disconnected systems panic for every hash order. C28_exactly_partial: over an ordered field with square roots, the symmetric positive definite systems answered are exactly those of two unknowns or more linked by stored coefficients."
  },
  {
   "property": "C29",
   "status": "partial",
   "theorems": [
    "C29_refuted",
    "C29_double",
    "C29_agree",
    "C29_reduce"
   ],
   "note": "False after reordering was requested (dense and iterative solvers answer in the new numbering, Cholesky panics). Without reordering the direct solvers agree where dense elimination meets no zero pivot."
  },
  {
   "property": "C30",
   "status": "proved",
   "theorems": [
    "C30_stops",
    "C30_fixed"
   ],
   "note": "Any field with an order test; the stopping test and the fixed points, and the residual as a function of the last step."
  },
  {
   "property": "C31",
   "status": "partial",
   "theorems": [
    "C31_refuted",
    "C31_direct"
   ],
   "note": "False for Gauss-Seidel in floating point (0/0). The direct solvers return zero."
  },
  {
   "property": "C32",
   "status": "proved",
   "theorems": [
    "C32_bookkeeping",
    "C32_split"
   ],
   "note": "Any ordered field; the system is arbitrary, hence so is its counting function. With counts that never decrease the lower end of bracket i counts exactly i. Hypothesis: the search returned."
  },
  {
   "property": "C33",
   "status": "proved",
   "theorems": [
    "C33_inertia"
   ],
   "note": "Any ordered field; all symmetric connected systems with a full set of eigenvectors; only the pivots before the last must be non-zero."
  },
  {
   "property": "C34",
   "status": "proved",
   "theorems": [
    "C34_normalised",
    "C34_start"
   ],
   "note": "Real arithmetic; M positive definite, non-zero pivots, start vector not a combination of the vectors removed from it. The iteration may also not converge (Fuel); nothing is returned then."
  },
  {
   "property": "C35",
   "status": "proved",
   "theorems": [
    "C35_gram_schmidt"
   ],
   "note": "Any field, any list length."
  },
  {
   "property": "C36",
   "status": "partial",
   "theorems": [
    "C36_termination_refuted",
    "C36_f64_refuted",
    "C36_distinct"
   ],
   "note": "False of the code: with a double eigenvalue the recursion never ends, in real arithmetic for the whole search from its start and in double precision from two neighbouring floats. With distinct eigenvalues and correct counts the recursion depth is bounded."
  },
  {
   "property": "C37",
   "status": "proved",
   "theorems": [
    "C37_element",
    "C37_assembled"
   ],
   "note": "Exact arithmetic over any field; every structure built by the public operations."
  },
  {
   "property": "C38",
   "status": "proved",
   "theorems": [
    "C38_plane",
    "C38_axisymmetric"
   ],
   "note": "Exact arithmetic over any field."
  },
  {
   "property": "C39",
   "status": "proved",
   "theorems": [
    "C39_element",
    "C39_assembled"
   ],
   "note": "Any ordered field; elements oriented anticlockwise with positive thickness or non-negative radii. Clockwise elements, which the code accepts (C48), have negative energy: see C39_example."
  },
  {
   "property": "C40",
   "status": "proved",
   "theorems": [
    "C40_strain"
   ],
   "note": "Exact arithmetic over any field."
  },
  {
   "property": "C41",
   "status": "proved",
   "theorems": [
    "C41_plane_stress",
    "C41_plane_strain",
    "C41_axisymmetric"
   ],
   "note": "Exact arithmetic over any field, non-degenerate material constants; both directions of the equivalence."
  },
  {
   "property": "C42",
   "status": "partial",
   "theorems": [
    "C42_refuted",
    "C42_partial"
   ],
   "note": "False of the code: the Jacobian determinant is missing, so the mass is that of a triangle of area one half. C42_partial states exactly what is computed."
  },
  {
   "property": "C43",
   "status": "proved",
   "theorems": [
    "C43_edge_load",
    "C43_refused"
   ],
   "note": "Real arithmetic."
  },
  {
   "property": "C44",
   "status": "partial",
   "theorems": [
    "C44_refuted",
    "C44_partial",
    "C44_exactly_partial",
    "C44_sum_partial",
    "C44_total_partial"
   ],
   "note": "False of the code: contributions overwrite each other, in hash order. The vector is characterised exactly instead: the last loaded edge in hash order decides at all nodes of its elements, giving half to each end and nothing to the third node. Under the restriction that no node gets two loads the sums and totals are right."
  },
  {
   "property": "C45",
   "status": "proved",
   "theorems": [
    "C45_fixed",
    "C45_sliding",
    "C45_total"
   ],
   "note": "Fixed components in every arithmetic including binary64; sliding supports over any field."
  },
  {
   "property": "C46",
   "status": "proved",
   "theorems": [
    "C46_adjoint",
    "C46_energy",
    "C46_span",
    "C46_equilibrium"
   ],
   "note": "Adjointness and energy over any field; span and equilibrium over the reals (needs the Pythagorean identity)."
  },
  {
   "property": "C47",
   "status": "partial",
   "theorems": [
    "C47_refuted",
    "C47_refuted_angle",
    "C47_partial"
   ],
   "note": "False of the code. Sequences of free, x and y supports combine as intended."
  },
  {
   "property": "C48",
   "status": "partial",
   "theorems": [
    "C48_refuted_clockwise",
    "C48_refuted_degenerate",
    "C48_all_accepted",
    "C48_partial"
   ],
   "note": "False of the code: clockwise elements are accepted, and degenerate ones in binary64. What is refused: missing nodes and nodes not in the plane."
  },
  {
   "property": "C49",
   "status": "partial",
   "theorems": [
    "C49_refuted_plane",
    "C49_refuted_sign",
    "C49_refuted_symmetry",
    "C49_partial",
    "C49_cauchy_partial",
    "C49_vector"
   ],
   "note": "The three parts on equivalent stress and the tensor are false of the code; the partial theorems state exactly when they hold. Reading of vectors is proved (structural tier)."
  },
  {
   "property": "C50",
   "status": "proved",
   "theorems": [
    "C50_equivalent",
    "C50_formula"
   ],
   "note": "Real arithmetic."
  },
  {
   "property": "C51",
   "status": "proved",
   "theorems": [
    "C51_average",
    "C51_stresses",
    "C51_nodes"
   ],
   "note": "Any ordered field; also for the nodal stresses of a structure."
  },
  {
   "property": "C52",
   "status": "proved",
   "theorems": [
    "C52_triangle",
    "C52_segment",
    "C52_orders",
    "C52_other_orders"
   ],
   "note": "Against Riemann integrals (Coquelicot). The stored constants of the segment rule are decimal roundings, hence the stated error for quadratic and cubic terms."
  },
  {
   "property": "C53",
   "status": "proved",
   "theorems": [
    "C53_pieces",
    "C53_fails",
    "C53_refuted_closed"
   ],
   "note": "Real arithmetic, lengths in [h, sqrt 3 h). With the upper end included (as a code comment has it) the failure part is false at lengths n*sqrt(3)*h; C53_refuted_closed is the witness."
  },
  {
   "property": "C54",
   "status": "proved",
   "theorems": [
    "C54_loops",
    "C54_base"
   ],
   "note": "Any arithmetic and any geometric predicates; all histories."
  },
  {
   "property": "C55",
   "status": "partial",
   "theorems": [
    "C55_split",
    "C55_divide_loads",
    "C55_divide_supports_partial",
    "C55_refuted"
   ],
   "note": "Splits and divided loads are proved; a divided support is not recorded on the last piece (refuted, binary64 witness)."
  },
  {
   "property": "C56",
   "status": "proved",
   "theorems": [
    "C56_history",
    "C56_states",
    "C56_meshers"
   ],
   "note": "Any arithmetic and any geometric predicates; all call histories and all states the meshers pass through."
  },
  {
   "property": "C57",
   "status": "proved",
   "theorems": [
    "C57_boundary",
    "C57_area"
   ],
   "note": "Boundary in any arithmetic with any predicates; area over any ordered field."
  },
  {
   "property": "C58",
   "status": "proved",
   "theorems": [
    "C58_boundary",
    "C58_area"
   ],
   "note": "Boundary in any arithmetic with any predicates and any hash order; area over any ordered field."
  },
  {
   "property": "C59",
   "status": "partial",
   "theorems": [
    "C59_refuted",
    "C59_partial"
   ],
   "note": "False of the code: the triangle table is not cleared, so a second run keeps the old triangles. C59_partial states exactly what a second run leaves."
  },
  {
   "property": "C60",
   "status": "proved",
   "theorems": [
    "C60_size",
    "C60_shape"
   ],
   "note": "The size criterion in any arithmetic as the negation of the code-level comparison (in binary64 a NaN radius also passes it); the shape criterion over any ordered field."
  },
  {
   "property": "C61",
   "status": "proved",
   "theorems": [
    "C61_equidistant",
    "C61_reported"
   ],
   "note": "Any ordered field."
  },
  {
   "property": "C62",
   "status": "proved",
   "theorems": [
    "C62_barycentric",
    "C62_containment"
   ],
   "note": "Any ordered field, non-degenerate triangles."
  },
  {
   "property": "C63",
   "status": "partial",
   "theorems": [
    "C63_circle",
    "C63_circle_complete",
    "C63_refuted"
   ],
   "note": "The circle half is proved; the sphere half is false of the code (the array squares the second coordinate twice), refuted by a witness."
  },
  {
   "property": "C64",
   "status": "proved",
   "theorems": [
    "C64_line"
   ],
   "note": "All integer endpoints."
  },
  {
   "property": "C65",
   "status": "partial",
   "theorems": [
    "C65_refuted",
    "C65_partial"
   ],
   "note": "False of the code: pixels with a zero coordinate are dropped. C65_partial: exactly those are, so lines between positive pixels are complete."
  },
  {
   "property": "C66",
   "status": "partial",
   "theorems": [
    "C66_refuted",
    "C66_inside_partial",
    "C66_aspect_partial"
   ],
   "note": "False in binary64 for points so close that the scaling overflows, and meaningless for points of space that project onto one point. Proved over the reals otherwise, for sizes from 25 to 2^31, including that every edge and marker is drawn completely."
  },
  {
   "property": "C67",
   "status": "proved",
   "theorems": [
    "C67_scale",
    "C67_heat",
    "C67_f64_refuted"
   ],
   "note": "Real arithmetic. In binary64 the range of the values may overflow (C67_f64_refuted)."
  },
  {
   "property": "C68",
   "status": "proved",
   "theorems": [
    "C68_round_trip",
    "C68_binary64",
    "C68_any"
   ],
   "note": "Any number format in which finite numbers print as decimal literals that read back. Over any ordered field without further conditions; in binary64 if no rounded triangle has a NaN area."
  },
  {
   "property": "C69",
   "status": "partial",
   "theorems": [
    "C69_refuted",
    "C69_partial",
    "C69_error_partial"
   ],
   "note": "False of the code: coordinates keep six decimals, loads three, thickness five (binary64 witness). C69_partial: numbers written in full come back unchanged; C69_error_partial: on the rationals the error is at most half a unit of the last decimal."
  },
  {
   "property": "C70",
   "status": "partial",
   "theorems": [
    "C70_accepted",
    "C70_inconsistent_partial",
    "C70_rejected_partial",
    "C70_refuted"
   ],
   "note": "Every accepted file has right counts and numbers, so inconsistent files are never accepted; if their lines are otherwise well formed they give an error. In full the claim is false: an inconsistent file with a bad line can panic (C70_refuted)."
  },
  {
   "property": "C71",
   "status": "proved",
   "theorems": [
    "C71_assemble",
    "C71_missing"
   ],
   "note": "Any arithmetic. Where several distributed supports meet, the node receives one of them, which one depends on the hash order."
  },
  {
   "property": "C72",
   "status": "proved",
   "theorems": [
    "C72_bijection",
    "C72_local"
   ],
   "note": "All nodes and elements."
  },
  {
   "property": "C73",
   "status": "proved",
   "theorems": [
    "C73_orientation"
   ],
   "note": "Any ordered field."
  },
  {
   "property": "C74",
   "status": "proved",
   "theorems": [
    "C74_ends"
   ],
   "note": "Any arithmetic, any predicates."
  },
  {
   "property": "C75",
   "status": "proved",
   "theorems": [
    "C75_ends"
   ],
   "note": "Any ordered field."
  },
  {
   "property": "C76",
   "status": "proved",
   "theorems": [
    "C76_chew",
    "C76_ruppert"
   ],
   "note": "Boundary in any arithmetic with any predicates; area over any ordered field."
  },
  {
   "property": "C77",
   "status": "proved",
   "theorems": [
    "C77_orthographic"
   ],
   "note": "Real arithmetic."
  },
  {
   "property": "C78",
   "status": "proved",
   "theorems": [
    "C78_fill"
   ],
   "note": "Real arithmetic, non-degenerate pixel triangles."
  },
  {
   "property": "C79",
   "status": "proved",
   "theorems": [
    "C79_reads"
   ],
   "note": "Any arithmetic, number format and geometric predicates."
  },
  {
   "property": "C80",
   "status": "partial",
   "theorems": [
    "C80_refuted",
    "C80_always_partial"
   ],
   "note": "False of the code: every file that is read is rejected when a newline follows it (C80_always_partial, any arithmetic)."
  },
  {
   "property": "C81",
   "status": "proved",
   "theorems": [
    "C81_extension",
    "C81_linear",
    "C81_modal",
    "C81_mesh"
   ],
   "note": "Any arithmetic, number format, file system and hash orders."
  },
  {
   "property": "C82",
   "status": "partial",
   "theorems": [
    "C82_mesh_refuted",
    "C82_linear",
    "C82_modal",
    "C82_mesh_partial"
   ],
   "note": "False of the mesh command: a boundary without material leaves its picture behind. Proved for the linear and modal commands, and for all other errors of the mesh command."
  },
  {
   "property": "C83",
   "status": "proved",
   "theorems": [
    "C83_linear",
    "C83_real"
   ],
   "note": "What is saved and printed, and that the numbers are the maxima, over any ordered field. That the displacements are the only equilibrium: densegauss if the elimination of the reduced matrix meets no zero pivot, cholesky over the reals if every displacement the supports allow stores energy. The iterative solver gaussseidel is not covered."
  },
  {
   "property": "C84",
   "status": "proved",
   "theorems": [
    "C84_ordered",
    "C84_binary64"
   ],
   "note": "Over any ordered field, and in binary64 if no rounded triangle has a NaN area; numbers must be finite."
  },
  {
   "property": "C85",
   "status": "partial",
   "theorems": [
    "C85_refuted",
    "C85_partial",
    "C85_load_partial"
   ],
   "note": "False of the code: of two loaded edges with a common node, or a loaded edge and third nodes of other loaded elements, the one visited later wins (binary64 witness, whole runs). C85_partial: same printed numbers for all hash orders in exact arithmetic if no two loaded edges belong to elements with a common node; C85_load_partial: the load vector, in any arithmetic."
  },
  {
   "property": "C86",
   "status": "proved",
   "theorems": [
    "C86_options"
   ],
   "note": "Any arithmetic."
  },
  {
   "property": "C87",
   "status": "proved",
   "theorems": [
    "C87_modal",
    "C87_names"
   ],
   "note": "Any arithmetic."
  },
  {
   "property": "C88",
   "status": "partial",
   "theorems": [
    "C88_refuted",
    "C88_linear",
    "C88_mesh",
    "C88_modal_partial"
   ],
   "note": "False of the modal command asked for no modes, which ignores the picture options. Proved for linear and mesh, and for modal with at least one mode."
  },
  {
   "property": "C89",
   "status": "proved",
   "theorems": [
    "C89_held",
    "C89_two_nodes",
    "C89_roller",
    "C89_axisymmetric",
    "C89_one_node"
   ],
   "note": "Over any ordered field (exact arithmetic)."
  },
  {
   "property": "C90",
   "status": "partial",
   "theorems": [
    "C90_default_refuted",
    "C90_both_refuted",
    "C90_returns_partial",
    "C90_real_partial",
    "C90_cholesky",
    "C90_cholesky_only"
   ],
   "note": "False of the code: in binary64 the default solver panics on a held two-triangle mesh that the Cholesky solver analyses, and both direct solvers panic on another held mesh. C90_cholesky: over any ordered field with square roots, the Cholesky solver answers for a held mesh exactly if two unknowns or more remain and the nodes left free hang together through elements without passing a fixed node (C90_cholesky_only: it answers for no other mesh, held or not). C90_returns_partial: densegauss if elimination of the reduced matrix meets no zero pivot, cholesky as above; C90_real_partial: the latter over the reals, from the supports."
  },
  {
   "property": "C91",
   "status": "proved",
   "theorems": [
    "C91_histories",
    "C91_in_place"
   ],
   "note": "structural tier: any arithmetic, hence f64"
  },
  {
   "property": "C92",
   "status": "proved",
   "theorems": [
    "C92_entries",
    "C92_orthogonal",
    "C92_compose"
   ],
   "note": "entries and refusals for any arithmetic; orthogonality for exact fields with cos^2+sin^2=1; composition over the reals"
  },
  {
   "property": "C93",
   "status": "partial",
   "theorems": [
    "C93_shape_refuted",
    "C93_count_refuted",
    "C93_histories_partial"
   ],
   "note": "false as stated: from_flat never compares the shape with SIZE, and SIZE 1 accepts no value. Proved for shapes whose product is SIZE, SIZE nonzero, and not the empty list with SIZE 1"
  },
  {
   "property": "C94",
   "status": "partial",
   "theorems": [
    "C94_hidden_refuted",
    "C94_dimension_refuted",
    "C94_new",
    "C94_vectors_partial",
    "C94_dimensions",
    "C94_distance",
    "C94_unit"
   ],
   "note": "false as stated: the midpoint of points of different dimension keeps a hidden coordinate; a zero point of more than 3 dimensions cannot be read. Proved for points reached otherwise; the metric laws over the reals"
  },
  {
   "property": "C95",
   "status": "proved",
   "theorems": [
    "C95_det_lu",
    "C95_det_lu_mathcomp"
   ],
   "note": "exact fields; the second against the determinant of mathcomp"
  },
  {
   "property": "C96",
   "status": "proved",
   "theorems": [
    "C96_lower",
    "C96_upper"
   ],
   "note": "structural tier: any arithmetic with 0 == 0, hence f64"
  },
  {
   "property": "C97",
   "status": "proved",
   "theorems": [
    "C97_double",
    "C97_assembly"
   ],
   "note": "rounded tier"
  },
  {
   "property": "C98",
   "status": "proved",
   "theorems": [
    "C98_forward",
    "C98_backward"
   ],
   "note": "rounded tier"
  },
  {
   "property": "C99",
   "status": "proved",
   "theorems": [
    "C99_factor",
    "C99_succeeds"
   ],
   "note": "rounded tier; a negative radicand gives 0 in the model and NaN in the code, C99_factor excludes it"
  }
 ]
}