# DESIGN

Formal model (Rocq/Coq 8.16.1) of the Rust crate `bugi` (/repo) and proofs of the
properties listed in properties.jsonl.

## 1. Modelling choices

* **Panics are data.** Every modelled Rust function that can fail returns
  `out A := Ret a | Panic | UB | Fuel` (theories/Base.v).  `Panic` is a Rust panic (assert,
  unwrap, expect, index out of range, unimplemented!).  `UB` is an unchecked access
  (`get_unchecked`, `get_unchecked_mut`) outside its buffer; that it never arises is C02.
  `Fuel` is produced only by loops whose number of rounds is not fixed by their input and which
  therefore take a bound.  `Result` is `result E A := Ok | Err`, `Option` is `option`.
* **`&mut` becomes a returned value**, loops become structural recursion and folds (`foldM`).
* **usize** is `nat`.  Where the code subtracts, underflow is an explicit `Panic` (a debug build;
  a release build would wrap).  Additions and products of sizes do not overflow in the model;
  C03 treats that separately in a model with words modulo 2^64 (Overflow.v).
* **Scalars (f64).**  The model is polymorphic in a record `arith` of scalar operations
  (Scalar.v).  Four tiers of theorems:
  - *structural* theorems assume nothing about the operations, so they hold for binary64;
  - *field* theorems assume the field laws, possibly with an order or a square root;
  - *real* theorems use Coq's R;
  - *rounded* theorems (C97 onwards) use real numbers with every operation rounded by a function
    of relative error at most u (Round.v), the standard model of floating-point arithmetic.
    Flocq's round-to-nearest-even with 53 bits is proved to be an instance.  Overflow, underflow,
    infinities and NaN are outside this model.
  Field and real theorems are about exact arithmetic and say nothing about rounding.
  The model also runs on Coq's primitive binary64 floats (InstF64.v), used for refutation
  witnesses; `cos` and `sin` have no primitive and are NaN there, and no float witness uses them.
  Sums are folds in the order of the code; Rust's `Sum` for f64 starts at 0 (or -0 in newer
  standard libraries), modelled as 0.
* **Hash maps** (`HashMap`, `HashSet`) are std++ `gmap`/`gset`.  Wherever the code iterates over
  one, the traversal order is an arbitrary argument (an oracle), so theorems hold for every order
  and every run.
* **Externals.**
  - *spacemath* (planar geometry used by the mesher) is not part of /repo: its predicates are a
    record `geo` of functions (Bounds.v).  Theorems quantify over all of them unless they name
    laws; MeshEx.v gives the usual formulas for the examples.
  - *nom* 7.1 parser combinators are modelled by hand on byte lists (File.v); printing and
    reading of numbers is a record `numfmt`, with executable instances for rationals and binary64.
  - *image*: an image is a function from pixels to colours with a size; `put_pixel` outside the
    size panics (Visual.v).  Rounding to pixels and bytes is a record `raster` with instances for
    the reals, the rationals and binary64.
  - *clap*, the file system and standard output: a command gets its arguments by name, reads a
    record `world` and answers a list of effects (Cli.v).
  - *fastrand*: the start vector of the inverse iteration is an argument.

## 2. Trusted base

* Coq 8.16.1's kernel, with its virtual machine (`vm_compute` in executable witnesses) and its
  primitive floats and integers.
* What `Print Assumptions` lists for each theorem: section 4.
* The reading of /repo that produced the definitions.  Every definition cites file and lines;
  section 5 lists what is and is not modelled.
* The statements themselves: the specifications used in them are small and separate from the
  model (tables, `bigsum`, `det_function`, paths and distances in graphs, chains of segments,
  rigid motions, Riemann integrals, mathcomp's determinant).
* The libraries std++, mathcomp and Coquelicot are used but add no axioms beyond section 4.

## 3. Plan per property

* **C01 Dense matrix read-after-write.** Model LinearMatrix as (rows, cols, row_major, flat list). Refinement to a function (r,c) -> value; induction over an operation list.
* **C02 Unchecked buffer accesses stay inside the buffer.** Per layout a well-formedness predicate established by each constructor and preserved by each operation; the offset function lands below the list length.
* **C03 Size computations cannot wrap into undersized buffers.** Separate word-size model with wrap-around mod 2^64; refutation witness, plus a positive theorem under no-overflow.
* **C04 Iteration order and equality are layout independent.** Model the three iterators; list-level characterisation with seq; equality theorem.
* **C05 Matrix product, sum and difference are the mathematical ones.** Element-wise theorems over any scalar type; products as explicit sums (fold order kept), ring law only for cross-layout commutations.
* **C06 Triangular substitution solves the triangular system.** Loop invariants over any field.
* **C07 Triangular inverses are inverses.** Loop invariants over any field; both-sided identity.
* **C08 LU factors multiply back to the matrix.** Doolittle loop invariant over any field.
* **C09 The computed determinant is the determinant.** Elimination invariant; specification is mathcomp's \det.
* **C10 The computed inverse is the inverse.** From C07/C08 for n>=3; direct for 1 and 2.
* **C11 Every invertible matrix is inverted.** Refuted by an executable witness (no pivoting for n>=3).
* **C12 Gaussian elimination returns a solution.** Elimination with row exchange preserves the solution set; invariant over an ordered field.
* **C13 Gaussian elimination solves every solvable stiffness system.** Refuted by an executable witness over binary64 and over the rationals (signed pivot choice).
* **C14 Compressed rows agree with the dense matrix.** Refinement of CompressedRow to a function; stable sort + row start invariant. zeros() refuted.
* **C15 Envelope storage agrees with the dense matrix.** Well-formed envelopes; conversion by induction over the hash-ordered entry list.
* **C16 Sparse dictionary operations are the matrix operations.** Dictionary = std++ gmap plus an arbitrary enumeration order; refinement. transposed refuted for non-square.
* **C17 Envelope triangular solves.** Loop invariants over any field.
* **C18 Envelope solve does not depend on the prior contents of the output vector.** Refuted by witness; exact dependence proved.
* **C19 Banded matrix-vector product and scaled update.** Element-wise proofs on offsets.
* **C20 Cholesky factor reproduces the matrix.** Column-by-column invariant over R, positive definiteness gives the square roots.
* **C21 Root-free factorisation reproduces the matrix.** Same as C20 without roots, any field.
* **C22 Permutations are bijections and invert.** List lemmas.
* **C23 Bandwidth reordering returns a permutation of a connected graph.** BFS invariant on an executable queue/level model.
* **C24 Farthest-vertex search is exact.** BFS level invariant; distance defined by paths.
* **C25 Graphs built from edges keep all vertices and edges.** Membership lemmas for the insertion-sorted adjacency table; vertex count refuted.
* **C26 System assembly accumulates.** Induction over the operation list.
* **C27 Direct sparse solution in the caller's numbering.** Composition of C15, C20, C22, C23.
* **C28 Direct sparse solution of every SPD system.** Refuted by witness (panic on graphs without edges).
* **C29 All solvers agree on a reordered system.** Refuted by witness.
* **C30 Iterative solver stops only at a small step and its fixed points are solutions.** Loop theorem and fixed-point algebra over an ordered field.
* **C31 Iterative solver handles the zero load.** Refuted: exact run panics.
* **C32 Eigenvalue search bookkeeping.** Induction on fuel of the modelled recursion, for every counting oracle.
* **C33 Negative pivots count the eigenvalues below a shift.** mathcomp rank argument (Sylvester inertia).
* **C34 Returned eigenpairs are normalised with Rayleigh value.** Algebra over a field with square root hypothesis.
* **C35 Gram-Schmidt removes known modes.** Induction over the list.
* **C36 Eigenvalue bracketing terminates.** Refuted: no fuel suffices with a double eigenvalue; positive theorem for separated eigenvalues.
* **C37 Element stiffness is symmetric.** Generic matrix algebra.
* **C38 Rigid motions store no energy.** field.
* **C39 Element stiffness is positive semidefinite.** nra over R.
* **C40 Linear displacement fields give their exact strain.** field.
* **C41 Material matrices are Hooke's law.** field against the 3D compliance law.
* **C42 Mass matrix carries the element's mass.** Refuted; exact value proved.
* **C43 Edge loads have the right resultant.** field.
* **C44 Loads superpose.** Refuted by witness (order dependence, lost load).
* **C45 Computed displacements satisfy the supports.** Unit-circle algebra.
* **C46 The reduced system is the virtual-work projection.** Sum manipulation.
* **C47 Support combination is order independent and never releases a support.** Refuted by witness.
* **C48 Distorted elements are rejected.** Refuted: ratio is 1 for every non-degenerate triangle.
* **C49 Equivalent stress and stress tensor.** Refuted by witness.
* **C50 Three-dimensional and axisymmetric equivalent stress is invariant.** field/nra.
* **C51 Averages are arithmetic means.** Induction.
* **C52 Quadrature is exact to its order.** field; explicit error bound.
* **C53 Boundary subdivision respects the target length.** Archimedean floor on R.
* **C54 Boundary stays a set of closed loops.** Invariant over operation histories.
* **C55 Loads and supports are inherited by refined segments.** Map lemmas; last piece of a divided support refuted.
* **C56 Triangulation tables stay consistent.** Invariant over operation histories with arbitrary predicates.
* **C57 Point insertion conserves the meshed region.** 1-chain boundary argument.
* **C58 Initial triangulation covers the outline.** 1-chain boundary argument.
* **C59 Re-meshing starts from scratch.** Refuted by witness.
* **C60 Mesh refinement meets its stopping criterion.** Loop exit condition plus table invariant.
* **C61 Circumcentre is equidistant.** field/nra.
* **C62 Point-in-triangle and barycentric coordinates.** field/lra.
* **C63 In-circle and in-sphere tests.** From C09; in_sphere refuted.
* **C64 Line rasterisation.** Integer invariants.
* **C65 Clipped rasterisation keeps visible pixels.** Refuted; exact characterisation.
* **C66 Pictures stay inside the image.** Real arithmetic, rounding bounds.
* **C67 Colour scale.** lra.
* **C68 Mesh file round trip.** Printer and parser modelled on strings; round trip by induction.
* **C69 Mesh files preserve numbers.** Refuted by witness.
* **C70 Mesh file validation.** Parser theorem.
* **C71 Mesh to element model translation.** Map lemmas.
* **C72 Degree-of-freedom numbering is a bijection.** Arithmetic.
* **C73 Tetrahedron orientation.** From C09 through the table-independent determinant (DetConst.v).
* **C74 Initial triangulation terminates.** Decreasing measure on the open-edge set, any predicates.
* **C75 Point insertion terminates.** Every recursive call deletes a triangle.
* **C76 Refinement keeps covering the outline.** 1-chain invariant through both refinement loops; area as the sum of an antisymmetric edge quantity.
* **C77 Space pictures are orthogonal projections.** Product of two rotations; real arithmetic.
* **C78 Fills interpolate linearly.** Barycentric coordinates on the pixel box.
* **C79 Boundary files are read as written.** Parser theorem on well-formed items.
* **C80 Trailing newline.** Refuted; the reader rejects every such file.
* **C81 Files are chosen by their extension.** Model of Path::extension on texts.
* **C82 A reported error leaves nothing behind.** Order of effects in each command; refuted for mesh.
* **C83 Linear study reports the maxima of the equilibrium solution.** Composition of C12/C27, C45, C46, C49.
* **C84 A saved mesh can be analysed.** C68 composed with the extension rule.
* **C85 Results do not change from run to run.** Refuted by two whole binary64 runs; positive result when loaded elements share no node.
* **C86 Picture options do not change the result.** Non-interference on the command model.
* **C87 One picture and one line per mode.** Induction over the modes; names are injective.
* **C88 Invalid options are rejected.** Case analysis of the commands; refuted for no modes.
* **C89 A mesh is held exactly when its supports admit no rigid motion.** Zero energy forces one rigid motion per triangle, equal across common edges.
* **C90 Properly supported meshes can be analysed.** Refuted by whole binary64 runs; positive over ordered fields and R. For the sparse solver the exact condition is one on the mesh: `LinkProofs.v` follows the stored places through assembly and reduction.
* **C91 Whole-row and whole-column writes.** Refinement to tables, induction over histories, any layout with the matrix laws.
* **C92 Plane rotations.** Entry table; orthogonality in any field; angle addition over R.
* **C93 Fixed-size matrices.** Refuted (shape never compared with SIZE); histories as C91.
* **C94 Points are vectors.** Refuted (hidden coordinate of mixed midpoints); coordinate lists; metric over R.
* **C95 Determinant from plain LU.** det(LU) = det(U) for any determinant function; mathcomp's determinant as instance.
* **C96 Equality of triangular matrices.** The unreachable tail of the packed buffer stays zero.
* **C97 Rounding in assembly.** Error factors of sums; law-free assembly invariant (FreeAsm.v).
* **C98 Rounding in substitution.** Law-free step equations (EnvSteps.v), every rounding moved into the coefficients.
* **C99 Rounding in the Cholesky factor.** As C98; success by a Cauchy-Schwarz argument on the first failing pivot.
* **C100 Rounding in the direct solver.** Composition through the renumbering; forward bound from the scaled smallest eigenvalue.
* **C101 Stress patch test.** Law-free value of e_stresses from the closed forms of B and C, linear fields through strain_affine; on meshes the mean of equal stresses.
* **C102 Deformed shape.** Induction on the node list, law-free.
* **C103 Convergence of the iteration.** Energy identity from the residual of a sweep and the symmetric splitting; each round that does not stop loses a fixed amount of energy because iterates stay away from zero.
* **C104 Accuracy of the iteration.** Refuted twice by running binary64; energy bound for accepted answers.
* **C105 Accuracy of the dense solver.** Refuted by running binary64 on a positive definite system of four unknowns; backward error bound by the computed factors from an invariant on the columns (rows reordered, multipliers, error factors counted per step), forward bound by an inverse.
* **C106 Eigenvalue count in floating point.** Refuted by running binary64 on three unknowns whose exact eigenvalues are known in closed form; the positive part is a backward error bound for the shifted factorization (law-free recurrences of LDL', error factors counted per entry) and Sylvester's law of inertia under a perturbation of the form.
* **C107 Convergence of inverse iteration.** Refuted by running binary64 on two unknowns; over the reals the eigenvectors span the space (more unknowns than equations), one solve divides each component by its distance to the shift, so the loop forms explicit quotients of power sums, which converge and meet the test.
* **C108 Outlines.** Refuted with three corners on a line, for every crossing test; otherwise the refused outlines are characterised by comparing the run with one whose test never fires, and refinement places pieces at known fractions of the old segment, so common points of pieces are common points of the old segments.
* **C109 Sight lines.** The base walls are the cyclic pairs of the returned corner lists, and no step but a new outline changes the base maps or moves a point.
* **C110 Encroached walls.** Refuted by a run in binary64. Over the reals the circle over half a segment lies in the circle over the segment, so calm pairs of wall and vertex stay calm under splits, and every pair is examined once: new halves by the vertex in hand, new vertices by the stack.
* **C111 Layers of the picture.** The picture is a list of writes; a write list paints a pixel with its last write. Lists of fills, lines and markers are characterised separately and appended.
* **C112 Colour maps.** Each channel is a clipped ramp of known slope; on every part of the unit interval one channel has slope enough to separate the rounded levels.
* **C113 Grammar of boundary files.** Each parser is shown to consume a text of the grammar, for every input; with the acceptance proof of C79 this gives an equivalence. The grammar of numbers covers exponents, leading points, nan and inf.
* **C114 Empty circles.** The in-circle determinants of one edge satisfy a three-term identity, so vertices left of the edge are ordered by their circles and the search keeps the least. A degenerate determinant is ruled out on a grid by moving every product of the Leibniz formula. Insertion: the digging recursion keeps the inner edges away from the new vertex.
* **C115 Sides in pictures.** Meshes: the loop over the keys keeps one direction of every side; all corners are vertices (an invariant of every mesher step), so no lookup fails. Results: sorting and removing neighbours keeps both directions of an inner side, which the assembled quadrilateral shows.
* **C116 Stored rows.** The offsets of a well-formed envelope are partial sums, so slices are rows; reads and writes follow.
* **C117 Mesh files.** For every parser a lemma in each direction: what it consumed has the specified form, and text of that form is consumed; the loops by induction on the count, the assembly by one equivalence per fold.
* **C118 Energy theorems.** From C83 the computed field is the only one in equilibrium; with the symmetry and non-negativity of the assembled matrix the classical theorems (least potential, Clapeyron, Betti, superposition, Rayleigh) follow by expanding the quadratic form.
* **C119 Frames.** The strain energy of an element is the same for the turned field on the moved element, so the stiffness forms agree; uniqueness (C83) then forces the displacements. The loads by following both loops in step.
* **C120 Equivalent stress.** Refuted by the two runs; for shifts the element matrices are literally equal.
* **C121 Equality.** Refuted by witnesses; a graph from edges is the sorted duplicate-free list of its directed edges, so that equality of the two arrays is equality of the sets.
* **C122 Counts.** Each count is the length of the list it stands for, by induction over the loop.
* **C123 A triangle at a vertex.** The invariant of the mesh state ties the cache to the stored triangles; the scan is exhaustive.
* **C124 Outline pictures.** Positions in the vertex list are unique, so that segments and pairs of positions correspond.
* **C125 Reactions.** A displacement of one node in a direction its support leaves free respects all supports, so equilibrium says the missing force has no component there; rigid motions store no energy, so by symmetry the total of the internal forces on them vanishes.
* **C44 again.** The loop over the loaded edges is followed with the invariant that a node holds what the last edge touching it put there; sums then follow for loads that do not meet.
* **C126 Options left out.** Each option is read at one place; replacing it there by its default changes nothing, and the rest of the command does not see the arguments.
* **C127 Named materials.** By cases over the name; 1 - 0.33 and 1 - 2*0.33 are 67/100 and 34/100 in every ordered field.
* **C128-C130 Vibrations.** A displacement the supports allow is the image of a reduced vector; the reduced forms are the pulled back forms, so testing with the images of unit vectors gives the eigenvalue equation. The mass form is a positive sum of squares of the field at the three sample points, which determine a linear field. Under a change of frame the squares only turn.
* **C131 Meshes accepted.** The pattern of the reduced matrices is that of elements between free nodes (C90); a linked pattern gives a renumbering and the envelopes fit; a pattern that falls apart makes the renumbering panic, or leaves a stored entry outside it.
* **C132 Counts.** The reduced vectors of the vibrations diagonalise the reduced pencil; renumbering permutes them; Sylvester's law (C32) counts.
* **C133, C134 Other materials and thicknesses.** The entries of every element matrix are multiplied by one factor, hence the assembled forms; uniqueness of the solution (C44) gives the displacements, and the stress entries are those of the scaled strains. The load integral uses only the shape functions.
* **C135 Tensors.** Strains turn (C119), the law is isotropic, hence element stresses turn; the running averages at the nodes are linear and keep the relation.
* **C136 Virtual work.** The strain of an affine field is constant on an element, so the element form applied to the solution is area times thickness times stress times strain; summed, the assembled form, which in equilibrium is the work of the load.
* **C137 Balanced stresses.** Every displacement is affine on each element by explicit coefficients, so balance gives equilibrium of the assembled system; the solution is unique (C44, C118). For an affine field the element stresses are Hooke's law applied to its strains (C101).
* **C138 Mean stress.** The identity of C136 without the restriction to allowed displacements, the reactions (C125) counted among the forces, taken at the fields (x, 0), (0, y), (y, 0), (0, x).

## 4. Assumptions of each theorem

`Print Assumptions` of every theorem named in MANIFEST.json, grouped.  No axiom is declared in
/verif.  Everything listed is from Coq's standard library: the axioms of the real numbers,
`Classical_Prop.classic` (through Coquelicot's integral), the kernel's primitive floats and
63-bit integers, and two standard specifications of primitive floats (FloatAxioms).

**No assumptions ("Closed under the global context")** (270 theorems)

C01_dense_read_after_write, C01_dense_zeros, C02_dense, C02_lower, C02_upper, C02_diagonal, C02_compressed_row, C02_lower_envelope, C02_bi_envelope, C03_refuted, C03_debug, C03_fits, C04_iteration, C04_indices, C04_equality, C04_indices_zero_columns_refuted, C05_product, C05_elementwise, C06_forward, C06_backward, C06_refuses, C07_lower, C07_upper, C08_lu, C09_determinant, C09_dispatch, C09_determinant_mathcomp, C101_element, C101_mesh, C102_shape, C102_total, C103_sweep, C108_segment, C108_polygon, C108_checked, C109_refine, C10_inverse, C113_grammar, C113_accepted, C113_number, C114_apex_partial, C114_insert_partial, C114_side, C115_mesh, C115_corners, C115_result_partial, C116_row, C116_out, C116_write, C117_grammar, C117_built, C117_accepted, C118_least, C118_work, C118_reciprocal, C118_superpose, C118_supports, C119_moved, C119_load, C119_turned, C12_refuses, C120_shift_partial, C121_vertices_refuted, C121_graphs_partial, C121_lists, C121_diagonal, C121_index, C121_const_partial, C122_degree_masked, C122_compressed, C122_labeled, C122_envelope, C122_product, C123_found, C123_finds, C124_outline, C124_empty, C125_directions, C125_balance, C125_total, C126_linear, C126_mesh, C126_modal, C127_numbers, C127_admissible, C128_problem, C128_positive, C128_apart, C129_moved, C12_gauss, C130_refuted, C130_same_partial, C130_only_partial, C131_starts, C131_needed, C132_counts, C133_load, C133_displacement, C133_stress, C134_vibration, C135_tensors, C135_invariants, C136_virtual_work, C136_affine, C137_balanced, C137_affine_state, C138_mean, C14_from_flat, C14_from_labeled, C14_product, C14_zeros_refuted, C15_lower_envelope, C15_bi_envelope, C15_refuses, C16_read_write, C16_permute, C16_mask, C16_transposed_square, C16_product, C16_transposed_refuted, C17_forward, C17_transposed, C17_window, C18_refuted, C18_prior_contents, C19_mul_vec, C19_add_scaled, C21_ldl, C22_accepts, C22_rejects, C23_connected, C23_disconnected, C24_far_node, C24_terminates, C25_from_edges, C25_all_vertices, C25_from_lists, C25_refuted, C26_assembly, C26_order, C26_from_matrices, C28_disconnected, C28_one_unknown, C28_exactly_partial, C29_refuted, C29_double, C29_reduce, C30_stops, C30_fixed, C32_bookkeeping, C32_split, C33_inertia, C35_gram_schmidt, C37_element, C37_assembled, C38_plane, C38_axisymmetric, C39_element, C39_assembled, C40_strain, C41_plane_stress, C41_plane_strain, C41_axisymmetric, C42_refuted, C42_partial, C43_refused, C44_refuted, C44_partial, C44_exactly_partial, C44_sum_partial, C44_total_partial, C45_fixed, C45_sliding, C45_total, C46_adjoint, C46_energy, C47_refuted_angle, C47_partial, C48_refuted_clockwise, C48_all_accepted, C48_partial, C49_refuted_symmetry, C49_cauchy_partial, C49_vector, C51_average, C51_stresses, C51_nodes, C54_loops, C54_base, C55_split, C55_divide_loads, C55_divide_supports_partial, C56_history, C56_states, C56_meshers, C57_boundary, C57_area, C58_boundary, C58_area, C59_partial, C60_size, C60_shape, C61_equidistant, C61_reported, C62_barycentric, C62_containment, C63_circle, C63_circle_complete, C63_refuted, C64_line, C65_refuted, C65_partial, C68_round_trip, C68_any, C69_partial, C69_error_partial, C70_accepted, C70_inconsistent_partial, C70_rejected_partial, C70_refuted, C71_assemble, C71_missing, C72_bijection, C72_local, C73_orientation, C74_ends, C75_ends, C76_chew, C76_ruppert, C79_reads, C80_refuted, C80_always_partial, C81_extension, C81_linear, C81_modal, C81_mesh, C82_linear, C82_modal, C82_mesh_partial, C83_linear, C84_ordered, C85_partial, C85_load_partial, C86_options, C87_modal, C87_names, C88_refuted, C88_linear, C88_mesh, C88_modal_partial, C89_held, C89_two_nodes, C89_roller, C89_axisymmetric, C89_one_node, C90_returns_partial, C90_cholesky, C90_cholesky_only, C91_histories, C91_in_place, C92_entries, C92_orthogonal, C93_histories_partial, C94_new, C94_vectors_partial, C94_dimensions, C95_det_lu, C95_det_lu_mathcomp, C96_lower, C96_upper.

**Real numbers** (61 theorems); at most: `ClassicalDedekindReals.sig_forall_dec`, `ClassicalDedekindReals.sig_not_dec`, `FunctionalExtensionality.functional_extensionality_dep`

C100_solver, C103_ends, C104_partial, C104_residual_partial, C105_partial, C106_bracket_partial, C106_exact_partial, C107_converges_partial, C107_bracket_partial, C108_refuted, C108_simple_partial, C108_refine_partial, C109_visible, C110_walls_partial, C110_mesh_partial, C111_layers, C112_heat, C112_rainbow, C112_channels, C114_grid_partial, C118_real, C119_real, C120_stress_refuted, C20_cholesky, C27_solver, C28_refuted, C29_agree, C31_direct, C34_normalised, C34_start, C36_termination_refuted, C36_distinct, C43_edge_load, C46_span, C46_equilibrium, C47_refuted, C49_refuted_plane, C49_refuted_sign, C49_partial, C50_equivalent, C50_formula, C52_other_orders, C53_pieces, C53_fails, C53_refuted_closed, C66_inside_partial, C66_aspect_partial, C67_scale, C67_heat, C77_orthographic, C78_fill, C83_real, C90_real_partial, C92_compose, C94_distance, C94_unit, C97_assembly, C98_forward, C98_backward, C99_factor, C99_succeeds.

**Primitive floats** (13 theorems); at most: `PrimFloat.abs`, `PrimFloat.add`, `PrimFloat.div`, `PrimFloat.eqb`, `PrimFloat.float`, `PrimFloat.ltb`, `PrimFloat.mul`, `PrimFloat.opp`, `PrimFloat.sqrt`, `PrimFloat.sub`

C104_rounds_refuted, C104_accuracy_refuted, C11_refuted, C121_const_refuted, C13_singular_refuted, C31_refuted, C36_f64_refuted, C48_refuted_degenerate, C67_f64_refuted, C93_shape_refuted, C93_count_refuted, C94_hidden_refuted, C94_dimension_refuted.

**Real numbers and classical logic** (5 theorems); at most: `ClassicalDedekindReals.sig_forall_dec`, `ClassicalDedekindReals.sig_not_dec`, `Classical_Prop.classic`, `FunctionalExtensionality.functional_extensionality_dep`

C100_double, C52_triangle, C52_segment, C52_orders, C97_double.

**Real numbers and primitive floats** (4 theorems); at most: `ClassicalDedekindReals.sig_forall_dec`, `ClassicalDedekindReals.sig_not_dec`, `FunctionalExtensionality.functional_extensionality_dep`, `PrimFloat.abs`, `PrimFloat.add`, `PrimFloat.div`, `PrimFloat.eqb`, `PrimFloat.float`, `PrimFloat.leb`, `PrimFloat.ltb`, `PrimFloat.mul`, `PrimFloat.opp`, `PrimFloat.sqrt`, `PrimFloat.sub`

C105_refuted, C106_refuted, C107_refuted, C13_spd_refuted.

**Primitive floats and integers** (13 theorems); at most: `PrimFloat.abs`, `PrimFloat.add`, `PrimFloat.div`, `PrimFloat.eqb`, `PrimFloat.float`, `PrimFloat.frshiftexp`, `PrimFloat.ldshiftexp`, `PrimFloat.ltb`, `PrimFloat.mul`, `PrimFloat.normfr_mantissa`, `PrimFloat.of_uint63`, `PrimFloat.opp`, `PrimFloat.sqrt`, `PrimFloat.sub`, `PrimInt63.eqb`, `PrimInt63.int`, `PrimInt63.land`, `PrimInt63.lor`, `PrimInt63.lsl`, `PrimInt63.lsr`, `PrimInt63.sub`

C110_refuted, C114_refuted, C115_refuted, C120_refuted, C127_binary64, C55_refuted, C59_refuted, C66_refuted, C69_refuted, C82_mesh_refuted, C85_refuted, C90_default_refuted, C90_both_refuted.

**Primitive floats and integers, with float specifications** (2 theorems); at most: `FloatAxioms.div_spec`, `FloatAxioms.ltb_spec`, `PrimFloat.abs`, `PrimFloat.add`, `PrimFloat.div`, `PrimFloat.eqb`, `PrimFloat.float`, `PrimFloat.frshiftexp`, `PrimFloat.ldshiftexp`, `PrimFloat.ltb`, `PrimFloat.mul`, `PrimFloat.normfr_mantissa`, `PrimFloat.of_uint63`, `PrimFloat.opp`, `PrimFloat.sqrt`, `PrimFloat.sub`, `PrimInt63.eqb`, `PrimInt63.int`, `PrimInt63.land`, `PrimInt63.lor`, `PrimInt63.lsl`, `PrimInt63.lsr`, `PrimInt63.sub`

C68_binary64, C84_binary64.

## 5. Which code is modelled

| code (/repo/src) | model | not modelled |
|---|---|---|
| matrix/mod.rs | Matrix.v, Assem.v (`Average`), Eigen.v/Solve.v (`dot`) | `Display` of errors; iterators are the lists they produce |
| matrix/buffer.rs | Buffer.v, Overflow.v, Counts.v | all `Display` |
| matrix/inverse.rs, norm.rs | Inverse.v | the permutation vector of `det_lu_pivot`, which is never read |
| matrix/sparse.rs | Sparse.v, Counts.v | all `Display` |
| matrix/graph.rs | Perm.v, Counts.v | — |
| matrix/solve/{mod,direct,iterative}.rs | Solve.v | progress messages |
| matrix/solve/eigen.rs | Eigen.v | progress messages; the random generator |
| spatial/mod.rs | Spatial.v | `Display`; conversions to and from tuples and spacemath points are the identity on coordinates |
| spatial/predicates.rs | Predicates.v | — |
| spatial/hull.rs | — | the file is empty |
| element/{element,strain,stress,integrate,material}.rs | Elem.v | accessors of `ElementMats` are record fields |
| element/{constraint,mod}.rs | Assem.v, Cli.v (`visualize`) | the warning printed by `add_element` |
| mesher/{mod,bounds}.rs | Bounds.v, Unused.v (`PlaneBoundary::visualize`) | `Debug` |
| mesher/plane.rs | Plane.v, Unused.v (`adjacent_one`), Cli.v (`visualize`) | timing and progress messages; the picture err_state.png drawn before a panic |
| visual/{bresenham,fill,color,mod}.rs | Visual.v | PNG encoding and the file write inside `image` |
| file/{bmsh,bbnd,mod}.rs | File.v, Cli.v | texts of error messages; non-ASCII paths |
| main.rs | Cli.v | clap itself, standard error, timings |
| lib.rs, */tests.rs | — | not program code |

Where an infinite loop is possible the model takes fuel; termination is then a property of its
own (C36, C74, C75) or a hypothesis of the theorem ("the run returns").
