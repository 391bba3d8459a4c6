# Formal model of asimov-contact (dolfinx_contact) in Rocq

`/repo` is read as text; nothing in it is built or run.  The model lives in
`rocq/theories` (logical name `Verif`).

## Conventions

* **File names.**  `XModel.v` holds only definitions, each with a comment citing
  the file and lines in `/repo` it models; `XSpec.v` holds small specifications
  that do not use the model's helpers; `XProofs.v` holds lemmas; `XProps.v` holds
  the property theorems `Cnn_...`, each followed by `Print Assumptions`, with a
  concrete non-trivial example beside it (or in `XExamples.v` when long).
  `Prelude`, `PreludeLemmas`, `Scatter`, `RSum`, `RealLemmas` are shared.
* **Loops** `for (i=a;i<b;++i) body` are `fold_left` over `seq`; `while` loops
  are structural recursion on the remaining range or on fuel with a proof that
  the fuel never runs out.  Mutable arrays are lists with checked `get`/`upd`
  or, for numeric buffers whose bounds are not in question, functions
  `nat -> R` with point update.
* **Exceptions** are values (`option`/`sum`/result records).
* **Numbers.** Discrete indices are `nat`/`Z`.  Comparisons in the discrete
  algorithms (point cloud, cropping, candidate search) use exact rationals `Q`
  or reals `R`; kernels use exact reals `R`.  IEEE rounding, NaN and overflow
  are not modelled except where stated (Newton solver norms range over an
  abstract ordered type that may contain NaN-like values).
* **External code** (DOLFINx topology, basix tabulation, PETSc, MPI, GJK, the
  PDE callbacks) enters as function arguments of the model (section variables
  that are discharged, never axioms).  What is assumed about them is written as
  explicit hypotheses of theorems.
* **Violations.** When the code as written does not satisfy a property, the
  faithful model is kept, a theorem `..._refuted` exhibits a concrete violating
  input, and the strongest provable variant is proved beside it (`..._partial`
  or an exact characterisation).

## Per-property plan

| Id | Modelled | Proof |
|----|----------|-------|
| C01, C02 | `point_cloud_pairs` line by line over `Q`, sort given as any permutation sorted by first coordinate | loop invariants on the forward/backward scans; exact characterisation of reported set; refutation of symmetry |
| C03, C07 | `compute_ghost_cell_destinations`: offsets, owner lookup by `upper_bound`, per-rank neighbour lists, scatter | prefix-sum lemmas, induction over ranks; refutation for the out-of-range read |
| C04 | cell-to-destination map and the partitioner of `create_contact_mesh` | map overwrite semantics; partial + refutation |
| C05 | `lex_match` merge | induction on the merge of two sorted lists, refinement to relational join |
| C06 | `copy_to_all` | list lemmas over rank lists |
| C08, C09 | `SubMesh` constructor maps and `get_submesh_tuples` | prefix-sum/scatter lemmas |
| C10, C11 | `copy_function`, `SubMesh::update_geometry`, `update_geometry` | loop invariants, induction over call histories |
| C12, C13 | `_local_facets`, `compute_active_entities`, wrapper counts | sortedness; refutation of the cell count |
| C14 | `sort_cells` | stable argsort lemmas |
| C15 | `compute_linked_cells`, `max_links` | sort/unique lemmas |
| C16–C18 | `pack_test_functions`, `pack_grad_test_functions`, `pack_u_contact` with basis tables as arguments | grouping lemma of C14; refutations |
| C19–C21 | `create_petsc_matrix`, `assemble_matrix`, `assemble_vector`, kernel as argument | induction over facets |
| C22 | `crop_invalid_points` over `R` | pointwise characterisation |
| C23, C24 | offset arithmetic in all places | arithmetic for all sizes (`ring`/`lia`) |
| C25, C26 | `compute_raytracing_map` control flow, ray solver and projection as arguments | invariants; refutation for the radius test |
| C27–C37 | contact, mesh-tie, Poisson and rigid-surface kernels with loops over flat arrays | closed forms by loop lemmas, then algebra and derivatives over `R` |
| C38–C41 | scalar/ball operators, elasticity helpers | real analysis / algebra |
| C42–C47 | `NewtonSolver` as a state machine with abstract callbacks | invariants over the loop; refutations |
| C48, C49 | `ContactProblem` coefficient state machine | induction over call histories |
| C50 | `MeshTie::generate_kernel_data` checks | case analysis |
| C51 | `lame_parameters` | `field`, `nra` |
| C52 | `build_nullspace_multibody`, Python variant | algebra, index lemmas |
| C53 | `compute_circumradius` | real algebra |
| C54, C55 | `compute_tangents`, `raytracing_cell`, `compute_ray` | case analysis, loop invariant on exit condition |
| C56 | quadrature slices | prefix sums |
| C57 | `find_candidate_facets` | sort/filter lemmas |
| C58, C59 | `generate_contact_data` parameter checks, `near_nullspace_subdomains` | case analysis; refutations |
| C60 | callbacks of `NewtonSolver` over call histories | induction over histories |
| C61–C63 | rows of `MeshTie` data and their updates | layout lemmas, induction over call histories; refutation for updates before generation |
| C64 | `raytracing_cell` on affine facets | Newton on an affine system converges in one step |
| C65, C67, C68 | `KernelData` geometry, normals, buffer accesses of the kernels | loop lemmas through the generators |
| C66 | `compute_contact_forces`, `compute_sigma_n_u` | closed forms |
| C69 | rigid surface kernels on curved meshes | refutation plus exact variant |
| C70 | tie kernels against Nitsche weak forms written independently | closed forms |
| C71, C72 | coefficient and gradient packing | loop lemmas, push-forward algebra |
| C73 | whole mesh-tie pipeline: packing, data, kernels, assembly | composition of the above |
| C74 | `compute_physical_points`, `create_q_phys`, `create_distance_map`, `pack_gap`, `pack_gap_plane`; the search is an argument | loop lemmas on flat arrays |
| C75 | `pull_back` (affine branch), `pull_back_nonaffine`, 2x2, 3x3 and 3x2 inverses | linear algebra; induction on the remaining iterations |
| C76 | `pack_nx`, `pack_ny`, `push_forward_facet_normal`, `pack_normals` | C67 at each point |
| C77 | `compute_projection_map`, `compute_distance_map` (closest point), `entities_to_geometry_dofs`, `facet_indices_from_pair` | loop lemmas, affine pull-back of C75; DOLFINx searches are arguments assumed exact |
| C78 | `ContactProblem.assemble_vector/matrix` over all pairs and kernels, packing routines put into the object model | per-kernel derivatives C27-C29, row lemmas from C48, C49, C71, C72, assembly C20, C21 |
| C79 | `assemble_vector` of ContactProblem and MeshTie over all pairs; total of each component of the assembled vector | element balance C34, rows of the packed test functions (C16, C17, C63), assembly C20 summed over all dofs |
| C80 | the Python method `ContactProblem.crop_invalid_points`, its wrapper (shape check) and the C++ routine | refuted: the method hands over two-axis arrays, the wrapper takes one axis, so every call raises and nothing is cropped (exact theorem); with flat arrays C22 gives the promised effect |
| C81 | `get_surface_points`, the lines, surfaces and tags of `create_surface_mesh`, `create_tet_mesh`, `create_unsplit_box_2d` and the curve functions of `meshing/split_box.py`; gmsh is not modelled (a point, line or surface is its position in the list) | list splitting; partial: the rejection of invalid domains is refuted when vertex 5 is listed first (`num_pts - 1` is tested instead of compared), and the 3D tags are right exactly for four-vertex domains |
| C82 | the merging of the two meshes in `create_split_box_2D/3D` | list lemmas on shifted node numbers |
| C83 | `evaluate_basis_functions` and `evaluate_basis_shape`; tabulation, dof transformation and basix' map are functions given as data, DOLFINx' Jacobian inverse is modelled as in C75 | one array entry followed through the loops; the chain rule along curves (stdlib derivative) gives J^T h = reference gradient, the right inverse gives h |
| C84 | `ContactWriter`: facet lists, inverse facet numbering, `write` up to the projection; the way arrays reach the wrapper is a parameter (identity: the code, `flat`: the intended call) | as the code is, every call with a pair is a TypeError; with flat arrays, distinct block positions make one sequence of assignments whose entries are read back with C66 |
| C85 | `create_contact_mesh` over all ranks: tagged facets, midpoints, destinations, global cells, coordinate array, markers; DOLFINx' `create_mesh` by its contract (`created` in ContactMeshSpec) | block positions of the gathered coordinates, every global vertex has an owner; composition of C04, C05, C06; partial: coordinates need vertex and node numbers to agree, neighbours inherit the conditions of C02-C04 |
| C86 | integrands of `one_sided/nitsche_ufl.py`; constants and rows of `one_sided/nitsche_custom.py` on top of the rigid surface kernels and `pack_gap_plane` | closed forms of the kernels (C36) with every block of the row read back; calculus for the derivative |
| C87 | `NonlinearPDE_SNESProblem`: state `u`, `F` and `J`; `apply_lifting`, `set_bc`, `assemble_matrix` by their documented effect | sums over constrained and free columns; induction over the call history; partial: `J` ignores its argument |
| C88 | the Newton solver model (owned and ghost values, trace of callbacks) | Hoare-style invariant over the whole solve, any outcome; the stale-ghost run computed symbolically; partial: coefficients before ghost update |
| C89 | `nitsche_rigid_surface` gap lookup, `nitsche_rigid_surface_custom` rows, constants and updates; `facet_map` rows | stable sort is the identity iff cells ascend; kernel entries rewritten to the form; slices; partial: wrong row of the facet map |
| C90 | `NewtonStorage`: sizes, offsets and views | prefix sums; any sequence of writes read back |
| C91 | slices and tags of `christmas_tree.py`, closed outlines, faces of the extruded bodies; gmsh entities are numbers | consecutive slices concatenate; permutation of all lines; exact set left out in 3D; counting uses of each line |
| C92 | `jagged_curve` over the reals, loops with fuel | Lipschitz bound gives a minimal step, so both loops end; invariant of the collected points |
| C93 | `pack_circumradius` with geometry tables, Jacobian from the tabulated gradients | Jacobian equals the edge vectors; circumradius formulas of C53 per pair |
| C94 | `weak_dirichlet`, `sigma_func`, `epsilon` as sums over weighted boundary points | linear algebra of sums; Young's inequality with the trace constant |
| C95 | `set_krylov_options`, `update_krylov_solver` over a process-wide option database | induction over the dictionary; exact contents of database and objects; counterexample histories |
| C96 | planar generators of `contact_meshes.py` with gmsh as a recorder; boxes and balls of the spatial ones | computation on the recorded structure for all parameters; real geometry for gaps |
| C97 | members of `Contact` as containers with checked access; constructor, `create_distance_map`, `qp_phys`, `max_links`, `pack_gap` | invariant on sizes over all call sequences; exact condition for leaving the storage; counterexample with the real search on an empty process |
| C98 | constructor of `MeshTie` on the object model of C97: detection, `pack_ny`, `pack_gap`, cell sizes, `crop_invalid_points` per pair | invariant over the pairs; the criterion from the packing theorems; counterexample for the partition |
| C99 | the contact kernels of C27-C36 tested against arbitrary coefficients; Signorini, Tresca and Coulomb conditions stated at a point | sum over basis functions of the entries; complementarity equals the max / projection equation |
| C100 | `SystemWeakProps.v` (on ContactSystemModel, ContactWeakProps) | the residual applied to a test function commutes with scatter (`C100_assembled_test`, on C20); summed over kernels and pairs and combined with C99 facet by facet; the jump of the stored row is the jump of the displacement by the row lemmas of C78 |
| C101 | `SplitBox3DModel.v`: faces of create_tet_mesh as signed loops of lines, positions taken by create_hex_mesh | permutation of the directed uses of lines (each line once in each direction); list arithmetic for the groups; counterexamples for one segment and for an even number of curve points |
| C102 | `SplitBox3DModel.v`: the two surface loops and groups of create_unsplit_box_3d (tetrahedra) | as C101; exact list of tagged faces, the missing one exhibited for every number of points |
| C103 | `ContactMeshModel.v`, `GhostingModel.v`; `ParallelSearchProps.v`: candidates before and after create_contact_mesh | from C85 (cell present, markers carried over) and the contract of create_entities on simplices; refuted by a cell with two tagged facets |
| C104 | `ContactSystemModel.v`, contact and Tresca kernels; weak form of C99 | firm nonexpansiveness of the positive part and of the ball projection, completed square; summed over points, facets and pairs; matrix via C78 |
| C105 | `TieSystemModel.v`, `MeshTieKernelModel.v`; form in `TieFormProps.v` | weak form of the kernels (C70/C71) summed over points, facets and pairs; the matrix via C73 with a displacement of choice; symmetry and energy by algebra of the form |
| C106 | `ContactSystemModel.v`, contact kernels; weak form of C99 | positive part and ball projection are affine along a segment that keeps the status; with the derivative of C78 the slope is the matrix |
| C107 | `ContactSystemModel.v`, contact kernels; weak form of C99 | the kernels' values at a point in terms of jump and traction (C74, C75), friction law has one solution, sum over facets and links as in C99 |
| C108 | one object per process with own numbering and facets; ghost update as sum over processes | the forms of C105 and C107 are sums over facets, so a permutation splits them; traces of a piece of a vector are those of the vector; contact matrix by uniqueness of derivatives (C78) |
| C109 | residual of the object after any calls, energy as separate specification | first order expansion with quadratic remainder of squared positive parts and of the distance to a ball (variational inequality of the projection); sums by linearity |
| C110 | as C106, two displacements with vanishing residual at free degrees of freedom | firm nonexpansiveness of the projections gives the residual difference from below by minus (1+theta)^2/4 times the squared traction |
| C111 | modified Gram-Schmidt over owned entries of all processes, then the check and the restriction to owned entries | loop invariant (orthonormal, triangular spans both ways, distances to the span); vectors of different bodies are orthogonal, so none mixes bodies; distances computed for the rigid motions, mean as minimiser |
| C112 | the assembled contact vector and mesh tie matrices on discrete rigid motions; the element contains the affine functions (hypothesis on the basis tables) | functional of C107 and forms of C105; a skew gradient has no traction, translations cancel in the jump; explicit object with friction for the refutation |
| C113 | KernelDataModel: constructor of KernelData with its checks, flat tables and accessors, dispatch of compute_distance_map, numpy views of rules, packed data and MeshTie.coeffs | acceptance characterised exactly; index arithmetic of the tables by induction on the filled layout, composed with C56; array sizes of a mesh tie by an invariant over all histories |
| C114 | the object of C78 for a mesh and for the same mesh turned and shifted (`turned_space`, `turned_pair`, `turned_call`); the routines on geometries are related by `turned_routines` | contact functional, traction, jump and facet geometry shown invariant for every orthogonal matrix; histories mapped step by step; both systems compared through the functional of C107 |
| C115 | both meshes handed to the distance map with every node turned and shifted; rays, patches of candidates and the closest-point fallback as in RaySearchModel | the Newton steps in the two frames differ by an orthogonal change of tangents, so facet parameters agree; exact nearest points of convex hulls are unique and turn with the hull; Jacobians, normals and midpoints are turned |
| C116 | the ray branch of the distance map on the contact object's own mesh (RaySearchModel), gaps packed from it | the map assigns to each point the outcome of its rays, of its facet's other rays, or the closest point (C25); acceptance (C26), hits (C55), patches (C57) and projections (C77) give each case its meaning |
| C117 | MeshContactModel: the ContactProblem state machine with the submesh's nodes as geometry, its motion, search, gaps, normals and basis functions put in | moving commutes with the frame (block-wise scatter); the search finds the same (C115); C114, now only asking its routines to commute on the geometries met by the calls |
| C118 | MeshContactModel (object with its search), stored rows of ContactProblemModel, reference simplices (FacetPlaneProofs) | run_inv for the stored blocks, C11 for the nodes, C76/C77/C116 for the search, minimality against a step inside the facet for normality (MeshGapProps) |
| C119 | create_contact_mesh_old over all ranks: subset, dictionary, partitioner, numpy reshapes, the allgathers and the exceptions of numpy.concatenate and numpy.vectorize | equality with the C++ model by list lemmas; case analysis of how each rank ends; a two-process counterexample |
| C120 | no new code: the assembled contact residual of C107 with a residual of the bodies | the assembled residual is strongly monotone (C110) and Lipschitz (closure lemmas, projection onto a ball); contraction of the relaxed iteration, limit by completeness of the reals |
| C121 | no new code: assembled residual and matrix of C78 with a stiffness matrix for the bodies | contact switch written with stored data; it is Lipschitz, so a neighbourhood without a change of status exists; C106 and C107 on the segment to the solution; uniqueness of the step by strong monotonicity along a short multiple |
| C122 | `assemble_residual` and `assemble_jacobian` of `one_sided/nitsche_custom.py`: packing, rows, kernel, assembly | packing (C71, C72), assembly (C20) and kernel (C86) composed to the weak form at the displacement; calculus facet by facet; contraction mapping as in C119 |
| C123 | no new code: Newton solver of C42 | invariant of a run with zero increments; first iteration computed from the step specification, which now also says why steps were shortened |
| C124 | `one_sided/nitsche_custom.py` from the creation of the solver to the returned function | stopping rule (C43) at the returned iterate, strong monotonicity (C122) and Cauchy-Schwarz |
| C125 | `pack_coefficients`, `compute_residual`, `compute_jacobian` of `one_sided/nitsche_rigid_surface_custom.py` with their shared coefficient array | state after any history of updates (C89_update), then packing, assembly and kernel composed to the weak form as in C122 |
| C126 | the same file from the first packing to the returned function | invariant of the Newton run: the array belongs to the iterate; then as C124 |
| C127 | LoadStepModel.v (callbacks, one load step, the loop of demo_nitsche_unbiased.py on top of NewtonModel and ContactSystemModel) | invariant of the solve (the object is the one before the step updated with the current increment, C49), truthful flag (C43), existence and uniqueness (C120), distance by the residual (C110), induction over the steps |
| C128 | ContactProblemModel.v, all method calls | induction over the history against the fold parameters_set; frame lemmas for the first four columns |
| C129 | LiftModel.v, callbacks with apply_lifting and set_bc, assembled matrix by its product with a vector | entries of the lifted residual; existence through C120 with prescribed values; increment with prescribed entries corrected, contact form unchanged away from the contact cells |
| C130 | LiftModel.v, right-hand side of the linear drivers | exact equation for every lifting factor, factors 1 and -1 as instances, counterexample with two degrees of freedom |
| C131 | LiftStepModel.v, one load step with strong boundary conditions and the loop | truthful flag (C43) bounds the rows of the prescribed degrees of freedom; induction over the steps |
| C132 | WriteEventModel.v, ContactWriter.write as an event between the calls of ContactProblemModel | simulation: two runs agree up to the positions of the submesh until the next detection; counterexample where generation follows output |
| C133 | FacetProjectionModel.v, project, restore and the end of ContactWriter.write, with the file writer returning or raising | induction over pairs and nodes; projecting is idempotent; induction over the writes |
| C134 | ConvertModel.v, str.split on lists of characters, barrier of n processes | induction over the name; case analysis on process 0 |
| C135 | MeshFilesModel.v, processes as programs of file operations and barriers, all interleavings | invariant over reachable states: before the barrier everybody holds it, after it the file is there; equal barrier counts give progress |

## Modelled and not modelled

Modelled, with the simplifications given in the comment of each definition:

* `cpp/point_cloud.cpp`, `cpp/parallel_mesh_ghosting.cpp` (`lex_match`,
  `copy_to_all`, ghost destinations; MPI as exchanged lists),
  `cpp/SubMesh.cpp`, `cpp/QuadratureRule.cpp`, `cpp/RayTracing.{h,cpp}`,
  `cpp/KernelData.h`, `cpp/MeshTie.cpp`, `cpp/elasticity.{h,cpp}`, the kernels in
  `cpp/meshtie_kernels.cpp`, `cpp/contact_kernels.cpp`,
  `cpp/rigid_surface_kernels.cpp`.
* `cpp/coefficients.cpp`: coefficient and gradient packing; `pack_circumradius`
  is not modelled, the circumradius formula it uses is.
* `cpp/utils.{h,cpp}`: entities, sorting, projection, pull-back, candidate search,
  distance map, scalar operators, evaluation of basis functions.
* `cpp/geometric_quantities.{h,cpp}`.
* `cpp/Contact.cpp`: packing, assembly, sparsity, detection, cropping.
* `python/dolfinx_contact`: `newton_solver.py` control flow, `helpers.py`
  operators and null spaces, `general_contact/contact_problem.py` data handling
  and assembly,
  `parallel_mesh_ghosting.py`.

* `python/dolfinx_contact/meshing/christmas_tree.py`: the curve, outlines, groups and faces;
  `meshing/split_box.py`: surface points, lines, tags and curves of the
  split boxes; `output.py`: `ContactWriter.write` up to the projection;
  `one_sided/nitsche_ufl.py`, `one_sided/nitsche_custom.py`, `one_sided/nitsche_rigid_surface.py`,
  `one_sided/nitsche_rigid_surface_custom.py`: boundary terms, gap and packed data.

Not modelled: the rest of `meshing/*` (Gmsh scripts), the other `one_sided/*` scripts and all
volume forms and solver calls there, file output, demos, nanobind conversions in `wrappers.cpp` beyond the
argument handling and array shapes cited in the model, timers, and everything inside DOLFINx,
basix, PETSc and MPI.  Floating-point rounding is not modelled.

## Trusted base

* The Coq 8.16.1 kernel.  No axiom is declared in `rocq/theories`, no kernel check
  is switched off, nothing is admitted.
* The faithfulness of the hand translation from C++/Python to Gallina.
* Axioms of the standard library, as `Print Assumptions` lists them for each
  theorem named in `MANIFEST.json`:

* Closed under the global context (no axioms) (114 theorems): `C01_point_cloud_sound`, `C02_point_cloud_complete_partial`, `C02_point_cloud_symmetric_partial`, `C02_point_cloud_symmetric_refuted`, `C03_ghost_destinations_exact`, `C03_ghost_destinations_geometric_partial`, `C03_ghost_destinations_geometric_refuted`, `C04_cells_reach_destinations_partial`, `C04_cell_gets_last_facet`, `C04_cells_reach_destinations_refuted`, `C04_end_to_end_partial`, `C05_lex_match_join`, `C05_markers_survive`, `C06_copy_to_all_lossless`, `C07_scatter_sizes_in_bounds_partial`, `C07_scatter_sizes_in_bounds_refuted`, `C08_cell_maps_inverse`, `C08_submesh_tuples`, `C09_facet_map`, `C10_copy_function`, `C101_tet_shell_closed`, `C101_hex_tags_partition`, `C101_hex_one_segment_refuted`, `C101_hex_tags_same_as_tet_exact`, `C101_hex_tags_same_as_tet_refuted`, `C102_shells_closed`, `C102_groups_exact`, `C102_groups_complete_refuted`, `C103_parallel_search_partial`, `C103_two_facets_refuted`, `C11_geometry_history_independent`, `C11_geometry_is_parent_plus_displacement`, `C113_cell_dimensions`, `C113_search_dispatch`, `C113_python_packed`, `C119_same_input`, `C119_ends`, `C119_works_refuted`, `C12_local_facets_prefix`, `C12_constructor_rows`, `C13_active_facets`, `C13_active_cells`, `C13_local_facet_count`, `C13_local_cell_count_exact`, `C13_local_cell_count_partial`, `C13_local_cell_count_refuted`, `C134_files_of_convert_mesh`, `C134_processes`, `C134_failure_blocks_others`, `C134_named_file_is_read_refuted`, `C135_file_there_after_generator`, `C135_files_there_after_conversion`, `C135_conversion_finds_file`, `C135_no_deadlock`, `C135_every_run_ends`, `C135_generators_balanced`, `C135_file_there_after_onesided_generator_refuted`, `C14_sort_cells`, `C14_sort_cells_other`, `C15_linked_cells`, `C15_max_links_bound`, `C16_pack_test_functions_exact`, `C16_pack_test_functions_partial`, `C16_pack_test_functions_refuted`, `C17_pack_grad_test_functions_exact`, `C17_pack_grad_test_functions_partial`, `C17_pack_grad_test_functions_refuted`, `C19_pattern_exact`, `C23_contact_layout`, `C23_test_function_index`, `C24_meshtie_elastic_layout`, `C24_meshtie_thermo_layout`, `C24_meshtie_poisson_layout`, `C24_grad_test_index`, `C81_outline`, `C81_missing_end`, `C81_invalid_domain_exact`, `C81_invalid_domain_rejected_refuted`, `C81_lines_closed`, `C81_surface_mesh_tags`, `C81_side_loops_closed`, `C81_tet_mesh_tags_exact`, `C81_tet_mesh_tags_partition`, `C81_unsplit_loops`, `C81_outline_keeps_vertices`, `C82_combined_bodies`, `C84_inverse_numbering`, `C85_tagged_facets`, `C85_cells`, `C85_coordinates_exact`, `C85_coordinates_refuted`, `C85_neighbours_present_partial`, `C85_markers`, `C85_vertex_numbers`, `C89_gap_rows_exact`, `C89_gap_partial`, `C89_gap_refuted`, `C89_update`, `C90_views_disjoint_in_bounds`, `C90_storage_behaves_as_variables`, `C91_groups_2d`, `C91_outer_lines`, `C91_bodies_closed`, `C91_groups_3d_exact`, `C91_groups_3d_complete_refuted`, `C95_database`, `C95_options_exact`, `C95_given_options_apply`, `C95_first_solver`, `C95_multigrid_exact`, `C95_update_exact`, `C95_new_options_only_refuted`, `C95_cycles_obeyed_refuted`, `C97_facet_lists`.
* `ClassicalDedekindReals.sig_forall_dec` (51 theorems): `C113_accepted_exact`, `C113_blocked_accepted`, `C113_value_size_refuted`, `C113_tables`, `C113_python_points`, `C113_python_coeffs`, `C128_parameters_in_force`, `C132_output_harmless`, `C132_generation_after_output`, `C132_submesh_positions`, `C133_written_positions`, `C133_positions_after_output`, `C19_pattern_covers_assembly`, `C21_assemble_matrix`, `C47_options_stored`, `C47_unknown_criterion_exact`, `C48_detection_history`, `C48_old_normals`, `C49_update_contact_data`, `C49_last_increment_only`, `C49_accumulated_gradient`, `C50_missing_rejected`, `C50_otherwise_generated`, `C56_facet_slices`, `C56_kernel_data_slices`, `C56_cell_rule`, `C58_missing_parameter_rejected`, `C58_parameters_packed`, `C58_friction_default_refuted`, `C59_near_nullspace_exact`, `C61_elastic_rows`, `C61_thermo_rows`, `C61_poisson_rows`, `C62_update_elastic`, `C62_update_thermo`, `C62_update_poisson`, `C62_update_rejected`, `C63_elastic_history`, `C63_thermo_history`, `C63_poisson_history`, `C63_assembly_consistent`, `C63_mixed_types_refuted`, `C71_other_integrals_refused`, `C72_transformed_spaces_refused`, `C74_gap_plane`, `C78_links_of_the_search`, `C87_jacobian_point_exact`, `C91_bottom_lines`, `C94_cell_sizes`, `C97_storage_exact`, `C97_facets_everywhere`.
* `ClassicalDedekindReals.sig_forall_dec`, `FunctionalExtensionality.functional_extensionality_dep` (95 theorems): `C100_assembled_test`, `C117_move`, `C123_exact_guess_refuted`, `C123_later_solve_accepts`, `C123_exact_step_accepted`, `C129_lifting_keeps_solutions`, `C129_newton_direction`, `C130_linear_solution_exact`, `C130_factor_one`, `C130_factor_minus_one_partial`, `C130_factor_minus_one_refuted`, `C132_output_changes_generation_refuted`, `C133_restored_after_error_refuted`, `C18_pack_u_contact`, `C18_pack_grad_u_contact`, `C18_consistent_with_test_functions`, `C18_consistent_with_grad_test_functions`, `C20_assemble_vector`, `C20_other_entries_untouched`, `C20_assemble_twice`, `C25_raytracing_map_exact`, `C25_all_or_nothing`, `C26_acceptance_exact`, `C38_parts`, `C38_derivatives`, `C38_python_agrees`, `C41_basis_traction`, `C41_opposite_traction`, `C41_displacement_traction`, `C41_strain_route`, `C42_newton_terminates`, `C42_solve_terminates`, `C43_residual_flag_truthful`, `C43_incremental_flag_truthful`, `C43_nonconvergence_reported`, `C44_line_search`, `C44_points_tried`, `C45_solve_history_partial`, `C45_solve_history_refuted`, `C46_solve_function_once`, `C46_solve_vector_exact`, `C46_solve_vector_two_runs`, `C46_solve_vector_refuted`, `C47_relaxation_ignored_exact`, `C47_options_refuted`, `C47_defaults_raise_refuted`, `C51_lame_plane_strain`, `C51_lame_plane_stress`, `C52_multibody_rigid_motions`, `C52_py_subdomains_rigid_motions`, `C52_builders_agree`, `C52_py_single_body_rigid_motions`, `C52_rigid_motion_no_strain`, `C52_combinations_rigid_motions`, `C59_near_nullspace_refuted`, `C60_missing_coefficients`, `C60_missing_residual`, `C60_missing_jacobian`, `C66_contact_forces`, `C71_values_are_function_values`, `C72_gradients_are_function_gradients`, `C72_affine_functions_exact`, `C72_jacobian_of_the_cell`, `C74_quadrature_points`, `C74_gap`, `C75_affine_pull_back`, `C75_affine_onto`, `C77_gap_is_shortest`, `C83_values`, `C83_gradients`, `C83_affine_gradients`, `C83_partition_of_unity`, `C83_refused`, `C83_opposite_gradients`, `C86_form_derivative`, `C86_dirichlet_exact`, `C87_residual_zero`, `C87_newton_step`, `C87_linear_problem`, `C87_jacobian_at_argument_refuted`, `C88_residual_and_jacobian_points`, `C88_coefficients_exact`, `C88_refreshing_callback`, `C94_consistent`, `C94_affine`, `C94_symmetric`, `C94_skew`, `C94_coercive`, `C96_box_mesh_2D`, `C97_storage_refuted`, `C97_history`, `C97_points_of_facet`, `C97_points_before_detection`, `C97_max_links`, `C97_gap_exact`.
* `ClassicalDedekindReals.sig_forall_dec`, `ClassicalDedekindReals.sig_not_dec`, `FunctionalExtensionality.functional_extensionality_dep` (199 theorems): `C100_residual_is_work`, `C100_jump_of_displacement`, `C104_residual_change`, `C104_monotone`, `C104_matrix_positive`, `C105_elastic_matrix_is_form`, `C105_elastic_residual`, `C105_elastic_symmetric`, `C105_elastic_energy`, `C105_poisson_matrix_is_form`, `C105_poisson_residual`, `C105_poisson_symmetric`, `C105_poisson_energy`, `C106_residual_follows_tangent`, `C106_newton_step_exact`, `C107_residual_is_functional`, `C107_depends_on_jump_and_gradient`, `C107_open_contact_is_free`, `C108_tie_residual`, `C108_tie_matrix`, `C108_tie_heat`, `C108_contact_residual`, `C108_contact_matrix`, `C109_residual_is_gradient`, `C109_equilibrium_is_stationary`, `C110_at_most_one_solution`, `C110_continuous_in_the_loads`, `C111_orthonormalisation`, `C111_rigid_motion_basis`, `C111_planar_exact`, `C111_spatial_exact`, `C111_py_same`, `C111_py_fails`, `C111_check_exact`, `C112_work_of_rigid_motion`, `C112_balance`, `C112_unchanged_by_rigid_motion`, `C112_tie_rigid_kernel`, `C112_tie_constant_kernel`, `C112_moment_refuted`, `C114_stored_data`, `C114_work_is_objective`, `C114_forces_turn`, `C115_raytracing`, `C115_distance_map`, `C115_contact_data`, `C116_ray_gap`, `C116_fallback_is_closest`, `C116_straight_hits`, `C117_forces_turn`, `C118_positions`, `C118_stored_gap_is_distance`, `C118_stored_gap_of_ray`, `C118_stored_opposite`, `C120_exactly_one_solution`, `C120_linear_bodies`, `C121_newton_reaches_solution`, `C122_residual_is_form`, `C122_matrix_is_derivative`, `C122_monotone`, `C122_exactly_one_solution`, `C124_driver_ends`, `C124_returned_is_close`, `C125_residual_is_form`, `C125_matrix_is_derivative`, `C125_monotone`, `C125_exactly_one_solution`, `C125_agrees_with_plane`, `C126_driver_ends`, `C126_returned_is_close`, `C127_ends`, `C127_step_history`, `C127_step_is_close`, `C127_every_step`, `C129_direction_in_a_step`, `C129_exactly_one_increment`, `C129_increment_is_close`, `C131_ends`, `C131_step_history`, `C131_step_moves_boundary`, `C131_prescribed_displacement`, `C131_whole_displacement`, `C22_crop_invalid_points`, `C22_crop_idempotent`, `C22_crop_monotone`, `C26_search_radius_partial`, `C26_search_radius_refuted`, `C27_unbiased_derivative`, `C28_tresca_derivative`, `C29_coulomb_derivative`, `C30_meshtie_consistent`, `C31_poisson_consistent`, `C32_rigid_derivative`, `C33_meshtie_symmetric`, `C33_poisson_symmetric`, `C33_unbiased_symmetric`, `C33_rigid_symmetric`, `C34_meshtie_balance`, `C34_thermo_balance`, `C34_thermo_stress`, `C34_poisson_balance`, `C34_unbiased_balance`, `C34_friction_balance`, `C35_unbiased_open`, `C35_coulomb_open`, `C35_no_points`, `C35_rigid_open`, `C36_contact_pressure`, `C36_tresca_bound`, `C36_coulomb_bound`, `C36_rigid_pressure`, `C37_matrices_scale_with_weights`, `C37_long_normals_refuted`, `C39_ball_projection_metric`, `C39_python_agrees`, `C40_ball_projection_derivative`, `C40_zero_radius`, `C40_python_agrees`, `C53_circumradius_triangle`, `C53_circumradius_tetrahedron`, `C54_tangents_2d`, `C54_tangents_3d`, `C55_point_of_facet`, `C55_hit_in_facet`, `C55_hit_on_ray`, `C55_status_meaning`, `C55_first_candidate`, `C55_candidates_independent`, `C55_surface_hit_partial`, `C55_surface_off_ray_refuted`, `C57_candidate_facets`, `C57_surface_segment`, `C64_affine_intersection`, `C64_first_facet_met`, `C65_point_geometry`, `C65_affine_shortcut`, `C67_physical_normal`, `C68_meshtie_kernels_local`, `C68_poisson_kernels_local`, `C68_contact_kernels_local`, `C68_rigid_kernels_local`, `C69_rigid_determined_partial`, `C69_constant_normal_curved_refuted`, `C70_meshtie_weak_form`, `C70_thermo_weak_form`, `C70_poisson_weak_form`, `C73_elastic_residual_is_matrix_times_displacement`, `C73_poisson_residual_is_matrix_times_temperature`, `C73_thermo_elastic_residual`, `C75_newton`, `C75_newton_fixed_point`, `C75_newton_exact`, `C76_push_forward_facet_normal`, `C76_contact_normals`, `C78_matrix_is_derivative`, `C79_contact_forces_balance`, `C79_tie_forces_balance`, `C79_thermo_tie_forces_balance`, `C79_heat_flow_balance`, `C80_crop_method_raises_exact`, `C80_crop_removes_far_points_refuted`, `C80_flat_arrays_crop`, `C81_curve_ends`, `C84_write_raises_exact`, `C84_write_stores_forces_refuted`, `C84_flat_arrays_write`, `C84_parts_of_traction`, `C86_residual_is_form`, `C86_jacobian_is_form_exact`, `C88_convergence_with_stale_ghosts_refuted`, `C89_residual_is_form`, `C89_jacobian_is_form_exact`, `C92_curve_samples`, `C92_result_unique`, `C92_curve_terminates`, `C93_packed_circumradius`, `C93_rejected`, `C96_well_tagged`, `C96_circle_plane`, `C96_halfdisk_plane`, `C96_gap_disk_box`, `C96_quarter_disks_exact`, `C96_quarter_disks_refuted`, `C96_gap_disks`, `C96_circle_circle`, `C96_rectangle_split`, `C96_sliding_wedges`, `C96_box_mesh_3D`, `C96_sphere_plane`, `C98_tied_points`, `C98_normal`, `C98_close`, `C98_partition_refuted`, `C99_contact_weak_form`, `C99_contact_consistent`, `C99_contact_condition`, `C99_friction_weak_form`, `C99_friction_consistent`, `C99_consistent`.
* `ClassicalDedekindReals.sig_forall_dec`, `ClassicalDedekindReals.sig_not_dec`, `Classical_Prop.classic`, `FunctionalExtensionality.functional_extensionality_dep` (1 theorems): `C92_tree_curve_terminates`.
