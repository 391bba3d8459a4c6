{
 "claims": [
  {
   "property": "C01",
   "status": "proved",
   "theorems": [
    "C01_point_cloud_sound"
   ],
   "note": ""
  },
  {
   "property": "C02",
   "status": "partial",
   "theorems": [
    "C02_point_cloud_complete_partial",
    "C02_point_cloud_symmetric_partial",
    "C02_point_cloud_symmetric_refuted"
   ],
   "note": "code violates the full claim"
  },
  {
   "property": "C03",
   "status": "partial",
   "theorems": [
    "C03_ghost_destinations_exact",
    "C03_ghost_destinations_geometric_partial",
    "C03_ghost_destinations_geometric_refuted"
   ],
   "note": "Exact with respect to the neighbour relation handed in. With the relation the code computes, the facet first in sorted order is never a neighbour; refuted for that facet by a two-rank case."
  },
  {
   "property": "C04",
   "status": "partial",
   "theorems": [
    "C04_cells_reach_destinations_partial",
    "C04_cell_gets_last_facet",
    "C04_cells_reach_destinations_refuted",
    "C04_end_to_end_partial"
   ],
   "note": "Holds when no cell has two marked facets; the code overwrites the destinations otherwise, which is proved as a refutation."
  },
  {
   "property": "C05",
   "status": "proved",
   "theorems": [
    "C05_lex_match_join",
    "C05_markers_survive"
   ],
   "note": ""
  },
  {
   "property": "C06",
   "status": "proved",
   "theorems": [
    "C06_copy_to_all_lossless"
   ],
   "note": ""
  },
  {
   "property": "C07",
   "status": "partial",
   "theorems": [
    "C07_scatter_sizes_in_bounds_partial",
    "C07_scatter_sizes_in_bounds_refuted"
   ],
   "note": "Holds on the root rank; every other rank reads past the end of its array."
  },
  {
   "property": "C08",
   "status": "proved",
   "theorems": [
    "C08_cell_maps_inverse",
    "C08_submesh_tuples"
   ],
   "note": "create_submesh is assumed to keep the order of the sorted cells"
  },
  {
   "property": "C09",
   "status": "proved",
   "theorems": [
    "C09_facet_map"
   ],
   "note": ""
  },
  {
   "property": "C10",
   "status": "proved",
   "theorems": [
    "C10_copy_function"
   ],
   "note": ""
  },
  {
   "property": "C100",
   "status": "proved",
   "theorems": [
    "C100_residual_is_work",
    "C100_jump_of_displacement",
    "C100_assembled_test"
   ],
   "note": "Assembled contact residual in equilibrium is the work of the tractions on the jump of the test function, for the three friction laws, over all pairs, facets and points and after any history. Example: two triangles pressed together, nonzero compressive traction."
  },
  {
   "property": "C101",
   "status": "partial",
   "theorems": [
    "C101_tet_shell_closed",
    "C101_hex_tags_partition",
    "C101_hex_one_segment_refuted",
    "C101_hex_tags_same_as_tet_exact",
    "C101_hex_tags_same_as_tet_refuted"
   ],
   "note": "Shells closed for every outline; hexahedral groups partition the faces for at least three curve points. Refuted: with a one-segment cut the hexahedral generator marks a side away from the cut as contact as well, and hexahedral and tetrahedral groups divide the curve at the same side exactly when the number of curve points is odd. The order of gmsh's entities after the extrusion is an assumption of the model."
  },
  {
   "property": "C102",
   "status": "partial",
   "theorems": [
    "C102_shells_closed",
    "C102_groups_exact",
    "C102_groups_complete_refuted"
   ],
   "note": "Both shells closed, interface group exact. Refuted: the side from the end of the curve to the corner above it (surfaces1[-2]) is in no group, for every number of curve points. Tetrahedral branch; the hexahedral branch makes a box without a cut and is not modelled."
  },
  {
   "property": "C103",
   "status": "partial",
   "theorems": [
    "C103_parallel_search_partial",
    "C103_two_facets_refuted"
   ],
   "note": "Proved for simplices when no other tagged facet belongs to the cell of the closest facet; refuted otherwise: the destinations of a cell are overwritten by its last tagged facet, so a cell with two tagged facets can be missing on a rank that needs it. DOLFINx' create_mesh and create_entities enter by their contracts."
  },
  {
   "property": "C104",
   "status": "proved",
   "theorems": [
    "C104_residual_change",
    "C104_monotone",
    "C104_matrix_positive"
   ],
   "note": "Frictionless and Tresca friction; the claim is not made for Coulomb friction. Positive quadrature weights, mesh sizes and a nonnegative friction bound are hypotheses. Bulk elasticity (UFL) is not part of the operator."
  },
  {
   "property": "C105",
   "status": "proved",
   "theorems": [
    "C105_elastic_matrix_is_form",
    "C105_elastic_residual",
    "C105_elastic_symmetric",
    "C105_elastic_energy",
    "C105_poisson_matrix_is_form",
    "C105_poisson_residual",
    "C105_poisson_symmetric",
    "C105_poisson_energy"
   ],
   "note": "Histories without thermo-elastic calls. The form is written over values and gradients of discrete functions at the tied points (TieFormProps, section Specification). Positivity needs positive weights, diameters, gamma and conductivity. Witness: TieFormExamples (two tied triangles, a displacement that jumps, energy > 0)."
  },
  {
   "property": "C106",
   "status": "proved",
   "theorems": [
    "C106_residual_follows_tangent",
    "C106_newton_step_exact"
   ],
   "note": "Histories without crop_invalid_points. Status: sign of the contact indicator; with friction, zero bound or stick (radius at least 1e-14, as the code's threshold). Witness: ActiveSetExamples (two triangles, sliding back, frictionless and Coulomb)."
  },
  {
   "property": "C107",
   "status": "proved",
   "theorems": [
    "C107_residual_is_functional",
    "C107_depends_on_jump_and_gradient",
    "C107_open_contact_is_free"
   ],
   "note": "Functional written with scalar products, tangential parts and projection onto a ball; both halves of the interface carry weight 1/2. Examples in ContactFormExamples.v."
  },
  {
   "property": "C108",
   "status": "proved",
   "theorems": [
    "C108_tie_residual",
    "C108_tie_matrix",
    "C108_tie_heat",
    "C108_contact_residual",
    "C108_contact_matrix"
   ],
   "note": "Processes are a list, each with its own object, history, numbering and facets; that a process sees the same data per facet as the whole mesh is the hypothesis (ghosting of the contact mesh is C92-C94 and C103). The exchange of ghost values is modelled as the sum over processes. Example: two triangles on two processes."
  },
  {
   "property": "C109",
   "status": "proved",
   "theorems": [
    "C109_residual_is_gradient",
    "C109_equilibrium_is_stationary"
   ],
   "note": "Over R; the object state is that after any calls without cropping; elastic bulk energy given by its derivative. Coulomb friction excluded (it has no energy)."
  },
  {
   "property": "C11",
   "status": "proved",
   "theorems": [
    "C11_geometry_history_independent",
    "C11_geometry_is_parent_plus_displacement"
   ],
   "note": ""
  },
  {
   "property": "C110",
   "status": "proved",
   "theorems": [
    "C110_at_most_one_solution",
    "C110_continuous_in_the_loads"
   ],
   "note": "Over R; contact data (gaps, normals, opposite cells) fixed, as in one Newton solve. The bulk residual is any function with the stated monotonicity. Coulomb friction excluded."
  },
  {
   "property": "C111",
   "status": "proved",
   "theorems": [
    "C111_orthonormalisation",
    "C111_rigid_motion_basis",
    "C111_planar_exact",
    "C111_spatial_exact",
    "C111_py_same",
    "C111_py_fails",
    "C111_check_exact"
   ],
   "note": "Reals instead of floating point: rounding in the Gram-Schmidt loop of dolfinx, and with it the check \"Space not orthonormal\", is not covered. dolfinx's orthonormalize/is_orthonormal are modelled as documented (modified Gram-Schmidt, threshold eps). Finding: the Python builder fails with one body and the default num_domains=2, and on processes without cells of a body."
  },
  {
   "property": "C112",
   "status": "proved",
   "theorems": [
    "C112_work_of_rigid_motion",
    "C112_balance",
    "C112_unchanged_by_rigid_motion",
    "C112_tie_rigid_kernel",
    "C112_tie_constant_kernel",
    "C112_moment_refuted"
   ],
   "note": "Balance stated with its exact lever-arm formula; C112_moment_refuted shows that with Tresca or Coulomb friction across a gap the moment is not balanced, so the condition on law or gap cannot be dropped. That the element contains the affine functions is a hypothesis about the external basis tables, met by the P1 triangles of the examples."
  },
  {
   "property": "C113",
   "status": "partial",
   "theorems": [
    "C113_accepted_exact",
    "C113_blocked_accepted",
    "C113_value_size_refuted",
    "C113_tables",
    "C113_cell_dimensions",
    "C113_search_dispatch",
    "C113_python_points",
    "C113_python_coeffs",
    "C113_python_packed"
   ],
   "note": "Proved as stated, with two deviations of the code shown: the integer division lets symmetric tensor spaces pass the value size check (C113_value_size_refuted), and MeshTie.coeffs divides by zero before data for (thermo-)elasticity exist (second half of C113_python_coeffs)."
  },
  {
   "property": "C114",
   "status": "proved",
   "theorems": [
    "C114_stored_data",
    "C114_work_is_objective",
    "C114_forces_turn"
   ],
   "note": "Over any two settings whose search, packing of gaps and normals and motion of the geometry commute with the motion of the frame (checked for the example; C112/C83/C85 deal with those routines themselves). Examples: C114_nonvacuous (every angle and shift, two triangles, three friction laws), C114_quarter."
  },
  {
   "property": "C115",
   "status": "proved",
   "theorems": [
    "C115_raytracing",
    "C115_distance_map",
    "C115_contact_data"
   ],
   "note": "Real arithmetic. The distance between a point and a facet (DOLFINx's compute_distance_gjk) is only assumed exact; DOLFINx's search for the closest of several facets is assumed to name the same facet in both frames (ties broken equally); on curved cells DOLFINx's own pull-back is assumed independent of the frame. Discharges the hypotheses on detection, gaps and normals of C114 for regular meshes. Instances: C115_contact_nonvacuous, C115_distance_map_nonvacuous, C115_raytracing_nonvacuous (any angle)."
  },
  {
   "property": "C116",
   "status": "proved",
   "theorems": [
    "C116_ray_gap",
    "C116_fallback_is_closest",
    "C116_straight_hits"
   ],
   "note": "Composition of C25, C26, C55, C57, C64 and C77 for the gaps the contact object hands out. Real arithmetic. The radius bounds the SQUARED length (the finding of C26). The direction is not checked: a ray may meet a candidate behind the quadrature facet. Facets parallel to the line within 1e-8 excepted in C116_straight_hits. Instance: C116_nonvacuous."
  },
  {
   "property": "C117",
   "status": "proved",
   "theorems": [
    "C117_move",
    "C117_forces_turn"
   ],
   "note": "C114 with the abstract geometry routines replaced by the modelled ones (MeshContactModel): submesh nodes as state, update_geometry, the two searches, gap, normals and basis functions. Uses C115. Cropping of invalid points excluded as in C114. Real arithmetic. Instance with a displaced body, any angle: C117_nonvacuous."
  },
  {
   "property": "C118",
   "status": "proved",
   "theorems": [
    "C118_positions",
    "C118_stored_gap_is_distance",
    "C118_stored_gap_of_ray",
    "C118_stored_opposite"
   ],
   "note": "The search tree and GJK are assumed to meet their documentation (closest_exact, gjk_exact). Examples: C118_nonvacuous, C118_ray_nonvacuous, C118_opposite_nonvacuous."
  },
  {
   "property": "C119",
   "status": "partial",
   "theorems": [
    "C119_same_input",
    "C119_ends",
    "C119_works_refuted"
   ],
   "note": "Agreement with the C++ version and the exact way of ending are proved; that it returns for every distribution of markers is refuted (a process without marked cells raises in numpy.concatenate, the others wait in allgather)."
  },
  {
   "property": "C12",
   "status": "proved",
   "theorems": [
    "C12_local_facets_prefix",
    "C12_constructor_rows"
   ],
   "note": ""
  },
  {
   "property": "C120",
   "status": "proved",
   "theorems": [
    "C120_exactly_one_solution",
    "C120_linear_bodies"
   ],
   "note": "Residual of the bodies enters as a strongly monotone Lipschitz map (C120_exactly_one_solution) or as a stiffness matrix (C120_linear_bodies). Coulomb friction is not covered: its residual is not monotone."
  },
  {
   "property": "C121",
   "status": "proved",
   "theorems": [
    "C121_newton_reaches_solution"
   ],
   "note": "Frictionless law; nonvacuity C121_nonvacuous in NewtonLocalExamples.v. The kernels' contact switch is identified with contact_measure (indicator_measure), the common neighbourhood is the minimum over finitely many points, the step solves the system by C106 and C107, uniqueness by the monotonicity used in C120."
  },
  {
   "property": "C122",
   "status": "proved",
   "theorems": [
    "C122_residual_is_form",
    "C122_matrix_is_derivative",
    "C122_monotone",
    "C122_exactly_one_solution"
   ],
   "note": "OneSidedSystemProps.v. The callbacks of nitsche_custom.py from the displacement to the assembled vector and matrix, one process (the callbacks copy only owned dofs of the displacement, ghosts are not modelled); boundary conditions are C80. Examples C122_nonvacuous, C122_pushes and C122_derivative_nonvacuous in OneSidedSystemExamples.v: a triangle over a plane, with a facet owned by another process."
  },
  {
   "property": "C123",
   "status": "partial",
   "theorems": [
    "C123_exact_guess_refuted",
    "C123_later_solve_accepts",
    "C123_exact_step_accepted"
   ],
   "note": "NewtonExactProps.v. Refuted as stated for a fresh solver and for the incremental criterion (C123_exact_guess_refuted: ZeroDivisionError branch of _check_convergence, reference value 0); the other case and the case of a step that reaches a solution are proved. Examples C123_nonvacuous, C123_later_nonvacuous, C123_step_nonvacuous."
  },
  {
   "property": "C124",
   "status": "proved",
   "theorems": [
    "C124_driver_ends",
    "C124_returned_is_close"
   ],
   "note": "OneSidedSolveProps.v, on OneSidedSolveModel.v (nitsche_custom.py 261-303) and the Newton model; one process. Examples C124_nonvacuous (a run that ends at the solution) and C124_close_nonvacuous in OneSidedSolveExamples.v."
  },
  {
   "property": "C125",
   "status": "proved",
   "theorems": [
    "C125_residual_is_form",
    "C125_matrix_is_derivative",
    "C125_monotone",
    "C125_exactly_one_solution",
    "C125_agrees_with_plane"
   ],
   "note": "RigidSystemProps.v, on RigidSystemModel.v (callbacks of nitsche_rigid_surface_custom.py 269-306); one process. The gap vectors and directions are those of C89 (contact search). With nitsche_bc=False the module uses the cell diameter h before it is assigned (an exception before any of this); the model starts after that. Examples C125_nonvacuous, C125_pushes, C125_derivative_nonvacuous, C125_agrees_nonvacuous in RigidSystemExamples.v: a triangle over a slope, after two earlier updates."
  },
  {
   "property": "C126",
   "status": "proved",
   "theorems": [
    "C126_driver_ends",
    "C126_returned_is_close"
   ],
   "note": "RigidSolveProps.v, on RigidSolveModel.v (nitsche_rigid_surface_custom.py 269-354) and the Newton model; one process. Examples C126_nonvacuous (a run that ends at the solution) and C126_close_nonvacuous in RigidSolveExamples.v."
  },
  {
   "property": "C127",
   "status": "proved",
   "theorems": [
    "C127_ends",
    "C127_step_history",
    "C127_step_is_close",
    "C127_every_step"
   ],
   "note": "Callbacks, solve and end-of-step updates of demo_nitsche_unbiased.py with weak boundary conditions (no lifting), one process. Frictionless and Tresca; the linear solver is arbitrary. Cells affine as in C78. Nonvacuity: C127_step_runs, C127_nonvacuous (two triangles)."
  },
  {
   "property": "C128",
   "status": "proved",
   "theorems": [
    "C128_parameters_in_force"
   ],
   "note": "Specification parameters_set folds over the calls. Nonvacuity: C128_nonvacuous."
  },
  {
   "property": "C129",
   "status": "proved",
   "theorems": [
    "C129_lifting_keeps_solutions",
    "C129_newton_direction",
    "C129_direction_in_a_step",
    "C129_exactly_one_increment",
    "C129_increment_is_close"
   ],
   "note": "Existence and closeness for strongly monotone bodies and laws without friction or with Tresca friction; closeness additionally for linear bodies with prescribed degrees of freedom away from the contact cells. apply_lifting, set_bc and the insertion of the diagonal are modelled by their documented effect."
  },
  {
   "property": "C13",
   "status": "partial",
   "theorems": [
    "C13_active_facets",
    "C13_active_cells",
    "C13_local_facet_count",
    "C13_local_cell_count_exact",
    "C13_local_cell_count_partial",
    "C13_local_cell_count_refuted"
   ],
   "note": "Everything except the count of local cells in the Python wrapper, which counts the first ghost cell."
  },
  {
   "property": "C130",
   "status": "partial",
   "theorems": [
    "C130_linear_solution_exact",
    "C130_factor_one",
    "C130_factor_minus_one_partial",
    "C130_factor_minus_one_refuted"
   ],
   "note": "Holds with lifting factor 1. With the factor -1 of demo_nitsche_meshties.py and demo_poisson.py it fails for nonzero prescribed values (refuted) and holds for zero ones (partial)."
  },
  {
   "property": "C131",
   "status": "proved",
   "theorems": [
    "C131_ends",
    "C131_step_history",
    "C131_step_moves_boundary",
    "C131_prescribed_displacement",
    "C131_whole_displacement"
   ],
   "note": "One process; the linear solver and the bodies are arbitrary functions. Residual criterion of the Newton solver."
  },
  {
   "property": "C132",
   "status": "partial",
   "theorems": [
    "C132_output_harmless",
    "C132_generation_after_output",
    "C132_submesh_positions",
    "C132_output_changes_generation_refuted"
   ],
   "note": "Proved for every history with a detection between an output and a later generation. Without it the claim is false of the code: write leaves the submesh undeformed (output.py:162-163), and generate_contact_data searches there; C132_output_changes_generation_refuted is a concrete case."
  },
  {
   "property": "C133",
   "status": "partial",
   "theorems": [
    "C133_written_positions",
    "C133_positions_after_output",
    "C133_restored_after_error_refuted"
   ],
   "note": "Complete for the positions shown and left behind. That the mesh is restored after every write is false when the file writer raises (output.py:238-241 has no finally); C133_positions_after_output says what is left then."
  },
  {
   "property": "C134",
   "status": "partial",
   "theorems": [
    "C134_files_of_convert_mesh",
    "C134_processes",
    "C134_failure_blocks_others",
    "C134_named_file_is_read_refuted"
   ],
   "note": "Complete for names and processes. That the named file is read is false for names with .msh before the end (meshing/utils.py:50), and a failure on process 0 leaves the others waiting (meshing/utils.py:33, 62)."
  },
  {
   "property": "C135",
   "status": "partial",
   "theorems": [
    "C135_file_there_after_generator",
    "C135_files_there_after_conversion",
    "C135_conversion_finds_file",
    "C135_no_deadlock",
    "C135_every_run_ends",
    "C135_generators_balanced",
    "C135_file_there_after_onesided_generator_refuted"
   ],
   "note": "Proved for the generators with a barrier and for the one-sided meshes followed by the conversion. For create_disk_mesh and create_sphere_mesh alone it is false: they have no barrier (onesided_meshes.py:46-48, 79-81)."
  },
  {
   "property": "C14",
   "status": "proved",
   "theorems": [
    "C14_sort_cells",
    "C14_sort_cells_other"
   ],
   "note": ""
  },
  {
   "property": "C15",
   "status": "proved",
   "theorems": [
    "C15_linked_cells",
    "C15_max_links_bound"
   ],
   "note": ""
  },
  {
   "property": "C16",
   "status": "partial",
   "theorems": [
    "C16_pack_test_functions_exact",
    "C16_pack_test_functions_partial",
    "C16_pack_test_functions_refuted"
   ],
   "note": "Exact content of every entry; the property for facets without missing points; counterexample with a missing point before q."
  },
  {
   "property": "C17",
   "status": "partial",
   "theorems": [
    "C17_pack_grad_test_functions_exact",
    "C17_pack_grad_test_functions_partial",
    "C17_pack_grad_test_functions_refuted"
   ],
   "note": "Holds when every quadrature point of the facet is in contact; otherwise the tabulation is indexed by the rank of the point among the contacted points, as for C16."
  },
  {
   "property": "C18",
   "status": "proved",
   "theorems": [
    "C18_pack_u_contact",
    "C18_pack_grad_u_contact",
    "C18_consistent_with_test_functions",
    "C18_consistent_with_grad_test_functions"
   ],
   "note": "For facets with all points in contact, as the property states."
  },
  {
   "property": "C19",
   "status": "proved",
   "theorems": [
    "C19_pattern_exact",
    "C19_pattern_covers_assembly"
   ],
   "note": "Hypotheses: the base form couples the dofs of each cell; the kernel touches only the buffers of existing links (kernel_local)."
  },
  {
   "property": "C20",
   "status": "proved",
   "theorems": [
    "C20_assemble_vector",
    "C20_other_entries_untouched",
    "C20_assemble_twice"
   ],
   "note": "For every kernel that touches only the buffers of existing links (kernel_local)."
  },
  {
   "property": "C21",
   "status": "proved",
   "theorems": [
    "C21_assemble_matrix"
   ],
   "note": "Exact log of the mat_set calls, on zeroed buffers."
  },
  {
   "property": "C22",
   "status": "proved",
   "theorems": [
    "C22_crop_invalid_points",
    "C22_crop_idempotent",
    "C22_crop_monotone"
   ],
   "note": "The Python wrapper ContactProblem.crop_invalid_points passes two-dimensional slices where the binding wants one-dimensional contiguous arrays; the C++ function is what is modelled."
  },
  {
   "property": "C23",
   "status": "proved",
   "theorems": [
    "C23_contact_layout",
    "C23_test_function_index"
   ],
   "note": "Block size equal to gdim, as the property states; at least one quadrature point."
  },
  {
   "property": "C24",
   "status": "proved",
   "theorems": [
    "C24_meshtie_elastic_layout",
    "C24_meshtie_thermo_layout",
    "C24_meshtie_poisson_layout",
    "C24_grad_test_index"
   ],
   "note": ""
  },
  {
   "property": "C25",
   "status": "proved",
   "theorems": [
    "C25_raytracing_map_exact",
    "C25_all_or_nothing"
   ],
   "note": "the Newton ray solve and the closest-entity search are external; the latter is assumed to return a member of the nonempty patch it is given"
  },
  {
   "property": "C26",
   "status": "partial",
   "theorems": [
    "C26_acceptance_exact",
    "C26_search_radius_partial",
    "C26_search_radius_refuted"
   ],
   "note": "the code compares the squared distance with the radius: proved exactly; the full bound is refuted"
  },
  {
   "property": "C27",
   "status": "proved",
   "theorems": [
    "C27_unbiased_derivative"
   ],
   "note": "example: contact_example_line, contact_example_closed"
  },
  {
   "property": "C28",
   "status": "proved",
   "theorems": [
    "C28_tresca_derivative"
   ],
   "note": "example: contact_example_closed"
  },
  {
   "property": "C29",
   "status": "proved",
   "theorems": [
    "C29_coulomb_derivative"
   ],
   "note": "example: contact_example_closed"
  },
  {
   "property": "C30",
   "status": "proved",
   "theorems": [
    "C30_meshtie_consistent"
   ],
   "note": ""
  },
  {
   "property": "C31",
   "status": "proved",
   "theorems": [
    "C31_poisson_consistent"
   ],
   "note": ""
  },
  {
   "property": "C32",
   "status": "proved",
   "theorems": [
    "C32_rigid_derivative"
   ],
   "note": "example: rigid_example; on non-affine cells with constant normal see C69"
  },
  {
   "property": "C33",
   "status": "proved",
   "theorems": [
    "C33_meshtie_symmetric",
    "C33_poisson_symmetric",
    "C33_unbiased_symmetric",
    "C33_rigid_symmetric"
   ],
   "note": ""
  },
  {
   "property": "C34",
   "status": "proved",
   "theorems": [
    "C34_meshtie_balance",
    "C34_thermo_balance",
    "C34_thermo_stress",
    "C34_poisson_balance",
    "C34_unbiased_balance",
    "C34_friction_balance"
   ],
   "note": "example: contact_example_line"
  },
  {
   "property": "C35",
   "status": "proved",
   "theorems": [
    "C35_unbiased_open",
    "C35_coulomb_open",
    "C35_no_points",
    "C35_rigid_open"
   ],
   "note": "Tresca friction acts on open facets too (radius gamma*fric does not depend on the pressure), so the property is not claimed for it; example: contact_example_open"
  },
  {
   "property": "C36",
   "status": "proved",
   "theorems": [
    "C36_contact_pressure",
    "C36_tresca_bound",
    "C36_coulomb_bound",
    "C36_rigid_pressure"
   ],
   "note": "the multipliers are exhibited together with the residual they produce"
  },
  {
   "property": "C37",
   "status": "proved",
   "theorems": [
    "C37_matrices_scale_with_weights",
    "C37_long_normals_refuted"
   ],
   "note": "both halves: scaling for unit normals, counterexample for a normal of length two"
  },
  {
   "property": "C38",
   "status": "proved",
   "theorems": [
    "C38_parts",
    "C38_derivatives",
    "C38_python_agrees"
   ],
   "note": ""
  },
  {
   "property": "C39",
   "status": "proved",
   "theorems": [
    "C39_ball_projection_metric",
    "C39_python_agrees"
   ],
   "note": ""
  },
  {
   "property": "C40",
   "status": "proved",
   "theorems": [
    "C40_ball_projection_derivative",
    "C40_zero_radius",
    "C40_python_agrees"
   ],
   "note": "radii between 0 and 1e-14, where the code returns zero, are excluded as in the statement"
  },
  {
   "property": "C41",
   "status": "proved",
   "theorems": [
    "C41_basis_traction",
    "C41_opposite_traction",
    "C41_displacement_traction",
    "C41_strain_route"
   ],
   "note": ""
  },
  {
   "property": "C42",
   "status": "proved",
   "theorems": [
    "C42_newton_terminates",
    "C42_solve_terminates"
   ],
   "note": "All callbacks set; any residual, Jacobian and linear solver (oracles). solve on a PETSc vector doubles the bound (see C46)."
  },
  {
   "property": "C43",
   "status": "proved",
   "theorems": [
    "C43_residual_flag_truthful",
    "C43_incremental_flag_truthful",
    "C43_nonconvergence_reported"
   ],
   "note": "The reference value is the norm of the first increment of this solve, or for a solve ending at iteration 0 the stale value of the previous solve (see C45)."
  },
  {
   "property": "C44",
   "status": "proved",
   "theorems": [
    "C44_line_search",
    "C44_points_tried"
   ],
   "note": "Coefficients are computed before the ghost update, so the stored coefficients belong to the stored owned values but possibly to older ghost values; the theorem says so."
  },
  {
   "property": "C45",
   "status": "partial",
   "theorems": [
    "C45_solve_history_partial",
    "C45_solve_history_refuted"
   ],
   "note": "Violated by the code (refuted on a concrete problem); proved to hold for the incremental criterion, equal reference residuals, or an initial residual not below atol."
  },
  {
   "property": "C46",
   "status": "partial",
   "theorems": [
    "C46_solve_function_once",
    "C46_solve_vector_exact",
    "C46_solve_vector_two_runs",
    "C46_solve_vector_refuted"
   ],
   "note": "Holds for functions, violated for PETSc vectors: exact behaviour and refutation proved."
  },
  {
   "property": "C47",
   "status": "partial",
   "theorems": [
    "C47_options_stored",
    "C47_unknown_criterion_exact",
    "C47_relaxation_ignored_exact",
    "C47_options_refuted",
    "C47_defaults_raise_refuted"
   ],
   "note": "Storing of options proved; atomicity and use of the relaxation parameter are violated: exact behaviour and refutations proved."
  },
  {
   "property": "C48",
   "status": "proved",
   "theorems": [
    "C48_detection_history",
    "C48_old_normals"
   ],
   "note": "packing routines, geometry update and contact search are parameters"
  },
  {
   "property": "C49",
   "status": "proved",
   "theorems": [
    "C49_update_contact_data",
    "C49_last_increment_only",
    "C49_accumulated_gradient"
   ],
   "note": ""
  },
  {
   "property": "C50",
   "status": "proved",
   "theorems": [
    "C50_missing_rejected",
    "C50_otherwise_generated"
   ],
   "note": "Required coefficients checked first. Thermo-elasticity with a displacement but no temperature raises after the material data has been generated (stated exactly)."
  },
  {
   "property": "C51",
   "status": "proved",
   "theorems": [
    "C51_lame_plane_strain",
    "C51_lame_plane_stress"
   ],
   "note": "Inversion to E, nu; plane-stress constant; positivity."
  },
  {
   "property": "C52",
   "status": "proved",
   "theorems": [
    "C52_multibody_rigid_motions",
    "C52_py_subdomains_rigid_motions",
    "C52_builders_agree",
    "C52_py_single_body_rigid_motions",
    "C52_rigid_motion_no_strain",
    "C52_combinations_rigid_motions"
   ],
   "note": "Vectors handed to the external orthonormalisation; closure under linear combination covers its output."
  },
  {
   "property": "C53",
   "status": "proved",
   "theorems": [
    "C53_circumradius_triangle",
    "C53_circumradius_tetrahedron"
   ],
   "note": "Existence of the circumscribed centre at the returned distance and uniqueness of that radius, for J computed from the vertices; exact real arithmetic."
  },
  {
   "property": "C54",
   "status": "proved",
   "theorems": [
    "C54_tangents_2d",
    "C54_tangents_3d"
   ],
   "note": "All unit normals; exact real arithmetic."
  },
  {
   "property": "C55",
   "status": "partial",
   "theorems": [
    "C55_point_of_facet",
    "C55_hit_in_facet",
    "C55_hit_on_ray",
    "C55_status_meaning",
    "C55_first_candidate",
    "C55_candidates_independent",
    "C55_surface_hit_partial",
    "C55_surface_off_ray_refuted"
   ],
   "note": "Proved in full when the topological and geometric dimensions agree. For surface meshes (tdim 2, gdim 3) the claim is false of the code: C55_surface_off_ray_refuted exhibits a reported hit five units off the ray; C55_surface_hit_partial states what holds instead. C55_point_of_facet: on affine simplices the point returned by raytracing is an affine combination of the vertices of the facet returned."
  },
  {
   "property": "C56",
   "status": "proved",
   "theorems": [
    "C56_facet_slices",
    "C56_kernel_data_slices",
    "C56_cell_rule"
   ],
   "note": "All numbers of facets and points per facet."
  },
  {
   "property": "C57",
   "status": "proved",
   "theorems": [
    "C57_candidate_facets",
    "C57_surface_segment"
   ],
   "note": ""
  },
  {
   "property": "C58",
   "status": "partial",
   "theorems": [
    "C58_missing_parameter_rejected",
    "C58_parameters_packed",
    "C58_friction_default_refuted"
   ],
   "note": "the friction default is refuted for repeated generation; C58_parameters_packed states what happens instead (stated for dictionaries without du)"
  },
  {
   "property": "C59",
   "status": "partial",
   "theorems": [
    "C59_near_nullspace_exact",
    "C59_near_nullspace_refuted"
   ],
   "note": "Violated: block numbers index the unrolled vector. Exact behaviour proved, and a refutation."
  },
  {
   "property": "C60",
   "status": "proved",
   "theorems": [
    "C60_missing_coefficients",
    "C60_missing_residual",
    "C60_missing_jacobian"
   ],
   "note": "The Jacobian part is proved for the incremental criterion (with the residual criterion a solve may legitimately stop at iteration 0)."
  },
  {
   "property": "C61",
   "status": "proved",
   "theorems": [
    "C61_elastic_rows",
    "C61_thermo_rows",
    "C61_poisson_rows"
   ],
   "note": "Packing routines are parameters with the strides proved for them in C23."
  },
  {
   "property": "C62",
   "status": "proved",
   "theorems": [
    "C62_update_elastic",
    "C62_update_thermo",
    "C62_update_poisson",
    "C62_update_rejected"
   ],
   "note": ""
  },
  {
   "property": "C63",
   "status": "partial",
   "theorems": [
    "C63_elastic_history",
    "C63_thermo_history",
    "C63_poisson_history",
    "C63_assembly_consistent",
    "C63_mixed_types_refuted"
   ],
   "note": "Proved for histories that do not mix Elasticity with ThermoElasticity (Poisson calls may be interleaved freely). The mixed case is false of the code: both types share rows, strides and kernels."
  },
  {
   "property": "C64",
   "status": "proved",
   "theorems": [
    "C64_affine_intersection",
    "C64_first_facet_met"
   ],
   "note": "Exact real arithmetic; examples C64_nonvacuous, C64_first_nonvacuous. C64_first_facet_met: on affine simplices none of whose candidate facets is parallel to the line, raytracing returns exactly the first facet the line meets."
  },
  {
   "property": "C65",
   "status": "proved",
   "theorems": [
    "C65_point_geometry",
    "C65_affine_shortcut"
   ],
   "note": ""
  },
  {
   "property": "C66",
   "status": "proved",
   "theorems": [
    "C66_contact_forces"
   ],
   "note": ""
  },
  {
   "property": "C67",
   "status": "proved",
   "theorems": [
    "C67_physical_normal"
   ],
   "note": ""
  },
  {
   "property": "C68",
   "status": "proved",
   "theorems": [
    "C68_meshtie_kernels_local",
    "C68_poisson_kernels_local",
    "C68_contact_kernels_local",
    "C68_rigid_kernels_local"
   ],
   "note": ""
  },
  {
   "property": "C69",
   "status": "partial",
   "theorems": [
    "C69_rigid_determined_partial",
    "C69_constant_normal_curved_refuted"
   ],
   "note": "proved for affine cells or packed normals; refuted for a constant normal on non-affine cells (defect of the code)"
  },
  {
   "property": "C70",
   "status": "proved",
   "theorems": [
    "C70_meshtie_weak_form",
    "C70_thermo_weak_form",
    "C70_poisson_weak_form"
   ],
   "note": "Residual kernels tested with arbitrary coefficients. The matrices follow with C30/C31. Assumes kd_bs = gdim for elasticity (as in the code) and that the state blocks of the row hold the traces of discrete functions (what packing provides, C13-C17)."
  },
  {
   "property": "C71",
   "status": "proved",
   "theorems": [
    "C71_values_are_function_values",
    "C71_other_integrals_refused"
   ],
   "note": "Tabulated basis, dof transformation, push-forward, Jacobian inverse and determinant are tables/functions of the external libraries; J itself is modelled."
  },
  {
   "property": "C72",
   "status": "proved",
   "theorems": [
    "C72_gradients_are_function_gradients",
    "C72_affine_functions_exact",
    "C72_transformed_spaces_refused",
    "C72_jacobian_of_the_cell"
   ],
   "note": "On affine cells the code uses the Jacobian of the first point; proved equal under constant geometry derivatives."
  },
  {
   "property": "C73",
   "status": "proved",
   "theorems": [
    "C73_elastic_residual_is_matrix_times_displacement",
    "C73_poisson_residual_is_matrix_times_temperature",
    "C73_thermo_elastic_residual"
   ],
   "note": "End to end through the model of packing, kernels, object history and assembly. Facets with only some points found are excluded (see C16, C17). Displacement and temperature space have the same number of dofs per cell. Examples C73_elastic_nonvacuous and C73_poisson_nonvacuous."
  },
  {
   "property": "C74",
   "status": "proved",
   "theorems": [
    "C74_quadrature_points",
    "C74_gap",
    "C74_gap_plane"
   ],
   "note": "Any search result (function argument), any stale buffers."
  },
  {
   "property": "C75",
   "status": "proved",
   "theorems": [
    "C75_affine_pull_back",
    "C75_affine_onto",
    "C75_newton",
    "C75_newton_fixed_point",
    "C75_newton_exact"
   ],
   "note": "Exact real arithmetic. DOLFINx's own nonaffine pull-back, used by pull_back on non-affine meshes, is not modelled (an argument)."
  },
  {
   "property": "C76",
   "status": "proved",
   "theorems": [
    "C76_push_forward_facet_normal",
    "C76_contact_normals"
   ],
   "note": "Exact real arithmetic; nonsingular Jacobians."
  },
  {
   "property": "C77",
   "status": "proved",
   "theorems": [
    "C77_gap_is_shortest"
   ],
   "note": "DOLFINx compute_closest_entity and compute_distance_gjk enter as functions assumed to be exact (closest_exact, gjk_exact; both shown satisfiable for edges in GapExamples)."
  },
  {
   "property": "C78",
   "status": "proved",
   "theorems": [
    "C78_matrix_is_derivative",
    "C78_links_of_the_search"
   ],
   "note": "Facets with some but not all points without a contact facet are excluded (found_or_missing in tie_setting), as are histories with crop_invalid_points, which replaces the contact map without repacking. Cells affine. C78_links_of_the_search: the facets coupled in the assembly are those found by the search on the current geometry. Nonvacuity: C78_nonvacuous (two triangles, slipping, closed, all three laws)."
  },
  {
   "property": "C79",
   "status": "proved",
   "theorems": [
    "C79_contact_forces_balance",
    "C79_tie_forces_balance",
    "C79_thermo_tie_forces_balance",
    "C79_heat_flow_balance"
   ],
   "note": "Resultant of the assembled vector is unchanged, whole object model. Hypotheses: every facet has all its points or none (as in C73/C78), no cropping after construction; partition of unity at the points. Non-vacuity: SystemBalanceExamples.v."
  },
  {
   "property": "C80",
   "status": "partial",
   "theorems": [
    "C80_crop_method_raises_exact",
    "C80_crop_removes_far_points_refuted",
    "C80_flat_arrays_crop"
   ],
   "note": "Refuted: the method passes two-axis slices to a wrapper declared for one axis, so with at least one pair every call raises TypeError (AttributeError before generation) and crops nothing. With flattened arrays the effect holds (C80_flat_arrays_crop)."
  },
  {
   "property": "C81",
   "status": "partial",
   "theorems": [
    "C81_outline",
    "C81_missing_end",
    "C81_invalid_domain_exact",
    "C81_invalid_domain_rejected_refuted",
    "C81_lines_closed",
    "C81_surface_mesh_tags",
    "C81_side_loops_closed",
    "C81_tet_mesh_tags_exact",
    "C81_tet_mesh_tags_partition",
    "C81_unsplit_loops",
    "C81_curve_ends",
    "C81_outline_keeps_vertices"
   ],
   "note": "Outlines, lines, 2D tags and curves proved. Refuted parts: an invalid domain with vertex 5 listed first is accepted; in 3D the contact tags are right exactly for domains with four vertices; vertical_line ends at x1 only when x0 and x1 are above each other."
  },
  {
   "property": "C82",
   "status": "proved",
   "theorems": [
    "C82_combined_bodies"
   ],
   "note": "gmsh and dolfinx mesh creation are not modelled; the theorem is about the arrays handed to them."
  },
  {
   "property": "C83",
   "status": "proved",
   "theorems": [
    "C83_values",
    "C83_gradients",
    "C83_affine_gradients",
    "C83_partition_of_unity",
    "C83_refused",
    "C83_opposite_gradients"
   ],
   "note": "Gradients for cells of the same dimension as the space. Tabulation of coordinate element and element are functions of the point whose derivative tables hold derivatives (element_tables, geometry_tables)."
  },
  {
   "property": "C84",
   "status": "partial",
   "theorems": [
    "C84_write_raises_exact",
    "C84_write_stores_forces_refuted",
    "C84_flat_arrays_write",
    "C84_parts_of_traction",
    "C84_inverse_numbering"
   ],
   "note": "Refuted for the code: write hands two-axis arrays to a wrapper that takes one axis, so it raises on every call with a pair. With the arrays flattened the promise holds for all pairs and numberings. Projection and file output are not modelled."
  },
  {
   "property": "C85",
   "status": "partial",
   "theorems": [
    "C85_tagged_facets",
    "C85_cells",
    "C85_coordinates_exact",
    "C85_coordinates_refuted",
    "C85_neighbours_present_partial",
    "C85_markers",
    "C85_vertex_numbers"
   ],
   "note": "Cells and markers proved under DOLFINx' create_mesh contract. Coordinates survive exactly when every owned vertex lies at the geometry node with the same number (the code copies the first nodes); refuted otherwise. Neighbours within the radius are ghosted under the conditions inherited from C02-C04."
  },
  {
   "property": "C86",
   "status": "proved",
   "theorems": [
    "C86_residual_is_form",
    "C86_jacobian_is_form_exact",
    "C86_form_derivative",
    "C86_dirichlet_exact"
   ],
   "note": "Affine cells, as in the driver. C86_dirichlet_exact also shows that the Dirichlet penalties of the two drivers differ by a factor h: nitsche_ufl divides by h twice."
  },
  {
   "property": "C87",
   "status": "partial",
   "theorems": [
    "C87_residual_zero",
    "C87_newton_step",
    "C87_linear_problem",
    "C87_jacobian_point_exact",
    "C87_jacobian_at_argument_refuted"
   ],
   "note": "Refuted in one point: J ignores its argument and assembles at the displacement of the last residual call (C87_jacobian_point_exact). Everything else is proved, with DOLFINx' lifting and boundary condition helpers by their documented effect."
  },
  {
   "property": "C88",
   "status": "partial",
   "theorems": [
    "C88_residual_and_jacobian_points",
    "C88_coefficients_exact",
    "C88_refreshing_callback",
    "C88_convergence_with_stale_ghosts_refuted"
   ],
   "note": "Residual and Jacobian points and the stored residual are proved for every solve, also one that raises. The coefficient callback is called before the ghost update, so it sees the ghost values of the previous residual point (C88_coefficients_exact); nitsche_rigid_surface_custom packs there without updating ghosts, and C88_convergence_with_stale_ghosts_refuted gives a two-process problem where the solver reports convergence with zero residual at a point whose true residual is as large as at the start. For callbacks that refresh ghosts (as in the demos) the full claim holds (C88_refreshing_callback)."
  },
  {
   "property": "C89",
   "status": "partial",
   "theorems": [
    "C89_gap_rows_exact",
    "C89_gap_partial",
    "C89_gap_refuted",
    "C89_residual_is_form",
    "C89_jacobian_is_form_exact",
    "C89_update"
   ],
   "note": "The gap function uses the position of the facet among the marked facets as a row of facet_map, whose rows are ordered by cell: right for all facets exactly if the cells never decrease along the facet numbers (C89_gap_rows_exact); C89_gap_refuted exchanges the gaps of two facets. Kernels and updates are proved in full. The two drivers use different cell sizes (circumradius and diameter), so they agree for equal h only."
  },
  {
   "property": "C90",
   "status": "proved",
   "theorems": [
    "C90_views_disjoint_in_bounds",
    "C90_storage_behaves_as_variables"
   ],
   "note": "All dimensions; shapes compared with the documented ones."
  },
  {
   "property": "C91",
   "status": "partial",
   "theorems": [
    "C91_groups_2d",
    "C91_bottom_lines",
    "C91_outer_lines",
    "C91_bodies_closed",
    "C91_groups_3d_exact",
    "C91_groups_3d_complete_refuted"
   ],
   "note": "Proved in two dimensions. In three dimensions the sides just before and after the jagged part of the outer body are in no group, for all sizes (the two-dimensional slices include them). gmsh itself is not modelled."
  },
  {
   "property": "C92",
   "status": "proved",
   "theorems": [
    "C92_curve_samples",
    "C92_result_unique",
    "C92_curve_terminates",
    "C92_tree_curve_terminates"
   ],
   "note": "Real arithmetic; loops with fuel, and enough fuel is proved to exist. The last theorem uses the standard library's atan and with it Classical_Prop.classic."
  },
  {
   "property": "C93",
   "status": "proved",
   "theorems": [
    "C93_packed_circumradius",
    "C93_rejected"
   ],
   "note": "Real arithmetic; topological dimension equal to geometric dimension."
  },
  {
   "property": "C94",
   "status": "proved",
   "theorems": [
    "C94_consistent",
    "C94_affine",
    "C94_symmetric",
    "C94_skew",
    "C94_coercive",
    "C94_cell_sizes"
   ],
   "note": "Forms as sums over weighted points. The trace inequality is a hypothesis on the displacement. Ghost cells keep size zero, so integrals must be over facets of owned cells."
  },
  {
   "property": "C95",
   "status": "partial",
   "theorems": [
    "C95_database",
    "C95_options_exact",
    "C95_given_options_apply",
    "C95_first_solver",
    "C95_multigrid_exact",
    "C95_update_exact",
    "C95_new_options_only_refuted",
    "C95_cycles_obeyed_refuted"
   ],
   "note": "The code violates two parts: options of an earlier set stay in force after update_krylov_solver (and in any other NewtonSolver of the process), and pc_mg_cycles without pc_mg_levels is ignored. Both are refuted; the exact behaviour is proved."
  },
  {
   "property": "C96",
   "status": "partial",
   "theorems": [
    "C96_well_tagged",
    "C96_circle_plane",
    "C96_halfdisk_plane",
    "C96_gap_disk_box",
    "C96_quarter_disks_exact",
    "C96_quarter_disks_refuted",
    "C96_gap_disks",
    "C96_circle_circle",
    "C96_rectangle_split",
    "C96_box_mesh_2D",
    "C96_sliding_wedges",
    "C96_box_mesh_3D",
    "C96_sphere_plane"
   ],
   "note": "create_quarter_disks_mesh builds half disks where the documentation says quarter disks (refuted). gmsh is a recorder; the spatial generators are covered by their boxes and balls only, without facet tags."
  },
  {
   "property": "C97",
   "status": "partial",
   "theorems": [
    "C97_storage_exact",
    "C97_facets_everywhere",
    "C97_storage_refuted",
    "C97_history",
    "C97_points_of_facet",
    "C97_points_before_detection",
    "C97_max_links",
    "C97_gap_exact",
    "C97_facet_lists"
   ],
   "note": "The code violates the storage part: quadrature points are stored by surface in a vector with one entry per integer of the facet list, so a detection on a process with no (or too few) facets is out of bounds, and qp_phys before a detection reads outside its vector. Exact condition, refutation, and the history part for all sequences are proved."
  },
  {
   "property": "C98",
   "status": "partial",
   "theorems": [
    "C98_tied_points",
    "C98_normal",
    "C98_close",
    "C98_partition_refuted"
   ],
   "note": "Exact criterion proved for every pair and point; independence of the partition is false: the tolerance is the maximum cell size over the facets owned by the process."
  },
  {
   "property": "C99",
   "status": "proved",
   "theorems": [
    "C99_contact_weak_form",
    "C99_contact_consistent",
    "C99_contact_condition",
    "C99_friction_weak_form",
    "C99_friction_consistent",
    "C99_consistent"
   ],
   "note": "Element level, for all rows and test functions; per point the Coulomb conditions are those without the correction for the turning normal, which vanishes where there is contact."
  }
 ]
}
