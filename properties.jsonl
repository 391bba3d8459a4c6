{"id": "C01", "title": "Point-cloud neighbour lists are sound", "statement": "Every index reported by point_cloud_pairs(x, r) for point i is a valid point index different from i, lies at Euclidean distance strictly below r from point i, and is reported once only.", "quantifier": "all point clouds (any number of points, repeated coordinates included), all radii r >= 0, every order the unstable std::sort may give to points with equal first coordinate", "why_tests_cant": "tests use a few clouds; the sort is unstable so ties can be broken in factorially many ways", "anchors": ["cpp/point_cloud.cpp:point_cloud_pairs"]}
{"id": "C02", "title": "Point-cloud neighbour lists are complete and symmetric", "statement": "For two different points at distance below r, each is reported as neighbour of the other by point_cloud_pairs. (Violated by the code: the point sorted first is never reported as a neighbour of a point to its right; the theorem gives the exact set that is reported and a concrete refutation.)", "quantifier": "all point clouds, all radii, all tie orders", "why_tests_cant": "needs all pairs of all clouds; a test that only checks counts on symmetric clouds misses the leftmost point", "anchors": ["cpp/point_cloud.cpp:point_cloud_pairs"]}
{"id": "C03", "title": "Ghost destinations are exactly the owners of neighbouring facets", "statement": "For each facet, the list of destination ranks computed for it is strictly increasing, never contains the facet's own rank, and contains exactly the ranks that own a facet reported as neighbour of it, for any distribution of facets over ranks (ranks without facets included); no entry left over from a previously handled rank leaks in.", "quantifier": "all numbers of ranks, all facet counts per rank, all neighbour relations", "why_tests_cant": "tests run on 1-3 MPI ranks with fixed meshes", "anchors": ["cpp/parallel_mesh_ghosting.cpp:compute_ghost_cell_destinations"]}
{"id": "C04", "title": "Every marked facet's cell is sent to every rank that needs it", "statement": "When create_contact_mesh repartitions, the cell attached to a marked facet is sent to its owner first and to all destination ranks of all its marked facets. (Violated: a cell with several marked facets keeps only the destinations of the last one; proved when every cell has at most one marked facet, refuted otherwise.)", "quantifier": "all facet-to-cell maps and all destination lists", "why_tests_cant": "corner cells with two marked facets and different destinations only appear for particular partitions", "anchors": ["cpp/parallel_mesh_ghosting.cpp:create_contact_mesh"]}
{"id": "C05", "title": "Markers survive the repartitioning (lex_match)", "statement": "lex_match returns exactly the pairs (local entity, value) for which the entity's sorted vertex key equals an incoming key carrying that value, sorted by entity and without repeats, whatever the order of the incoming data, when local keys are pairwise different.", "quantifier": "all lists of local and incoming keys, any key width, any order, repeated incoming keys included", "why_tests_cant": "merge-based join over arbitrary permutations of input; tests have one mesh", "anchors": ["cpp/parallel_mesh_ghosting.cpp:lex_match"]}
{"id": "C06", "title": "copy_to_all is a lossless all-gather", "statement": "After copy_to_all every rank holds the concatenation of all ranks' arrays, keys and values stay aligned, and the result does not depend on which rank looks at it.", "quantifier": "all numbers of ranks and all array lengths, empty arrays included", "why_tests_cant": "needs arbitrary rank counts", "anchors": ["cpp/parallel_mesh_ghosting.cpp:copy_to_all", "cpp/parallel_mesh_ghosting.cpp:create_contact_mesh"]}
{"id": "C07", "title": "Receiving ghost destinations stays inside the received buffers", "statement": "Every rank only reads destination data inside the arrays it received. (Violated: ranks other than the root index an offsets array past its end.)", "quantifier": "all rank numbers and facet counts", "why_tests_cant": "undefined behaviour shows up only on some ranks and often reads harmless memory", "anchors": ["cpp/parallel_mesh_ghosting.cpp:compute_ghost_cell_destinations"]}
{"id": "C08", "title": "Parent-to-submesh cell map is the inverse of the submesh-to-parent map", "statement": "For a submesh built from any list of (cell, local facet) pairs: a parent cell has exactly one submesh cell if it occurs in the list and none otherwise, and going parent -> submesh -> parent or submesh -> parent -> submesh gives back the same cell.", "quantifier": "all pair lists with repeated and unsorted cells, all mesh sizes", "why_tests_cant": "prefix-sum and scatter indexing must be right for every marking pattern", "anchors": ["cpp/SubMesh.cpp:SubMesh::SubMesh"]}
{"id": "C09", "title": "Submesh facet map returns the (cell, local facet) pair of each contact facet", "statement": "For each input pair, looking up its submesh facet yields exactly (submesh cell, local facet) of an input pair attached to that facet, and facets that are not in the input have no entry.", "quantifier": "all meshes (cell-to-facet connectivities) and pair lists", "why_tests_cant": "indexing with stride-2 prefix sums over arbitrary markings", "anchors": ["cpp/SubMesh.cpp:SubMesh::SubMesh", "cpp/SubMesh.cpp:SubMesh::get_submesh_tuples"]}
{"id": "C10", "title": "Copying a function to the submesh preserves its cell values", "statement": "After copy_function the submesh function has, on every submesh cell, the same degrees of freedom as the parent function has on the corresponding parent cell, for every block size; values already in the target do not matter.", "quantifier": "all dofmaps compatible with the parent/submesh cell map, all block sizes, all parent vectors", "why_tests_cant": "shared dofs are written several times in cell order; tests use one mesh", "anchors": ["cpp/SubMesh.cpp:SubMesh::copy_function"]}
{"id": "C11", "title": "Submesh geometry depends only on the last displacement", "statement": "After any sequence of update_submesh_geometry calls the submesh coordinates equal parent coordinates plus the last displacement: no drift, no dependence on earlier calls.", "quantifier": "all histories of displacements, all geometries", "why_tests_cant": "histories are unbounded", "anchors": ["cpp/SubMesh.cpp:SubMesh::update_geometry", "cpp/utils.cpp:update_geometry"]}
{"id": "C12", "title": "Owned contact facets form a prefix and are counted exactly", "statement": "local_facets(s) equals the number of (cell, facet) pairs of surface s whose cell is owned, and these pairs are exactly the first local_facets(s) entries, provided the pair list is sorted by cell as the constructor produces it.", "quantifier": "all pair lists and ownership ranges", "why_tests_cant": "backwards scan; boundary cases (no owned, all owned, empty)", "anchors": ["cpp/Contact.cpp:Contact::Contact", "cpp/utils.cpp:compute_active_entities", "python/dolfinx_contact/wrappers.cpp:compute_active_entities"]}
{"id": "C13", "title": "Active entities are sorted by cell and complete", "statement": "compute_active_entities on exterior facets returns one (cell, local index) pair per facet, with the facet at that local index of the cell, sorted by cell; on cells it returns the cells sorted. The Python wrapper's count of local entities equals the number of owned entries. (The count is violated for cells: the first ghost cell is counted as owned.)", "quantifier": "all entity lists, all connectivities, all ownership ranges", "why_tests_cant": "off-by-one only shows when the first ghost cell is active", "anchors": ["cpp/utils.cpp:compute_active_entities", "python/dolfinx_contact/wrappers.cpp:compute_active_entities"]}
{"id": "C14", "title": "sort_cells groups indices by cell", "statement": "For any list of non-negative cell indices, sort_cells returns the distinct cells in increasing order and a permutation such that the positions between consecutive offsets are exactly the positions of the input holding that cell.", "quantifier": "all lists, any length and repetition pattern", "why_tests_cant": "group-by over arbitrary lists", "anchors": ["cpp/utils.cpp:sort_cells"]}
{"id": "C15", "title": "Linked cells of a facet", "statement": "The cells linked to a contact facet are exactly the parent cells holding the contact facets its quadrature points point to, in increasing order without repeats; their number never exceeds max_links, so no element buffer is overrun.", "quantifier": "all distance maps (any pattern of missing points), all submeshes", "why_tests_cant": "must hold for any contact detection outcome", "anchors": ["cpp/Contact.cpp:compute_linked_cells", "cpp/Contact.cpp:Contact::create_distance_map", "cpp/Contact.cpp:Contact::assemble_vector"]}
{"id": "C16", "title": "Packed test functions belong to the right cell and quadrature point", "statement": "The value packed by pack_test_functions for (facet, link k, dof, quadrature point q) is the basis function of that dof at the contact point of q if q points to the k-th linked cell, and zero otherwise. (Violated when an earlier quadrature point of the facet has no contact: the basis value of another point is stored. Proved for facets without missing points, refuted in general.)", "quantifier": "all distance maps, dof counts and basis tables", "why_tests_cant": "only visible when a facet is partly in contact", "anchors": ["cpp/Contact.cpp:Contact::pack_test_functions"]}
{"id": "C17", "title": "Packed test-function gradients are stored at the right quadrature point", "statement": "The value packed by pack_grad_test_functions for (facet, link, dof, point q, component) is the physical gradient at the contact point of q. (Violated when an earlier quadrature point has no contact: the value is stored at another point.)", "quantifier": "all distance maps, dof counts and basis tables", "why_tests_cant": "only visible when a facet is partly in contact", "anchors": ["cpp/Contact.cpp:Contact::pack_grad_test_functions"]}
{"id": "C18", "title": "Packed opposite displacement equals the test-function expansion", "statement": "pack_u_contact at a quadrature point equals the sum over the linked cells and dofs of packed test functions times the dofs of u, and is zero at points without contact, for facets where all points are in contact.", "quantifier": "all functions u, distance maps, block sizes", "why_tests_cant": "relates two separately coded routines for every input", "anchors": ["cpp/Contact.cpp:Contact::pack_u_contact", "cpp/Contact.cpp:Contact::pack_test_functions"]}
{"id": "C19", "title": "The sparsity pattern covers everything assemble_matrix inserts", "statement": "Every (row, column) block written by assemble_matrix after create_matrix with the same contact detection is in the pattern, so PETSc never drops or reallocates; links that are missing contribute nothing.", "quantifier": "all distance maps, dofmaps, numbers of pairs", "why_tests_cant": "needs all contact configurations", "anchors": ["cpp/Contact.cpp:Contact::create_petsc_matrix", "cpp/Contact.cpp:Contact::assemble_matrix"]}
{"id": "C20", "title": "assemble_vector adds exactly the facet contributions", "statement": "assemble_vector adds to b the sum over owned facets of the element vectors of the facet's cell and its linked cells, each scattered to that cell's dofs; entries of other dofs are untouched; scratch buffers never leak from one facet to the next.", "quantifier": "all kernels, all facet lists, all initial vectors, all dofmaps", "why_tests_cant": "buffer reuse between facets with different number of links", "anchors": ["cpp/Contact.cpp:Contact::assemble_vector"]}
{"id": "C21", "title": "assemble_matrix inserts exactly the facet blocks", "statement": "assemble_matrix inserts for each owned facet the (cell,cell) block and, for each linked cell j, the blocks (cell,j), (j,cell), (j,j), computed on zeroed buffers; nothing from previously handled facets leaks.", "quantifier": "all kernels, facet lists, link patterns", "why_tests_cant": "buffer reuse between facets with different number of links", "anchors": ["cpp/Contact.cpp:Contact::assemble_matrix"]}
{"id": "C22", "title": "Cropping removes exactly the invalid points", "statement": "crop_invalid_points marks a quadrature point of an owned facet as missing exactly when its gap is longer than tol, or is longer than 1e-7 and more than the admitted angle away from the normal; all other entries keep their facet; cropping twice is the same as once, and a smaller tol keeps fewer points.", "quantifier": "all gap and normal arrays, all distance maps, all tolerances", "why_tests_cant": "threshold behaviour for every input", "anchors": ["cpp/Contact.cpp:Contact::crop_invalid_points"]}
{"id": "C23", "title": "Contact coefficient layout is the same in C++ packing, Python packing and kernels", "statement": "The offset at which Python writes each coefficient block (gap, normals, test functions, u, grad u, u_opposite, old normals) equals the offset at which the kernels read it and the total equals coefficients_size; blocks do not overlap.", "quantifier": "all quadrature sizes, dof counts, link counts, dimensions (block size equal to gdim)", "why_tests_cant": "index arithmetic in three places must agree for all sizes", "anchors": ["cpp/Contact.cpp:Contact::coefficients_size", "cpp/contact_kernels.cpp:generate_contact_kernel", "python/dolfinx_contact/general_contact/contact_problem.py:ContactProblem"]}
{"id": "C24", "title": "Mesh-tie coefficient layout is consistent", "statement": "For each mesh-tie problem the offsets used by the packing, by update_kernel_data and by the kernels agree and cover the coefficient array without overlap when the block size equals the geometric dimension (elasticity, thermo-elasticity) or one (Poisson).", "quantifier": "all quadrature sizes, dof counts, link counts, dimensions", "why_tests_cant": "index arithmetic in several places must agree for all sizes", "anchors": ["cpp/MeshTie.cpp:MeshTie::generate_meshtie_data_matrix_only", "cpp/MeshTie.cpp:MeshTie::update_kernel_data", "cpp/MeshTie.cpp:MeshTie::generate_poisson_data_matrix_only", "cpp/meshtie_kernels.cpp"]}
{"id": "C25", "title": "Ray-tracing detection is all-or-nothing per facet", "statement": "With ray tracing each facet has either no quadrature point with a contact facet or all of them; each assigned facet is one of the candidate facets.", "quantifier": "all meshes, candidate sets, search radii and outcomes of the ray solver", "why_tests_cant": "depends on the Newton solver's outcome for every candidate", "anchors": ["cpp/utils.h:compute_raytracing_map"]}
{"id": "C26", "title": "The search radius bounds the ray-tracing distance", "statement": "A contact point found by ray tracing with search radius R > 0 is at distance at most R from the quadrature point and its normal is not pointing the same way. (Violated: the squared distance is compared with R, so with R<1 longer rays are accepted and with R>1 shorter rays are rejected.)", "quantifier": "all rays and radii", "why_tests_cant": "depends on scale of the mesh", "anchors": ["cpp/utils.h:compute_raytracing_map", "cpp/Contact.h:set_search_radius"]}
{"id": "C27", "title": "Frictionless contact Jacobian is the derivative of the residual", "statement": "Away from the contact kink, the matrix blocks produced by the frictionless kernel, applied to a displacement increment, equal the directional derivative of the vector blocks produced by the frictionless residual kernel, for cell and linked cells.", "quantifier": "all coefficients, all basis tables, all quadrature rules, all numbers of links, all displacements off the kink", "why_tests_cant": "finite-difference tests sample a few states", "anchors": ["cpp/contact_kernels.cpp:unbiased_rhs", "cpp/contact_kernels.cpp:unbiased_jac"]}
{"id": "C28", "title": "Tresca friction Jacobian is the derivative of the residual", "statement": "Along any straight line of displacements, the matrix blocks produced by the Tresca kernel applied to the direction equal the derivative of the vector blocks produced by the Tresca residual kernel, for the cell and, when the stored normals are unit vectors, for every linked cell. The state must be off the stick-slip kink (the norm of the tangential argument differs from the radius gamma*fric) and the radius zero or at least 1e-14.", "quantifier": "all coefficients, basis tables, quadrature rules, links, displacements and directions off the kink; unit normals for the linked rows", "why_tests_cant": "finite-difference tests sample a few states", "anchors": ["cpp/contact_kernels.cpp:tresca_rhs", "cpp/contact_kernels.cpp:tresca_jac"]}
{"id": "C29", "title": "Coulomb friction Jacobian is the derivative of the residual", "statement": "As for the Tresca kernel, with radius fric times the positive part of the contact indicator: off the kinks, the Coulomb matrix blocks applied to a direction are the derivative of the Coulomb residual along it, including the dependence of the radius on the contact pressure.", "quantifier": "all coefficients, basis tables, quadrature rules, links, displacements and directions off the contact and stick-slip kinks; unit normals for the linked rows", "why_tests_cant": "finite-difference tests sample a few states", "anchors": ["cpp/contact_kernels.cpp:coulomb_rhs", "cpp/contact_kernels.cpp:coulomb_jac"]}
{"id": "C30", "title": "Mesh-tie residual is the Jacobian applied to the solution", "statement": "The mesh-tie residual kernel equals the mesh-tie Jacobian blocks applied to the displacement, exactly.", "quantifier": "all coefficients, basis tables, quadrature rules, links, displacements, theta, gamma", "why_tests_cant": "linear identity over all data", "anchors": ["cpp/meshtie_kernels.cpp:meshtie_rhs", "cpp/meshtie_kernels.cpp:meshtie_jac"]}
{"id": "C31", "title": "Poisson tie residual is the Jacobian applied to the solution", "statement": "The Poisson tie residual kernel equals the Poisson tie Jacobian blocks applied to the temperature, exactly.", "quantifier": "all coefficients, basis tables, quadrature rules, links, fields", "why_tests_cant": "linear identity over all data", "anchors": ["cpp/meshtie_kernels.cpp:poisson_rhs", "cpp/meshtie_kernels.cpp:poisson_jac"]}
{"id": "C32", "title": "Rigid-surface Jacobian is the derivative of the residual", "statement": "Along any straight line of displacements and away from the kink (contact indicator non-zero at every quadrature point), the rigid-surface Jacobian kernel applied to the direction is the derivative of the rigid-surface residual kernel, for gamma > 0 and h > 0.", "quantifier": "all coefficients with positive gamma and h, all basis tables, quadrature rules, displacements off the kink", "why_tests_cant": "finite-difference tests sample a few states", "anchors": ["cpp/rigid_surface_kernels.cpp:generate_rigid_surface_kernel"]}
{"id": "C33", "title": "Symmetric variants give symmetric matrices", "statement": "With theta = 1 the mesh-tie, Poisson, frictionless contact and rigid-surface element matrices are symmetric: the (cell,cell) and (link,link) blocks are symmetric and (cell,link) is the transpose of (link,cell).", "quantifier": "all coefficients, basis tables, quadrature rules, links", "why_tests_cant": "algebraic identity for all data", "anchors": ["cpp/contact_kernels.cpp:unbiased_jac", "cpp/meshtie_kernels.cpp:meshtie_jac", "cpp/meshtie_kernels.cpp:poisson_jac", "cpp/rigid_surface_kernels.cpp"]}
{"id": "C34", "title": "Contact forces balance", "statement": "If the basis functions sum to one on both sides, the sum over all dofs of cell and linked cells of the residual contributions of the contact, friction and mesh-tie kernels vanishes in each direction: action equals reaction.", "quantifier": "all coefficients, quadrature rules, numbers of links, displacements", "why_tests_cant": "algebraic identity for all data", "anchors": ["cpp/contact_kernels.cpp", "cpp/meshtie_kernels.cpp"]}
{"id": "C35", "title": "Open contact produces no force", "statement": "With theta = 0 and a non-positive contact indicator at every quadrature point, the frictionless and Coulomb kernels leave every residual and matrix entry unchanged, and so do the rigid surface kernels when their indicator is non-negative (open gap); when the facet has no valid quadrature point all two-sided kernels leave everything unchanged.", "quantifier": "all coefficients, basis tables, links", "why_tests_cant": "must hold for every open configuration", "anchors": ["cpp/contact_kernels.cpp", "cpp/rigid_surface_kernels.cpp"]}
{"id": "C36", "title": "Contact traction is compressive and friction is bounded", "statement": "At every quadrature point the normal contact multiplier added by the two-sided and by the rigid surface kernels is non-negative and vanishes where the indicator says open, the Tresca tangential multiplier has norm at most gamma*fric and the Coulomb tangential multiplier at most fric times the normal multiplier.", "quantifier": "all coefficient values with fric, gamma non-negative", "why_tests_cant": "inequality over all inputs", "anchors": ["cpp/contact_kernels.cpp", "cpp/utils.cpp:ball_projection", "cpp/utils.cpp:R_plus", "cpp/rigid_surface_kernels.cpp"]}
{"id": "C37", "title": "Friction matrices scale with the quadrature weights for unit normals only", "statement": "Multiplying all quadrature weights by s multiplies every entry of the Tresca and Coulomb element matrices by s whenever the stored normals are unit vectors. For other normals it does not: the (link,link) block contains a normal term from which the quadrature weight is missing.", "quantifier": "all kernel data, coefficients with unit normals, scale factors, links and dofs", "why_tests_cant": "depends on exact cancellation of a term that lacks a factor", "anchors": ["cpp/contact_kernels.cpp:tresca_jac", "cpp/contact_kernels.cpp:coulomb_jac"]}
{"id": "C38", "title": "Positive/negative part operators", "statement": "R_plus and R_minus are the positive and negative parts (R_plus(x)+R_minus(x)=x, monotone, 1-Lipschitz, idempotent) and dR_plus, dR_minus are their derivatives off zero, both in C++ and Python; the two implementations agree everywhere except for the derivative at zero.", "quantifier": "all reals", "why_tests_cant": "must hold for all values", "anchors": ["cpp/utils.cpp:R_plus", "cpp/utils.cpp:R_minus", "cpp/utils.cpp:dR_plus", "cpp/utils.cpp:dR_minus", "python/dolfinx_contact/helpers.py"]}
{"id": "C39", "title": "Ball projection is the metric projection", "statement": "ball_projection(x, alpha) with alpha >= 0 lies in the ball, is the closest point of the ball to x, is idempotent and non-expansive.", "quantifier": "all vectors of any dimension, all alpha >= 0", "why_tests_cant": "variational inequality over all points", "anchors": ["cpp/utils.cpp:ball_projection", "python/dolfinx_contact/helpers.py:ball_projection"]}
{"id": "C40", "title": "Derivatives of the ball projection", "statement": "d_ball_projection and d_alpha_ball_projection are the derivatives of ball_projection in x and alpha wherever norm(x) differs from alpha (alpha above the code's cut-off).", "quantifier": "all vectors of dimension 2 or 3, alpha, directions", "why_tests_cant": "finite differences sample few points", "anchors": ["cpp/utils.cpp:d_ball_projection", "cpp/utils.cpp:d_alpha_ball_projection"]}
{"id": "C41", "title": "Normal traction of the strain basis", "statement": "The two routes by which the kernels compute normal traction of a basis function (traction matrix contracted with the surface normal; trace and strain terms) agree with sigma(v) n . n_surf of linear elasticity.", "quantifier": "all gradients, normals, Lame parameters, dimension 2 and 3", "why_tests_cant": "algebraic identity", "anchors": ["cpp/elasticity.cpp"]}
{"id": "C42", "title": "Newton solver terminates within its iteration budget", "statement": "solve returns (or raises) after at most max_it Newton iterations with at most seven residual evaluations each plus one, whatever residual, Jacobian and linear solver do.", "quantifier": "all problems, all options, all callbacks", "why_tests_cant": "adversarial callbacks, unbounded behaviours", "anchors": ["python/dolfinx_contact/newton_solver.py:NewtonSolver._solve"]}
{"id": "C43", "title": "Newton convergence flag is truthful", "statement": "If solve reports convergence with the residual criterion then the norm of the residual at the returned iterate is below atol and below rtol times the reference value; with the incremental criterion the last increment is; if it does not converge it raises or reports False according to error_on_nonconvergence.", "quantifier": "all problems and options", "why_tests_cant": "must hold on every execution path", "anchors": ["python/dolfinx_contact/newton_solver.py:NewtonSolver._solve", "python/dolfinx_contact/newton_solver.py:NewtonSolver._check_convergence"]}
{"id": "C44", "title": "Newton line search never increases the residual unless the step floor is hit", "statement": "After each Newton iteration the accepted step is x - 2^-k dx with 0 <= k <= 6 and the residual norm does not exceed the previous one unless k = 6; the stored residual is always the one at the stored iterate.", "quantifier": "all problems and iterations", "why_tests_cant": "history property over arbitrary residual sequences", "anchors": ["python/dolfinx_contact/newton_solver.py:NewtonSolver._solve"]}
{"id": "C45", "title": "A Newton solve does not depend on earlier solves", "statement": "Calling solve again on the same state gives the same result as calling it on a fresh solver with the same options. (Violated: the reference residual of the previous solve is reused in the initial check.)", "quantifier": "all histories of solves", "why_tests_cant": "histories unbounded", "anchors": ["python/dolfinx_contact/newton_solver.py:NewtonSolver._solve", "python/dolfinx_contact/newton_solver.py:NewtonSolver._check_convergence"]}
{"id": "C46", "title": "solve runs the Newton iteration once", "statement": "One call of solve performs one Newton run and returns its iteration count. (Violated for PETSc vectors: the run happens twice and the count of the second is returned.)", "quantifier": "all problems, both argument kinds", "why_tests_cant": "result usually looks right as the second run converges at once", "anchors": ["python/dolfinx_contact/newton_solver.py:NewtonSolver.solve"]}
{"id": "C47", "title": "Newton options take effect or are rejected as a whole", "statement": "set_newton_options stores every given option, keeps others, and on an unknown criterion raises leaving the options unchanged; the relaxation parameter given is used. (Violated: earlier options are stored before the exception; the relaxation parameter is overwritten by 1 in each iteration.)", "quantifier": "all option dictionaries and sequences of calls", "why_tests_cant": "all subsets of options", "anchors": ["python/dolfinx_contact/newton_solver.py:NewtonSolver.set_newton_options"]}
{"id": "C48", "title": "Old normals are the normals of the previous detection", "statement": "After generate_contact_data and any number of update_contact_detection calls, the old-normal block holds the normals of the previous detection (of the same one right after generation), and the gap/normal/test blocks those of the latest.", "quantifier": "all histories of calls", "why_tests_cant": "histories unbounded", "anchors": ["python/dolfinx_contact/general_contact/contact_problem.py:ContactProblem.update_contact_detection", "python/dolfinx_contact/general_contact/contact_problem.py:ContactProblem.generate_contact_data"]}
{"id": "C49", "title": "Updating displacement data touches only displacement blocks", "statement": "update_contact_data changes only the u, grad u and u_opposite blocks; material parameters, h, gap, normals and test functions are unchanged, and the result depends only on the last du and the accumulated grad u.", "quantifier": "all call histories, sizes", "why_tests_cant": "histories unbounded, index arithmetic", "anchors": ["python/dolfinx_contact/general_contact/contact_problem.py:ContactProblem.update_contact_data"]}
{"id": "C50", "title": "Mesh-tie data generation rejects missing coefficients", "statement": "generate_kernel_data raises before changing any coefficient data when a required coefficient of the selected problem type is missing, and otherwise packs it.", "quantifier": "all coefficient dictionaries and problem types", "why_tests_cant": "all subsets of keys", "anchors": ["cpp/MeshTie.cpp:MeshTie::generate_kernel_data"]}
{"id": "C51", "title": "Lame parameters invert to Young's modulus and Poisson ratio", "statement": "lame_parameters with plane strain returns mu, lambda from which E = mu(3 lambda + 2 mu)/(lambda+mu) and nu = lambda/(2(lambda+mu)) recover the input; with plane stress lambda equals 2 mu lambda'/(lambda'+2 mu) of the plane strain value; both positive for E>0, 0<nu<1/2.", "quantifier": "all E > 0 and nu in (-1, 1/2)", "why_tests_cant": "real identity", "anchors": ["python/dolfinx_contact/helpers.py:lame_parameters"]}
{"id": "C52", "title": "Near-nullspace vectors are rigid motions of single bodies", "statement": "Each nullspace vector built for several bodies is zero outside the dofs of its body and there interpolates a translation or an infinitesimal rotation, whose strain (hence elastic energy) vanishes for all Lame parameters.", "quantifier": "all meshes, markers, coordinates, dimension 2 and 3", "why_tests_cant": "all geometries", "anchors": ["cpp/utils.cpp:build_nullspace_multibody", "python/dolfinx_contact/helpers.py:rigid_motions_nullspace_subdomains"]}
{"id": "C53", "title": "Circumradius", "statement": "compute_circumradius returns the radius of the circle (sphere) through the vertices of a non-degenerate triangle (tetrahedron).", "quantifier": "all non-degenerate triangles and tetrahedra", "why_tests_cant": "real identity", "anchors": ["cpp/geometric_quantities.cpp:compute_circumradius"]}
{"id": "C54", "title": "Ray-tracing tangents are orthonormal to the ray", "statement": "compute_tangents returns unit vectors orthogonal to the normal and, in 3D, to each other, for every unit normal.", "quantifier": "all unit normals in 2D and 3D", "why_tests_cant": "case distinctions on components must cover all directions", "anchors": ["cpp/RayTracing.h:compute_tangents"]}
{"id": "C55", "title": "A successful ray hit lies on the ray and in the reference facet", "statement": "When raytracing reports success the returned physical point is, up to the tolerance, on the line through the origin point along the normal and its facet reference coordinates are inside the reference facet (up to the code's tolerance); compute_ray returns the first candidate that succeeds.", "quantifier": "all cells, points, normals, iteration limits, candidate lists", "why_tests_cant": "depends on Newton iterates for every input", "anchors": ["cpp/RayTracing.h:raytracing_cell", "cpp/RayTracing.h:compute_ray"]}
{"id": "C56", "title": "Quadrature rule slices", "statement": "points(i) and weights(i) of a quadrature rule are disjoint consecutive slices that together make up all points and weights.", "quantifier": "all cell types, numbers of facets and points per facet", "why_tests_cant": "index arithmetic for all sizes", "anchors": ["cpp/QuadratureRule.cpp", "cpp/KernelData.cpp"]}
{"id": "C57", "title": "Candidate facets are those within the search radius, nearest first", "statement": "find_candidate_facets returns exactly the candidates whose midpoint is strictly within the radius (all if the radius is negative), ordered by distance, each once.", "quantifier": "all midpoints, facets, radii", "why_tests_cant": "sorting and filtering arbitrary input", "anchors": ["cpp/utils.cpp:find_candidate_facets"]}
{"id": "C58", "title": "Missing material parameters are rejected; given ones are packed", "statement": "ContactProblem.generate_contact_data without mu or lambda raises and leaves coefficients, accumulated gradients, geometry and contact map as they were (only the Nitsche parameters change); otherwise every row holds mu, lambda, the friction coefficient if given, and the cell size. (The documented default of zero friction is violated: a second generation without a friction coefficient keeps the old one.)", "quantifier": "all call histories, coefficient dictionaries, numbers of pairs and rows", "why_tests_cant": "all subsets of keys in all object states", "anchors": ["python/dolfinx_contact/general_contact/contact_problem.py:ContactProblem.generate_contact_data", "python/dolfinx_contact/general_contact/contact_problem.py:ContactProblem.retrieve_material_parameters"]}
{"id": "C59", "title": "Per-body translation vectors", "statement": "near_nullspace_subdomains builds, for every body, a vector that is a uniform translation of that body's displacement dofs and zero on other bodies.", "quantifier": "all meshes, markers, block sizes", "why_tests_cant": "indexing must be right for every mesh and block size; a test on block size one cannot tell block numbers from dof numbers", "anchors": ["python/dolfinx_contact/helpers.py:near_nullspace_subdomains"]}
{"id": "C60", "title": "Newton solver reports missing callbacks", "statement": "solve raises RuntimeError, without moving the owned values of the iterate or touching matrix and right-hand side, when the coefficient, residual or Jacobian callback it needs has not been set.", "quantifier": "all solver states, options, iterates and remaining callbacks", "why_tests_cant": "The order of calls and the state at the exception must be right for every combination of callbacks and every state.", "anchors": ["python/dolfinx_contact/newton_solver.py:NewtonSolver._solve"]}
{"id": "C61", "title": "Generated mesh-tie rows are what the kernels read", "statement": "After generate_kernel_data succeeds for a problem type, every coefficient row holds, in the block the kernel reads it from, the material parameters, the cell size h, test functions and gradients on the connected surface and, when given, the state variables; the rows have the length the kernel was generated for. Without state variables their blocks keep what they held.", "quantifier": "all coefficient dictionaries, problem types, numbers of pairs, facets, quadrature points, dofs, links, and all earlier states of the object", "why_tests_cant": "index arithmetic over six sizes and arbitrary earlier contents", "anchors": ["cpp/MeshTie.cpp:MeshTie::generate_meshtie_data_matrix_only", "cpp/MeshTie.cpp:MeshTie::generate_poisson_data_matrix_only", "cpp/KernelData.cpp:KernelData"]}
{"id": "C62", "title": "Updating mesh-tie data writes the state blocks only", "statement": "update_kernel_data replaces exactly the blocks of the state variables of the selected problem type by their current values, leaves the material and test function blocks, kernels, constants and the data of the other problem type unchanged, and raises without effect when a state variable is missing.", "quantifier": "all coefficient dictionaries, problem types, sizes and generated states", "why_tests_cant": "framing over all entries", "anchors": ["cpp/MeshTie.cpp:MeshTie::update_kernel_data", "cpp/MeshTie.cpp:MeshTie::update_function_data", "cpp/MeshTie.cpp:MeshTie::update_gradient_data"]}
{"id": "C63", "title": "Mesh-tie data after any sequence of calls", "statement": "After any sequence of generate and update calls the rows used by the assembly hold the material data of the last successful generation and the state variables last supplied, and each kernel called by the assembly was generated for rows of that length.", "quantifier": "all finite sequences of generate_kernel_data and update_kernel_data calls with any coefficients", "why_tests_cant": "unbounded histories", "anchors": ["cpp/MeshTie.cpp:MeshTie::generate_kernel_data", "cpp/MeshTie.cpp:MeshTie::update_kernel_data", "cpp/MeshTie.cpp:MeshTie::assemble_vector", "cpp/MeshTie.cpp:MeshTie::assemble_matrix"]}
{"id": "C64", "title": "Ray tracing finds the intersection with an affine facet", "statement": "If the candidate facet is affine (straight edge, flat triangle), its tangential slopes with respect to the ray are non-degenerate and the ray meets the facet plane at some facet coordinates, then raytracing_cell returns exactly these coordinates and the matching physical point after at most two Newton evaluations, with status 1 precisely when they are inside the reference facet; when it stops at its starting guess instead, the guess is within the tolerance of the true coordinates.", "quantifier": "all dimensions 2 and 3, affine maps, points, unit normals, tolerances and iteration limits of at least two", "why_tests_cant": "exactness has to hold for every facet and ray, not for sampled geometries", "anchors": ["cpp/RayTracing.h:raytracing_cell", "cpp/RayTracing.cpp:raytracing"]}
{"id": "C65", "title": "Kernels use the geometry of each quadrature point", "statement": "The contributions an element kernel adds at a quadrature point are computed with that point's Jacobian inverse, facet scaling and physical normal: they do not depend on which points were visited before nor on uninitialised storage, and on affine cells the values computed once from the first point are the values at every point.", "quantifier": "all meshes data, affine or not, all facets, all subsets and orders of quadrature points, all initial contents of local arrays", "why_tests_cant": "stale or uninitialised geometry shows only for particular orders and memory contents", "anchors": ["cpp/KernelData.h:KernelData::update_jacobian", "cpp/KernelData.h:KernelData::update_normal", "cpp/KernelData.h:KernelData::compute_first_facet_jacobian", "cpp/meshtie_kernels.cpp", "cpp/contact_kernels.cpp"]}
{"id": "C66", "title": "Recovered contact forces are the elastic tractions", "statement": "compute_contact_forces returns, for every facet, quadrature point and component, the traction sigma(u) n of isotropic linear elasticity for that facet's and point's gradient and normal, and nothing else.", "quantifier": "all numbers of facets, points and dimensions, all gradients, normals and Lame parameters", "why_tests_cant": "index and algebra identity for all sizes", "anchors": ["cpp/elasticity.cpp:compute_contact_forces", "cpp/elasticity.cpp:compute_sigma_n_u"]}
{"id": "C67", "title": "Physical facet normals", "statement": "The physical facet normal computed from an inverse Jacobian and a reference normal has unit length, is orthogonal to the facet's tangents and points to the side of the cell the reference normal points to.", "quantifier": "all invertible Jacobians, facets and reference normals in all dimensions", "why_tests_cant": "must hold for every cell geometry", "anchors": ["cpp/geometric_quantities.h:physical_facet_normal", "cpp/KernelData.h:KernelData::update_normal"]}
{"id": "C68", "title": "Element kernels stay inside their buffers", "statement": "Every generated element kernel keeps the number and sizes of the element buffers it is given, and with n linked cells reads and writes only the first n+1 element vectors (3n+1 element matrices), whatever the other buffers contain; these are the conditions under which assembly adds exactly the facet contributions.", "quantifier": "all kernels, kernel data, coefficient rows, numbers of links and buffer contents", "why_tests_cant": "a stray write shows only for particular numbers of links and buffer contents", "anchors": ["cpp/meshtie_kernels.cpp", "cpp/contact_kernels.cpp", "cpp/rigid_surface_kernels.cpp"]}
{"id": "C69", "title": "Rigid surface kernels do not read uninitialised memory", "statement": "The vectors and matrices added by the rigid surface kernels are determined by their arguments: on affine cells, and on all cells when the surface normal is packed per quadrature point. With a constant surface normal on non-affine cells this fails: the product of the facet normal with the surface normal is formed before the facet normal is computed, so two calls with the same arguments may give different residuals.", "quantifier": "all kernel data, coefficient rows, constants and prior contents of local storage", "why_tests_cant": "uninitialised storage often happens to hold the wanted value", "anchors": ["cpp/rigid_surface_kernels.cpp:generate_rigid_surface_kernel"]}
{"id": "C70", "title": "The tie residuals are the Nitsche weak forms", "statement": "For any discrete solution and any test function (coefficients on the facet's cell and on every linked cell), pairing the element vectors that the mesh tie right-hand-side kernel adds with the test coefficients gives exactly the quadrature of half the surface measure times  -{sigma(u)n}.[v] + gamma/h [u].[v] - theta {sigma(v)n}.[u], with jumps and averages over the two sides; the Poisson tie gives the same form with fluxes, scaled by the conductivity; the thermo-elastic kernel gives the isotropic thermal stress of the average temperature acting on the jump of the test function.", "quantifier": "all kernel tables, dimensions, coefficient rows holding the traces of any discrete functions, any number of links and quadrature points, any test coefficients, parameters gamma, theta, h", "why_tests_cant": "Tests compare with another assembly on a few meshes; a sign or factor that cancels in the compared configuration, or only shows for test functions of linked cells, goes unseen.", "anchors": ["cpp/meshtie_kernels.cpp: generate_meshtie_kernel, generate_poisson_kernel", "python/dolfinx_contact/wrappers.cpp: generate_meshtie_kernel"]}
{"id": "C71", "title": "Packed coefficients are the function's values at the quadrature points", "statement": "pack_coefficient_quadrature returns, for every listed entity (cell, or cell and local facet), every quadrature point and every component, the value of the function there: the sum over the cell's basis functions, transformed and pushed forward where the space needs it, of the basis function at that point times its coefficient. The array has one row of value_size times number-of-points entries per listed entity, also for repeated entities. Integral types other than cell and exterior facet are refused.", "quantifier": "all meshes, dofmaps, coefficient vectors, blocked scalar or unblocked vector spaces with or without dof transformations, blocked or unrolled dofmaps, all lists of entities, all quadrature rules", "why_tests_cant": "Tests compare against interpolation on single elements and degrees; wrong strides or block unrolling only show for particular combinations of block size, value size and entity lists.", "anchors": ["cpp/coefficients.cpp: pack_coefficient_quadrature, transformed_push_forward", "python/dolfinx_contact/wrappers.cpp: pack_coefficient_quadrature"]}
{"id": "C72", "title": "Packed gradients are the function's gradients at the quadrature points", "statement": "pack_gradient_quadrature returns, for every listed entity, quadrature point, component and direction, the derivative of that component in that direction at that point, by the chain rule with the inverse Jacobian at that point; for isoparametric elements the packed gradient of x -> G x + b is G. Spaces needing dof transformations are refused.", "quantifier": "all meshes (affine or not), dofmaps, coefficient vectors, blocked scalar or unblocked vector spaces, all lists of entities and quadrature rules", "why_tests_cant": "A transposed inverse Jacobian or a stride error vanishes on axis-aligned or scalar test cases.", "anchors": ["cpp/coefficients.cpp: pack_gradient_quadrature", "python/dolfinx_contact/wrappers.cpp: pack_gradient_quadrature"]}
{"id": "C73", "title": "The assembled mesh tie residual is the assembled matrix applied to the current solution", "statement": "After any sequence of generate_kernel_data and update_kernel_data calls on a mesh tie object, assemble_vector adds to every entry of the vector exactly the entry of the assembled matrix applied to the displacement (elasticity) or temperature (Poisson) that was supplied last; for thermo-elasticity it adds this plus the temperature load. The kernels, the packed rows, the pairing of facets, the test functions of the linked cells and the scatter into global dofs all fit together.", "quantifier": "every mesh, space and quadrature rule (affine tables consistent), every set of contact pairs in which each facet has contact points for all or for none of its quadrature points, every history of calls, every solution vector and every input vector", "why_tests_cant": "the identity links seven code paths (packing of values, gradients, opposite values, test functions, two kernels, two assemblers) over all histories and meshes; a test sees one mesh and compares with a tolerance", "anchors": ["cpp/MeshTie.cpp: generate_kernel_data, update_kernel_data, assemble_vector, assemble_matrix", "cpp/Contact.cpp: assemble_vector, assemble_matrix, pack_test_functions, pack_grad_test_functions, pack_u_contact, pack_grad_u_contact", "cpp/coefficients.cpp: pack_coefficient_quadrature, pack_gradient_quadrature", "cpp/meshtie_kernels.cpp: generate_meshtie_kernel, generate_poisson_kernel"]}
{"id": "C74", "title": "The packed gap runs from the quadrature point to the point found", "statement": "After contact detection, for every owned facet of the first surface and every quadrature point, the packed gap is zero if detection found no facet for the point, and otherwise the vector from the physical quadrature point (the image of the rule's reference point under the facet's cell) to the image of the stored reference contact point under the cell of the facet found. Stale buffers from an earlier detection have no influence. The gap to a plane is the signed height in the last component and zero in the others.", "quantifier": "every mesh and coordinate element, every pair, rule, search result (either search mode), stale buffer, facet, quadrature point and component", "why_tests_cant": "the packed arrays are flat with three nested strides and are filled from the result of an earlier detection; tests compare a few meshes", "anchors": ["cpp/Contact.cpp: pack_gap, pack_gap_plane, create_q_phys, create_distance_map", "cpp/utils.cpp: compute_physical_points"]}
{"id": "C75", "title": "Pulling back a point inverts the cell's map", "statement": "On straight triangles and tetrahedra the affine pull-back returns exactly the reference point a physical point came from, together with the map's Jacobian and a left inverse of it; when cells have the dimension of space, every point is mapped back to itself. On other cells the pull-back returns the first Newton iterate whose step is below the tolerance, raises an error exactly when no step within the allowed number is, a zero step means the equation is solved, and cells with affine maps are solved exactly in two iterations.", "quantifier": "every mesh, nondegenerate cell, list of points, tolerance, iteration limit", "why_tests_cant": "must hold for every nondegenerate cell and point, in three combinations of dimensions including surfaces in space", "anchors": ["cpp/utils.cpp: pull_back", "cpp/geometric_quantities.cpp: pull_back_nonaffine"]}
{"id": "C76", "title": "Contact normals are outward unit normals", "statement": "The normals packed for the kernels are unit vectors orthogonal to the image of the reference facet and pointing out of the cell: with ray tracing, minus the normal of the quadrature facet at the quadrature point; with closest-point search, the normal of the facet found at the point found, and zero where none was found.", "quantifier": "every mesh (curved or straight), pair, search result, facet and quadrature point with nonsingular Jacobian", "why_tests_cant": "depends on the local facet index found from a global facet and on cell orientation; must hold for every cell geometry", "anchors": ["cpp/Contact.cpp: pack_nx, pack_ny", "cpp/geometric_quantities.h: physical_facet_normal", "cpp/geometric_quantities.cpp: push_forward_facet_normal", "python/dolfinx_contact/general_contact/contact_problem.py: pack_normals"]}
{"id": "C77", "title": "Closest-point search yields the shortest gap", "statement": "With closest-point detection on straight triangles or tetrahedra, for every owned facet and quadrature point the gap ends on a candidate facet, namely the one recorded in the facet map, and no point of any candidate facet is closer to the quadrature point.", "quantifier": "every mesh of straight simplices (also surfaces in space), pair, rule, facet and quadrature point; the search routines of DOLFINx are assumed to meet their documentation", "why_tests_cant": "minimality is over all points of all candidate facets; the result passes through padding, index translation and pull-back", "anchors": ["cpp/utils.cpp: compute_distance_map, entities_to_geometry_dofs, facet_indices_from_pair", "cpp/utils.h: compute_projection_map", "cpp/Contact.cpp: create_distance_map, pack_gap"]}
{"id": "C78", "title": "The assembled contact matrix is the derivative of the assembled contact residual", "statement": "After any history of calls on a ContactProblem object that has been generated successfully (generations, data updates, contact detections, parameter changes, refused calls), the contributions that assemble_matrix adds, times any direction, are the derivative of the vector that assemble_vector produces with respect to the displacement passed to update_contact_data, for every entry, for frictionless, Tresca and Coulomb contact, wherever no quadrature point is exactly at a switch between open and closed or between stick and slip.", "quantifier": "every history of calls without crop_invalid_points, number of pairs, meshes with affine facets and Lagrange-type blocked spaces, quadrature, displacement, direction, start vector, parameters, friction law and entry", "why_tests_cant": "a Taylor test samples a few meshes, directions and histories; the statement couples packing, column layout, the object's stored state, kernels and assembly for all of them", "anchors": ["python/dolfinx_contact/general_contact/contact_problem.py: ContactProblem.assemble_vector, ContactProblem.assemble_matrix, update_contact_data, update_contact_detection, generate_contact_data", "cpp/Contact.cpp: assemble_vector, assemble_matrix, pack_u_contact, pack_test_functions", "cpp/contact_kernels.cpp: generate_contact_kernel", "cpp/coefficients.cpp: pack_coefficient_quadrature, pack_gradient_quadrature"]}
{"id": "C79", "title": "Assembled contact forces and heat flows are in balance", "statement": "When the basis functions sum to one at the quadrature points and at the contact points (and their derivatives to zero), assembling the contact residual of a ContactProblem (any friction law, after any sequence of calls without cropping) or the residual of a mesh tie (elastic, thermo-elastic or heat, after any history of generate/update calls) into a vector keeps its length and changes the total of every displacement component (the resultant force), or the total heat flow, by zero: the surfaces act on each other with opposite forces and nothing acts from outside.", "quantifier": "All meshes, numbers of pairs and facets, element sizes, quadrature rules, material data, penalty and method parameters, displacements/temperatures, call histories, initial vectors and components.", "why_tests_cant": "A test checks one mesh and one displacement; the balance must hold for every contact map, every history of the object and every friction branch, and a packing or sign error shows only for particular contact configurations.", "anchors": ["cpp/Contact.cpp: Contact::assemble_vector", "cpp/MeshTie.cpp: MeshTie::assemble_vector, generate_kernel_data", "cpp/contact_kernels.cpp", "cpp/meshtie_kernels.cpp", "python/dolfinx_contact/general_contact/contact_problem.py: ContactProblem.assemble_vector"]}
{"id": "C80", "title": "Cropping through a contact problem removes the far points", "statement": "ContactProblem.crop_invalid_points(tol), called after the contact data has been generated, marks exactly the contact points as missing whose stored gap is longer than tol (or is too far from the stored normal) for every pair, and leaves all others.", "quantifier": "all objects, numbers of pairs, facets and points, stored gaps and normals, and tolerances", "why_tests_cant": "the method is never called in the test-suite; whether it has its effect depends on the shapes of all arrays it passes on", "anchors": ["python/dolfinx_contact/general_contact/contact_problem.py: ContactProblem.crop_invalid_points", "python/dolfinx_contact/wrappers.cpp: crop_invalid_points", "cpp/Contact.cpp: Contact::crop_invalid_points"]}
{"id": "C81", "title": "Split-box outlines follow the cut and mark exactly the cut as contact", "statement": "For a body given as a closed polygon of vertex numbers in which 4 and 5 (the ends of the cut) are neighbours, the split-box generators draw exactly that polygon with the edge 4-5 replaced by the curve, in the body's direction of travel; polygons where 4 and 5 are missing or not neighbours are rejected. The drawn lines close up, each line (and in 3D each surface) gets exactly one tag, and the two contact tags are on exactly the lines (side surfaces) along the curve. The curve functions start at x0 and end at x1.", "quantifier": "all polygons without repeated vertices (any number of vertices, any starting vertex and direction), all point coordinates, all numbers of segments", "why_tests_cant": "there are infinitely many polygons and segment counts; the generators need gmsh and the few uses in demos all take four-vertex polygons in two fixed orders", "anchors": ["python/dolfinx_contact/meshing/split_box.py: get_surface_points, create_surface_mesh, create_tet_mesh, create_unsplit_box_2d, vertical_line, horizontal_line, horizontal_sine"]}
{"id": "C82", "title": "Merging the two bodies of a split box keeps both and connects nothing", "statement": "The mesh data of create_split_box_2D and create_split_box_3D contains every cell and marked facet of both bodies with its coordinates and its tag, in order, and no node belongs to entities of both bodies.", "quantifier": "all pairs of meshes (any number of nodes, cells and facets)", "why_tests_cant": "a wrong offset shows only for particular numberings; it must hold for all node counts", "anchors": ["python/dolfinx_contact/meshing/split_box.py: create_split_box_2D, create_split_box_3D"]}
{"id": "C83", "title": "Evaluated basis functions are the cell's functions and their physical derivatives", "statement": "evaluate_basis_functions fills its output, of the shape evaluate_basis_shape announces, with the values of the basis functions of each point's cell at the point and, when derivatives are asked for, with their derivatives in physical coordinates: any differentiable function on space that agrees with the basis function on the cell has them as its gradient. Points with a negative cell get zeros, whatever was in the array. Values that sum to one on the reference cell sum to one in every cell and the derivatives sum to zero (the hypothesis of the force balance C79). Calls with different numbers of points and cells, and mixed spaces, are refused.", "quantifier": "all meshes of triangles, tetrahedra or curved (non-affine) cells, scalar (blocked) elements, points, cells including negative ones, and previous contents of the output", "why_tests_cant": "the chain rule with the Jacobian of each cell must hold at every point of every cell; transposed Jacobians are invisible on symmetric or axis-aligned cells", "anchors": ["cpp/utils.cpp: evaluate_basis_functions, evaluate_basis_shape", "cpp/Contact.cpp: Contact::pack_grad_test_functions, Contact::pack_grad_u_contact"]}
{"id": "C84", "title": "Written contact pressures", "statement": "ContactWriter.write stores, for every facet of every contact pair and every quadrature point, the normal and the tangential part of the traction sigma(u) n with respect to the contact normal, at the position of that facet in the facet mesh; with a unit normal the squares of the two parts sum to the square of the traction.", "quantifier": "all lists of contact pairs, entity lists, facet numberings, displacement gradients, normals, Lame parameters and quadrature sizes", "why_tests_cant": "Tests write one configuration and at best look at the file in a viewer; the inverse numbering and the block positions have to be right for every facet order, and a wrong axis count is only seen when write is called at all.", "anchors": ["python/dolfinx_contact/output.py:ContactWriter.__init__", "python/dolfinx_contact/output.py:ContactWriter.write", "python/dolfinx_contact/wrappers.cpp:compute_contact_forces", "cpp/elasticity.cpp:compute_contact_forces"]}
{"id": "C85", "title": "Mesh with contact ghosts is the same mesh", "statement": "The mesh returned by create_contact_mesh holds on every rank exactly the rank's own cells and the cells sent to it, with the coordinates the vertices had before, the facet and cell markers of the original mesh, and the cells of all tagged facets of other ranks within the given radius of a tagged facet of the rank.", "quantifier": "all numbers of ranks, distributed meshes, vertex and node numberings, markers, tags and radii", "why_tests_cant": "Tests run on one or two ranks with generated meshes whose vertex and node numbers happen to agree; coordinates, markers and ghosts have to be right for every distribution and numbering.", "anchors": ["cpp/parallel_mesh_ghosting.cpp:create_contact_mesh", "cpp/parallel_mesh_ghosting.cpp:compute_ghost_cell_destinations", "cpp/parallel_mesh_ghosting.cpp:lex_match", "python/dolfinx_contact/parallel_mesh_ghosting.py:create_contact_mesh"]}
{"id": "C86", "title": "One-sided drivers: custom kernels and UFL forms agree", "statement": "On the data that the custom one-sided driver packs for a facet, the rigid surface kernels add exactly the contact integrals of the UFL driver: the residual always, the matrix wherever the argument of the negative part is not zero (there UFL takes half the slope and the kernel none). The UFL Jacobian is the derivative of the UFL residual. The weak Dirichlet terms of both drivers vanish at the prescribed displacement up to the consistency term.", "quantifier": "all affine elements, quadrature rules, material and Nitsche parameters, plane positions, displacements and basis functions", "why_tests_cant": "Tests compare the two drivers' solutions on a few meshes within a tolerance; that both assemble the same terms has to hold for every state, and the difference at the kink has measure zero.", "anchors": ["python/dolfinx_contact/one_sided/nitsche_ufl.py:nitsche_ufl", "python/dolfinx_contact/one_sided/nitsche_custom.py:nitsche_custom", "cpp/rigid_surface_kernels.cpp:generate_rigid_surface_kernel", "cpp/Contact.cpp:pack_gap_plane"]}
{"id": "C87", "title": "SNES problem: boundary conditions and linearisation", "statement": "The residual of NonlinearPDE_SNESProblem vanishes exactly at displacements that satisfy the boundary conditions and the equations of the free dofs. A Newton step with its matrix satisfies the boundary conditions and the linearised equations in all free rows, so an affine problem is solved in one step. The matrix returned for a point is the one at that point after every history of calls.", "quantifier": "all numbers of dofs, residuals, matrices, boundary conditions, displacements and sequences of residual and matrix calls", "why_tests_cant": "Tests run SNES with one line search and one problem; the sign and lifting conventions and the dependence on the call order have to be right for every problem and history.", "anchors": ["python/dolfinx_contact/helpers.py:NonlinearPDE_SNESProblem.F", "python/dolfinx_contact/helpers.py:NonlinearPDE_SNESProblem.J"]}
{"id": "C88", "title": "Newton callbacks see the current iterate on every process", "statement": "During a solve, the residual and the Jacobian are always evaluated at an iterate whose ghost values agree with their owners, and when the solve ends, however it ends, the stored right hand side is the residual of the returned iterate for the stored coefficients. The coefficient callback is called with the current iterate too, ghost values included, so that convergence is reported only where the residual of the returned point is small.", "quantifier": "all problems, callbacks, initial guesses, options, linear solver answers and numbers of iterations, on any number of processes", "why_tests_cant": "The order of callbacks and ghost updates matters only on several processes and in the middle of a solve; a run that converges looks the same whether or not the coefficients were computed with old ghost values.", "anchors": ["python/dolfinx_contact/newton_solver.py:NewtonSolver.solve", "python/dolfinx_contact/newton_solver.py:NewtonSolver._solve", "python/dolfinx_contact/one_sided/nitsche_rigid_surface_custom.py:pack_coefficients"]}
{"id": "C89", "title": "Rigid-body drivers: gap, kernels and coefficient updates", "statement": "In the driver that writes contact with a rigid body as a UFL form, the gap at a point of the contact surface runs to the rigid facet found for the facet of that point. In the driver with custom kernels, the kernels applied to the packed rows add the contact integrals of the same form, with the packed gap and against the packed normal of the rigid surface (the matrix outside the kink), and the coefficient update replaces the displacement and its gradient and nothing else, whatever was packed before.", "quantifier": "all meshes and facet numberings, elements, quadrature rules, parameters, packed data and sequences of updates", "why_tests_cant": "Whether facets and cells are numbered in the same order depends on the mesh, and the test meshes have one convenient numbering; the agreement of forms and kernels must hold for every state.", "anchors": ["python/dolfinx_contact/one_sided/nitsche_rigid_surface.py:gap", "python/dolfinx_contact/one_sided/nitsche_rigid_surface.py:nitsche_rigid_surface", "python/dolfinx_contact/one_sided/nitsche_rigid_surface_custom.py:nitsche_rigid_surface_custom", "python/dolfinx_contact/wrappers.cpp:facet_map", "cpp/rigid_surface_kernels.cpp:generate_rigid_surface_kernel"]}
{"id": "C90", "title": "Scratch quantities of the ray tracing solver do not overlap", "statement": "All intermediate quantities of the ray tracing solver share one work array; each has the documented shape, lies inside the array, and after any sequence of writes each entry holds the value written to it last: writing one quantity never changes another.", "quantifier": "all topological and geometric dimensions, all entries, all sequences of writes", "why_tests_cant": "an overlap by one entry corrupts a value only for some dimensions and only between certain writes", "anchors": ["cpp/RayTracing.h:NewtonStorage"]}
{"id": "C91", "title": "Christmas tree meshes: every boundary part gets exactly one tag", "statement": "For every number of pieces and every length of the curves, the tag groups of the Christmas tree meshes partition the boundary of both bodies: tag 3 the bottom of the tree, tag 4 the box, one tag per piece of the tree and per piece around it, each family cutting its curve into consecutive parts; the extruded bodies are closed. (Violated in three dimensions: two sides of the outer body are in no group.)", "quantifier": "all numbers of pieces, all lengths of curve, bottom and connecting parts, all outlines", "why_tests_cant": "off-by-one slices show only for particular lengths and splits, and an untagged facet goes unnoticed", "anchors": ["python/dolfinx_contact/meshing/christmas_tree.py:create_christmas_tree_mesh", "python/dolfinx_contact/meshing/christmas_tree.py:create_christmas_tree_mesh_3D", "python/dolfinx_contact/meshing/christmas_tree.py:create_closed_curve"]}
{"id": "C92", "title": "The jagged curve is finished in finitely many steps and is evenly resolved", "statement": "jagged_curve always ends and returns points that start at the origin, lie on the curve, move strictly to the right by at most xmax/npoints, are at most twice that far apart, and stop at the first point at or beyond xmax.", "quantifier": "all numbers of points, widths, parameters |t| < 1, t != 0, and Lipschitz continuous radius functions", "why_tests_cant": "termination of two nested while loops over the reals; steep parts of the curve shrink the step", "anchors": ["python/dolfinx_contact/meshing/christmas_tree.py:jagged_curve"]}
{"id": "C93", "title": "The packed cell size of a facet is the circumradius of its cell", "statement": "pack_circumradius returns one number per (cell, local facet) pair, in order: the radius of the sphere through the vertices of that cell, the same for every facet of the cell. Non-affine meshes and cells that are not simplices are rejected with an exception.", "quantifier": "all affine simplex meshes with equal topological and geometric dimension, all lists of pairs with non-degenerate cells", "why_tests_cant": "every position of the vertices and every list of facets; a wrong row of the tabulated gradients or of the geometry is only visible on special meshes", "anchors": ["cpp/coefficients.cpp:pack_circumradius", "cpp/geometric_quantities.cpp:compute_circumradius", "cpp/error_handling.cpp:check_cell_type"]}
{"id": "C94", "title": "Weakly imposed Dirichlet conditions are consistent, symmetric or skew as chosen, and stable", "statement": "The terms weak_dirichlet adds vanish together with the work of the boundary traction for a displacement that has the prescribed values; they are affine in the displacement with a Jacobian independent of the prescribed values, symmetric for theta = 1, equal to the penalty energy for theta = -1, and leave at least half of elastic energy plus penalty for every theta once gamma >= (1+theta)^2 C with C the trace constant. The penalty is divided by the size of the cell on owned cells.", "quantifier": "all dimensions, materials, boundaries, prescribed values, displacements, test functions, gamma, theta", "why_tests_cant": "identities between forms for every displacement and test function; a sign or transposition error converges to a wrong solution for some of them only", "anchors": ["python/dolfinx_contact/helpers.py:weak_dirichlet", "python/dolfinx_contact/helpers.py:sigma_func", "python/dolfinx_contact/helpers.py:epsilon"]}
{"id": "C95", "title": "A linear solver obeys the options it is given", "statement": "set_krylov_options makes solver, matrix and vector take every option of the dictionary under the solver's prefix, matptap_via is set for the whole process, the multigrid options are applied to the preconditioner; nothing else in the option database changes. After update_krylov_solver the new solver has the new set of options.", "quantifier": "all dictionaries, all states of the option database, all earlier calls", "why_tests_cant": "depends on the history of a process-wide database; leftovers only show for particular sequences of calls", "anchors": ["python/dolfinx_contact/newton_solver.py:NewtonSolver.set_krylov_options", "python/dolfinx_contact/newton_solver.py:NewtonSolver.update_krylov_solver"]}
{"id": "C96", "title": "The two-body meshes have the documented bodies, gap and boundary tags", "statement": "Each planar generator of contact_meshes.py creates two bodies 1 and 2 with closed outlines, gives every curve of the outline exactly one facet tag, numbers the tags from 1 without repetition, and puts no tag on both bodies; the bodies are those of the documentation and exactly the given gap apart.", "quantifier": "all radii, heights, lengths, gaps, angles and resolutions", "why_tests_cant": "real parameters; a missing tag or a wrong gap is silent and changes the contact problem solved", "anchors": ["python/dolfinx_contact/meshing/contact_meshes.py"]}
{"id": "C97", "title": "A contact object keeps the data of every surface and pair in its own storage", "statement": "Whatever the partition and the sequence of contact detections, the object never reads or writes outside its containers; facet map, reference points and link count of a pair are those of its last detection, the quadrature points returned for a facet (owned or ghost) are its points on the mesh of the last detection from its surface.", "quantifier": "all facet lists on a process, all contact pairs and modes, all sequences of detections, all meshes", "why_tests_cant": "the storage is too small only on processes with few or no contact facets, and reading outside it may go unnoticed; histories of detections are unbounded", "anchors": ["cpp/Contact.cpp:Contact::Contact", "cpp/Contact.cpp:create_distance_map", "cpp/Contact.cpp:create_q_phys", "cpp/Contact.cpp:qp_phys", "cpp/Contact.h:max_links"]}
{"id": "C98", "title": "A mesh tie connects exactly the points that are close enough", "statement": "After constructing a mesh tie, a quadrature point of an owned facet is connected to its closest point on the other surface exactly if the gap is at most the largest cell size of the surface and (unless tiny) along the normal there; it is unconnected otherwise. Which points are connected does not depend on how the mesh is distributed.", "quantifier": "all meshes, facet lists, pairs, partitions, quadrature rules and closest point results", "why_tests_cant": "the criterion is a real inequality for every geometry, and the dependence on the partition shows only for non-uniform cell sizes split over processes", "anchors": ["cpp/MeshTie.cpp:MeshTie::MeshTie", "cpp/Contact.cpp:crop_invalid_points", "cpp/Contact.cpp:pack_ny"]}
{"id": "C99", "title": "The contact residual is the consistent Nitsche form of the contact and friction conditions", "statement": "Tested against any discrete function, the assembled contact kernels give the integral of the Nitsche form of unilateral contact (and of Tresca or Coulomb friction). If the displacement meets the contact and friction conditions at the quadrature points, the residual is exactly the work of the traction on the jump of the test function, for every Nitsche parameter and every variant; the kernel's contact pressure and friction force equal the traction only if the conditions hold.", "quantifier": "all facets, meshes, coefficient rows, test functions, positive Nitsche parameters, theta, friction coefficients, dimensions 2 and 3", "why_tests_cant": "consistency is an identity between integrals for every displacement, geometry and parameter; a wrong sign or factor in one term may leave convergence on sample problems", "anchors": ["cpp/contact_kernels.cpp:generate_contact_kernel", "cpp/contact_kernels.cpp:unbiased_rhs", "cpp/contact_kernels.cpp:tresca_rhs", "cpp/contact_kernels.cpp:coulomb_rhs"]}
{"id": "C100", "title": "In contact equilibrium the assembled contact residual is exactly the work of the surface tractions", "statement": "For a contact problem object after any history of calls and for any displacement increment u: if at every contact point of every pair the data satisfy the contact conditions (no penetration, no adhesion, zero work) and the chosen friction law (none, Tresca, Coulomb), then the vector assembled over all pairs with the generated kernels, applied to any test function v, equals the incoming vector applied to v minus the sum over pairs, owned facets and quadrature points of half the surface weight times the inner product of the traction with the jump of v across the interface; the Nitsche penalty, the theta terms and the friction terms drop out. The jump the kernels use is the jump of u itself, evaluated through the current contact map, and the gradient is that of u plus the one stored at the last detection.", "quantifier": "all meshes, contact maps, numbers of pairs, facets and links, all histories of generate/update/detection calls, all u, v and incoming vectors, every positive gamma and every theta", "why_tests_cant": "Consistency is an identity over all test functions and all equilibrium states; a test fixes one mesh and one solution, and the identity involves packing, kernels and scatter together.", "anchors": ["cpp/Contact.cpp:assemble_vector", "cpp/contact_kernels.cpp:generate_contact_kernel", "python/dolfinx_contact/general_contact/contact_problem.py:assemble_vector", "python/dolfinx_contact/general_contact/contact_problem.py:update_contact_data"]}
{"id": "C101", "title": "Three-dimensional split-box bodies are closed and their faces are tagged alike for tetrahedra and hexahedra", "statement": "For every curve and domain, the surface loop from which the tetrahedral generator makes a body is a closed shell: the loop of every face is a closed walk, and the faces can be oriented so that every line is used exactly once in each direction. For a four-vertex domain every face gets exactly one of the three tags, the contact tags are exactly the sides over the curve, and the hexahedral and the tetrahedral generator put the same sides in the same group.", "quantifier": "every number of points on the outline and on the curve", "why_tests_cant": "tests generate a few boxes with one default number of segments; an open shell, an overlap or a shifted division depends on the number and parity of the curve points", "anchors": ["python/dolfinx_contact/meshing/split_box.py: create_tet_mesh, create_hex_mesh"]}
{"id": "C102", "title": "The uncut three-dimensional box consists of two closed bodies meeting in the curve, with every outer face tagged", "statement": "For every number of curve points, the two surface loops of the box meshed as one piece are closed shells that share exactly the faces over the curve; those faces are exactly the interface group, and every other face of the two shells is in the outer group exactly once.", "quantifier": "every number of points on the curve (at least two)", "why_tests_cant": "the face lists are cut out of larger lists by negative indices; a dropped face leaves the mesh usable and only loses boundary conditions", "anchors": ["python/dolfinx_contact/meshing/split_box.py: create_unsplit_box_3d"]}
{"id": "C103", "title": "Searching locally on the redistributed contact mesh finds the globally closest facet", "statement": "After create_contact_mesh, a rank that looks for the closest facet with a given tag only among the facets it holds (owned and ghost) finds a facet as close as the closest one on any rank, provided the midpoint of the globally closest facet lies within the radius of the midpoint of the rank's own facet; and everything it finds is a facet with that tag on some rank.", "quantifier": "every number of ranks, every distribution of a simplex mesh, every facet marking, radius and distance that depends only on the positions of the facet's vertices", "why_tests_cant": "the serial tests never distribute a mesh, and the parallel ones use a few partitions; a cell that is not sent gives a plausible but wrong closest facet", "anchors": ["cpp/parallel_mesh_ghosting.cpp: create_contact_mesh", "cpp/parallel_mesh_ghosting.cpp: compute_ghost_cell_destinations", "python/dolfinx_contact/parallel_mesh_ghosting.py: create_contact_mesh"]}
{"id": "C104", "title": "The skew-symmetric contact method (theta = -1) is monotone for every penalty", "statement": "With theta = -1, for contact without friction and with Tresca friction, the assembled contact residual is monotone in the displacement increment: for any two increments the difference of the residuals tested with the difference of the increments is not negative, and the assembled matrix is positive semidefinite. No condition on the penalty parameter or the mesh size is needed. For any other theta the difference is bounded below by minus (1+theta)^2/4 times the mesh-size-weighted squared traction of the difference.", "quantifier": "every two displacement increments, positive penalty, mesh, set of contact pairs and history of detections and updates (no cropping)", "why_tests_cant": "tests run single load steps with large penalties; a wrong sign in one Nitsche term keeps Newton converging there and destroys stability for other parameters", "anchors": ["cpp/contact_kernels.cpp: generate_contact_kernel (Rhs, TrescaRhs, Jac, TrescaJac)", "cpp/Contact.cpp: assemble_vector, assemble_matrix", "python/dolfinx_contact/general_contact/contact_problem.py: ContactProblem"]}
{"id": "C105", "title": "The assembled tie matrix is the Nitsche form of the interface", "statement": "After any history of generate/update calls of a mesh tie, assemble_matrix applied to any w and tested with any v gives the Nitsche form of the interface for the material, gamma and theta given last: the sum over all tied quadrature points of weight/2 times (-T(w).J(v) + gamma/h J(w).J(v) - theta T(v).J(w)), with J the jump between the value on the facet and on the opposite facet and T the mean traction (mean normal flux times conductivity for the Poisson tie). assemble_vector gives the form at the function given last. Hence the matrix is symmetric for theta = 1; for theta = -1 its energy is the penalty of the jump, never negative, and zero only for functions without jump; and for a function without jump only the work of the mean traction (flux) is left in the residual.", "quantifier": "All tied meshes, pairs, elements, quadrature rules, materials, constants, call histories, functions w and test functions v.", "why_tests_cant": "Symmetry and definiteness are statements about all pairs of functions on all meshes; a test assembles one matrix and compares norms.", "anchors": ["cpp/MeshTie.cpp: MeshTie::generate_meshtie_data_matrix_only", "cpp/MeshTie.cpp: MeshTie::assemble_matrix", "cpp/MeshTie.cpp: MeshTie::assemble_vector", "cpp/meshtie_kernels.cpp: generate_meshtie_kernel", "cpp/meshtie_kernels.cpp: generate_poisson_kernel"]}
{"id": "C106", "title": "Newton is exact while no point changes its contact status", "statement": "If no quadrature point changes between open and closed (and, with Tresca or Coulomb friction, every point with a positive bound sticks before and after), then on the whole segment from u to u + w the assembled contact residual equals its value at u plus the assembled matrix times the step. So a Newton step of a problem with linear bulk part that solves the linear system and keeps the status of all points ends with a zero residual.", "quantifier": "All contact objects and histories, friction laws, displacements u, steps w, right-hand sides b and step fractions t in [0,1].", "why_tests_cant": "A test sees the convergence history of one problem; that the residual is exactly affine within a contact status concerns all displacements and meshes.", "anchors": ["python/dolfinx_contact/general_contact/contact_problem.py: ContactProblem.assemble_vector", "python/dolfinx_contact/general_contact/contact_problem.py: ContactProblem.assemble_matrix", "cpp/contact_kernels.cpp: generate_contact_kernel"]}
{"id": "C107", "title": "The assembled contact residual is Nitsche's functional", "statement": "The contact residual assembled at a displacement u, tested with any discrete function v, is the right-hand side tested with v plus the sum over all quadrature points of the contact surfaces of weight/2 times Nitsche's functional: positive part of (penetration - h/gamma * normal traction), projection of the tangential argument onto the ball of the friction bound, and the theta terms; for frictionless, Tresca and Coulomb contact. Hence displacements with the same jump and the same gradient on the surfaces (for example a common translation of both bodies) have the same residual, and for theta = 0 without Tresca friction a pair that is nowhere pressed together contributes nothing.", "quantifier": "All contact objects, call histories without the crop method, friction laws, displacements u, test vectors v and right-hand sides b; positive gamma and h, nonnegative friction coefficient.", "why_tests_cant": "A test evaluates one mesh and one displacement; the residual is a functional of all displacements and all test functions.", "anchors": ["python/dolfinx_contact/general_contact/contact_problem.py: ContactProblem.assemble_vector", "cpp/Contact.cpp: Contact::assemble_vector", "cpp/contact_kernels.cpp: generate_contact_kernel"]}
{"id": "C108", "title": "The assembled system does not depend on the number of processes", "statement": "Let the facets of every contact surface be split over the processes, each process holding the cells it needs as owned or ghost cells in its own numbering, and let every process see on its facets the same points, opposite cells, material data, gaps and normals as a process holding the whole mesh. Then, after ghost contributions are added to their owners, every entry of the residual equals the entry computed on one process, for the mesh tie with elasticity and with heat conduction and for contact with every friction law. The matrices agree in the same sense (for contact, where the residual is differentiable at all points).", "quantifier": "All numbers of processes, partitions of the facets, local numberings, objects, call histories, displacements and temperatures.", "why_tests_cant": "A test runs with a few process counts and one partition; the claim ranges over all partitions and numberings.", "anchors": ["cpp/MeshTie.cpp: MeshTie::assemble_vector", "cpp/MeshTie.cpp: MeshTie::assemble_matrix", "cpp/Contact.cpp: Contact::assemble_vector", "cpp/Contact.cpp: Contact::assemble_matrix", "python/dolfinx_contact/general_contact/contact_problem.py: ContactProblem.assemble_vector"]}
{"id": "C109", "title": "With theta = 1 contact is the gradient of an energy", "statement": "With theta = 1, for frictionless contact and Tresca friction, the contact part of the residual at a displacement u, applied to a test displacement w, is the derivative at u in direction w of one scalar energy of the displacement (the surface integral of half gamma/h times the squared positive part of the penetration minus h/gamma times the pressure, the corresponding friction energy, and minus h/(2 gamma) times the squared traction). Hence the equations solved in a load step hold exactly at the stationary points of that energy plus the elastic energy.", "quantifier": "All objects, call histories, gaps, normals, points, materials, displacements and test displacements; frictionless and Tresca laws.", "why_tests_cant": "A test can compare difference quotients at sampled displacements; the claim is an identity at all displacements, including those at the kink of contact and of sliding.", "anchors": ["cpp/contact_kernels.cpp: generate_contact_kernel", "cpp/Contact.cpp: Contact::assemble_vector", "python/dolfinx_contact/general_contact/contact_problem.py: ContactProblem.assemble_vector"]}
{"id": "C110", "title": "The discrete contact problem has at most one solution, stable in the loads", "statement": "For frictionless contact and Tresca friction let the bulk residual be strictly monotone along displacements that vanish on the constrained degrees of freedom, with margin (1+theta)^2/4 times the h/gamma-scaled squared traction on the contact surfaces (no margin is needed with theta = -1). Then with fixed contact data there is at most one displacement with prescribed constrained values for which the residual vanishes at all other degrees of freedom. If the margin is alpha times the squared norm, two solutions for different loads differ by at most 1/alpha times the difference of the loads.", "quantifier": "All objects, call histories, contact data, bulk residuals, sets of constrained degrees of freedom, displacements and loads; frictionless and Tresca laws.", "why_tests_cant": "Uniqueness speaks of all pairs of displacements; a solver run finds one of them.", "anchors": ["cpp/contact_kernels.cpp: generate_contact_kernel", "cpp/Contact.cpp: Contact::assemble_vector", "python/dolfinx_contact/newton_solver.py: NewtonSolver.solve"]}
{"id": "C111", "title": "The near-nullspace is an orthonormal basis of the rigid motions of the bodies", "statement": "When build_nullspace_multibody returns, the vectors given to PETSc are orthonormal over the owned entries of all processes, every one of them is a rigid motion on one body and zero on the others, and together they span all fields that are a rigid motion on every body. It returns exactly when every body has an owned node and, in the plane, the squared distances of its nodes to any point add up to at least machine epsilon, in space, the moments of its nodes about the axes with directions (0,0,1), (0,1,s), (1,s,t) do; otherwise it throws. The Python builder gives the same vectors when as many domains as tags are asked for and every process has a cell of every tag, and fails when fewer tags than domains are given or a process has no cell of a tag.", "quantifier": "All meshes, distributions over processes, coordinates, numbers of bodies, two and three space dimensions.", "why_tests_cant": "A test builds the space for a few meshes; the claim ranges over all node sets, including nearly degenerate ones.", "anchors": ["cpp/utils.cpp: build_nullspace_multibody", "python/dolfinx_contact/helpers.py: rigid_motions_nullspace_subdomains"]}
{"id": "C112", "title": "Rigid motions of all bodies: balance of the contact forces, invariance, kernels of the mesh tie systems", "statement": "For a displacement space that contains the affine functions: the assembled contact residual applied to a rigid motion of all bodies is the sum over the quadrature points of the contact force times the lever arm between the point and its partner. It is therefore unchanged from the residual handed in for every translation, and for every rotation when contact is frictionless and the stored gap vectors are along the stored normals, or when the gap vectors vanish; with friction across an open gap the moment is in general not balanced. Under the same conditions adding a common small rigid motion to the displacement does not change the residual. The mesh tie matrix maps rigid motions that do not separate the tied points to zero and its images are orthogonal to them, for every theta; the same holds for constant temperatures and the heat matrix.", "quantifier": "every mesh, pairing, history of calls, friction law, theta, gamma, displacement, and rigid motion", "why_tests_cant": "tests compare a handful of solved problems; the identities concern every displacement and every rigid motion, and the failure with friction only shows for particular geometry", "anchors": ["python/dolfinx_contact/general_contact/contact_problem.py: ContactProblem.assemble_vector", "cpp/contact_kernels.cpp: generate_contact_kernel", "cpp/meshtie_kernels.cpp", "cpp/MeshTie.cpp", "cpp/Contact.cpp: Contact::assemble_vector"]}
{"id": "C113", "title": "Accepted spaces, meshes and search modes; what the kernel tables hold; shapes of the arrays handed to Python", "statement": "Kernel data are made exactly when the mesh has no interval, prism or pyramid cells, the element needs no transformations and the value size lies between the block size and twice that; for blocked elements this is exactly the scalar element repeated per component (symmetric tensor spaces also pass the check). Once made, the tables hold at each point of each facet the values and derivatives of the basis functions and of the coordinate element at that reference point, and its weight. The contact search runs, in both modes, exactly on triangles, quadrilaterals, tetrahedra and hexahedra with the dimensions of the mesh. The arrays of points, weights, packed data and mesh tie coefficients have one row per point or facet and the right entries; MeshTie.coeffs divides by zero until data for (thermo-)elasticity have been generated.", "quantifier": "all function spaces, quadrature rules, cell types, dimensions, search modes, and all histories of calls on a mesh tie object", "why_tests_cant": "The tests use a few elements on triangles and tetrahedra; neither the acceptance boundary nor the index arithmetic of the tables for every number of points, facets and basis functions can be enumerated, and the histories of calls are unbounded.", "anchors": ["cpp/KernelData.cpp:KernelData", "cpp/KernelData.h:KernelData", "cpp/error_handling.cpp:check_cell_type", "cpp/utils.cpp:compute_distance_map", "python/dolfinx_contact/wrappers.cpp:QuadratureRule, MeshTie.coeffs", "cpp/MeshTie.cpp:coeffs"]}
{"id": "C114", "title": "Contact forces are objective", "statement": "If the whole problem is described in another frame, that is the mesh is turned (or reflected) and shifted and every displacement handed to set_data, update_contact_data and update_contact_detection is turned with it, then the data held by the problem (normals, gap, gradients of earlier steps) turn, scalar data and the contact map stay, and the vector assembled by assemble_vector is the turned vector.", "quantifier": "every orthogonal matrix and shift, every mesh with regular cells, every number of surface pairs, every history of calls (without cropping), every displacement increment, every initial vector, every friction law and penalty parameters with positive gamma", "why_tests_cant": "a test turns one mesh by a few angles after a few calls; the claim is about every motion of the frame, every mesh and every history", "anchors": ["python/dolfinx_contact/general_contact/contact_problem.py: update_contact_detection, update_contact_data, assemble_vector", "cpp/Contact.cpp: assemble_vector, pack_u_contact", "cpp/contact_kernels.cpp: generate_contact_kernel", "cpp/coefficients.cpp: pack_coefficient_quadrature, pack_gradient_quadrature", "cpp/geometric_quantities.cpp"]}
{"id": "C115", "title": "Contact search does not depend on the frame", "statement": "Turn (or reflect) and shift the mesh as a whole. Then create_distance_map, by closest points or by rays, reports the same facets and the same reference points for every quadrature point, and the gaps and normals packed afterwards are the old ones turned by the same matrix. The ray tracing of a single ray reports the same status, the same candidate, the same facet and reference coordinates, and the point hit is turned and shifted.", "quantifier": "all two- and three-dimensional meshes of any cell degree whose surface cells are not degenerate, all orthogonal matrices and shifts, all quadrature rules, all lists of surface facets, both search modes, every search radius, every number of Newton iterations and every tolerance", "why_tests_cant": "a test fixes one mesh and one angle; the claim ranges over all meshes and rigid motions, and the tangents chosen by the code for a normal are not those of the turned normal, so the iterations really differ", "anchors": ["cpp/utils.cpp compute_distance_map", "cpp/utils.cpp compute_projection_map", "cpp/utils.h compute_raytracing_map", "cpp/RayTracing.h compute_ray / raytracing_cell", "cpp/RayTracing.h compute_tangents", "cpp/Contact.cpp create_distance_map / pack_gap / pack_nx / pack_ny"]}
{"id": "C116", "title": "What a gap found by ray tracing is", "statement": "After create_distance_map in ray tracing mode, every packed gap is one of three things. (1) No ray from any quadrature point of the facet meets a nearby candidate facet: the facet map holds -1 and the gap is zero at all its points. (2) The ray from this point meets a candidate: the gap ends on that facet, deviates from the line along the facet's normal by at most 1e-8 times the size of the candidate facet, the two facets face each other, with a positive search radius the squared gap is at most the radius, and among all nearby candidates the ray meets, this one's midpoint is closest. (3) This ray meets none but another point's ray does: on straight triangles and tetrahedra the gap ends at the closest point of all nearby candidates. Nearby means midpoints within twice the search radius (all candidates for a negative radius). On straight simplices a ray meets a facet exactly when the straight line does, up to 1e-8 in the facet's coordinates.", "quantifier": "all meshes of any degree in two and three dimensions whose surface cells are not degenerate, all surfaces, quadrature rules, search radii and exact closest-point routines", "why_tests_cant": "the outcome depends on the order of candidates, on which rays of the same facet hit and on the Newton iteration; tests look at single gaps on single meshes", "anchors": ["cpp/utils.h compute_raytracing_map", "cpp/utils.cpp compute_distance_map", "cpp/utils.cpp compute_projection_map", "cpp/utils.cpp find_candidate_facets", "cpp/RayTracing.h raytracing_cell", "cpp/Contact.cpp create_distance_map / pack_gap"]}
{"id": "C117", "title": "Contact forces do not depend on the frame, search included", "statement": "Take a contact problem and the same problem with all nodes turned (or reflected) and shifted. Make the same calls on both (generation of contact data, updates of the displacement, contact detection on displaced surfaces, change of parameters), with every displacement turned. Then the displaced surfaces, searched anew after each detection, keep corresponding to each other, the contact facets found are the same, and the assembled contact forces are those of the first problem turned.", "quantifier": "all meshes of any degree, pairs, search modes and radii, frames, histories of calls without cropping, displacements, friction laws, as long as the surface cells met on the way are not degenerate, the search does not throw and the closest-facet search breaks ties the same way", "why_tests_cant": "tests run in one frame; a dependence on the frame anywhere between the moved nodes and the residual (coordinates used as directions, axis-aligned tolerances) shows only for some frames and some histories", "anchors": ["python/dolfinx_contact/general_contact/contact_problem.py ContactProblem", "cpp/Contact.cpp update_submesh_geometry / create_distance_map / pack_gap / pack_nx / pack_ny / pack_test_functions", "cpp/SubMesh.cpp update_geometry", "cpp/utils.cpp compute_distance_map"]}
{"id": "C118", "title": "The forces act on the gap between the displaced bodies", "statement": "After any sequence of calls to a ContactProblem, the gaps and normals its next residual is computed from are those of the bodies displaced by the argument of the last update_contact_detection: the submesh nodes are the parent's nodes plus that displacement; with closest-point search on straight simplices the gap vector of a quadrature point leads to the nearest point of the other displaced surface, the stored normal is minus the outward unit normal there, the scalar gap is the signed height of the point above the plane of the facet found, and where the nearest point is inside the facet the gap vector is the scalar gap times the stored normal; with ray tracing the stored normal is the outward unit normal of the displaced facet itself and the gap vector is the scalar gap times it up to the tolerance of the iteration, unless the ray misses. The displacement of the other surface stored by update_contact_data for a quadrature point is the given displacement evaluated at that very point of the other surface, and zero where no facet was found.", "quantifier": "all histories of calls, displacements, meshes of straight simplices (any cells for ray tracing), pairs, facets and quadrature points", "why_tests_cant": "the statement ties the arrays held after an arbitrary history to a minimum over all points of a moved surface", "anchors": ["python/dolfinx_contact/general_contact/contact_problem.py: update_contact_detection, generate_contact_data, update_contact_data", "cpp/Contact.cpp: update_submesh_geometry, create_distance_map, pack_gap, pack_nx, pack_ny", "cpp/SubMesh.cpp: SubMesh::update_geometry", "cpp/utils.cpp: compute_distance_map"]}
{"id": "C119", "title": "The Python contact-mesh builder agrees with the C++ one, and how it ends on every process", "statement": "create_contact_mesh_old hands DOLFINx the same cells, coordinates and cell destinations as create_contact_mesh on every process, for every distributed mesh, every marking and every radius. When it returns, the facet and cell markers it attaches are those of create_contact_mesh. It returns exactly when some process has a marked facet, every process has a marked cell and the new mesh is not empty there; otherwise a process raises, or waits for ever for one that has raised. So it does not return for every distribution of the markers.", "quantifier": "all numbers of processes, all distributed meshes, all facet and cell markings, all tag lists and radii, all orders in which equal keys are sorted", "why_tests_cant": "the failure depends on how the markers are spread over processes; a test runs a few partitions, and a hang is not an assertion", "anchors": ["python/dolfinx_contact/parallel_mesh_ghosting.py:create_contact_mesh_old", "cpp/parallel_mesh_ghosting.cpp:create_contact_mesh"]}
{"id": "C120", "title": "The discrete contact problem has exactly one solution", "statement": "For contact without friction or with Tresca friction, once data have been generated, the assembled contact residual added to the residual of the bodies equals the given loads, in the degrees of freedom that are not prescribed, for exactly one displacement with the prescribed values, provided that the bodies are stiff compared with the scaled surface tractions (for theta = -1: provided that they are stiff at all). It is the limit, at a linear rate, of the relaxed iteration that subtracts a fixed multiple of the residual, from every start with the prescribed values.", "quantifier": "all meshes, pairs, kernels and histories of calls without cropping, all loads, prescribed degrees of freedom and values, all starting points, all strongly monotone Lipschitz residuals of the bodies", "why_tests_cant": "existence of a solution for all loads is a statement about infinitely many systems; a Newton run that fails does not tell whether there is a solution", "anchors": ["cpp/contact_kernels.cpp:generate_contact_kernel", "cpp/Contact.h:assemble_vector", "python/dolfinx_contact/general_contact/contact_problem.py:ContactProblem"]}
{"id": "C121", "title": "Newton's method ends in one step near a solution with definite contact states", "statement": "For linear elastic bodies in frictionless contact, let u* satisfy the assembled equations on all degrees of freedom without prescribed values, with the stiffness condition of C120, and suppose that at u* every quadrature point is either strictly in contact or strictly open (penetration minus h/gamma times the normal traction is not zero). Then there is a distance such that from every displacement with the prescribed values that is closer to u* than this, the linear system assembled by the contact object (body stiffness plus assembled contact matrix against the assembled residual) has exactly one solution and one full Newton step ends exactly at u*.", "quantifier": "all pair counts, meshes, links, quadrature rules, material data, loads, prescribed values, gamma > 0, theta meeting the stiffness condition, all histories of calls that reach the assembled state, all starts within the distance", "why_tests_cant": "the radius depends on the data and the claim is exact convergence for a neighbourhood of starts; a test observes one start and a tolerance", "anchors": ["python/dolfinx_contact/general_contact/contact_problem.py: ContactProblem.assemble_vector", "python/dolfinx_contact/general_contact/contact_problem.py: ContactProblem.assemble_matrix", "cpp/contact_kernels.cpp: generate_contact_kernel", "python/dolfinx_contact/newton_solver.py: NewtonSolver.solve"]}
{"id": "C122", "title": "The one-sided driver solves the problem it states: its residual is the contact form, its matrix the derivative, and there is one solution", "statement": "The callbacks the custom Nitsche driver gives to the Newton solver assemble, for any displacement passed in and whatever the vector held before, the bulk form plus, summed over the contact facets of this process and their quadrature points, the stated Nitsche form with the gap to the plane, the values and the normal stresses of that displacement (packed, laid out, read back by the kernel and added to the right dofs). Away from the edge of contact the assembled matrix is the derivative of that residual in every direction. The contact part is monotone up to (1+theta)^2/4 of the stress term, so a bulk form that is strongly monotone beyond that and Lipschitz has exactly one displacement with zero residual.", "quantifier": "all meshes with affine simplex cells, all facet lists, materials, plane positions, gamma E > 0, theta, cell sizes h > 0, all displacements and directions, all bulk forms", "why_tests_cant": "A run checks one mesh, one displacement and one load; the identity of the assembled residual with the form, the derivative and uniqueness are statements about all displacements.", "anchors": ["python/dolfinx_contact/one_sided/nitsche_custom.py: assemble_residual", "python/dolfinx_contact/one_sided/nitsche_custom.py: assemble_jacobian", "cpp/rigid_surface_kernels.h: generate_rigid_surface_kernel", "cpp/Contact.cpp: assemble_vector"]}
{"id": "C123", "title": "A Newton solve started at a solution reports convergence, and one that reaches a solution stops there", "statement": "If the residual at the initial guess is zero, solve reports convergence and leaves the guess alone. (Violated: with the incremental criterion always, and with the residual criterion while no earlier solve left a reference value, the solver makes max_it iterations with zero increments and then raises or reports failure.) After an earlier solve with a non-zero first increment the residual criterion does accept the guess at once. If the first full Newton step reaches a point with zero residual, the solver does not shorten the step, stops after one iteration and reports convergence.", "quantifier": "all residuals, Jacobians, coefficient callbacks and linear solvers that answer a zero right hand side with zero, all options and initial guesses", "why_tests_cant": "The test suite never starts a solve at the exact solution; the failure depends on the history of the solver object.", "anchors": ["python/dolfinx_contact/newton_solver.py: NewtonSolver.solve", "python/dolfinx_contact/newton_solver.py: NewtonSolver._check_convergence"]}
{"id": "C124", "title": "The displacement returned by the one-sided driver is within atol/alpha of the solution", "statement": "nitsche_custom always ends. If it is run with the residual criterion and error_on_nonconvergence, then whenever it returns a displacement, that displacement is closer than atol/alpha, in the Euclidean norm of its dofs, to the one displacement at which the assembled residual vanishes, where alpha is the constant of strong monotonicity of the bulk form (beyond the stress term for theta other than -1). This holds whatever the linear solver returned.", "quantifier": "all meshes with affine simplex cells, materials, plane positions, Newton options, linear solvers, bulk forms that are strongly monotone and Lipschitz", "why_tests_cant": "Tests compare with a reference solution on one mesh; the bound combines the solver's stopping rule with the structure of the assembled residual for all of them.", "anchors": ["python/dolfinx_contact/one_sided/nitsche_custom.py: nitsche_custom", "python/dolfinx_contact/newton_solver.py: NewtonSolver.solve"]}
{"id": "C125", "title": "The driver for contact with a rigid body solves the problem it states, whatever was packed before", "statement": "The callbacks nitsche_rigid_surface_custom gives to the Newton solver share one coefficient array whose displacement part is rewritten in place by every call that updates the coefficients. After any sequence of such calls, the assembled residual is the bulk form at the last displacement plus, summed over the contact facets of this process and their quadrature points, the stated Nitsche form with the gap and the direction to the rigid body, the values and the normal stresses of that displacement; nothing of an earlier displacement remains. Away from the edge of contact the assembled matrix is the derivative of that residual in every direction. The contact part is monotone up to (1+theta)^2/4 of the stress term, and a bulk form that is strongly monotone beyond that and Lipschitz has exactly one displacement with zero residual. With the gap and the normal of the plane of the one-sided driver the two residuals are equal.", "quantifier": "all meshes, all facet lists, gap vectors, directions, materials, gamma E > 0, theta, cell sizes h > 0, all histories of coefficient updates, all displacements and directions, all bulk forms", "why_tests_cant": "A run visits a few displacements on one mesh; stale data in the shared array shows only for particular orders of calls, and derivative and uniqueness are statements about all displacements.", "anchors": ["python/dolfinx_contact/one_sided/nitsche_rigid_surface_custom.py: pack_coefficients", "python/dolfinx_contact/one_sided/nitsche_rigid_surface_custom.py: compute_residual", "python/dolfinx_contact/one_sided/nitsche_rigid_surface_custom.py: compute_jacobian", "cpp/rigid_surface_kernels.h: generate_rigid_surface_kernel"]}
{"id": "C126", "title": "The displacement returned by the driver for contact with a rigid body is within atol/alpha of the solution", "statement": "nitsche_rigid_surface_custom always ends. If it is run with the residual criterion and error_on_nonconvergence, then whenever it returns a displacement, that displacement is closer than atol/alpha, in the Euclidean norm of its dofs, to the one displacement at which the residual vanishes, where alpha is the constant of strong monotonicity of the bulk form (beyond the stress term for theta other than -1). The coefficients in use when the solver stops are those of the displacement it returns, also after rejected and shortened steps. This holds whatever the linear solver returned.", "quantifier": "all meshes, gap vectors, directions, materials, initial displacements, Newton options, linear solvers, bulk forms that are strongly monotone and Lipschitz", "why_tests_cant": "Tests compare with a reference on one mesh; that the shared coefficient array always belongs to the current iterate must hold along every path through the line search.", "anchors": ["python/dolfinx_contact/one_sided/nitsche_rigid_surface_custom.py: nitsche_rigid_surface_custom", "python/dolfinx_contact/newton_solver.py: NewtonSolver.solve"]}
{"id": "C127", "title": "Load steps of the two-sided problem: increments found by the Newton solver", "statement": "In the load-stepping loop of the two-sided problem (weak boundary conditions), every step ends. A step acts on the contact object exactly as update_contact_data, then update_contact_detection with the new total displacement, then update_contact_data with a tenth of the increment. If the solver reports convergence with the residual criterion (frictionless or Tresca, bodies stiff enough), then there is exactly one increment with zero residual and the new displacement is closer than atol/alpha to the old one plus this increment, whatever the linear solver did; this holds at every step, for whatever calls were made on the object before.", "quantifier": "all meshes, surfaces, contact maps, histories of calls without cropping, numbers of load steps, linear solvers, solver options, initial increments, and bodies with strongly monotone Lipschitz residual", "why_tests_cant": "a test runs a few steps of one geometry with one linear solver; the bound concerns every history of the contact object and every solver outcome", "anchors": ["python/demos/demo_nitsche_unbiased.py: compute_coefficients", "python/demos/demo_nitsche_unbiased.py: compute_residual", "python/demos/demo_nitsche_unbiased.py: compute_jacobian_matrix", "python/dolfinx_contact/general_contact/contact_problem.py: ContactProblem.update_contact_data", "python/dolfinx_contact/newton_solver.py: NewtonSolver.solve"]}
{"id": "C128", "title": "Parameters in force after any history", "statement": "After any sequence of method calls on a ContactProblem, the penalty and symmetry parameters used in assembly are those of the latest generate_contact_data or update_nitsche_parameters call; the Lame parameters in every row are those of the latest successful generate_contact_data, the friction coefficient that of the latest successful one that gave a friction coefficient (zero if none did), and the cell size is always packed. update_nitsche_parameters before any generate_contact_data has no effect, and a refused generate_contact_data still replaces penalty and symmetry parameter.", "quantifier": "all sequences of generate_contact_data, update_contact_data, update_contact_detection, update_nitsche_parameters and cropping calls, all pairs and rows", "why_tests_cant": "unbounded sequences of calls", "anchors": ["python/dolfinx_contact/general_contact/contact_problem.py: ContactProblem.generate_contact_data", "python/dolfinx_contact/general_contact/contact_problem.py: ContactProblem.update_nitsche_parameters"]}
{"id": "C129", "title": "Strong boundary conditions in the load steps", "statement": "With Dirichlet conditions imposed by lifting, the residual that the Newton solver of a load step sees vanishes exactly at the increments that have the prescribed values and at which the unlifted residual vanishes at all other degrees of freedom; exactly one such increment exists for monotone bodies. A direction that solves the assembled system is the Newton direction of the constrained problem: the full step has the prescribed values and the whole Jacobian (no row or column dropped) times the direction is the residual at the other degrees of freedom. If the solver reports convergence of the residual, the prescribed values hold up to atol and the increment is within max(1, 1/alpha) atol of the solution.", "quantifier": "all meshes, contact pairs, histories of the contact object, load steps, iterates and starting guesses, all sets of prescribed degrees of freedom (away from the contact cells for the last two claims), linear solvers, law without friction or Tresca (all laws for the first and the direction)", "why_tests_cant": "all iterates and boundary data; the lifted system could have other solutions only for some inputs", "anchors": ["python/demos/demo_nitsche_unbiased.py: compute_residual", "python/demos/demo_nitsche_unbiased.py: compute_jacobian_matrix", "python/demos/oxford/blocks_nitsche.py: compute_residual", "python/demos/demo_sliding_wedges.py: compute_residual"]}
{"id": "C130", "title": "Prescribed values in the linear drivers", "statement": "The solution of the linear system assembled by a mesh-tie or heat driver has the prescribed Dirichlet values and satisfies the unmodified equations at the other degrees of freedom. False for the drivers that lift with factor -1 unless all prescribed values are zero: they solve with an additional load of twice the bulk matrix applied to the prescribed values.", "quantifier": "all interface and bulk matrices, loads, sets of prescribed degrees of freedom away from the interface cells and prescribed values", "why_tests_cant": "the demos only run with zero prescribed values; the sign matters for every other value", "anchors": ["python/demos/demo_nitsche_meshties.py: apply_lifting", "python/demos/meshtie_demos/demo_poisson.py: apply_lifting", "python/demos/meshtie_demos/thermo_mech.py: apply_lifting", "python/demos/meshtie_convergence.py: apply_lifting", "python/demos/meshtie_demos/poisson_convergence.py: apply_lifting"]}
{"id": "C131", "title": "Prescribed displacement over the load steps", "statement": "With strong boundary conditions, after any number of load steps whose solver reported convergence of the residual the total displacement of every prescribed degree of freedom is the sum of its prescribed values up to (number of steps) * atol; with the values used (the whole displacement divided by the number of steps) it is the whole displacement. Each step calls, on the contact object, update_contact_data, update_contact_detection with the new total displacement and update_contact_data with a tenth of the increment; no step runs for ever.", "quantifier": "all numbers of steps, starting displacements and solver states, contact histories, bodies, kernels and linear solvers", "why_tests_cant": "any number of steps and any behaviour of contact, body and linear solver", "anchors": ["python/demos/demo_nitsche_unbiased.py: nload_steps", "python/dolfinx_contact/newton_solver.py: NewtonSolver.solve"]}
{"id": "C132", "title": "Writing contact output between solves does not disturb the computation", "statement": "ContactWriter.write moves the contact object's submesh to the undeformed positions and leaves it there. For every history of calls on the contact problem with output at any places, in which update_contact_detection is called between an output and a later generate_contact_data, all coefficients, stored gradients, parameters and contact maps are those of the same calls without output; if the last output is followed by update_contact_detection the whole object is the same. A generate_contact_data directly after output searches for contact in the undeformed configuration, so without that condition output does change the result.", "quantifier": "all histories of contact problem calls and outputs, all displacements, parameters and meshes", "why_tests_cant": "The demos write once per step and always detect contact afterwards; the claim is about every interleaving of output with the other calls.", "anchors": ["python/dolfinx_contact/output.py: ContactWriter.write", "python/dolfinx_contact/general_contact/contact_problem.py: update_contact_detection, generate_contact_data, update_contact_data", "cpp/SubMesh.cpp: update_geometry", "cpp/Contact.cpp: pack_u_contact, update_submesh_geometry", "python/demos/hertz_contact/demo_hertzian_contact.py"]}
{"id": "C133", "title": "Output shows flattened contact surfaces and leaves the facet mesh where it was", "statement": "While ContactWriter.write hands the facet mesh to the file, every node of a contact surface has the value of projection_coordinates in its direction (of the last pair that gives one) and all other coordinates are those of the facet mesh. For any sequence of writes, whichever of them return or raise, every write shows the same positions; if all return, the facet mesh is where it was before the first one. A write whose file writer raises leaves the flattened surfaces behind, and all later writes do too.", "quantifier": "all meshes, contact pairs, projection coordinates and sequences of successful and failing writes", "why_tests_cant": "No test covers the writer; the claim ranges over all meshes, overlapping surfaces and failures of the file writer.", "anchors": ["python/dolfinx_contact/output.py: ContactWriter.project, ContactWriter.restore, ContactWriter.write"]}
{"id": "C134", "title": "Mesh conversion uses the files it is given and ends on all processes", "statement": "convert_mesh reads the given file name up to its first .msh, with .msh appended, and writes the given output name up to its first .xdmf, with .xdmf appended: a name without extension gets it, and the name is used as given exactly when it ends with its first extension. So a directory whose name contains .msh makes it read another file; convert_mesh_new does not have this. Both return on all processes exactly when process 0 can read and write; if process 0 raises, all others wait in the barrier for ever.", "quantifier": "all file names, numbers of processes and outcomes of reading and writing", "why_tests_cant": "Ranges over all names and all numbers of processes; a hang on failure is not observed by tests of the successful path.", "anchors": ["python/dolfinx_contact/meshing/utils.py: convert_mesh, convert_mesh_new"]}
{"id": "C135", "title": "Mesh files are there when a process goes on", "statement": "Under every schedule of any number of processes: once a mesh generator of contact_meshes.py that ends with a barrier has returned on any process, the mesh file is written; after create_disk_mesh or create_sphere_mesh followed by convert_mesh, both files are written once the conversion has returned on any process, and process 0 never reads a missing file. Processes that pass the same number of barriers never get stuck, and every run ends with all of them returned. After create_disk_mesh or create_sphere_mesh alone another process may go on before the file is there.", "quantifier": "all numbers of processes, schedules, programs that follow, and reachable states", "why_tests_cant": "A race shows only under some schedules; tests run a few, mostly with one process.", "anchors": ["python/dolfinx_contact/meshing/onesided_meshes.py: create_disk_mesh, create_sphere_mesh", "python/dolfinx_contact/meshing/contact_meshes.py: create_halfdisk_plane_mesh, create_quarter_disks_mesh, sliding_wedges, create_sphere_sphere_mesh, create_2d_rectangle_split, create_halfsphere_box_mesh", "python/dolfinx_contact/meshing/utils.py: convert_mesh, convert_mesh_new", "python/demos/new_demo_compare_nitsche_snes.py"]}
