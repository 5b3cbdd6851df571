{"id": "C01", "title": "DOF layout of the global state vector is a gap-free partition", "statement": "After any sequence of DofInfo.append_variable/append_raw calls, the slices of the variables that do not share DOFs are consecutive, pairwise disjoint and together cover exactly [0, n_dof_total); a variable appended as shared has exactly the slice and size of the variable it shares with; appending a name that is already present raises ValueError.", "quantifier": "every sequence of append calls, any number of variables, any sizes, any sharing pattern", "why_tests_cant": "the number and order of variables and their sharing pattern are unbounded; tests use two or three fixed variables", "anchors": ["sfepy/discrete/common/dof_info.py:DofInfo"]}
{"id": "C02", "title": "Node to equation expansion is the node-by-node, injective numbering", "statement": "expand_nodes_to_equations(nods, dofs, all_dofs) returns len(nods)*len(dofs) indices, the one of node number k and DOF number i being len(all_dofs)*nods[k] + position of dofs[i] in all_dofs; for distinct nodes and distinct DOF names all indices are distinct, and they stay below n_nod*dpn; expand_nodes_to_dofs agrees with it for the full list of names.", "quantifier": "all node lists, all selections of DOF names", "why_tests_cant": "index arithmetic must be right for every dpn and every selection of components", "anchors": ["sfepy/discrete/common/dof_info.py:expand_nodes_to_equations", "sfepy/discrete/common/dof_info.py:expand_nodes_to_dofs"]}
{"id": "C03", "title": "Equation mapping numbers exactly the unconstrained DOFs", "statement": "After map_equations() with any list of active essential conditions (and any unused DOFs), the active DOFs listed in eqi are exactly those neither fixed by an essential condition nor unused, in increasing order; eq maps the k-th of them to k and every other DOF to a negative number; n_eq is their count.", "quantifier": "all DOF counts, all lists of essential conditions incl. overlapping ones, all unused-DOF sets", "why_tests_cant": "overlaps of regions and the number of DOFs are unbounded", "anchors": ["sfepy/discrete/common/dof_info.py:EquationMap.map_equations"]}
{"id": "C04", "title": "The last active essential condition on a DOF wins", "statement": "For each DOF fixed by at least one active essential condition, the stored boundary value is the one of the last such condition in the (sorted) order of conditions; DOFs not fixed by any are not in eq_ebc, and eq_ebc is strictly increasing.", "quantifier": "all sequences of conditions, all overlaps", "why_tests_cant": "overwriting order among arbitrarily many overlapping regions", "anchors": ["sfepy/discrete/common/dof_info.py:EquationMap.map_equations", "sfepy/discrete/conditions.py:Conditions.sort"]}
{"id": "C05", "title": "A full vector made from a reduced one satisfies all boundary conditions", "statement": "For every equation map produced by map_equations() and every reduced vector r, Variable.get_full(r) has the prescribed value in every EBC DOF, equal values in each periodic master/slave pair, and get_reduced() of it returns r again.", "quantifier": "all equation maps reachable through map_equations, all reduced vectors", "why_tests_cant": "depends on the combination of conditions, chains and sizes", "anchors": ["sfepy/discrete/variables.py:FieldVariable.get_full", "sfepy/discrete/variables.py:FieldVariable.get_reduced"]}
{"id": "C06", "title": "Reducing loses no information of an admissible vector", "statement": "If a full vector satisfies the EBC values and the periodic equalities, then get_full(get_reduced(v)) = v in every DOF (no unused DOFs).", "quantifier": "all reachable equation maps, all admissible full vectors", "why_tests_cant": "must hold for all vectors and all maps", "anchors": ["sfepy/discrete/variables.py:FieldVariable.get_full", "sfepy/discrete/variables.py:FieldVariable.get_reduced"]}
{"id": "C07", "title": "apply_ebc imposes the conditions, touches nothing else and is idempotent", "statement": "After apply_ebc(vec) the vector passes has_ebc (exact comparison); DOFs that are neither EBC nor periodic-master DOFs keep their values; a second apply_ebc changes nothing.", "quantifier": "all reachable equation maps, all vectors", "why_tests_cant": "all maps and vectors", "anchors": ["sfepy/discrete/variables.py:FieldVariable.apply_ebc", "sfepy/discrete/variables.py:FieldVariable.has_ebc"]}
{"id": "C08", "title": "Reduction of assembled vectors is the adjoint of the full-vector prolongation", "statement": "With R the operator returned by EquationMap.get_operator(), get_reduced(v, follow_epbc=True) equals R^T v for every v, and get_full(r, force_value=0) equals R r for every r; hence <R r, v> = <r, R^T v>.", "quantifier": "all reachable equation maps, all vectors", "why_tests_cant": "identity over all vectors", "anchors": ["sfepy/discrete/common/dof_info.py:EquationMap.get_operator", "sfepy/discrete/variables.py:FieldVariable.get_reduced"]}
{"id": "C09", "title": "Periodic chain grouping computes connected components", "statement": "group_chains() returns pairwise disjoint groups; two DOFs are in the same group iff they are connected by a path of the given pairs; it terminates for every list of pairs.", "quantifier": "all lists of DOF pairs", "why_tests_cant": "unbounded graphs", "anchors": ["sfepy/discrete/common/dof_info.py:group_chains"]}
{"id": "C10", "title": "Periodic conditions tie together all transitively matched DOFs", "statement": "If DOFs are linked by a path of master/slave matches of the active periodic conditions, then any full vector produced from a reduced vector has equal values in them.", "quantifier": "all sequences of periodic conditions (pairings), all reduced vectors", "why_tests_cant": "chains of periodic conditions of any length and order", "anchors": ["sfepy/discrete/common/dof_info.py:EquationMap.map_equations", "sfepy/discrete/common/dof_info.py:resolve_chains"]}
{"id": "C11", "title": "Active DOF connectivity layout", "statement": "create_adof_conn(eq, conn, dpn, offset) puts in row e, column i*n_ep + k the equation of component i in local node k of element e, shifted by the variable offset, and keeps inactive DOFs negative.", "quantifier": "all connectivities, dpn, offsets, equation maps", "why_tests_cant": "index arithmetic for all shapes", "anchors": ["sfepy/discrete/variables.py:create_adof_conn"]}
{"id": "C12", "title": "Vector assembly is an order independent scatter-add", "statement": "assemble_vector() adds to component i of the vector exactly the signed sum of all element contributions whose DOF is i; negative DOFs contribute nothing; permuting the cells does not change the (exact) result.", "quantifier": "all connectivities, element vectors, cell orders", "why_tests_cant": "all sizes and multiplicities of shared DOFs", "anchors": ["sfepy/discrete/common/extmods/assemble.pyx:assemble_vector"]}
{"id": "C13", "title": "Matrix assembly into CSR storage is the dense scatter-add or an error", "statement": "assemble_matrix() raises IndexError iff some active (row, column) pair of an element is missing in the sparsity pattern; otherwise the matrix represented by the CSR data changes exactly by the signed sum of the element entries and the sparsity pattern is unchanged.", "quantifier": "all CSR patterns without duplicate columns, all connectivities, all element matrices", "why_tests_cant": "all patterns and element overlaps", "anchors": ["sfepy/discrete/common/extmods/assemble.pyx:assemble_matrix"]}
{"id": "C14", "title": "Assembling into active DOFs equals restricting the fully assembled system", "statement": "Assembling with the active DOF connectivity of an equation map gives R^T A R (matrix) and R^T b (vector), where A, b come from assembling with all DOFs active and R is the map operator.", "quantifier": "all meshes/connectivities, element matrices, reachable equation maps", "why_tests_cant": "combination of assembling and constraint elimination over all inputs", "anchors": ["sfepy/discrete/common/extmods/assemble.pyx", "sfepy/discrete/variables.py:create_adof_conn", "sfepy/discrete/common/dof_info.py:EquationMap.get_operator"]}
{"id": "C15", "title": "Variable.advance shifts the history by one step", "statement": "After advance(), reading step -k (1 <= k <= history) gives what reading step -(k-1) gave before, and the current data are unchanged; in particular after n advances interleaved with settings of the current data, reading step -k gives the data current k advances ago.", "quantifier": "all history lengths, all sequences of set_data/advance", "why_tests_cant": "unbounded histories", "anchors": ["sfepy/discrete/variables.py:Variable.advance", "sfepy/discrete/variables.py:Variable.__call__"]}
{"id": "C16", "title": "Data set for a time step are the data read for that time step", "statement": "After set_data(d, step=s) with an accepted step s, calling the variable with step=s returns d and the data of the other steps are unchanged.", "quantifier": "all history lengths, all accepted steps", "why_tests_cant": "needs histories longer than those in tests", "anchors": ["sfepy/discrete/variables.py:Variable.set_data", "sfepy/discrete/variables.py:Variable.__call__"]}
{"id": "C17", "title": "Evaluate cache never returns stale values", "statement": "After any sequence of set_data, advance, invalidate and evaluate operations (without preserve_caches), evaluate(step=s) returns the value computed from the current data of step s.", "quantifier": "all operation sequences, steps, cache keys", "why_tests_cant": "cache staleness depends on arbitrary operation histories", "anchors": ["sfepy/discrete/variables.py:FieldVariable.evaluate", "sfepy/discrete/variables.py:FieldVariable.invalidate_evaluate_cache", "sfepy/discrete/variables.py:Variable.advance"]}
{"id": "C18", "title": "Region set operators are the set operators on the selected entity kind", "statement": "r1 +k r2, r1 -k r2, r1 *k r2 (k in v,e,f,c,s) contain exactly the union, difference, intersection of the entities of kind k, sorted and without duplicates.", "quantifier": "all entity sets", "why_tests_cant": "unbounded sets", "anchors": ["sfepy/discrete/common/region.py:Region.eval_op_vertices", "sfepy/discrete/common/region.py:Region.__op_to_fun"]}
{"id": "C19", "title": "Entities derived from region vertices/cells", "statement": "A cell/face/edge belongs to a region defined by vertices iff all its vertices are in the region; the vertices of a region of cells are exactly the vertices of its cells; deriving cells from the vertices derived from a set of cells gives a superset of that set.", "quantifier": "all meshes (connectivities), all vertex and cell sets", "why_tests_cant": "all meshes", "anchors": ["sfepy/discrete/common/region.py:Region.setup_from_vertices", "sfepy/discrete/common/region.py:Region.setup_from_highest", "sfepy/discrete/common/extmods/mesh.c:mesh_select_complete"]}
{"id": "C20", "title": "Region definitions are evaluated in dependency order", "statement": "sort_by_dependency() terminates; it returns each region exactly once with every region after all regions it refers to, it raises ValueError for a reference to an undefined region or a circular dependency, and it never raises for an acyclic closed graph.", "quantifier": "all dependency graphs", "why_tests_cant": "all graphs, including long cycles", "anchors": ["sfepy/discrete/common/region.py:sort_by_dependency"]}
{"id": "C21", "title": "Region expression stack evaluation equals the expression tree", "statement": "Evaluating the operand/operator stack built by the region grammar gives the value of the parsed expression tree; the operators have equal priority and associate to the right unless parenthesised.", "quantifier": "all region expressions of any nesting depth", "why_tests_cant": "unbounded nesting", "anchors": ["sfepy/discrete/parse_regions.py:visit_stack", "sfepy/discrete/parse_regions.py:create_bnf"]}
{"id": "C22", "title": "Region.contains decides inclusion", "statement": "r1.contains(r2) is true iff all entities of r2 (of its kind) are in r1.", "quantifier": "all pairs of regions", "why_tests_cant": "all sets", "anchors": ["sfepy/discrete/common/region.py:Region.contains"]}
{"id": "C23", "title": "Facet sorting networks and orientation keys", "statement": "The sort of 2, 3, 4 vertices used for facets yields the sorted permutation of its input, and for distinct vertices the returned orientation key determines the permutation (two vertex tuples have the same key iff they are ordered in the same way).", "quantifier": "all vertex tuples", "why_tests_cant": "all 32-bit vertex numbers", "anchors": ["sfepy/discrete/common/extmods/mesh.c:uint32_sort4", "sfepy/discrete/common/extmods/mesh.c:uint32_sort3"]}
{"id": "C24", "title": "Connectivity transposition is exact", "statement": "mesh_transpose: entity j of dimension d2 is listed for entity i of dimension d1 exactly as many times as i is listed for j, in increasing order of j; the internal error 'no free connectivity position' is unreachable.", "quantifier": "all incidence relations", "why_tests_cant": "all meshes", "anchors": ["sfepy/discrete/common/extmods/mesh.c:mesh_transpose", "sfepy/discrete/common/extmods/mesh.c:conn_set_to_free"]}
{"id": "C25", "title": "Cell neighbourhood connectivity is exact", "statement": "mesh_intersect for d1 = d2 = D lists for each cell exactly the other cells sharing a vertex with it, each once; for d1 > d2 it lists exactly the d2-entities all of whose vertices belong to the d1-entity (and which share a vertex).", "quantifier": "all meshes", "why_tests_cant": "all meshes", "anchors": ["sfepy/discrete/common/extmods/mesh.c:mesh_intersect"]}
{"id": "C26", "title": "Facet/edge numbering identifies entities by their vertex sets", "statement": "After mesh_build, the entity ids listed for cell c are in the order of its local entities; entities of two different cells have the same id iff they have the same set of vertices; ids are 0..n-1 without gaps, numbered by the first occurrence, and the vertices stored for an id are those of its first occurrence.", "quantifier": "all meshes of cells of a supported type with non-degenerate local entities", "why_tests_cant": "all meshes", "anchors": ["sfepy/discrete/common/extmods/mesh.c:mesh_build"]}
{"id": "C27", "title": "Uniform time stepping visits each time once, in order, ending at t1", "statement": "Iterating a TimeStepper yields the steps 0..n_step-1 in order with times t0 + k*(t1-t0)/(n_step-1), the first being t0 and the last t1; advance() at the last step changes nothing; set_step accepts exactly -n_step <= step < n_step and normalizes negative ones; normalized time stays in [0,1].", "quantifier": "all t0<t1, n_step, starting steps", "why_tests_cant": "all step counts", "anchors": ["sfepy/solvers/ts.py:TimeStepper"]}
{"id": "C28", "title": "Adaptive time stepping: times are consistent and increasing", "statement": "For every sequence of positive step sizes, VariableTimeStepper keeps len(times) = step + 1 = n_step, time = times[step], times strictly increasing; iteration stops at the first time >= t1; set_state(get_state()) restores the state.", "quantifier": "all sequences of advance/set_time_step with positive steps", "why_tests_cant": "unbounded histories", "anchors": ["sfepy/solvers/ts.py:VariableTimeStepper"]}
{"id": "C29", "title": "Time steppers compare equal iff they describe the same time levels", "statement": "ts1 == ts2 for steppers with the same t0, t1 and n_step, and != if t0 or t1 differ.", "quantifier": "all pairs of steppers", "why_tests_cant": "relation over all pairs", "anchors": ["sfepy/solvers/ts.py:TimeStepper.__eq__"]}
{"id": "C30", "title": "Step number formatting width", "statement": "get_print_info(n_step) returns the number of decimal digits of the largest step number n_step-1, so that file names of all steps have the same length and sort in time order.", "quantifier": "all n_step", "why_tests_cant": "all integers", "anchors": ["sfepy/solvers/ts.py:get_print_info"]}
{"id": "C31", "title": "Time step controllers keep the step change in the configured bounds", "statement": "tsc.ed_basic: an accepted step (error <= 1) is multiplied by a factor in (0, fmax] that is >= fsafety (if fsafety <= fmax), a rejected one by a factor in [fmin, 1) if fmin, fsafety < 1; so a rejected step is always repeated with a strictly smaller step. tsc.ed_pid keeps the factor in [fmin, fmax].", "quantifier": "all errors, step sizes, admissible parameters", "why_tests_cant": "all real inputs", "anchors": ["sfepy/solvers/ts_controllers.py:ElastodynamicsBasicTSC", "sfepy/solvers/ts_controllers.py:ElastodynamicsPIDTSC"]}
{"id": "C32", "title": "tsc.ed_linear waits inc_wait accepted steps between increases", "statement": "With tsc.ed_linear the step size never increases unless at least inc_wait steps were accepted in a row since the last increase or rejection, and each increase is at least by the factor min_finc; otherwise the accepted step is kept.", "quantifier": "all sequences of proposed steps and accept/reject outcomes", "why_tests_cant": "histories of any length", "anchors": ["sfepy/solvers/ts_controllers.py:ElastodynamicsLinearTSC"]}
{"id": "C33", "title": "tsc.time_sequence generates exactly the given times", "statement": "With tsc.time_sequence the time levels visited by the adaptive time stepping are t0 followed by the given increasing sequence of times.", "quantifier": "all increasing time sequences", "why_tests_cant": "all sequences", "anchors": ["sfepy/solvers/ts_controllers.py:TimesSequenceTSC", "sfepy/solvers/ts.py:VariableTimeStepper"]}
{"id": "C34", "title": "Homogenization requirements are computed in dependency order", "statement": "get_sorted_dependencies() returns each needed corrector/coefficient exactly once, after everything it requires; it raises ValueError for an undefined or circular requirement, and never for an acyclic closed definition.", "quantifier": "all requirement graphs", "why_tests_cant": "all graphs", "anchors": ["sfepy/homogenization/engine.py:insert_sub_reqs", "sfepy/homogenization/engine.py:HomogenizationWorker.get_sorted_dependencies"]}
{"id": "C35", "title": "Parallel homogenization computes the same results as sequential", "statement": "The multi-process scheduler terminates, executes each task exactly once, never before its requirements are available, and ends with the same dependency values as the sequential worker.", "quantifier": "all acyclic requirement graphs, all task functions of their requirements", "why_tests_cant": "all graphs/schedules", "anchors": ["sfepy/homogenization/engine.py:HomogenizationWorkerMulti.__call__"]}
{"id": "C36", "title": "Chunking of microstructures is lossless", "statement": "chunk_micro_tasks splits the indices 0..n-1 into consecutive chunks of at most chunk_size covering each index once, in order; the merged results of the chunks are the list of results in the original order; each stored microstructure index is mapped to one chunk with the right local index.", "quantifier": "all n, chunk sizes, store lists", "why_tests_cant": "all sizes", "anchors": ["sfepy/homogenization/engine.py:HomogenizationWorkerMulti.chunk_micro_tasks", "sfepy/homogenization/engine.py:HomogenizationWorkerMulti.dechunk_reqs_coefs"]}
{"id": "C37", "title": "Fast small matrix inversion is the inverse", "statement": "invs_fast(a) times a is the identity for each 1x1, 2x2, 3x3 matrix with a nonzero determinant.", "quantifier": "all matrices with nonzero determinant", "why_tests_cant": "polynomial identity over all entries", "anchors": ["sfepy/linalg/utils.py:invs_fast"]}
{"id": "C38", "title": "Elastic parameter conversions round-trip", "statement": "youngpoisson_from_stiffness(stiffness_from_youngpoisson(E, nu, plane), plane) = (E, nu) for admissible E, nu in both plane modes, and bulk modulus/Lame conversions agree with the textbook relations.", "quantifier": "all admissible E, nu, dim 2 and 3", "why_tests_cant": "identity over all reals", "anchors": ["sfepy/mechanics/matcoefs.py:youngpoisson_from_stiffness", "sfepy/mechanics/matcoefs.py:stiffness_from_youngpoisson"]}
{"id": "C39", "title": "ElasticConstants conversions are mutually consistent", "statement": "Given any two of the six constants of a material with mu > 0 and bulk > 0, ElasticConstants reproduces the remaining four; (relations with two roots must choose the physical one).", "quantifier": "all pairs of given constants, all admissible materials", "why_tests_cant": "60 relations over all reals", "anchors": ["sfepy/mechanics/elastic_constants.py:relations", "sfepy/mechanics/matcoefs.py:ElasticConstants"]}
{"id": "C40", "title": "Symmetric storage conversions", "statement": "sym2dim inverts dim2sym for every dimension and rejects sizes that are not triangular; full->symmetric->full storage of a symmetric tensor is the identity; get_t4_from_t2s has minor symmetries (and major ones for a symmetric matrix).", "quantifier": "all dimensions, all symmetric tensors", "why_tests_cant": "all inputs", "anchors": ["sfepy/mechanics/tensors.py:dim2sym", "sfepy/mechanics/tensors.py:sym2dim", "sfepy/mechanics/tensors.py:get_t4_from_t2s"]}
{"id": "C41", "title": "Deviator and von Mises stress invariants", "statement": "The deviator has zero trace and deviator + volumetric part is the tensor; the von Mises stress is invariant under adding a pressure, zero iff the deviator is zero, and agrees between symmetric and full storage (3D).", "quantifier": "all symmetric tensors", "why_tests_cant": "all reals", "anchors": ["sfepy/mechanics/tensors.py:get_deviator", "sfepy/mechanics/tensors.py:get_von_mises_stress"]}
{"id": "C42", "title": "Unit scaling is dimensionally consistent", "statement": "apply_unit_multipliers scales derived quantities by exactly the factor implied by their physical dimension, so products/quotients of scaled values equal the scaled products/quotients (e.g. velocity = length/time, stress = force/length^2, energy = force*length); applying multipliers and then their inverses restores the values.", "quantifier": "all positive multipliers, all values", "why_tests_cant": "all reals", "anchors": ["sfepy/mechanics/units.py:apply_unit_multipliers"]}
{"id": "C43", "title": "Sequence permutation map", "statement": "map_permutations(seq1, seq2) returns imap with seq1[imap] = seq2 whenever the two sequences have the same items.", "quantifier": "all sequences that are permutations of one another", "why_tests_cant": "all lengths, duplicates", "anchors": ["sfepy/linalg/utils.py:map_permutations"]}
{"id": "C44", "title": "Dependency block resolution", "statement": "resolve(deps) returns sorted nonempty blocks such that each block only depends on itself and previous blocks. If the values are sets of existing names and the system is structurally nonsingular (each set of equations has at least as many different unknowns; in particular, if every name lists itself), every name occurs exactly once and no smaller solvable block is available when a block is chosen. Otherwise a name may be repeated or silently missing.", "quantifier": "all dependency dictionaries", "why_tests_cant": "all graphs", "anchors": ["sfepy/base/resolve_deps.py:resolve"]}
{"id": "C45", "title": "Naive mesh partitioning is balanced and complete", "statement": "partition_mesh without metis assigns each cell to exactly one of n_parts tasks, in consecutive ranges, sizes differing by at most one.", "quantifier": "all cell and part counts with n_parts <= n_el", "why_tests_cant": "all sizes", "anchors": ["sfepy/parallel/parallel.py:partition_mesh"]}
{"id": "C46", "title": "Parallel DOF ownership is a partition with contiguous numbering", "statement": "create_task_dof_maps: each DOF is owned by exactly one task, the new numbering is a permutation of 0..n-1 and the DOFs owned by a task form a contiguous range in the order of tasks.", "quantifier": "all partitions of meshes into tasks, all fields", "why_tests_cant": "all partitions", "anchors": ["sfepy/parallel/parallel.py:create_task_dof_maps", "sfepy/parallel/parallel.py:verify_task_dof_maps"]}
{"id": "C47", "title": "Periodic matching cache returns the matching of the given coordinates", "statement": "match_x_line etc. return index arrays matching the given coordinates: coors1[i1] equals coors2[i2] along the line, for every call in any sequence of calls.", "quantifier": "all sequences of calls with all coordinate arrays", "why_tests_cant": "depends on the history of cached calls", "anchors": ["sfepy/discrete/fem/periodic.py:match_grid_line"]}
{"id": "C48", "title": "Reading a sparse matrix from HDF5 returns the stored matrix", "statement": "read_sparse_matrix_hdf5(write_sparse_matrix_hdf5(A), output_format) represents the matrix A, for each stored format csr/csc and each requested output format.", "quantifier": "all matrices, all format combinations", "why_tests_cant": "all matrices", "anchors": ["sfepy/base/ioutils.py:read_sparse_matrix_from_hdf5", "sfepy/base/ioutils.py:write_sparse_matrix_to_hdf5"]}
{"id": "C49", "title": "skip_read_line returns the first data line", "statement": "skip_read_line returns the first line that is neither blank nor a comment, stripped; an empty string if there is none (EOFError if no_eof).", "quantifier": "all files", "why_tests_cant": "all file contents", "anchors": ["sfepy/base/ioutils.py:skip_read_line"]}
{"id": "C50", "title": "Token reader", "statement": "Repeated read_token calls return exactly the whitespace separated tokens of the file, in order, then empty strings.", "quantifier": "all file contents", "why_tests_cant": "all strings", "anchors": ["sfepy/base/ioutils.py:read_token"]}
{"id": "C51", "title": "The matrix graph contains all assembled items", "statement": "The sparsity pattern created by create_matrix_graph() from (active) DOF connectivities consists exactly of the pairs (active row DOF, active column DOF) of the cells of the connectivity pairs, independently of chunk_size (>= 2); hence assembling element matrices with any of these connectivities never raises 'matrix item does not exist'.", "quantifier": "all lists of connectivity pairs, offsets, chunk sizes", "why_tests_cant": "Requires every mesh/equations combination; a missing item shows only for particular constrained DOF patterns or chunk boundaries.", "anchors": ["sfepy/discrete/equations.py:create_dof_graph", "sfepy/discrete/equations.py:create_matrix_graph", "sfepy/linalg/utils.py:chunk_arrays", "sfepy/discrete/common/extmods/assemble.pyx:assemble_matrix"]}
{"id": "C52", "title": "Region finalization yields a consistent region", "statement": "After set_kind(kind) and finalize() (as done by create_region), whatever entities were set or accessed before, all subsequent reads of vertices/edges/faces/cells in any order return the kind entities and exactly the lower-dimensional entities belonging to them (none for *_only kinds), and nothing of a higher dimension; without allow_empty the region is not empty.", "quantifier": "all meshes, all region states, all kinds, all sequences of reads", "why_tests_cant": "entities are determined lazily and depend on the history of accesses", "anchors": ["sfepy/discrete/common/region.py:Region.finalize", "sfepy/discrete/common/region.py:Region.setup_from_highest", "sfepy/discrete/common/region.py:Region.set_kind"]}
{"id": "C53", "title": "Facet indices of a facet region", "statement": "get_facet_indices() returns for each facet in order each incident cell (restricted to the parent region if given) with the local number of the facet in the cell, consistently with get_cells(true_cells_only=False).", "quantifier": "all meshes, facet sets, parent regions", "why_tests_cant": "all meshes and regions", "anchors": ["sfepy/discrete/common/region.py:Region.get_facet_indices", "sfepy/discrete/common/region.py:Region.get_cells", "sfepy/discrete/common/extmods/mesh.c:mesh_get_local_ids"]}
{"id": "C54", "title": "Cell indices in a region", "statement": "get_cell_indices(cells) returns the positions of the cells in the region cells or raises: for sorted region cells it raises ValueError iff some cell is not in the region.", "quantifier": "all cell lists", "why_tests_cant": "all cell lists", "anchors": ["sfepy/discrete/common/region.py:Region.get_cell_indices"]}
{"id": "C55", "title": "ts.simple computes and post-processes each step exactly once, in order", "statement": "For every problem (initialization, prestep and poststep functions, nonlinear solver) the solver ts.simple started in step k (0, or a restart) calls prestep_fun, the nonlinear solver and poststep_fun exactly once for each of the steps k..n_step-1, in this order and with the time of the step, passing the state from one call to the next, and returns the result of the last poststep_fun; the nonlinear solver is skipped in step 0 unless the problem is quasistatic.", "quantifier": "All user functions (also depending on the whole call history), all numbers of steps, all starting steps.", "why_tests_cant": "Tests run a few step counts with one problem; the call order must hold for every number of steps, restart step and function.", "anchors": ["sfepy/solvers/ts_solvers.py: SimpleTimeSteppingSolver.__call__, solve_step0", "sfepy/solvers/ts.py: TimeStepper.iter_from"]}
{"id": "C56", "title": "ts.adaptive: a step is repeated with smaller time steps, then post-processed once", "statement": "For every problem and every behaviour of the nonlinear solver, ts.adaptive computes steps 0, 1, 2, ...; in each step the attempts start from the same previous time, with strictly decreasing time step sizes, each attempt is preceded by prestep_fun with the new time; poststep_fun is called once, with the result of the last attempt; the next step starts with its result; the solution ends in the first step with the time >= t1; the number of attempts of a step is finite.", "quantifier": "All problems, solver outcomes, adaptivity parameters with 0 < dt_red_factor < 1.", "why_tests_cant": "The interplay of retries, time updates and prestep calls must hold for every sequence of convergence failures.", "anchors": ["sfepy/solvers/ts_solvers.py: AdaptiveTimeSteppingSolver.solve_step, adapt_time_step", "sfepy/solvers/ts.py: VariableTimeStepper"]}
{"id": "C57", "title": "Adaptive time step changes follow the documented rules", "statement": "In ts.adaptive the step size is reduced only after a convergence failure (by dt_red_factor, never below dt_red_max times the initial step) and increased (by dt_inc_factor) only when smaller than the initial one and after more than dt_inc_wait consecutive fast convergences; it never exceeds dt_inc_factor times the initial step.", "quantifier": "All sequences of solver statuses.", "why_tests_cant": "The state machine has unboundedly many histories of failures and successes.", "anchors": ["sfepy/solvers/ts_solvers.py: adapt_time_step"]}
{"id": "C58", "title": "Elastodynamics solvers visit each step once and return the final state", "statement": "For every step function and every controller giving positive steps, the elastodynamics solvers compute step 0 with the initial acceleration, then each further step (repeating rejected attempts from the same previous time with smaller steps), call poststep_fun once per step at strictly increasing times until the first time >= t1, and return the final state.", "quantifier": "All step functions, controllers, time intervals.", "why_tests_cant": "Must hold for every sequence of accepted/rejected steps.", "anchors": ["sfepy/solvers/ts_solvers.py: ElastodynamicsBaseTS.__call__, get_initial_vec"]}
{"id": "C59", "title": "The cached matrix of a linear elastodynamics problem always matches the current time step", "statement": "With is_linear, every call of the step function uses a system matrix assembled for the current time step size, for any sequence of accepted and rejected steps and step size changes.", "quantifier": "All sequences of step size changes.", "why_tests_cant": "A stale matrix appears only after particular sequences of step size changes.", "anchors": ["sfepy/solvers/ts_solvers.py: _cache, ElastodynamicsBaseTS.clear_lin_solver, __call__"]}
{"id": "C60", "title": "Documented equivalences of the elastodynamics solvers", "statement": "The central difference solver computes the same steps as the Newmark solver with beta=0, gamma=1/2; the generalized alpha solver with alpha_m=alpha_f=0 computes the same steps as the Newmark solver; the velocity-Verlet solver computes the same steps as the central difference solver.", "quantifier": "all residual functions, tangent matrices, nonlinear solvers, states and time steps", "why_tests_cant": "equality of two algorithms for every nonlinear problem and state", "anchors": ["sfepy/solvers/ts_solvers.py:VelocityVerletTS", "sfepy/solvers/ts_solvers.py:CentralDifferenceTS", "sfepy/solvers/ts_solvers.py:NewmarkTS", "sfepy/solvers/ts_solvers.py:GeneralizedAlphaTS", "sfepy/solvers/ts_solvers.py:BatheTS"]}
{"id": "C61", "title": "The state computed by an elastodynamics step satisfies the equations of motion", "statement": "When the nonlinear solver finds a root, the displacement, velocity and acceleration returned for the time t_{n+1} satisfy the discretized equations of motion at t_{n+1} (generalized alpha: the weighted state satisfies them at the weighted time); the computed initial acceleration satisfies them at the initial time.", "quantifier": "all residuals (linear or not, with loads depending on time), states, times and time steps", "why_tests_cant": "quantifies over all problems and time-dependent loads", "anchors": ["sfepy/solvers/ts_solvers.py:VelocityVerletTS", "sfepy/solvers/ts_solvers.py:CentralDifferenceTS", "sfepy/solvers/ts_solvers.py:NewmarkTS", "sfepy/solvers/ts_solvers.py:GeneralizedAlphaTS", "sfepy/solvers/ts_solvers.py:BatheTS"]}
{"id": "C62", "title": "Energy behaviour of the default Newmark method", "statement": "With the default parameters (beta=1/4, gamma=1/2) and a linear problem with symmetric mass and stiffness matrices, the energy changes in each step by the work of the loads minus the damping dissipation; without loads it never grows, whatever the time steps, and is conserved without damping.", "quantifier": "all matrices, loads, states and sequences of time steps", "why_tests_cant": "a conservation law over runs of any length", "anchors": ["sfepy/solvers/ts_solvers.py:VelocityVerletTS", "sfepy/solvers/ts_solvers.py:CentralDifferenceTS", "sfepy/solvers/ts_solvers.py:NewmarkTS", "sfepy/solvers/ts_solvers.py:GeneralizedAlphaTS", "sfepy/solvers/ts_solvers.py:BatheTS"]}
{"id": "C63", "title": "The default parameters of the generalized alpha method satisfy the documented conditions", "statement": "For any rho_inf in [0, 1] the default alpha_m, alpha_f, beta, gamma satisfy the documented conditions of unconditional stability, second order accuracy and maximal dissipation, and rho_inf is the spectral radius in the high frequency limit.", "quantifier": "all rho_inf in [0, 1], all stiffness matrices, states and time steps", "why_tests_cant": "a statement about all parameter values and an asymptotic limit", "anchors": ["sfepy/solvers/ts_solvers.py:VelocityVerletTS", "sfepy/solvers/ts_solvers.py:CentralDifferenceTS", "sfepy/solvers/ts_solvers.py:NewmarkTS", "sfepy/solvers/ts_solvers.py:GeneralizedAlphaTS", "sfepy/solvers/ts_solvers.py:BatheTS"]}
{"id": "C64", "title": "The tangent matrices of the elastodynamics steps are the derivatives of the step residuals", "statement": "For each of the solvers the matrix given to the nonlinear solver is the derivative of the residual given to it, with respect to its unknown, including the Newmark method with extra variables.", "quantifier": "all residuals with given partial derivatives, states, time steps and directions", "why_tests_cant": "exactness of a derivative for every problem", "anchors": ["sfepy/solvers/ts_solvers.py:VelocityVerletTS", "sfepy/solvers/ts_solvers.py:CentralDifferenceTS", "sfepy/solvers/ts_solvers.py:NewmarkTS", "sfepy/solvers/ts_solvers.py:GeneralizedAlphaTS", "sfepy/solvers/ts_solvers.py:BatheTS"]}
{"id": "C65", "title": "Uniformly accelerated motion is reproduced exactly", "statement": "With constant acceleration all the elastodynamics solvers give the exact parabola of the displacements and the exact velocities after any sequence of time steps.", "quantifier": "all mass matrices, accelerations, initial conditions, parameters and sequences of nonzero time steps", "why_tests_cant": "runs of any length with arbitrary time steps", "anchors": ["sfepy/solvers/ts_solvers.py:VelocityVerletTS", "sfepy/solvers/ts_solvers.py:CentralDifferenceTS", "sfepy/solvers/ts_solvers.py:NewmarkTS", "sfepy/solvers/ts_solvers.py:GeneralizedAlphaTS", "sfepy/solvers/ts_solvers.py:BatheTS"]}
{"id": "C66", "title": "Tensor transformations between orthogonal coordinate systems", "statement": "transform_data with an orthogonal matrix M: vectors, symmetric second order tensors and 6x6 stiffness matrices are transformed by the documented index formulas with nothing lost in the symmetric storage; transforming by M and then by its transpose restores the data; successive transformations compose; dot products, traces, norms and the von Mises stress are preserved; Hooke's law commutes with the transformation (transformed stiffness applied to the transformed strain is the transformed stress).", "quantifier": "all orthogonal 3x3 matrices, all vectors, tensors and stiffness matrices", "why_tests_cant": "identities over all real data and all rotations; tests use a few matrices and tolerances", "anchors": ["sfepy/mechanics/tensors.py:transform_data", "sfepy/mechanics/tensors.py:get_t4_from_t2s"]}
{"id": "C67", "title": "Cauchy stress from the second Piola-Kirchhoff stress", "statement": "StressTransform.get_cauchy_from_2pk returns J^-1 F S F^T, which is symmetric (the symmetry assertion never fails) and not changed by the conversion to the symmetric storage; J times it equals the first Piola-Kirchhoff stress times F^T.", "quantifier": "all deformation gradients, all stresses, dimensions 2 and 3", "why_tests_cant": "identity over all real matrices", "anchors": ["sfepy/mechanics/tensors.py:StressTransform"]}
{"id": "C68", "title": "Axis rotation matrices are rotations", "statement": "make_axis_rotation_matrix returns, for each nonzero axis and each angle, an orthogonal matrix with determinant one that fixes the axis; rotations around one axis compose by adding angles; prepare_cylindrical_transform maps the radial direction to the first axis and keeps the cylinder axis, and its 'data' mode is the transpose of its 'axes' mode.", "quantifier": "all axes, angles, points and origins", "why_tests_cant": "identities over all reals", "anchors": ["sfepy/linalg/geometry.py:make_axis_rotation_matrix", "sfepy/mechanics/tensors.py:prepare_cylindrical_transform"]}
{"id": "C69", "title": "Plane stress reduction is static condensation", "statement": "TransformToPlane.tensor_plane_stress(c3): for each symmetric stiffness and each plane, the reduced matrix maps the in-plane strain to the in-plane stress of exactly those 3D states whose out-of-plane stress is zero, and such an extension of each in-plane strain exists and is unique; for isotropic materials it is the plane stress stiffness of lame_from_youngpoisson. With d3, b3 the same holds for the coupled piezoelectric law (zero out-of-plane stress and electric displacement).", "quantifier": "all symmetric (invertible out-of-plane block) coefficients, all planes", "why_tests_cant": "identities over all coefficient matrices", "anchors": ["sfepy/mechanics/matcoefs.py:TransformToPlane.tensor_plane_stress"]}
{"id": "C70", "title": "Unit names and prefixes", "statement": "Unit(name) splits each nonempty name into the longest known prefix that leaves a nonempty unit, and that unit; Unit.get_prefix(coef) returns an allowed prefix and a multiplier whose product is coef, and the prefix is the smallest one not less than bias * coef (the largest one if there is none).", "quantifier": "all names, all sets of prefixes, all coefficients", "why_tests_cant": "string matching with overlapping prefixes (m, mu, '', 1, 10...) for all names", "anchors": ["sfepy/mechanics/units.py:Unit"]}
{"id": "C71", "title": "Chunked iteration of arrays", "statement": "chunk_arrays(arrays, chunk_size) yields tuples of slices which, concatenated, give each array exactly once and in order, each chunk of chunk_size items but the last one; chunk_size = 0 never ends.", "quantifier": "all arrays of a common length, all chunk sizes", "why_tests_cant": "all lengths and chunk sizes", "anchors": ["sfepy/linalg/utils.py:chunk_arrays"]}
{"id": "C72", "title": "Cycling through index tuples", "statement": "cycle(bounds) yields every tuple of indices below the bounds exactly once, in lexicographic order.", "quantifier": "all tuples of bounds", "why_tests_cant": "all lengths and bounds", "anchors": ["sfepy/linalg/utils.py:cycle"]}
{"id": "C73", "title": "1D assembling with repeated indices", "statement": "assemble1d(out, indx, vals) adds to each item the sum of all values sent to it, also for repeated indices (out[indx] += vals does not).", "quantifier": "all arrays and index arrays", "why_tests_cant": "all repetition patterns", "anchors": ["sfepy/linalg/utils.py:assemble1d"]}
{"id": "C74", "title": "Composing block sparse matrices", "statement": "compose_sparse(blocks, row_sizes, col_sizes) returns the matrix whose (i, j) block is the given block and zeros where the block is None; it fails iff a block does not have the size of its block row and column.", "quantifier": "all block structures and sizes", "why_tests_cant": "all block patterns, implicit sizes, slices", "anchors": ["sfepy/linalg/sparse.py:compose_sparse"]}
{"id": "C75", "title": "Saving sparse matrices as text", "statement": "save_sparse_txt writes each nonzero of a CSR matrix exactly once with its row, column and value.", "quantifier": "all CSR matrices", "why_tests_cant": "all sparsity patterns", "anchors": ["sfepy/linalg/sparse.py:save_sparse_txt"]}
{"id": "C76", "title": "Circumcentres of simplices", "statement": "get_simplex_circumcentres returns, for each nondegenerate triangle (2D or 3D) or tetrahedron, the point of its affine hull with equal distances from the vertices, for an edge its midpoint; with force_inside_eps the barycentric coordinates of the result are not less than the tolerance, sum up to one and are unchanged if this holds already.", "quantifier": "all nondegenerate simplices, all tolerances", "why_tests_cant": "identities over all real coordinates", "anchors": ["sfepy/linalg/geometry.py:get_simplex_circumcentres"]}
{"id": "C77", "title": "Points in polygons", "statement": "flag_points_in_polygon2d flags a point off the polygon lines iff it is in the triangle / convex polygon; for any polygon it is the parity of the number of fan triangles containing the point, independent of the starting vertex.", "quantifier": "all polygons, all points in general position", "why_tests_cant": "all geometric configurations", "anchors": ["sfepy/linalg/geometry.py:flag_points_in_polygon2d"]}
{"id": "C78", "title": "Small matrix inverses, simplex volumes, points in simplices", "statement": "invs_fast returns the two-sided inverse of each nonsingular matrix up to 3 x 3; get_simplex_volumes is 1/dim! for the reference simplex and is multiplied by det(A) under x -> A x + t; points_in_simplex flags each point of the closed simplex for each positive tolerance and no other point for all tolerances.", "quantifier": "all nonsingular matrices, all simplices and affine maps, all points", "why_tests_cant": "identities over all reals", "anchors": ["sfepy/linalg/utils.py:invs_fast", "sfepy/linalg/geometry.py:get_simplex_volumes", "sfepy/linalg/geometry.py:points_in_simplex"]}
{"id": "C79", "title": "Unit and perpendicular vectors", "statement": "get_perpendiculars returns unit vectors perpendicular to each nonzero vector (in 3D also to each other), also for vectors (nearly) parallel to the auxiliary axis; normalize_vectors returns unit vectors of the same direction, keeps vectors below the tolerance and is idempotent.", "quantifier": "all nonzero vectors in 2D and 3D", "why_tests_cant": "near-degenerate directions", "anchors": ["sfepy/linalg/geometry.py:get_perpendiculars", "sfepy/linalg/utils.py:normalize_vectors"]}
{"id": "C80", "title": "Face areas and plane rotations", "statement": "get_face_areas returns the area of each triangle and of each planar convex quadrilateral in 2D and 3D, independently of the first vertex and the orientation; rotation_matrix2d is an isometry, with angles in degrees adding up.", "quantifier": "all triangles, all planar convex quadrilaterals, all placements in space, all angles", "why_tests_cant": "identities over all reals", "anchors": ["sfepy/linalg/geometry.py:get_face_areas", "sfepy/linalg/geometry.py:rotation_matrix2d"]}
{"id": "C81", "title": "Points in balls and tubes", "statement": "get_coors_in_ball and get_coors_in_tube select exactly the points given by the documented (in)equalities.", "quantifier": "all points, centres, unit axes, radii, lengths", "why_tests_cant": "all configurations incl. boundaries", "anchors": ["sfepy/linalg/geometry.py:get_coors_in_ball", "sfepy/linalg/geometry.py:get_coors_in_tube"]}
{"id": "C82", "title": "Composite numbering of several distributed fields", "statement": "distribute_fields_dofs: when several fields with distributed DOFs are combined, the composite numbers of all DOFs of all fields are a permutation of 0..n-1; each task owns one contiguous range, in the order of tasks, and within it each field has a contiguous sub-range, in the order of fields.", "quantifier": "all lists of fields, all distributions of the DOFs of each field to all numbers of tasks", "why_tests_cant": "all combinations of fields and tasks", "anchors": ["sfepy/parallel/parallel.py:distribute_fields_dofs", "sfepy/parallel/parallel.py:get_composite_sizes"]}
{"id": "C83", "title": "A vector assembled in parallel equals the one assembled serially", "statement": "Tasks assemble the vectors of their cells and put them to a global vector by assemble_rhs_to_petsc; whatever the order of the tasks, with cell overlaps and without, the entry of each DOF at its new number is the entry of the serially assembled vector, also when the global vector is assembled repeatedly.", "quantifier": "all meshes, partitions, orders of execution, element values, previous contents of the global vector", "why_tests_cant": "schedules and partitions", "anchors": ["sfepy/parallel/parallel.py:assemble_rhs_to_petsc", "sfepy/parallel/parallel.py:get_local_ordering", "sfepy/parallel/evaluate.py:PETScParallelEvaluator"]}
{"id": "C84", "title": "A matrix assembled in parallel equals the one assembled serially", "statement": "As C83 for matrices and assemble_mtx_to_petsc: each entry of the global matrix is the entry of the serial matrix for the corresponding DOFs, also when the matrix is assembled repeatedly.", "quantifier": "all meshes, partitions, orders of execution, element matrices, previous contents of the global matrix", "why_tests_cant": "schedules and partitions", "anchors": ["sfepy/parallel/parallel.py:assemble_mtx_to_petsc", "sfepy/parallel/parallel.py:get_local_ordering", "sfepy/parallel/evaluate.py:PETScParallelEvaluator"]}
{"id": "C85", "title": "Reading a list of numbers from a text mesh file", "statement": "read_list(fd, n_item, dtype) returns the rows of converted words of the next lines, one row per line, reading lines until n_item items were read, and leaves the file at the line after the last one read; more items than n_item is a ValueError; a file that ends before n_item items were read is reported.", "quantifier": "all files, all n_item, all converters", "why_tests_cant": "all file contents, incl. truncated files", "anchors": ["sfepy/base/ioutils.py:read_list"]}
{"id": "C86", "title": "Editing a file name", "statement": "edit_filename(filename, prefix, suffix, new_ext) returns the file name in the same directory (without repeated trailing slashes) whose base is prefix + base + suffix and whose extension is new_ext, or the old one; get_trunk(filename) is the base name without the extension. The directory, base and extension of a name are unique and give the name back.", "quantifier": "all file names, prefixes, suffixes, extensions", "why_tests_cant": "all strings, incl. dots and slashes in directories, hidden files", "anchors": ["sfepy/base/ioutils.py:edit_filename", "sfepy/base/ioutils.py:get_trunk"]}
{"id": "C87", "title": "Names of the files of the steps", "statement": "Results of different time steps (in the sequence mode), restart files of different steps and recovery files of different (element, step) pairs have different names, the alphabetical order of the files of a run is the order of the steps, and a restart file never has the name of a results file.", "quantifier": "all output directories, trunks, formats, numbers of steps, steps", "why_tests_cant": "unbounded numbers of steps and elements", "anchors": ["sfepy/discrete/problem.py:get_output_name", "sfepy/discrete/problem.py:get_restart_filename", "sfepy/solvers/ts.py:get_print_info", "sfepy/homogenization/recovery.py:get_output_suffix"]}
{"id": "C88", "title": "Dictionaries stored in HDF5 files", "statement": "A nested dictionary written by write_dict_hdf5() is read back by read_dict_hdf5() as the same dictionary.", "quantifier": "all nested dictionaries with string keys, all leaves", "why_tests_cant": "all key strings and nestings", "anchors": ["sfepy/base/ioutils.py:write_dict_hdf5", "sfepy/base/ioutils.py:read_dict_hdf5"]}
{"id": "C89", "title": "General data with shared objects stored in HDF5 files", "statement": "Data written by write_to_hdf5() are read back by read_from_hdf5() with the same structure and values, the Cached/Uncached markers removed; an object written several times under one cache is one object after reading, and a part marked Uncached has its own objects.", "quantifier": "all nestings of lists, tuples, dictionaries, Structs, atoms, meshes/matrices, Cached and Uncached markers, all sharing", "why_tests_cant": "all finite object graphs", "anchors": ["sfepy/base/ioutils.py:write_to_hdf5", "sfepy/base/ioutils.py:read_from_hdf5", "sfepy/base/ioutils.py:Cached", "sfepy/base/ioutils.py:Uncached"]}
{"id": "C90", "title": "Continuing from a restart file", "statement": "A run continued from the restart file of any step computes the same states and writes the same restart files as the uninterrupted run.", "quantifier": "all problems, steps to continue from, histories, time-stepping solvers", "why_tests_cant": "all runs and all interruption points", "anchors": ["sfepy/discrete/problem.py:save_restart", "sfepy/discrete/problem.py:load_restart", "sfepy/discrete/problem.py:solve", "sfepy/discrete/variables.py:init_history"]}
{"id": "C91", "title": "Restart files survive a crash", "statement": "If the program is killed at any moment after the first restart file was finished, then the last finished restart file is complete on the disk, also when only the last restart file is kept; after a run with only the last file kept only that file remains and no other files are touched.", "quantifier": "all sequences of saves, all crash points, all initial contents of the disk", "why_tests_cant": "crash points", "anchors": ["sfepy/discrete/problem.py:save_restart", "sfepy/discrete/problem.py:solve"]}
{"id": "C92", "title": "Which steps are saved", "statement": "With a list of save times, the results of a step are saved exactly if it is the first step that reaches some save time (up to the step tolerance).", "quantifier": "all save times, all sequences of time steps", "why_tests_cant": "all time grids", "anchors": ["sfepy/discrete/problem.py:make_is_save"]}
{"id": "C93", "title": "Adding two meshes", "statement": "The sum of two meshes without double nodes has all nodes and cells of both, with nodes of the two meshes that are closer than the tolerance identified, and no double nodes; it fails for meshes with double nodes.", "quantifier": "all pairs of meshes, all coordinates, all tolerances", "why_tests_cant": "all node positions and numberings", "anchors": ["sfepy/discrete/fem/mesh.py:find_map", "sfepy/discrete/fem/mesh.py:merge_mesh", "sfepy/discrete/fem/mesh.py:Mesh.__add__"]}
{"id": "C94", "title": "Removing double nodes", "statement": "After the removal of double nodes no two nodes are closer than the tolerance, and every cell has its former vertices up to the tolerance.", "quantifier": "all meshes, all chains of close nodes", "why_tests_cant": "chains of close nodes of any length", "anchors": ["sfepy/discrete/fem/mesh.py:fix_double_nodes"]}
{"id": "C95", "title": "Merging nodes", "statement": "Nodes linked by close nodes, and no others, become one node, the one with the lowest number; no double nodes remain; all cells are kept with their vertices renumbered.", "quantifier": "all meshes, all tolerances", "why_tests_cant": "all patterns of close nodes", "anchors": ["sfepy/mesh/mesh_tools.py:get_unique_coor_map", "sfepy/mesh/mesh_tools.py:merge_nodes"]}
{"id": "C96", "title": "The part of a mesh in given groups", "statement": "The mesh selected by cell groups has exactly the cells of those groups in their order; the mesh selected by vertex groups has exactly the cells with all vertices in those groups; on request only the vertices of its cells are kept, otherwise all selected ones.", "quantifier": "all meshes, kinds of cells, group values, lists and ranges", "why_tests_cant": "all meshes and group assignments", "anchors": ["sfepy/mesh/mesh_tools.py:get_mesh_by_cgroup", "sfepy/mesh/mesh_tools.py:get_mesh_by_ngroup", "sfepy/mesh/mesh_tools.py:get_cell_vertices_only"]}
{"id": "C97", "title": "Block meshes tile the block", "statement": "gen_block_mesh creates a mesh whose vertices are all distinct, whose cells are boxes of the same size with vertices in the reference order, which together cover exactly the block given by dims and centre, and whose interiors are disjoint.", "quantifier": "all dimensions 1-3, positive block sizes, centres, numbers of vertices (at least two in each direction), and all points of the block", "why_tests_cant": "the number of shapes, sizes and points is unbounded; tests compare a few generated meshes with stored files", "anchors": ["sfepy/mesh/mesh_generators.py:gen_block_mesh", "sfepy/mesh/mesh_generators.py:get_tensor_product_conn"]}
{"id": "C98", "title": "Triangulation keeps the geometry", "statement": "triangulate cuts each quadrilateral into two triangles and each hexahedron into six tetrahedra of the same material with the same vertices, all positively oriented; for a block mesh the simplices have equal volumes, cover the block, and any two of them meet in a common face (piecewise linear fields are continuous).", "quantifier": "all meshes of quadrilaterals or hexahedra; all block meshes and all points in them", "why_tests_cant": "conformity and coverage are statements about all points of all pairs of cells of meshes of any size", "anchors": ["sfepy/mesh/mesh_tools.py:triangulate", "sfepy/mesh/mesh_tools.py:elems_q2t"]}
{"id": "C99", "title": "Tiling repeats the periodic cell", "statement": "gen_tiled_mesh returns a mesh whose cells are, tile by tile, the cells of the periodic cell shifted by whole multiples of its size along the axes and scaled, with their materials; each node appears once, neighbouring tiles share the nodes of their common faces, and the returned map gives for each node the node of the periodic cell it is a shifted copy of.", "quantifier": "all meshes of one kind of cells with matching opposite faces, all grids, scales, tolerances, and all previous calls in the process", "why_tests_cant": "the number of tiles, nodes and numberings is unbounded, and the node matching is cached between calls; tests tile one small cell", "anchors": ["sfepy/mesh/mesh_generators.py:gen_tiled_mesh", "sfepy/mesh/mesh_generators.py:tiled_mesh1d", "sfepy/discrete/fem/periodic.py:match_grid_plane"]}
{"id": "C100", "title": "Meshes from voxels", "statement": "gen_mesh_from_voxels makes one cell (or its triangles / tetrahedra) for every nonzero voxel, in the order of the array, with the corners of that voxel scaled by the voxel size and in the order of the reference cell; the nodes are exactly the corners of those voxels, each once; and it works for every array shape.", "quantifier": "every 2D or 3D array of voxels, voxel size and element type", "why_tests_cant": "the numbering of nodes depends on the whole image: only finitely many images can be tried", "anchors": ["sfepy/mesh/mesh_generators.py: gen_mesh_from_voxels"]}
{"id": "C101", "title": "Newton solver stops and reports truthfully", "statement": "With the default options for failed residuals, a call of the Newton solver always ends after at most i_max iterations. The reported err and err0 are the norms of the residual of the returned and of the initial vector; condition 0 means that the documented tolerances are met by the returned vector, condition 1 that they are not and that i_max iterations were made; n_iter and ls_n_iter count the iterations. The first iterate meeting the tolerances is returned.", "quantifier": "all residual functions (also failing ones), tangent matrices, linear solvers, initial guesses and solver options in their documented ranges", "why_tests_cant": "the iteration history depends on arbitrary user functions; tests run a few problems", "anchors": ["sfepy/solvers/nls.py: Newton.__call__", "sfepy/solvers/nls.py: conv_test", "sfepy/solvers/nls.py: apply_line_search_bt"]}
{"id": "C102", "title": "Newton steps and the backtracking line search", "statement": "Each iterate is the previous one minus step_red times the solution of the linear system with the tangent matrix of the documented iteration, times a step length that is the first acceptable one of the sequence of reduced lengths (residual or error mode); the length is not below ls_min; the residual decreases by ls_on unless the line search fails; give_up_warp stops with the condition 2 when the residual cannot be computed.", "quantifier": "all residual functions, matrices, linear solvers, options and iterations", "why_tests_cant": "the sequence of trial steps depends on arbitrary user functions", "anchors": ["sfepy/solvers/nls.py: apply_line_search_bt", "sfepy/solvers/nls.py: Newton._apply_lin_solver", "sfepy/solvers/nls.py: Newton.__call__"]}
{"id": "C103", "title": "Linear systems are solved in one Newton iteration", "statement": "For a linear residual and a linear solver returning exact solutions, the Newton solver returns the initial guess if its residual is within eps_a, and otherwise the exact solution after one iteration with the condition 0.", "quantifier": "all sizes, matrices, right-hand sides, initial guesses, line search options", "why_tests_cant": "unbounded family of systems", "anchors": ["sfepy/solvers/nls.py: Newton.__call__"]}
{"id": "C104", "title": "Nodes of the Lagrange elements", "statement": "For every order, the nodes of a Lagrange line, triangle, tetrahedron, quadrilateral or hexahedron are exactly the points of the regular lattice of that order, each once; every node is attached to the vertex, edge, face or cell that is the smallest one containing it; the first nodes are the vertices in their order and the nodes of an edge follow one another from its first to its second vertex.", "quantifier": "all orders >= 1, dimensions 1 to 3, both families", "why_tests_cant": "unbounded orders; the loops and integer roundings only meet all cases from order 4 on", "anchors": ["sfepy/discrete/fem/poly_spaces.py: LagrangeNodes, LagrangeSimplexPolySpace._define_nodes, LagrangeTensorProductPolySpace._define_nodes", "sfepy/discrete/fem/geometry_element.py: geometry_data"]}
{"id": "C105", "title": "Lagrange basis on simplices", "statement": "In every point of the (closed) reference simplex, the values of the Lagrange basis of any order sum to one, equal the Kronecker delta in the nodes, and interpolate exactly every polynomial of degree up to the order; points outside by more than eps are reported as an error.", "quantifier": "all orders, dimensions 1-3, simplices, points, eps, lists of points (no failed evaluation before)", "why_tests_cant": "all orders, points and polynomials", "anchors": ["sfepy/discrete/fem/extmods/lagrange.c: eval_basis_lagrange, eval_lagrange_simplex, get_barycentric_coors", "sfepy/discrete/fem/poly_spaces.py: LagrangeSimplexPolySpace"]}
{"id": "C106", "title": "Gradients of the Lagrange basis on simplices", "statement": "The gradients returned with diff=1 are the partial derivatives of the values of the basis functions with respect to the reference coordinates, and sum to zero.", "quantifier": "all orders, nodes, simplices, points inside", "why_tests_cant": "all orders and points; finite differences cannot prove equality", "anchors": ["sfepy/discrete/fem/extmods/lagrange.c: eval_lagrange_simplex", "sfepy/discrete/fem/poly_spaces.py: LagrangePolySpace._eval_basis"]}
{"id": "C107", "title": "Lagrange basis on tensor product elements", "statement": "In every point of the reference quadrilateral or hexahedron (and the line), the values sum to one, are nodal, interpolate exactly all polynomials of degree up to the order in each coordinate; the returned gradients are the partial derivatives of the values.", "quantifier": "all orders, dimensions 1-3, reference intervals, points", "why_tests_cant": "all orders, points and polynomials", "anchors": ["sfepy/discrete/fem/extmods/lagrange.c: eval_lagrange_tensor_product", "sfepy/discrete/fem/poly_spaces.py: LagrangeTensorProductPolySpace"]}
{"id": "C108", "title": "Evaluations of a basis do not depend on earlier evaluations", "statement": "The result of evaluating a Lagrange basis depends only on its arguments, not on the evaluations made before, successful or failed.", "quantifier": "all histories of evaluations", "why_tests_cant": "depends on the order of calls and failures", "anchors": ["sfepy/discrete/fem/extmods/lagrange.c: get_barycentric_coors", "sfepy/discrete/common/extmods/common_python.c: g_error"]}
{"id": "C109", "title": "Lagrange basis with a bubble", "statement": "The basis of a simplex with the forced bubble sums to one, is nodal in the nodes of the basis and in the barycentre, and is linearly independent.", "quantifier": "all orders, dimensions 1-3, points", "why_tests_cant": "all orders and points", "anchors": ["sfepy/discrete/fem/poly_spaces.py: LagrangeSimplexBPolySpace", "sfepy/discrete/fem/extmods/lagrange.c: eval_basis_lagrange"]}
{"id": "C110", "title": "Second derivatives of the Lagrange basis", "statement": "The values returned with diff=2 on simplices and tensor product elements are the partial derivatives of the gradients returned with diff=1, in the order derivative direction, gradient component; the matrix of second derivatives of each function is symmetric.", "quantifier": "all orders, nodes, dimensions, points", "why_tests_cant": "all orders and points; finite differences cannot prove equality", "anchors": ["sfepy/discrete/fem/poly_spaces.py: LagrangeSimplexPolySpace._eval_hessian", "sfepy/discrete/fem/poly_spaces.py: LagrangeTensorProductPolySpace._eval_hessian"]}
{"id": "C111", "title": "Cubature rules of simplices for any order", "statement": "For line, triangle and tetrahedron and any order above the tables, the returned points are in the closed reference element and the rule integrates every polynomial of total degree at most the order exactly (in exact arithmetic).", "quantifier": "all orders and all polynomials", "why_tests_cant": "infinitely many orders; rounding hides errors of a formula", "anchors": ["sfepy/discrete/simplex_cubature.py: get_simplex_cubature", "sfepy/discrete/quadratures.py: QuadraturePoints.from_table"]}
{"id": "C112", "title": "Tabulated quadrature rules", "statement": "Every rule of the tables has its points in the closed reference element and integrates every polynomial of its order with an error at most 5e-15 times the sum of the absolute values of the coefficients.", "quantifier": "all entries, all polynomials of the degree", "why_tests_cant": "all polynomials; a transcription error in one digit passes tests with a usual tolerance", "anchors": ["sfepy/discrete/quadratures.py: quadrature_tables", "sfepy/discrete/quadratures.py: QuadraturePoints.__init__"]}
{"id": "C113", "title": "Quadrature for a geometry and an order", "statement": "For any reference element and order, the rule returned has its points in the element and integrates all polynomials of the order: total degree on simplices, degree in each coordinate on tensor product elements (2e-14 relative to the coefficients).", "quantifier": "all geometries, orders and polynomials", "why_tests_cant": "the orders select between tables, products and generated rules", "anchors": ["sfepy/discrete/quadratures.py: QuadraturePoints.from_table", "sfepy/discrete/quadratures.py: get_actual_order"]}
{"id": "C114", "title": "Global LCBC operator represents exactly the constrained vectors", "statement": "For operators constraining disjoint sets of DOFs, Variables.setup_lcbc_operators builds a matrix M and a vector r such that the vectors M v + r are exactly the vectors of active DOFs satisfying every linear combination condition (model-reduction conditions for some values of their new DOFs, ties for the DOFs they refer to); operators sharing a constrained DOF are refused; all rows and columns of M exist.", "quantifier": "all numbers of variables and DOFs, all lists of operators, all vectors", "why_tests_cant": "the column numbering depends on the interleaving of operators of all variables; tests use one or two operators", "anchors": ["sfepy/discrete/fem/lcbc_operators.py: LCBCOperators.finalize, make_global_operator", "sfepy/discrete/variables.py: Variables.setup_lcbc_operators"]}
{"id": "C115", "title": "Direction and mean value LCBCs", "statement": "no_penetration allows exactly the displacements orthogonal to the nodal normals; normal_direction and edge_direction give exactly the multiples of the nodal vectors; integral_mean_value makes all the DOFs equal.", "quantifier": "all dimensions, numbers of nodes, nonzero normals, vectors", "why_tests_cant": "depends on which component of each normal is the largest; a universally quantified equivalence", "anchors": ["sfepy/discrete/fem/lcbc_operators.py: NoPenetrationOperator, NormalDirectionOperator, EdgeDirectionOperator, IntegralMeanValueOperator"]}
{"id": "C116", "title": "Rigid body LCBCs are rigid body motions", "statement": "rigid allows exactly the infinitesimal rigid body motions of the nodes; rigid2 moves the dependent nodes with the displacement and rotation of the independent node; rigid_twist moves the two regions relatively to each other as a screw.", "quantifier": "all node coordinates, DOF values and DOF selections in 2D and 3D", "why_tests_cant": "equality of two linear spaces for all coordinates", "anchors": ["sfepy/discrete/fem/lcbc_operators.py: _create_spin_matrix, RigidOperator, Rigid2Operator, RigidTwistOperator"]}
{"id": "C117", "title": "Nodal combinations hold", "statement": "With nodal_combination, exactly the vectors that satisfy the given linear constraints in all nodes are representable.", "quantifier": "all constraint matrices, right-hand sides, numbers of DOFs per node and of nodes", "why_tests_cant": "the pairing of coefficients and DOFs depends on which DOFs the symbolic solver eliminates", "anchors": ["sfepy/discrete/fem/lcbc_operators.py: NodalLCOperator"]}
{"id": "C118", "title": "Ties, multi-node combinations and averages", "statement": "shifted_periodic and match_dofs tie every pair of free DOFs (with its shift) and no other; multi_node_combination makes the dependent DOFs the weighted sums of the independent ones; average_force reproduces translations and rotations of the independent nodes.", "quantifier": "all equation maps (with eliminated DOFs), maps of nodes, weights, displacements", "why_tests_cant": "index arithmetic over all maps; linear identities for all displacements", "anchors": ["sfepy/discrete/fem/lcbc_operators.py: ShiftedPeriodicOperator, MatchDOFsOperator, MultiNodeLCOperator, AverageForceOperator"]}
{"id": "C119", "title": "LCBCs with periodic conditions in one region", "statement": "A model-reduction LCBC applied in a region with periodic master DOFs constrains the remaining DOFs as without them.", "quantifier": "all regions, periodic maps and operators", "why_tests_cant": "combination of two features with all index patterns", "anchors": ["sfepy/discrete/fem/lcbc_operators.py: MRLCBCOperator.setup, treat_pbcs"]}
{"id": "C120", "title": "Shared DOFs of nodal fields", "statement": "For a nodal (Lagrange) field of any order on a mesh of line, triangle, tetrahedron, quadrilateral or hexahedron cells, two nodes of cells of the region have the same DOF in the DOF connectivity iff they have the same position: the same weights of the mesh vertices; orientations of edges and faces are treated correctly.", "quantifier": "all dimensions 1-3, orders, meshes (with arbitrary numbering of cells and vertices, orientations of shared facets), regions of cells", "why_tests_cant": "permutations of facet DOFs depend on the order and on the orientation; tests use a few meshes and orders", "anchors": ["sfepy/discrete/fem/fields_nodal.py: GlobalNodalLikeBasis._setup_facet_dofs, _setup_bubble_dofs", "sfepy/discrete/fem/fields_base.py: _setup_global_basis, _setup_vertex_dofs", "sfepy/discrete/fem/facets.py: get_facet_dof_permutations"]}
{"id": "C121", "title": "Continuity of nodal fields", "statement": "A finite element function given by its vector of DOFs is continuous across cells of simplex meshes: in a common point of two cells it has the same value from both.", "quantifier": "all simplex meshes of dimension 1-3, orders, DOF vectors, pairs of cells and points with coordinates in their common vertices", "why_tests_cant": "needs all orders and orientations of facets, and all points", "anchors": ["sfepy/discrete/fem/fields_nodal.py: GlobalNodalLikeBasis", "sfepy/discrete/fem/extmods/lagrange.c: eval_basis"]}
{"id": "C122", "title": "DOF numbering of nodal fields", "statement": "The DOFs in the connectivity of a field are exactly 0, ..., n_nod - 1, and the DOFs of a cell are distinct.", "quantifier": "all meshes, orders, regions of cells", "why_tests_cant": "counts for all orders and meshes", "anchors": ["sfepy/discrete/fem/fields_base.py: _setup_global_basis", "sfepy/discrete/fem/fields_nodal.py: GlobalNodalLikeBasis"]}
{"id": "C123", "title": "Laplace and diffusion terms compute their weak form", "statement": "For dw_laplace and dw_diffusion the cell matrix entry of two base functions is the quadrature of the documented weak form of them, the residual entry is the form of the base function and the state, the value in the eval mode is the form of the two states; hence matrix times state is the residual and virtual state times residual is the value.", "quantifier": "all cells, numbers of quadrature points and nodes, coefficients, states, Jacobians", "why_tests_cant": "each case multiplies tensors over all quadrature points, nodes and components; tests compare a few fixed solutions and cannot cover all states, coefficients and element sizes", "anchors": ["sfepy/terms/terms_diffusion.py: LaplaceTerm, DiffusionTerm", "sfepy/terms/extmods/terms_diffusion.c: laplace_*, dw_diffusion, d_diffusion"]}
{"id": "C124", "title": "Linear elasticity computes its weak form", "statement": "For dw_lin_elastic with a material in the symmetric storage the cell matrix, the residual and the value are the quadrature of D_ijkl e_ij(v) e_kl(u); matrix, residual and value agree; the matrix is symmetric for a symmetric D, its quadratic form is the strain energy, and rigid motions are in its kernel and forces in equilibrium.", "quantifier": "all cells, dimensions 2 and 3, numbers of quadrature points and nodes, materials, states", "why_tests_cant": "each case multiplies tensors over all quadrature points, nodes and components; tests compare a few fixed solutions and cannot cover all states, coefficients and element sizes", "anchors": ["sfepy/terms/terms_elastic.py: LinearElasticTerm", "sfepy/terms/extmods/terms_elastic.c: dw_lin_elastic, d_lin_elastic", "sfepy/terms/extmods/form_sdcc.c"]}
{"id": "C125", "title": "Dot product and surface flux terms compute their weak form", "statement": "dw_dot (volume, scalar and vector, with no, scalar or matrix coefficient) and the terms with v.n of a surface give the matrix, residual and value of the documented form; the sum of the mass matrix is the integral of the coefficient when base functions sum to one.", "quantifier": "all cells or facets, sizes, coefficients, states", "why_tests_cant": "each case multiplies tensors over all quadrature points, nodes and components; tests compare a few fixed solutions and cannot cover all states, coefficients and element sizes", "anchors": ["sfepy/terms/terms_dot.py", "sfepy/terms/extmods/terms_dot.c"]}
{"id": "C126", "title": "Viscous term computes its weak form", "statement": "dw_div_grad gives the matrix, residual and value of nu grad v : grad u.", "quantifier": "all cells, sizes, viscosities, states", "why_tests_cant": "each case multiplies tensors over all quadrature points, nodes and components; tests compare a few fixed solutions and cannot cover all states, coefficients and element sizes", "anchors": ["sfepy/terms/terms_navier_stokes.py: DivGradTerm", "sfepy/terms/extmods/terms_navier_stokes.c: divgrad_*"]}
{"id": "C127", "title": "Stokes and Biot coupling terms compute their weak form", "statement": "dw_stokes and dw_biot in the div, grad and eval modes give the matrices, residuals and values of c p div v and p alpha_ij e_ij(v); the div and grad matrices are transposes of each other, hence consistent with the value.", "quantifier": "all cells, sizes, coefficients, states", "why_tests_cant": "each case multiplies tensors over all quadrature points, nodes and components; tests compare a few fixed solutions and cannot cover all states, coefficients and element sizes", "anchors": ["sfepy/terms/terms_navier_stokes.py: StokesTerm", "sfepy/terms/terms_biot.py: BiotTerm"]}
{"id": "C128", "title": "Convection terms and their tangent", "statement": "dw_lin_convect and dw_convect give the matrix and residual of ((b.grad)u).v; the matrix of dw_convect is the derivative of its residual at the state in all directions.", "quantifier": "all cells, sizes, states, directions", "why_tests_cant": "each case multiplies tensors over all quadrature points, nodes and components; tests compare a few fixed solutions and cannot cover all states, coefficients and element sizes", "anchors": ["sfepy/terms/terms_navier_stokes.py: ConvectTerm, LinearConvectTerm", "sfepy/terms/extmods/terms_navier_stokes.c"]}
{"id": "C129", "title": "Vector dot gradient of scalar term", "statement": "dw_v_dot_grad_s in both modes gives the matrix and the residual of v.(C grad p), and its value equals the virtual state times the residual.", "quantifier": "all cells, sizes, coefficients, states", "why_tests_cant": "each case multiplies tensors over all quadrature points, nodes and components; tests compare a few fixed solutions and cannot cover all states, coefficients and element sizes", "anchors": ["sfepy/terms/terms_dot.py: VectorDotGradScalarTerm"]}
{"id": "C130", "title": "Evaluated fields", "statement": "The values, gradients, divergences and strains of a state in quadrature points used by terms are sums over nodes of base functions (or gradients) times nodal values taken from the state vector through the connectivity.", "quantifier": "all cells, sizes, connectivities, state vectors", "why_tests_cant": "each case multiplies tensors over all quadrature points, nodes and components; tests compare a few fixed solutions and cannot cover all states, coefficients and element sizes", "anchors": ["sfepy/discrete/common/mappings.py", "sfepy/terms/extmods/terms.c: dq_state_in_qp, dq_grad, dq_div_vector, dq_cauchy_strain"]}
{"id": "C131", "title": "Reference mappings give physical gradients and reject degenerate cells", "statement": "For every mesh, connectivity, quadrature points and base functions, FEField.create_mapping / FEMapping.get_mapping on cells either raises ValueError (warp violation), which it does exactly when some cell has a nonpositive Jacobian determinant in some quadrature point, or returns a mapping whose gradients of the base functions are those with respect to physical coordinates: combined with the DOFs they give the gradient of any function whose pullback is the finite element function, in particular constants a for a.x + b.", "quantifier": "all meshes, cells, quadrature points, geometry bases, field bases, differentiable functions, dimensions 1 to 3", "why_tests_cant": "tests use a few meshes with undistorted cells and cannot cover all cell shapes and functions", "anchors": ["sfepy/discrete/fem/mappings.py: eval_mapping_data_in_qp, FEMapping.get_mapping", "sfepy/linalg/utils.py: invs_fast, dets_fast"]}
{"id": "C132", "title": "Volumes and averages of reference mappings", "statement": "The volume stored by a mapping of a cell is the exact volume of a simplex (for every rule with the weights of the right sum) and the exact area of a quadrilateral (for every rule exact for linear functions); the mapping exists exactly when the cells are positively oriented; integrate(average=True) of a constant field is the constant; the physical quadrature points are the points of the cell, so affine functions can be evaluated in them.", "quantifier": "all simplices and quadrilaterals, all quadrature rules with the given exactness", "why_tests_cant": "volumes of a few cells in tests say nothing about all cell shapes and rules", "anchors": ["sfepy/discrete/fem/mappings.py: eval_mapping_data_in_qp, get_physical_qps", "sfepy/discrete/common/mappings.py: PyCMapping.integrate"]}
{"id": "C133", "title": "Normals of facets are unit, orthogonal and outward, and satisfy the divergence theorem", "statement": "On every facet of every positively oriented cell, the normals of a facet mapping have unit length, are orthogonal to the facet and point out of the cell; det is the surface element; the integral of the normal over all facets of a cell vanishes and the integral of x_l n_k is the volume of the cell for k = l and 0 otherwise.", "quantifier": "all cells, facets, quadrature points and rules exact for (bi)linear functions", "why_tests_cant": "tests check normals of axis-aligned facets of a few meshes with vertex numbers and sizes that hide the errors", "anchors": ["sfepy/discrete/fem/mappings.py: eval_mapping_data_in_qp", "sfepy/discrete/fem/fields_base.py: FEField.create_mapping"]}
{"id": "C134", "title": "Facet mappings parametrize the facets consistently", "statement": "For volume fields of order 1 the values of the facet base functions, the physical quadrature points and the surface Jacobians in a facet quadrature point belong to the same point of the facet: the base functions are the traces of those of the cell in the points of each facet, other base functions vanish there, and the tangent vectors are the derivatives of the physical point with respect to the facet coordinates.", "quantifier": "all geometries, facets, facet points and cell shapes", "why_tests_cant": "symmetric rules and parallelogram faces, used in tests, hide mismatched points", "anchors": ["sfepy/discrete/fem/fields_base.py: create_bqp, create_mapping", "sfepy/discrete/fem/mappings.py: FEMapping.eval_basis"]}
{"id": "C135", "title": "Values of a field of any order on facets are traces of the field", "statement": "For a nodal Lagrange field of any order on simplices, the value in a facet quadrature point computed from the facet DOFs (FESurface.econn) and the facet basis of the mapping equals the value of the field there computed from the cell.", "quantifier": "all orders, facets, DOF vectors and points of the facet", "why_tests_cant": "tests integrate over facets with orders 1 and 2 only", "anchors": ["sfepy/discrete/fem/fields_base.py: FEField._setup_esurface, create_mapping", "sfepy/discrete/fem/geometry_element.py: get_edges_per_face"]}
{"id": "C136", "title": "Cells of a lower dimension are mapped isometrically and positively oriented", "statement": "The transformation of the nodes of a planar cell in 3D into the plane (of a segment in 2D to the axis) preserves distances between nodes, gives positively oriented cells, and so the volume of a triangle in space is its area, for every nondegenerate cell.", "quantifier": "all planar cells in space with any position, size and orientation, all segments in the plane", "why_tests_cant": "tests use tilted cells of size one", "anchors": ["sfepy/discrete/fem/mappings.py: transform_coors_to_lower_dim, FEMapping.get_mapping"]}
{"id": "C137", "title": "Quadratic eigenvalue problems: every returned pair solves the quadratic problem", "statement": "For every eigenvalue/eigenvector pair (w, x) returned by LQuadraticEVPSolver for matrices M, D, K - with the companion or the Cholesky linearization, in the normal or the inverted mode - x is not zero and (w^2 M + w D + K) x = 0; every (in the inverted mode, nonzero) eigenvalue of the quadratic problem is among the returned ones, with the right algebraic multiplicity. With the companion linearization and a singular K the vector returned for the zero eigenvalue is the zero vector.", "quantifier": "all square matrices M, D, K over any field, both linearizations, both modes, every correct solver of the linear problem", "why_tests_cant": "The statement is about all matrix triples and all correct linear eigensolvers; tests compare single small problems.", "anchors": ["sfepy/solvers/qeigen.py:LQuadraticEVPSolver.__call__"]}
{"id": "C138", "title": "Centroids, volumes and facet normals of mesh entities", "statement": "The centroid of a cell is the image of the centre of the reference cell; the volume of a segment, triangle, quadrilateral, tetrahedron or hexahedron is its length, area or the integral of the Jacobian of its mapping, for any position and size of the cell; the facet normals are unit vectors, perpendicular to the facet and pointing out of a positively oriented cell. Quadrilaterals with a reentrant vertex in the wrong corner and wedges that are not prisms get a wrong volume, and facets smaller than the tolerance get a zero normal.", "quantifier": "all cells with any real coordinates", "why_tests_cant": "tests measure a few unit cells", "anchors": ["sfepy/discrete/common/extmods/mesh.c: mesh_get_centroids", "sfepy/discrete/common/extmods/mesh.c: mesh_get_volumes, _tri_area, _aux_hex", "sfepy/discrete/common/extmods/mesh.c: mesh_get_facet_normals"]}
{"id": "C139", "title": "Uniform refinement subdivides every cell", "statement": "The children of each triangle, quadrilateral, tetrahedron or hexahedron are the images, under the mapping of the parent, of affine parts of the reference cell that cover it, have disjoint interiors, the same volume and the orientation of the parent (their Jacobian is the Jacobian of the parent in the same point over the number of children); old vertices are kept and the children inherit the group of the parent; the volumes of the children of simplices are equal fractions of the volume of the parent.", "quantifier": "all meshes of one cell type with any number of cells, connectivity and coordinates", "why_tests_cant": "tests refine a few meshes and compare volumes", "anchors": ["sfepy/discrete/fem/refine.py: refine_2_3, refine_2_4, refine_3_4, refine_3_8", "sfepy/discrete/fem/domain.py: FEDomain.refine"]}
{"id": "C140", "title": "Uniform refinement keeps the mesh conforming", "statement": "If two cells share a facet then each part of the facet is shared by exactly one child of each of them; facets inside of a parent are shared by exactly two of its children; there are no other shared facets and so no hanging nodes or cracks: the boundary of the refined mesh is the refined boundary. The refined mesh is a valid mesh again (any number of refinements), every new node is used.", "quantifier": "all valid meshes, any number of refinements", "why_tests_cant": "a crack or a doubled node may appear only for some numbering of the vertices of the neighbouring cells", "anchors": ["sfepy/discrete/fem/refine.py: refine_2_3, refine_2_4, refine_3_4, refine_3_8", "sfepy/discrete/common/extmods/mesh.c: mesh_build"]}
{"id": "C141", "title": "Refinement of segments; error edges of refined reference cells", "statement": "The refinement of a 1D mesh halves every cell and keeps the groups, whatever the order of the cells is; the triples of nodes returned for the error estimate in refine_reference are midpoints between their neighbours and every new node is the middle of a triple. The first claim holds only for cells ordered as their nodes.", "quantifier": "all 1D meshes, all refined cells", "why_tests_cant": "tests use generated meshes with ordered cells", "anchors": ["sfepy/discrete/fem/refine.py: refine_1_2", "sfepy/discrete/fem/refine.py: refine_reference"]}
{"id": "C142", "title": "Tangent moduli of the hyperelastic materials are derivatives of their stresses", "statement": "In the total Lagrangian formulation the Green strain returned by the strain mode is (F^T F - I)/2, and for the bulk, active bulk, bulk pressure, neo-Hookean and Mooney-Rivlin terms the tangent modulus applied to the rate of the engineering Green strain is the rate of the second Piola-Kirchhoff stress.", "quantifier": "1, 2 and 3 dimensions, all material parameters, all differentiable paths of deformation gradients with positive determinant", "why_tests_cant": "a wrong coefficient only slows the Newton iterations down; tests compare solutions at a few states", "anchors": ["sfepy/terms/extmods/terms_hyperelastic.c: dq_finite_strain, dq_tl_he_stress_bulk, dq_tl_he_tan_mod_bulk, dq_tl_he_stress_neohook, dq_tl_he_tan_mod_neohook, dq_tl_he_stress_mooney_rivlin, dq_tl_he_tan_mod_mooney_rivlin, dq_tl_stress_bulk_pressure, dq_tl_tan_mod_bulk_pressure_u", "sfepy/terms/terms_hyperelastic_tl.py"]}
{"id": "C143", "title": "Hyperelastic stresses derive from stored energies and are objective", "statement": "The bulk, active bulk, neo-Hookean and Mooney-Rivlin stresses of the total Lagrangian terms are the derivatives of the stored energies K/2 (J-1)^2, m J, mu/2 (J^(-2/3) tr C - 3), kappa/2 (J^(-4/3) II_C - 3); their tangent moduli are symmetric; a rigid rotation superposed on a deformation changes neither the stress nor the modulus; a rigid rotation alone produces no neo-Hookean, Mooney-Rivlin or bulk stress. The last claim is false for the neo-Hookean term in 1D.", "quantifier": "all dimensions, parameters, rotations and deformations", "why_tests_cant": "energy and objectivity concern every deformation; the 1D case is not covered by tests", "anchors": ["sfepy/terms/extmods/terms_hyperelastic.c", "sfepy/terms/terms_hyperelastic_tl.py"]}
{"id": "C144", "title": "Updated Lagrangian stresses and moduli are the push-forwards of the total Lagrangian ones", "statement": "For the same deformation the stress (modulus) of the updated Lagrangian bulk, bulk pressure, neo-Hookean and Mooney-Rivlin terms is F S F^T (the fourth order push-forward by F) of the stress (modulus) of the corresponding total Lagrangian term. False for Mooney-Rivlin: in 3D the stress uses a squared Cauchy-Green tensor of another trace convention and in 1D and 2D the modulus is twice the push-forward.", "quantifier": "1, 2, 3 dimensions, all parameters and invertible deformation gradients", "why_tests_cant": "the two formulations are tested separately, on different problems", "anchors": ["sfepy/terms/extmods/terms_hyperelastic.c: dq_ul_he_stress_*, dq_ul_he_tan_mod_*", "sfepy/terms/terms_hyperelastic_ul.py"]}
{"id": "C145", "title": "The tangent matrix of a total Lagrangian term is the derivative of its residual", "statement": "When the residual and then the matrix of a total Lagrangian hyperelastic term are evaluated in a state, the cell matrix is the derivative of the cell residual with respect to the displacement DOFs, for every material whose modulus is consistent with its stress (C142). If the matrix is evaluated in another state than the last residual, it is not: the stress of the last residual is used.", "quantifier": "all cells (any number of nodes, quadrature points, weights, gradients), all displacements with det F > 0, all directions", "why_tests_cant": "quadratic convergence of Newton for all states cannot be observed by a few runs; the history dependence needs an unusual order of calls", "anchors": ["sfepy/terms/terms_hyperelastic_base.py: HyperElasticBase.get_fargs", "sfepy/terms/extmods/terms_hyperelastic.c: dw_he_rtm, form_tlcc_buildOpB_VS3, form_tlcc_buildOpKtsC_VS3, dq_finite_strain"]}
{"id": "C146", "title": "Generalized Yeoh and Saint Venant-Kirchhoff materials", "statement": "The generalized Yeoh modulus is the derivative of the stress; the Saint Venant-Kirchhoff stress is D applied to the engineering Green strain, its modulus is D and evaluating the term does not change the material parameters. The last two claims are false.", "quantifier": "all parameters (real exponents), all deformations (Yeoh: with nonzero distortion), numbers of cells and of material cells", "why_tests_cant": "exponents are real and the material array is changed only for per-cell materials or one cell", "anchors": ["sfepy/terms/terms_hyperelastic_tl.py: GenYeohTLTerm, SaintVenantKirchhoffTLTerm", "sfepy/terms/terms.py: Term.tile_mat"]}
{"id": "C147", "title": "Displacement-pressure coupling in the total Lagrangian formulation", "statement": "The matrix of dw_tl_volume is the derivative of its residual with respect to the displacement; the pressure matrix of dw_tl_bulk_pressure is the derivative of its residual with respect to the pressure and is minus the transpose of the volume matrix.", "quantifier": "all cells, fields of different orders for the displacement and the pressure, all states with det F > 0", "why_tests_cant": "the coupling blocks are only exercised through the convergence of a few examples", "anchors": ["sfepy/terms/terms_hyperelastic_tl.py: BulkPressureTLTerm, VolumeTLTerm", "sfepy/terms/extmods/terms_hyperelastic.c: dw_tl_volume"]}
{"id": "C148", "title": "Updated and total Lagrangian formulations agree", "statement": "For the neo-Hookean, bulk penalty and bulk pressure terms, evaluating the updated Lagrangian term on a mesh moved by the displacement gives, entry by entry, the same cell residual and the same cell matrix as the total Lagrangian term on the undeformed mesh; the mapping rebuilt for the moved vertex coordinates is the moved mapping this needs; and the updated Lagrangian matrix is the derivative of the updated Lagrangian residual when the mesh moves with the displacement.", "quantifier": "every cell, quadrature, dimension 1-3, displacement with positive volume ratio, material values per quadrature point, prior contents of buffers and cache", "why_tests_cant": "holds for a continuum of displacements and meshes; a test compares the two formulations in one problem only", "anchors": ["sfepy/terms/terms_hyperelastic_ul.py:NeoHookeanULTerm", "sfepy/terms/terms_hyperelastic_base.py:HyperElasticBase", "sfepy/terms/extmods/terms.c:dw_he_rtm", "sfepy/discrete/common/extmods/cmapping.pyx"]}
{"id": "C149", "title": "The Bernstein basis functions of the IGA module are exact", "statement": "For every degree and every reference coordinate, iga.eval_bernstein_basis (and its C counterpart used by the quadrature code) returns the Bernstein polynomials C(p,j) x^j (1-x)^(p-j) and their derivatives; the values sum to one, the derivatives to zero, the values are non-negative on [0, 1] and interpolate at the end points; the Python and C functions agree.", "quantifier": "all degrees, all real coordinates", "why_tests_cant": "degrees and coordinates are unbounded; the in-place triangular scheme with a wrap-around index funs[-1] can be right for low degrees only", "anchors": ["sfepy/discrete/iga/iga.py:eval_bernstein_basis", "sfepy/discrete/iga/extmods/nurbs.c:eval_bernstein_basis"]}
{"id": "C150", "title": "Bezier extraction reproduces the B-splines for every open knot vector", "statement": "For every open knot vector (any interior multiplicities, any degree) compute_bezier_extraction_1d terminates with one operator per non-empty knot interval, create_connectivity_1d returns one row of distinct valid function numbers per interval, and on every interval the operator times the Bernstein polynomials of the local coordinate equals the B-splines (Cox - de Boor) listed in the row, all other B-splines being zero there; operator columns sum to one.", "quantifier": "all open knot vectors, degrees, elements and points", "why_tests_cant": "knot vectors are unbounded lists of reals with arbitrary multiplicities; the algorithm updates overlapping columns of the next operator in place", "anchors": ["sfepy/discrete/iga/iga.py:compute_bezier_extraction_1d", "sfepy/discrete/iga/iga.py:create_connectivity_1d"]}
{"id": "C151", "title": "The IGA basis of an element is a partition of unity with correct gradients", "statement": "In every point of every element of a patch with 1-3 open knot vectors and positive weights, the values returned by the IGA quadrature evaluation sum to one; if the mapping is not degenerate the returned gradients satisfy the chain rule with the derivative of the mapping given by the control points, reproduce the coordinates and sum to zero, the determinant is that of the mapping; the weighted (NURBS) and unweighted (B-spline) C branches and the Python implementation agree.", "quantifier": "all patches, weights, control points, elements and reference points", "why_tests_cant": "ranges over all knots, degrees, weights, geometries; tests check a few patches", "anchors": ["sfepy/discrete/iga/iga.py:eval_nurbs_basis_tp", "sfepy/discrete/iga/extmods/nurbs.c:eval_nurbs_basis_tp, eval_bspline_basis_tp", "sfepy/discrete/iga/extmods/igac.pyx:eval_mapping_data_in_qp"]}
{"id": "C152", "title": "The IGA element data together represent the NURBS of the patch", "statement": "For every patch of 1-3 open knot vectors, on every element the values computed from the extraction operators and the connectivity are exactly the NURBS functions w_G N_G / sum of w N of the whole patch with the numbers in the element's connectivity row; the row entries are distinct and in range; every function not in the row vanishes on the element. Raveling and unraveling of indices are inverse.", "quantifier": "all patches, weights, elements and points of the knot boxes", "why_tests_cant": "the equality couples four separately written algorithms (extraction, connectivity, raveling, tensor product loops) for all sizes", "anchors": ["sfepy/discrete/iga/iga.py:create_connectivity", "sfepy/discrete/iga/iga.py:compute_bezier_extraction", "sfepy/discrete/iga/iga.py:eval_nurbs_basis_tp", "sfepy/discrete/iga/extmods/nurbs.c:ravel_multi_index, unravel_index", "sfepy/discrete/iga/domain.py:IGDomain.from_data"]}
{"id": "C153", "title": "Bezier control net of a NURBS patch represents the same geometry", "statement": "For every 1D-3D NURBS patch with open knot vectors, positive weights and inner knots of multiplicity at most the degree, compute_bezier_control (with the operators of combine_bezier_extraction and the connectivities of create_connectivity) returns positive Bezier weights and control points such that on each Bezier element the rational Bernstein representation equals the NURBS patch at every point. With an inner knot of multiplicity degree + 1 this fails: neighbouring elements share a Bezier point although the patch is discontinuous and the later element overwrites it.", "quantifier": "all numbers of parametric dimensions 1-3, degrees, knot vectors, weights, control points, elements and reference points", "why_tests_cant": "Tests compare a couple of fixed patches; the claim is about all knot vectors and positive weights, in particular that element-wise writes to shared Bezier points agree.", "anchors": ["sfepy/discrete/iga/iga.py: compute_bezier_control, combine_bezier_extraction, tensor_product, create_connectivity"]}
{"id": "C154", "title": "DG forward Euler stepper", "statement": "Running the DG forward Euler solver for n steps returns the n-fold (limited) forward Euler iterate of the semi-discrete problem, calls the step hook exactly once per time step with that step number, its time and its solution, conserves every linear functional conserved by the equations and the limiter, and never increases a functional that one Euler step and the limiter do not increase.", "quantifier": "every number of steps, step size, mass matrix, volume and facet operators (nonlinear and time dependent), limiter and initial state", "why_tests_cant": "runs of any length and arbitrary operators; a test runs a few steps of one problem", "anchors": ["sfepy/solvers/ts_dg_solvers.py:DGMultiStageTSS.__call__", "sfepy/solvers/ts_dg_solvers.py:EulerStepSolver.solve_step", "sfepy/discrete/problem.py:Problem.get_tss_functions"]}
{"id": "C155", "title": "DG third order TVD Runge-Kutta stepper", "statement": "Running the TVDRK3 solver advances the semi-discrete problem by the documented three-stage TVD scheme (third order accurate for linear problems, strongly stable, conservative), reporting and saving each time step once, at its time, with the solution of that step.", "quantifier": "every number of steps, step size, operators, limiter, save times", "why_tests_cant": "order and stability are statements about all step sizes and operators; the reporting order concerns all runs", "anchors": ["sfepy/solvers/ts_dg_solvers.py:TVDRK3StepSolver.solve_step", "sfepy/discrete/dg/fields.py:DGField.get_both_facet_state_vals", "sfepy/discrete/problem.py:make_is_save", "sfepy/discrete/variables.py:Variable.advance"]}
{"id": "C156", "title": "DG classical Runge-Kutta stepper", "statement": "One step of the RK4 solver is a step of the classical fourth order Runge-Kutta method of the semi-discrete problem; in particular a steady state is not changed.", "quantifier": "every state, step size and operator", "why_tests_cant": "an identity over all operators and step sizes", "anchors": ["sfepy/solvers/ts_dg_solvers.py:RK4StepSolver.solve_step"]}
{"id": "C157", "title": "1D moment limiter", "statement": "The 1D DG moment limiter leaves cell means and the two boundary cells unchanged, replaces moments of interior cells by the minmod of the moment and the differences of the next lower moment from the highest one down to the first that needs no change, never increases a moment or flips its sign; for linear elements the limited solution stays between the means of the cell and its neighbours, and limiting twice is limiting once.", "quantifier": "every number of cells, element order and DOF vector", "why_tests_cant": "a statement about all real data and mesh sizes; tests check a few vectors", "anchors": ["sfepy/discrete/dg/limiters.py:minmod", "sfepy/discrete/dg/limiters.py:MomentLimiter1D.__call__"]}
{"id": "C158", "title": "DG basis enumeration", "statement": "The enumeration of DG basis functions lists exactly the multi-indices of the polynomial space (complete or tensor product), each once, as many as the number of element DOFs, and is hierarchical in the order.", "quantifier": "every order, dimension 1-3, complete and extended spaces", "why_tests_cant": "all orders", "anchors": ["sfepy/discrete/dg/poly_spaces.py:iter_by_order", "sfepy/discrete/dg/poly_spaces.py:get_n_el_nod"]}
{"id": "C159", "title": "2D moment limiter", "statement": "The 2D DG moment limiter leaves cell means and boundary cells unchanged and never increases a moment or flips its sign; interior cells are limited in both directions independently of the numbering of cells.", "quantifier": "every mesh of quadrilaterals (neighbour table), order, DOF vector", "why_tests_cant": "all meshes and data", "anchors": ["sfepy/discrete/dg/limiters.py:minmod_seq", "sfepy/discrete/dg/limiters.py:MomentLimiter2D.__call__"]}
{"id": "C160", "title": "Limiters of several fields", "statement": "The composed limiter applies to each field block of the DOF vector the limiter of that field, and changes nothing else.", "quantifier": "every list of fields with their sizes and limiters, every vector", "why_tests_cant": "all field lists and block sizes", "anchors": ["sfepy/discrete/dg/limiters.py:ComposedLimiter"]}
{"id": "C161", "title": "DG facet neighbours", "statement": "In a DG field two cells sharing a facet are each other's neighbours through it, with the right local facet numbers; exactly the facets of a single cell have none; a DG periodic condition makes the paired facets neighbours and changes no others; the index reflects the current conditions.", "quantifier": "every mesh connectivity, every list of periodic pairs, every sequence of calls", "why_tests_cant": "all meshes and call histories", "anchors": ["sfepy/discrete/dg/fields.py:DGField.get_facet_neighbor_idx", "sfepy/discrete/dg/fields.py:DGField._set_dg_periodic_facet_neighbours"]}
{"id": "C162", "title": "DG advection flux", "statement": "The residual of dw_dg_advect_laxfrie_flux is the facet integral of the Lax-Friedrichs flux between the inner trace and the neighbour's trace, prescribed value or zero: upwind for alpha = 0, central for alpha = 1, exact for continuous states.", "quantifier": "every field geometry, velocity, state, boundary values, alpha", "why_tests_cant": "real-valued data, all meshes", "anchors": ["sfepy/terms/terms_dg.py:AdvectionDGFluxTerm", "sfepy/discrete/dg/fields.py:DGField.get_both_facet_state_vals"]}
{"id": "C163", "title": "DG advection matrix", "statement": "The COO matrix returned by dw_dg_advect_laxfrie_flux in matrix mode is the exact derivative of its residual: residual(u) = M u + residual of the boundary data.", "quantifier": "every mesh, order, state, boundary data", "why_tests_cant": "index arithmetic for all sizes", "anchors": ["sfepy/terms/terms_dg.py:AdvectionDGFluxTerm.function", "sfepy/terms/terms_dg.py:DGTerm._get_nbrhd_dof_indexes"]}
{"id": "C164", "title": "DG conservation", "statement": "The advection flux residuals tested with the constant one sum to the fluxes through the boundary; on a periodic mesh to zero.", "quantifier": "every conforming mesh, velocity, state, alpha", "why_tests_cant": "all meshes and real data", "anchors": ["sfepy/terms/terms_dg.py:AdvectionDGFluxTerm.function"]}
{"id": "C165", "title": "DG energy dissipation", "statement": "Testing the advection flux with the state itself gives half the flux of its square plus a dissipation from the jumps that is non-negative for alpha <= 1.", "quantifier": "every conforming mesh, velocity, state", "why_tests_cant": "all meshes and real data", "anchors": ["sfepy/terms/terms_dg.py:AdvectionDGFluxTerm.function"]}
{"id": "C166", "title": "DG diffusion flux", "statement": "The matrix of dw_dg_diffusion_flux is the exact derivative of its residual in both modes; the two modes are transposes of each other; the flux is n.D times the mean gradient.", "quantifier": "every conforming mesh, tensor, state", "why_tests_cant": "all meshes and real data", "anchors": ["sfepy/terms/terms_dg.py:DiffusionDGFluxTerm"]}
{"id": "C167", "title": "DG interior penalty", "statement": "dw_dg_interior_penalty is the symmetric form of products of jumps, its matrix the exact derivative of its residual; it is non-negative and controls the jumps.", "quantifier": "every conforming mesh, tensor, order, state", "why_tests_cant": "all meshes and real data", "anchors": ["sfepy/terms/terms_dg.py:DiffusionInteriorPenaltyTerm"]}
{"id": "C168", "title": "DG nonlinear flux", "statement": "The residual of dw_dg_nonlinear_laxfrie_flux is the facet integral of a consistent, conservative Lax-Friedrichs flux whose wave speed bounds |n.f'| between the traces; for a linear flux it is the advection term.", "quantifier": "every conforming mesh, flux function, state", "why_tests_cant": "all meshes and functions", "anchors": ["sfepy/terms/terms_dg.py:NonlinearHyperbolicDGFluxTerm"]}
{"id": "C169", "title": "The 1D DG basis are the shifted Legendre polynomials", "statement": "For every n, the n-th function of the 1D discontinuous basis evaluated through the polynomial space equals the convenience function get_nth_fun(n) (explicit formulas below 6, the binomial sum above), is a polynomial of degree n with value 1 at the right end, is orthogonal on [0, 1] to all polynomials of lower degree, and has squared norm 1/(2n+1).", "quantifier": "all degrees n, all points", "why_tests_cant": "Degrees are unbounded; orthogonality is a statement about integrals.", "anchors": ["sfepy/discrete/dg/poly_spaces.py: get_nth_fun, legendre_funs, legendreP, _eval_basis"]}
{"id": "C170", "title": "Derivatives of the 1D basis and gradients of the tensor product basis", "statement": "get_nth_fun_der(n, d) is the d-th derivative of get_nth_fun(n) for every n and d (including d > n), and the gradients returned for the tensor product elements are the partial derivatives of the returned values, in any dimension.", "quantifier": "all n, d, multi-indices, dimensions, points", "why_tests_cant": "Infinitely many functions, derivatives and points.", "anchors": ["sfepy/discrete/dg/poly_spaces.py: get_nth_fun_der, gradlegendreP, LegendreTensorProductPolySpace._combine_polyvals_diff"]}
{"id": "C171", "title": "The DG bases are orthogonal on the reference elements", "statement": "The tensor product basis is orthogonal on the unit cube of any dimension, with squared norms prod 1/(2 i_d + 1), and the basis of the triangle is orthogonal on the reference triangle, with squared norms 4^i / ((2i+1)(2i+2j+2)): the mass matrices of the DG formulation are diagonal.", "quantifier": "all pairs of multi-indices", "why_tests_cant": "Integrals of infinitely many pairs.", "anchors": ["sfepy/discrete/dg/poly_spaces.py: LegendreTensorProductPolySpace, LegendreSimplexPolySpace._combine_polyvals"]}
{"id": "C172", "title": "The triangle basis are polynomials and its gradients are right up to the collapsed vertex", "statement": "Every function (i, j) of the triangle basis is a polynomial of total degree at most i + j on the closed reference triangle and the returned gradient is its gradient in every point, including the vertex in which the collapsed coordinates degenerate to 0/0.", "quantifier": "all i, j, all points of the closed triangle", "why_tests_cant": "All degrees and points; the degenerate vertex is a single point.", "anchors": ["sfepy/discrete/dg/poly_spaces.py: LegendreSimplexPolySpace._combine_polyvals, _combine_polyvals_diff"]}
{"id": "C173", "title": "The interpolation schemes written for gmsh are the basis functions", "statement": "For quadrangles of any order the matrices F and P of get_interpol_scheme represent exactly the basis functions (in gmsh coordinates), and for triangles the tables for the orders up to 5 do.", "quantifier": "all orders (quadrangles), orders 0-5 (triangles), all functions, all points", "why_tests_cant": "Identities of polynomials in all points.", "anchors": ["sfepy/discrete/dg/poly_spaces.py: build_interpol_scheme, simplex_coefM5, simplex_expoM5, get_interpol_scheme"]}
{"id": "C174", "title": "Setting DG DOFs by a function is the L2 projection", "statement": "With a quadrature exact for the products of the basis functions, setting the cell DOFs by a function reproduces every function of the local space exactly, leaves an error orthogonal to the local space (so the cell mean is preserved) and minimises the weighted squared error; a number gives the constant function.", "quantifier": "all functions, rules exact on products, orders", "why_tests_cant": "Quantifies over all functions and quadrature rules.", "anchors": ["sfepy/discrete/dg/fields.py: DGField.set_cell_dofs", "sfepy/discrete/dg/poly_spaces.py"]}
{"id": "C175", "title": "Direct solvers never reuse the factorization of another matrix", "statement": "In every history of calls, presolve() and clear() calls of one direct linear solver instance with CSR matrices and the digest based reuse, each call solves the system of the matrix it is given as it is at that time (also when the matrix object was modified in place or a factorization failed).", "quantifier": "all histories of operations, all matrices, all digest functions without a collision in the history", "why_tests_cant": "the wrong answer needs a particular sequence of matrices; tests use one matrix or two", "anchors": ["sfepy/solvers/ls.py:_is_new_matrix", "sfepy/solvers/ls.py:ScipyDirect.presolve", "sfepy/solvers/ls.py:CholeskySolver.presolve", "sfepy/solvers/ls.py:MUMPSSolver.presolve"]}
{"id": "C176", "title": "The matrix digest sees the whole matrix", "statement": "Whatever the chunk size, all bytes of the three CSR arrays are hashed once and in order, and two CSR matrices with the same item type and the same hashed bytes are equal.", "quantifier": "all CSR matrices of all orders, all chunk sizes", "why_tests_cant": "collisions of the concatenated arrays cannot be excluded by examples", "anchors": ["sfepy/solvers/ls.py:_get_cs_matrix_hash"]}
{"id": "C177", "title": "Symmetry detection for MUMPS", "statement": "A sparse matrix with equal opposite entries is recognized as symmetric; the answer 'symmetric' means that opposite entries are equal up to the tolerance.", "quantifier": "all canonical sparse matrices", "why_tests_cant": "depends on the sparsity pattern and on the order of the stored entries", "anchors": ["sfepy/solvers/ls.py:MUMPSSolver.coo_is_symmetric"]}
{"id": "C178", "title": "Material parameters are those of the current time in the quadrature points", "statement": "After a successful Material.time_update() of a time-dependent material (or in the 'force' mode) every term gets the values of the material function at that time in its points, and no data of other regions/orders remain; the 'update' mode keeps existing data and evaluates the missing.", "quantifier": "all material functions, times, equations and previous states", "why_tests_cant": "stale data appear only after particular sequences of updates", "anchors": ["sfepy/discrete/materials.py:Material.time_update", "sfepy/discrete/materials.py:Material.iter_terms", "sfepy/discrete/materials.py:Material.set_data", "sfepy/discrete/common/mappings.py:PhysicalQPs.get_shape"]}
{"id": "C179", "title": "Stationary and constant materials", "statement": "A stationary material keeps the values of its first evaluation under later normal updates; a constant material gives its constants to every term after any history of updates.", "quantifier": "all histories of updates and resets, all equations", "why_tests_cant": "histories are unbounded", "anchors": ["sfepy/discrete/materials.py:Material.time_update", "sfepy/discrete/functions.py:ConstantFunction"]}
{"id": "C180", "title": "Materials after a failed update", "statement": "After an update that raised, a repeated successful update gives every term the values of the function; special parameters and requests by dict of names return current values.", "quantifier": "all functions and failing steps", "why_tests_cant": "the failing step and the retry are not covered by tests", "anchors": ["sfepy/discrete/materials.py:Material.update_data", "sfepy/discrete/materials.py:Material.get_data", "sfepy/discrete/materials.py:Material.update_special_data"]}
{"id": "C181", "title": "Constant parameters by region", "statement": "A parameter given by constants in regions has, in each quadrature point of a cell, the value of the last given region containing the cell.", "quantifier": "all regions, cells, numbers of points", "why_tests_cant": "depends on all ways the regions can overlap", "anchors": ["sfepy/discrete/functions.py:ConstantFunctionByRegion"]}
{"id": "C182", "title": "Semi-smooth residual and complementarity", "statement": "The norm of the residual minimized by the semi-smooth Newton solver is zero exactly when F = 0, A >= 0, B >= 0 and A_i B_i = 0; a residual norm of at most eps means |F_i| <= eps, A_i, B_i >= -eps and min(A_i, B_i) <= eps / (2 - sqrt 2), in the semi-smooth and in the brute force mode.", "quantifier": "all vectors F, A, B, all eps", "why_tests_cant": "a statement over all real vectors", "anchors": ["sfepy/solvers/semismooth_newton.py:SemismoothNewton.__call__"]}
{"id": "C183", "title": "Semi-smooth Jacobian", "statement": "The rows of the Jacobian of the semi-smooth Newton solver are derivatives of the nonsmooth residual where it is differentiable, and elements of its generalized gradient in the active indices.", "quantifier": "all differentiable A, B, all directions, all states", "why_tests_cant": "derivatives and active sets are sampled by tests only", "anchors": ["sfepy/solvers/semismooth_newton.py:SemismoothNewton.compute_jacobian"]}
{"id": "C184", "title": "Semi-smooth Newton status", "statement": "The reported errors of the semi-smooth Newton solver are the residual norms in the returned and the initial vector; status 0 means that the tolerances hold (so the returned vector solves the complementarity problem up to eps_a) and 1 that i_max iterations were done; every call finishes if the line search reductions are in (0, 1); an exact Newton step to a zero residual is accepted in one iteration.", "quantifier": "all functions, Jacobians, linear solvers, configurations, initial guesses", "why_tests_cant": "requires all line search histories", "anchors": ["sfepy/solvers/semismooth_newton.py:SemismoothNewton.__call__", "sfepy/solvers/nls.py:conv_test"]}
{"id": "C185", "title": "Restoring after a failed line search", "statement": "When the line search of a regular step fails, the solver continues from the previous iterate by a steepest descent step of the residual norm in that iterate.", "quantifier": "all functions and line search histories", "why_tests_cant": "the branch is reached only for particular functions", "anchors": ["sfepy/solvers/semismooth_newton.py:SemismoothNewton.__call__"]}
{"id": "C186", "title": "Steepest descent flag", "statement": "The steepest descent optimizer returns a vector whose objective is the reported one; the flag 0 means a small objective, 2 a small gradient norm, 3 a small relative change from the previous iterate, 1 that i_max iterations were done and none of these holds; the call always finishes and its flag is reported in the status.", "quantifier": "all objectives (that may fail), gradients, norms, configurations, initial guesses", "why_tests_cant": "requires all line search histories", "anchors": ["sfepy/solvers/optimize.py:FMinSteepestDescent.__call__", "sfepy/solvers/optimize.py:conv_test"]}
{"id": "C187", "title": "Steepest descent decreases the objective", "statement": "A step accepted by the backtracking line search decreases the objective by the factor ls_on; for functions with a Lipschitz gradient the objective in the returned vector is not larger than in the initial one; only points in which the objective was computed are used.", "quantifier": "all objectives, gradients, steps", "why_tests_cant": "a statement over all functions", "anchors": ["sfepy/solvers/optimize.py:FMinSteepestDescent.__call__"]}
{"id": "C188", "title": "Solver options", "statement": "Each declared option of a solver has the value of the keyword argument, else of the configuration, else the default; a missing required option raises ValueError; undeclared options are kept only if the solver declares '*'.", "quantifier": "all declarations of parameters, configurations, keyword arguments", "why_tests_cant": "combinations of options are unbounded", "anchors": ["sfepy/solvers/solvers.py:Solver.process_conf", "sfepy/solvers/solvers.py:make_get_conf"]}
{"id": "C189", "title": "Options of external solvers", "statement": "Exactly the undeclared options given by the user are passed to the underlying solver function.", "quantifier": "all declarations and configurations", "why_tests_cant": "combinations of options are unbounded", "anchors": ["sfepy/solvers/solvers.py:Solver.build_solver_kwargs"]}
{"id": "C190", "title": "Automatic choice of solvers", "statement": "The first solver of a fallback chain or of an automatic solver that can be constructed is used, with the options given by the user; ValueError is raised if there is none; chains with cycles finish; merging of option sets prefers the first.", "quantifier": "all chains, options, availabilities of solvers", "why_tests_cant": "availability depends on the installation", "anchors": ["sfepy/solvers/solvers.py:use_first_available", "sfepy/solvers/auto_fallback.py:AutoFallbackSolver.__new__", "sfepy/discrete/problem.py:Problem.init_solvers", "sfepy/base/base.py:Struct.__add__"]}
{"id": "C191", "title": "Containers: consistent names", "statement": "After any sequence of insertions, assignments, removals and sums the names of a container are those of its objects, a name gives the first object of that name, and has_key and get agree with the item access.", "quantifier": "all histories of operations", "why_tests_cant": "histories are unbounded", "anchors": ["sfepy/base/base.py:Container"]}
{"id": "C192", "title": "Containers as mappings", "statement": "Assigning an object under its name changes only the item of that name, removing a name removes only it, the dictionary of a container has the same items, and distinct names stay distinct.", "quantifier": "all containers and names", "why_tests_cant": "all contents and orders of operations", "anchors": ["sfepy/base/base.py:Container.__setitem__", "sfepy/base/base.py:Container.remove_name", "sfepy/base/base.py:Container.as_dict"]}
{"id": "C193", "title": "Overriding a problem description", "statement": "Overriding a problem description puts every value of the override at its place (at any nesting depth) and keeps everything the override does not mention; values None are skipped if asked for.", "quantifier": "all nested descriptions and overrides", "why_tests_cant": "nesting depths and combinations of keys are unbounded", "anchors": ["sfepy/base/base.py:update_dict_recursively", "sfepy/base/conf.py:ProblemConf.__init__"]}
{"id": "C194", "title": "No entry of a problem description is lost", "statement": "Every entry of the groups of a problem description (variables, conditions, regions, ...), in the short or in the long syntax, gives one item of the configuration, in the same order, also if both syntaxes are mixed.", "quantifier": "all groups of entries, names, positions", "why_tests_cant": "collisions of generated names depend on all names and positions", "anchors": ["sfepy/base/conf.py:transform_variables", "sfepy/base/conf.py:transform_regions", "sfepy/base/conf.py:transform_conditions"]}
{"id": "C195", "title": "Attributes from the short syntax", "statement": "The items of a tuple are the attributes given in the users guide: kind, field, order, dual variable, history of variables; region, times, dofs of conditions; select, kind, parent of regions, etc.; malformed tuples are rejected.", "quantifier": "all kinds of items, names, tuples", "why_tests_cant": "requires all shapes of tuples for all kinds", "anchors": ["sfepy/base/conf.py:tuple_to_conf", "sfepy/base/conf.py:transform_variables", "sfepy/base/conf.py:transform_lcbcs", "sfepy/base/conf.py:transform_integrals", "sfepy/base/conf.py:transform_solvers"]}
{"id": "C196", "title": "Required keywords", "statement": "A problem description is accepted if and only if it has all the required keywords (ValueError otherwise), whatever other attributes it has.", "quantifier": "all sets of attribute names", "why_tests_cant": "the attribute names are arbitrary strings", "anchors": ["sfepy/base/conf.py:ProblemConf.validate", "sfepy/base/conf.py:ProblemConf._validate_helper"]}
{"id": "C197", "title": "Numbered keywords", "statement": "Attributes like region_1 are collected in the dictionary regions, next to what is there, and every other attribute stays as it is.", "quantifier": "all descriptions and attribute names", "why_tests_cant": "the attribute names are arbitrary strings", "anchors": ["sfepy/base/conf.py:ProblemConf.transform_input_trivial"]}
{"id": "C198", "title": "Boundary conditions by variables", "statement": "Every degree of freedom specification of every condition belongs to the variable named before the dot, in the order of the conditions; 'u.all', 'u.[0,1]' and 'u.0' mean all, the listed, the one component.", "quantifier": "all lists of conditions, names of variables, lists of components", "why_tests_cant": "names and lists are unbounded", "anchors": ["sfepy/discrete/conditions.py:Conditions.group_by_variables", "sfepy/discrete/conditions.py:Condition.iter_single", "sfepy/discrete/conditions.py:_canonize"]}
{"id": "C199", "title": "Combining problem descriptions", "statement": "update_conf() takes over all the values of the other description, joining dictionaries; add_missing() takes over only what is missing; an item of the other description with the same name replaces the own one in the first case and is ignored in the second.", "quantifier": "all pairs of descriptions", "why_tests_cant": "combinations of keys are unbounded", "anchors": ["sfepy/base/conf.py:ProblemConf.update_conf", "sfepy/base/conf.py:ProblemConf.add_missing"]}
{"id": "C200", "title": "Integrals by order and name", "statement": "Integrals.get() of an order (integer or string) returns an integral of that order, the same object at each call, without changing the existing ones; of a custom name the integral of that name, or raises ValueError.", "quantifier": "all containers, orders, names, sequences of calls", "why_tests_cant": "orders and histories of calls are unbounded", "anchors": ["sfepy/discrete/integrals.py:Integrals.get"]}
{"id": "C201", "title": "Points of a line probe", "statement": "A line probe with n > 0 points has max(n, 2) points that divide the segment between its end points evenly; the parameters are the distances from the first point.", "quantifier": "all end points in any dimension, all numbers of points", "why_tests_cant": "the end points are arbitrary real vectors", "anchors": ["sfepy/discrete/probes.py:LineProbe.get_points", "sfepy/discrete/probes.py:Probe.set_n_point"]}
{"id": "C202", "title": "Adaptive probing of lines", "statement": "An adaptive line probe keeps its end points and its initial points, its parameters increase, no two neighbours are farther apart than the element size there, and the refinement ends.", "quantifier": "all end points, element sizes as functions of the point, numbers of refinements", "why_tests_cant": "the number of refinements depends on arbitrary element sizes", "anchors": ["sfepy/discrete/probes.py:Probe.probe", "sfepy/discrete/probes.py:Probe.refine_points", "sfepy/discrete/probes.py:Probe.refine_pars"]}
{"id": "C203", "title": "Points of a circle probe", "statement": "The points of a circle probe have the given distance from the centre and lie in the plane perpendicular to the normal, evenly spaced (fixed number) or with neighbours (including the last and the first one) not farther apart than the element size (adaptive), for any normal and size hint.", "quantifier": "all centres, normals, radii, numbers of points, element sizes", "why_tests_cant": "normals and radii are arbitrary real numbers", "anchors": ["sfepy/discrete/probes.py:CircleProbe.get_points", "sfepy/linalg/geometry.py:make_axis_rotation_matrix", "sfepy/discrete/probes.py:Probe.refine_points"]}
{"id": "C204", "title": "Points of ray and point probes", "statement": "The points of a ray probe are reached from its start by the parameters in the given direction, once each, also in both directions; a probe has one parameter per point and reports their number.", "quantifier": "all starts, directions, distribution functions, numbers of points", "why_tests_cant": "the distribution function is arbitrary", "anchors": ["sfepy/discrete/probes.py:RayProbe.gen_points", "sfepy/discrete/probes.py:RayProbe.get_points", "sfepy/discrete/probes.py:PointsProbe.get_points"]}
{"id": "C205", "title": "Membrane forces are the derivative of the energy", "statement": "The forces of the Mooney-Rivlin membrane term are the derivative of the strain energy of the incompressible membrane in the direction of each virtual displacement.", "quantifier": "all displacements, base function gradients, numbers of nodes, materials", "why_tests_cant": "the displacements and materials are arbitrary real numbers", "anchors": ["sfepy/mechanics/membranes.py:describe_deformation", "sfepy/terms/terms_membrane.py:eval_membrane_mooney_rivlin", "sfepy/terms/terms_membrane.py:TLMembraneTerm.weak_function"]}
{"id": "C206", "title": "Tangent matrix of the membrane", "statement": "The tangent matrix of the membrane term is the derivative of its forces and is symmetric.", "quantifier": "all displacements, directions, base function gradients, materials", "why_tests_cant": "the displacements and materials are arbitrary real numbers", "anchors": ["sfepy/mechanics/membranes.py:get_tangent_stress_matrix", "sfepy/terms/terms_membrane.py:eval_membrane_mooney_rivlin"]}
{"id": "C207", "title": "Strain and invariants of the membrane", "statement": "The deformation of the membrane keeps the volume; the invariants and the Green strain are those of the 3D right Cauchy-Green tensor.", "quantifier": "all displacements and base function gradients", "why_tests_cant": "the displacements are arbitrary real numbers", "anchors": ["sfepy/mechanics/membranes.py:get_invariants", "sfepy/mechanics/membranes.py:get_green_strain_sym3d", "sfepy/mechanics/membranes.py:describe_deformation"]}
{"id": "C208", "title": "Local coordinates of membrane faces", "statement": "The local basis of a membrane face is orthonormal, the face lies in its first two axes, and the transformation to global coordinates keeps the work of forces.", "quantifier": "all faces with a nondegenerate corner, displacements and forces", "why_tests_cant": "the coordinates are arbitrary real numbers", "anchors": ["sfepy/mechanics/membranes.py:create_transformation_matrix", "sfepy/mechanics/membranes.py:transform_asm_vectors"]}
{"id": "C209", "title": "Contact plane and sphere", "statement": "The penetration distances are the signed distance from the plane and the radius minus the distance from the centre; normals are unit vectors; the derivatives are those of distance and normals; all points are treated, also the centre itself.", "quantifier": "all planes, spheres, lists of points, directions", "why_tests_cant": "points are arbitrary real vectors", "anchors": ["sfepy/mechanics/contact_bodies.py:ContactPlane.get_distance", "sfepy/mechanics/contact_bodies.py:ContactSphere.get_distance", "sfepy/mechanics/contact_bodies.py:ContactSphere._get_derivatives", "sfepy/mechanics/contact_bodies.py:ContactSphere.mask_points"]}
{"id": "C210", "title": "Convolution kernels", "statement": "Integrals and time derivatives of convolution kernels are those of the exponential approximation, or exact for kernels constant (linear) between the times; the mean decay of a synchronously decaying kernel is its decay.", "quantifier": "all kernels, times, exponents", "why_tests_cant": "kernels and times are arbitrary lists of real numbers", "anchors": ["sfepy/homogenization/convolutions.py:ConvolutionKernel", "sfepy/homogenization/convolutions.py:compute_mean_decay", "sfepy/homogenization/utils.py:integrate_in_time"]}
{"id": "C211", "title": "Inserting a sparse matrix into a CSR matrix", "statement": "Inserting a sparse matrix at selected rows and columns (index arrays or slices) of a preallocated CSR matrix adds every its item at its place, leaves all other entries unchanged, and raises an error exactly if a selection is empty or out of range, or a position is missing in the structure.", "quantifier": "all CSR structures, matrices, selections", "why_tests_cant": "the structures and index sets are arbitrary", "anchors": ["sfepy/linalg/sparse.py:insert_sparse_to_csr"]}
{"id": "C212", "title": "Infinity norm of a sparse matrix", "statement": "The infinity norm is the maximum of the absolute row sums and bounds the absolute values of all eigenvalues.", "quantifier": "all CSR matrices with at least one row, eigenvectors", "why_tests_cant": "matrices are arbitrary", "anchors": ["sfepy/linalg/sparse.py:infinity_norm"]}
{"id": "C213", "title": "Conjugate gradients with eigenvalue estimates", "statement": "In exact arithmetic the returned residual norms are those of the returned solution of the (shifted) system; the iterations stop early only on convergence or at the precision limit; for a symmetric matrix the tridiagonal matrix is the matrix in an orthonormal basis, so that all eigenvalue estimates lie between the bounds of the Rayleigh quotient.", "quantifier": "all symmetric matrices, right-hand sides, shifts, numbers of iterations", "why_tests_cant": "the matrices and vectors are arbitrary and the number of iterations is not bounded", "anchors": ["sfepy/linalg/eigen.py:cg_eigs"]}
