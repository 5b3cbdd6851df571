# A Rocq/Coq model of sfepy: design

## 1. Approach

Shallow embedding: every modelled Python/Cython/C function is a total, computable Gallina function that
follows the source branch by branch. Exceptions are values (`option`/`result`), mutation of arrays becomes
returning the new list, loops become structural recursion, folds, or fuelled recursion whose exhaustion is an
explicit error and is excluded in the theorem. Each definition cites the file and lines it models.

Layout of `rocq/theories/`:

* `Base*.v`      - lists as NumPy arrays (`take`, fancy assignment, `unique`, `union1d`, ...), with lemmas.
* `M_<topic>.v`  - model only (no proofs), with source citations.
* `L_<topic>.v`  - lemmas and proofs.
* `P_<topic>.v`  - property theorems only: specification, `Theorem`s closed with `exact`, `Print Assumptions`
                   and `Example`s showing that the hypotheses are met by a concrete non-trivial case.

Numbers: indices/sizes are `nat` (or `Z` where negative markers matter). DOF values that are only moved around
are of an arbitrary type. Arithmetic on values is exact: `Z`, rationals `Qc` or stdlib reals `R`; IEEE rounding
is not modelled (stated per theorem). 32-bit wrap-around of index types is not modelled unless said.

Naming: `..._partial` = only part of the property is proved (comment says what is missing);
`..._refuted` = the property, as stated, is false of the faithful model, with a witness (a finding).

## 2. Trusted base

* Coq 8.16.1 kernel (and `vm_compute`).
* Stdlib axioms, only where reals are used (listed by `Print Assumptions` below each theorem):
  `ClassicalDedekindReals.sig_forall_dec`, `ClassicalDedekindReals.sig_not_dec`, 
  `FunctionalExtensionality.functional_extensionality_dep`, and `Classical_Prop.classic` where `Rpower`/`sqrt`
  lemmas need it. No axioms of our own.
* The reading of the sources: the model is hand-written from the cited lines; NumPy/SciPy primitives
  (`unique`, `argsort`, fancy indexing, ...) are modelled by their documented behaviour.

## 3. Properties: what is modelled and how it is proved

| id | model | proof |
|----|-------|-------|
| C01 | `DofInfo` as a record with association lists; `append`, `append_raw`, `get_subset_info` | invariant by induction over the list of append calls |
| C02 | `expand_nodes_to_equations/dofs` on lists | index lemmas, injectivity of `dpn*n+i` |
| C03,C04 | `map_equations` for EBCs: fancy assignment on arrays, `nonzero`, renumbering | induction over conditions; filter/renumber lemmas |
| C05-C08 | `get_full`, `get_reduced`, `apply_ebc`, `has_ebc`, `get_operator`, on the record produced by `map_equations` | an `eqmap` well-formedness invariant proved for every output of `map_equations` |
| C09,C10 | `group_chains`, `resolve_chains`, EPBC branch of `map_equations` | component invariant; C10 is expected to be refuted for chains c->d added after c became a non-registered chain member; proved for the chain-free and the fully registered case |
| C11-C14 | `create_adof_conn`, `assemble_vector`, `assemble_matrix` (linear search and binary search variants) | sums over incidence lists, permutation invariance |
| C15-C17 | `Variable` history list, step cache as nested association list | induction over operation sequences; C16/C17 refuted in general, proved under exact conditions |
| C18,C22 | NumPy set routines on sorted lists | membership + strict sortedness |
| C19,C24-C26 | CSR connectivities as list of lists plus the offset/free slot version; `mesh_transpose`, `mesh_intersect`, `mesh_build`, `mesh_select_complete`, `mesh_get_incident` | counting invariants for slot filling; first-occurrence numbering invariant |
| C20 | the `while`/`for` loops of `sort_by_dependency` with fuel = measure | termination measure, topological invariant, completeness by well-foundedness |
| C21 | `visit_stack` on the postfix stack; grammar as a tree of atoms | induction on the expression |
| C23 | comparison networks on triples/quadruples | case analysis with `lia` |
| C27-C33 | time steppers/controllers as state machines over `R`/`Q` | induction over steps, real analysis for `Rpower` |
| C34,C35 | `insert_sub_reqs`, `get_sorted_dependencies`, the wave scheduler | fuel = path length, topological order, refinement to the sequential worker |
| C36 | chunk slices | arithmetic + list concatenation |
| C37-C42 | formulas over `R` (or `Qc`) | `field`, `nra` |
| C43 | argsort as any stable/unstable sorting permutation | permutation composition |
| C44 | `resolve` with `itertools.combinations` | induction on the number of names |
| C45,C46 | partition arithmetic; DOF ownership fold | arithmetic; invariant over the fold |
| C47 | cache as association list keyed by shape/axis | refuted by a two-call history; proved for `get_saved=False` |
| C48 | CSR/CSC triplets and their dense meaning | refuted for mismatched formats, proved for matching |
| C49,C50,C85 | files as character lists | induction |
| C86,C87,C92 | posixpath and the naming functions on code point lists; save times | case analysis, order of zero-padded numbers, induction on steps |
| C88,C89 | trees of HDF5 nodes, writer and reader with caches | mutual induction, denotation of nodes |
| C90,C91 | restart save/load and the run loop; disk events with crash points | simulation of the interrupted run, invariant over event prefixes |
| C93-C96 | merge_mesh, fix_double_nodes, merge_nodes, extraction by groups on (coordinates, vertex groups, groups of cells) | closeness as a relation on exact coordinates, induction over passes, permutations and ranks, masks as filters |
| C97, C98 | gen_block_mesh and triangulate on the same meshes | C order of index tuples, boxes along axes; the weights of a Kuhn simplex are one hat function of the vertex (conformity), barycentric coordinates by sorting (coverage) |
| C99 | gen_tiled_mesh, tiled_mesh1d over the matching of C47 | loop invariant on (tile, vertex) origins of nodes, induction over axes, mixed radix tile numbers |
| C100 | `M_voxel`: gen_mesh_from_voxels on the set of nonzero voxels, the node matrix of shape + 2 with IndexError | direct, over all shapes; IndexError for wide arrays refuted by a witness |
| C101 | `M_nls`: conv_test, backtracking line search, Newton loop over arbitrary residual / matrix / solver functions, reals | loop invariant on the history of iterates; termination by powers of the reduction factors |
| C102 | the same | the same invariant; witnesses in 1D for ls_min, give_up_warp, scaled_error |
| C103 | the same with f(x) = A x - b | evaluation of two iterations |
| C104 | append_edges ... append_tp_bubbles, _define_nodes (integer nodes) | membership characterisation per entity, case analysis over zero patterns, uniqueness by counting |
| C105 | lagrange.c evaluation (get_barycentric_coors with snapping and errors, eval_lagrange_simplex) over R | generalised Vandermonde identity, trinomial revision, span of binomial products |
| C106 | the same with diff = 1 | derivative of a product of a list, used twice |
| C107 | eval_lagrange_tensor_product | products of the 1D results over the lattice |
| C108 | g_error as state of the module, stale buffers | induction over histories; refuted after an error |
| C109 | the bubble branch of eval_basis_lagrange | from C105; refuted for orders 2, 3 |
| C110 | _eval_hessian on simplices and tensor products | derivative of simplex_der as a sum of products; product rule with one moving factor |
| C111 | get_simplex_cubature (partitions, permutations, fractions, dict of weights), from_table above the tables | Grundmann-Moeller identity by iterated differences; iterated Riemann integrals of barycentric monomials |
| C112 | all tables (generated from the source), __init__ with bounds, symmetric, weight_fix | verified checker of all monomials in Z (scaled) or Q(s,t), vm_compute per entry |
| C113 | get_actual_order, from_table | C111 + C112 + product rules; refuted for wedges and full_order |
| C114 | M_lcbc: LCBCOperators as lists of (row, column, value); set of representable vectors = set of constrained vectors | P_lcbc: row by row, completeness by building the reduced vector |
| C115 | M_lcbc: matrices of the operators | P_lcbc2: rows, argmax is nonzero |
| C116 | M_lcbc: spin matrices | P_lcbc2: skew matrices; refutation for rigid_twist |
| C117 | M_lcbc: code after sympy.solve, whose solutions are given | P_lcbc3: blocks of nodes; refutations |
| C118 | M_lcbc: ties, multi-node, averages (inverse matrix given by its defining equation) | P_lcbc3 |
| C119 | M_lcbc: treat_pbcs | P_lcbc3: refutations |
| C120 | M_facet: facet DOF permutations, econn rows; M_mesh: build_entities | P_econn, spec S_econn: position = weights of mesh vertices |
| C121 | M_facet + M_lagrange | P_econn: basis function as a function of the position of its node |
| C122 | M_facet | P_econn |
| C123 | M_fmf: fmf_* kernels of the C code; M_terms: terms_diffusion.c | P_terms, P_termsc; spec S_terms: quadrature of the weak form |
| C124 | M_terms: terms_elastic.c, form_sdcc.c | P_terms, P_termsc |
| C125 | M_terms: terms_dot.c | P_terms2, P_terms6, P_termsd |
| C126 | M_terms: terms_navier_stokes.c divgrad_* | P_terms3, P_termsd; a witness refutes the rectangular case (P_termse) |
| C127 | M_terms: terms_navier_stokes.c stokes, terms_biot.c | P_terms3, P_terms4, P_termsd |
| C128 | M_terms: convect_* | P_terms5, P_termsd |
| C129 | M_terms: dw_v_dot_grad_s_* | P_terms5, P_termsd, P_termse |
| C130 | M_terms: dq_* | P_termse |
| C131 | M_map: volume_mapping (eval_mapping_data_in_qp, cells) over exact reals; pullbacks and Frechet gradients in S_map | P_map, P_map2 |
| C132 | M_map: volume_mapping, integrate, physical_qps; simplex and quadrilateral volumes in S_map | P_map2 |
| C133 | M_map: surface_mapping, facet_mapping | P_map3, P_map4, P_map5, P_map6 |
| C134 | M_map: facet_point, facet_bf, facet_bf_g, gbase (linked with M_lagrange) | P_map3, P_map4, P_map6 |
| C135 | M_efaces: efaces, facet_basis over M_lagnodes, M_lagrange, M_facet | P_efaces |
| C136 | M_map: lower_dim | P_map7 |
| C137 | M_qeig: mtx_a, mtx_b, qevp (both linearizations and modes, matrices over a field) | P_qeig |
| C138 | M_refine: centroid, volume, tri_area, aux_hex, facet_normal (mesh.c) | P_mgeo |
| C139 | M_refine: refine (tables of children, new coordinates), topology through M_mesh.build_entities | L_refine, P_refine, P_refine2 |
| C140 | the same model; local tables checked by kernel computation, global part by the contract of the entity numbering (C26) | P_refine3, P_refine4 |
| C141 | M_refine: refine_1, error_edges | P_refine5 |
| C142 | M_hyper: finite_strain, stress_*, tan_mod_* | derivatives along paths (Coquelicot), P_hyper |
| C143 | M_hyper: stress_*, tan_mod_* | energies, objectivity, P_hyper2 |
| C144 | M_hyper: stress_* and tan_mod_* with ul = true | push-forwards, P_hyper3 |
| C145 | M_hyper: he_weak, dw_he_rtm, buildOpB, buildOpKtsC, def_grad | entry formulas (L_hyper2, L_hyper3), chain rule, P_hyper4 |
| C146 | M_hyper: stress_genyeoh, tan_mod_genyeoh, svk_* | P_hyper5 |
| C147 | M_hyper: dw_tl_volume, tl_volume, tl_bulk_pressure_dp | P_hyper6 |
| C148 | M_hyper: he_weak_ul; M_map: volume_mapping on moved vertices | P_hyper7 |
| C149 | M_iga: eval_bernstein_basis (py, c); S_iga: bernstein | P_iga |
| C150 | M_iga: compute_bezier_extraction_1d, create_connectivity_1d; S_iga: bspline, open_knots, spans | P_iga2, P_iga3 (polar forms, Marsden's identity) |
| C151 | M_iga2: tp_basis, tp_physical, eval_mapping_data_in_qp, eval_nurbs_basis_tp | P_iga4, P_iga8 |
| C152 | M_iga2: create_patch, make_conn, ravel/unravel; S_iga2: nurbs | L_iga2, P_iga5-P_iga8 |
| C153 | combine_bezier_extraction, compute_bezier_control as folds of row assignments (M_iga3) | the operators of neighbouring elements agree on shared Bezier points (first/last columns are B-spline values at the common knot, via Marsden's identity), positivity from C150_nonneg and column sums (L_iga3, P_iga10, P_iga11); refutation P_iga12 |
| C154 | M_dgts (explicit DG solvers + pre/post step functions + history of the state variable + save times), S_dgts; induction over time steps (P_dgts, P_dgts2). |
| C155 | Same model; exact run characterisation, conservation, SSP, Taylor polynomial; refutations of the order and of the saved results (P_dgts3). |
| C156 | Same model; RK4 = classical RK4 of the wrong slope; refuted for a steady state. |
| C157 | M_dglim (limiters.py), S_dglim; loop invariant gives the closed form of every moment (P_dglim). |
| C158 | M_dglim iter1/2/3; membership, NoDup, counting (P_dglim2). |
| C159 | M_dglim limiter2d for an arbitrary neighbour table; invariant over the pair loop; two refutations (P_dglim3). |
| C160 | M_dglim composed; induction over fields; refuted for two variables of a field. |
| C161 | M_dgnbr: incidence rows, local ids, fancy assignment, cache; case analysis on facet rows, induction on writes; refuted for 3 cells and for the cache. |
| C162 | M_dgflux: facet data and residual as finite sums; algebra of sums with unit normals. |
| C163 | M_dgflux COO tuple (repeat, tile, where, vstack, flatten) and its action; induction over lists; refuted for data at inner sides. |
| C164 | Sums over sides are invariant under the facing-side involution (Permutation); refuted for varying velocity. |
| C165 | Same involution; algebraic identity per facet. |
| C166 | M_dgflux Diff section; refuted 3 ways with concrete fields. |
| C167 | M_dgflux Pen section; symmetric, non-negative, definite in the jumps; refuted for order 0. |
| C168 | M_dgflux Nonl section; maximum over points; refuted for non-convex fluxes. |
| C169 | M_leg: get_nth_fun, legendreP, eval_jacobi as the hypergeometric sum; characterisation by degree, value in 1 and orthogonality; proof by vanishing n-th differences of polynomials of degree < n (L_leg) |
| C170 | M_leg: get_nth_fun_der, tp_grad; termwise differentiation, is_derive_n of Coquelicot |
| C171 | M_leg: tp_value, sx_value; iterated integrals cube_int/simplex_int of S_quad; the double sum jac_orth with weight exponent alpha |
| C172 | M_leg: sx_value, sx_grad; the collapsed factor is the homogeneous polynomial sum c (r+s)^m (1-s)^(i-m); Euler's identity for the y derivative; the vertex separately |
| C173 | M_leg: tp_F_row, tp_P, sx_scheme and the tables; sums over the multi-index list by permutation to the full square; 21 polynomial identities for the table |
| C174 | M_leg: project, scalar_dofs; discrete orthogonality from C171 and exactness of the rule on products |
| C175 | M_ls: state machine of ScipyDirect / CholeskySolver / MUMPSSolver (factorization held, digest); invariant "the factorization held is that of the digest" over all histories; stale reuse refuted |
| C176 | M_ls: _get_cs_matrix_hash with its chunk loop; the length and monotony of indptr make the concatenation uniquely decodable |
| C177 | M_ls: coo_is_symmetric over rationals; uniqueness of strictly sorted key lists pairs (i,j) with (j,i) |
| C178 | M_mat: time_update, iter_terms, set_data, get_shape; induction over the terms with the data dictionary |
| C179 | M_mat: histories of updates; invariant "every stored array is the constants" |
| C180 | M_mat: exceptions leave the partly updated dictionary; refutations by computed runs |
| C181 | M_mat: by_region; fold over the regions against the inductive specification region_value |
| C182 | M_ssn: residual; scalar lemmas on the Fischer-Burmeister function and the minimum, then over the vectors |
| C183 | M_ssn: multipliers, jac_row; derivatives along curves by Coquelicot, Cauchy-Schwarz for one active index; counterexamples |
| C184 | M_ssn: residual_loop, main_loop; induction on the fuel with the invariant "the last error is the norm in the last iterate" |
| C185 | M_ssn: residual_loop; induction on the trials; a run computed with exact reals refutes the descent direction |
| C186 | M_opt: oconv_test, oloop; induction on the fuel with the relation of an iterate to the previous one |
| C187 | M_opt: backtrack; induction on the reductions, the descent inequality of functions with a Lipschitz gradient |
| C188 | M_sconf: process_options, add_extra; induction on the declared parameters against option_value |
| C189 | M_sconf: build_solver_kwargs; lookup in filtered association lists |
| C190 | M_sconf: struct_add (nested), use_first_available, auto_list, fallback_list; induction on lists and on the inductive chain |
| C191 | M_cont: all operations keep names = map name objs; lookup against positions |
| C192 | M_cont: set_key, remove_name, as_dict, iadd against the finite map of names |
| C193 | M_conf: upd (bounded by the nesting depth, bound proved irrelevant); induction on paths; counterexamples for tuples |
| C194 | M_conf: transform_loop and the thirteen transform functions; generated keys are injective (decimal digits, last "__") |
| C195 | M_conf: tuple_to_conf; case analysis on kinds and shapes against a table of positions |
| C196 | M_conf: match_item, validate; the patterns are pairwise prefix-free, so every key is removed at most once |
| C197 | M_conf: numbered, move_key; invariants of the fold over the attributes |
| C198 | M_conf: iter_single, group_by_variables, canonize; lemmas on split, join, strip |
| C199 | M_conf2: update_conf, add_missing; lookups of folds |
| C200 | M_conf2: integrals_get; decimal strings of integers are injective and parsed back |
| C201 | M_probe, P_probe2: over R: points and parameters by coordinates |
| C202 | M_probe, P_probe, P_probe2: invariant of the refinement loop (ends, old points, order kept), halving bound for the termination |
| C203 | M_probe, P_probe3: the rotation matrix gives an orthonormal basis of the plane; closed parametrization for the cyclic refinement; witnesses for the refuted parts |
| C204 | M_probe, P_probe4: lists by index; witnesses for the refuted parts |
| C205 | M_membrane, P_membrane: the energy along u + t v is a rational function of t; derivable_pt_lim at 0 |
| C206 | M_membrane, P_membrane: derivative of the residual along u + t w; sums over nodes and components |
| C207 | M_membrane, P_membrane: algebra; the in-plane determinant is a sum of squares |
| C208 | M_contact, P_contact: vector algebra over R; expansion in an orthogonal basis |
| C209 | M_contact, P_contact: signed distances, Cauchy-Schwarz, derivatives; the broadcasting of nm.where by the number of rows; witnesses for the refuted part |
| C210 | M_contact, P_convol: integrals as is_RInt along the list of times; decay by linearity of sums |
| C211 | M_sparse2, P_sparse2: the contributions are those of 1x1 element matrices, then C13 |
| C212 | M_sparse2, P_infnorm: finite sums, the largest component of an eigenvector |
| C213 | M_cgeigs, P_cgeigs, P_cgeigs2: orthogonality and conjugacy by induction on the iterations |

Properties added later are described in section 4, topic by topic.

## 4. Notes per topic (scope, hypotheses, findings)

General: a hypothesis of a theorem is either a condition stated in the English property, a well-formedness
condition of the input (named, defined next to the model and met by an `Example`), or a bound "enough fuel" that
is given explicitly as a function of the input. A claim is `partial` in the manifest if the code violates the
property in some situation; the violating situation is then a `_refuted` theorem with a witness and the rest is
proved under the exact complementary condition.

* **DOFs, equation maps, assembling (C01-C14, C51; M_dofs, M_assemble).** `EquationMap`/`DofInfo` are records of
  lists; DOF values are elements of an arbitrary type, sums are over an arbitrary commutative semiring (so they
  hold for exact arithmetic, not for floating point sums). `wf_bcs`: the boundary conditions name existing nodes
  and components. Findings: C05 incompatible EBCs, C10 EPBC chains, C13 binary search without `has_sorted_indices`,
  C51 `chunk_size=1` never ends.
* **Meshes (C23-C26; M_mesh).** `mesh.c` connectivities as lists of lists together with the counting/offset form.
  C26 needs conforming entity numbering (shown refuted without).
* **Graphs, parsing, regions (C18-C22, C52-C54; M_graph, S_parse, M_region).** The region grammar works on tokens;
  the evaluator has fuel; `mesh_rows` says that the mesh tables have one row per entity. Findings: right
  association, `contains`, recursion.
* **Variables (C15-C17; M_vars).** Objects are cells of a heap, so aliasing of arrays is modelled. Special caches
  for `step=None` are not modelled. Findings: C15 aliasing, C16 negative index and slices, C17 five stale-cache ways.
* **Time stepping (C27-C33, C55-C59; M_ts, M_tsc, M_tsloop).** Exact `Q`/`R` instead of floats. User functions
  (nonlinear solver, hooks) are functions of the history of calls. R-based theorems use the stdlib axioms of
  section 2.
* **Elastodynamics schemes (C60-C65; M_ed, P_edschemes).** Over an arbitrary mathcomp field (characteristic
  assumptions are hypotheses), exact; the matrix is any function, the residual is what the nonlinear solver makes
  zero (`solves`); essential boundary conditions are inside the residual. Closed under the global context.
* **Homogenization (C34-C36; M_homog, L_homog, L_chunks, P_homog).** Names are pairs (kind, name, chunk tag);
  a mini-application is a function of its direct requirements (and of the microstructure). `disjoint`: no corrector
  has the name of a coefficient. `kinds_ok`: a requirement which exists under its bare name exists in the
  dictionary given by its prefix. `untagged`: user names do not contain chunk tags. The shared dictionary may show
  a worker any part of the current wave (`extra`). Not modelled: `update_coors`, the periodic cache and mapping
  items of the shared dictionary, volumes passed separately.
* **Elastic parameters, tensors, units (C37-C42, C66-C70; M_elast, M_tensor, M_plane, M_units).** Exact real
  arithmetic: `R` (M_elast, M_units, stdlib axioms), any field (C37, C69) or any real closed field (tensors; closed
  under the global context). One item of the NumPy arrays (the code works item by item). A division by zero is
  `None` in M_elast and M_units. cos and sin of an angle are numbers with c^2 + s^2 = 1. SymPy's `.subs()` of
  `Quantity` is not modelled. Findings: C39 (wrong root or nan for lam <= 0); C69: the plane stress dielectric tensor
  has the wrong sign of its correction; the prefix 'd' is 10 (SI: 1/10).
* **linalg utilities (C43, C44, C71-C81; M_resolve, M_linutils, M_sparse, M_geom).** `numpy.argsort`, `solve` and `det`
  are specified, not modelled. Sparse matrices are lists of (row, column, value) over an arbitrary commutative
  monoid of values where sums occur. Geometry (M_geom, P_geom, P_geom2, P_polygon) is one row/point/face at a time
  over `R` (stdlib axioms of section 2: `sig_forall_dec`, `sig_not_dec`, `functional_extensionality_dep`).
  Findings: C44 repeated/missing names for singular systems, C74 incomplete sizes, C75 CSC, C79 in-place change of
  the argument, C80 non-convex faces, C81 outside selections.
* **Parallel distribution and assembling (C45, C46, C82-C84; M_parallel, M_passemble).** A mesh for distribution is a
  record of tables (cells of facets, vertices, DOFs of cells and facets); `mesh_field` says how the tables fit, and
  `connected`/`manifold` are graph conditions on them. METIS is not modelled (any cell_tasks array is). PETSc vectors
  are lists, matrices functions; `setValues` of a task is atomic, `assemble()` is the completion of all of them, the
  order of tasks is arbitrary. A `local_problem` is any local field that `localizes` the global one. Findings: C46
  disconnected and pinched parts, weak verification; C83/C84 repeated assembling.
* **Periodic matching (C47; M_periodic).** Coordinates are exact rationals, distances are squared; `argsort` is any
  sorting permutation and `cKDTree.query_pairs` is any function meeting `pairs_spec`. Finding: the cache key of
  `match_grid_line` is the shape and axis only (C47_cache_refuted).
* **Text and HDF5 helpers (C48-C50, C85; M_io).** A file is a list of code points; `isspace` is any predicate true for
  newline and false for '#'. A HDF5 group is the record of the arrays stored in it; `sort_indices` is specified.
  Findings: C48 other output format, C49 trailing comment, C85 end of file.
* **Output names and save times (C86, C87, C92; M_output).** File names are lists of code points; `posixpath.split`,
  `splitext` and `join` are modelled, `log10` of the number of steps is exact. Times are exact rationals.
  Findings: absolute prefix, recovery with one element, steps saved too often for dense save times and after restarts.
* **Restarts (C90, C91; M_restart).** Arrays are values (aliasing is C15); the solution of a step is any function of
  the step, time, variables and the initial guess; evaluate caches and terms with internal state are not modelled.
  A crash cuts the list of file-system events (open, close, remove) at any point; writing between open and close is
  `Partial`. Findings: with history >= 2 saving fails in step 0 and a loaded history is discarded; a restart from the
  last step repeats it; the reduction state of ts.adaptive is not stored; one fixed restart file name is not crash safe.
* **HDF5 data (C88, C89; M_hdf5, M_h5obj).** The naming rules of PyTables (reserved `_[cfgv]_` and hidden `_[ip]_`
  prefixes, NodeError for duplicates) come from PyTables, which is not in /repo. In M_h5obj node names are numbers;
  DataSoftLink/SoftLink and unpack_markers=True are not modelled, and id() of live objects is unique (`wf_data`).
  Findings: keys 'p_*' and 'i_*' are lost, 'c_*', 'f_*', 'g_*', 'v_*' fail, bytes come back as strings.
* **Merging and extracting meshes (C93-C96; M_merge).** Coordinates are exact rationals; the KD-tree query, argsort and
  connected_components are parameters with a specification (concrete instances are given). All cells have the dimension of
  the mesh: `get_conn` of a kind of a lower dimension fails in reshape. Findings: the sum of matching errors over all nodes
  is compared with the tolerance (C93); chains of close nodes give connectivity -1 (C94) or move nodes by any distance (C95);
  `nm.unique` of a ragged list fails for several kinds of cells (C96).
* **Block meshes and triangulation (C97, C98; M_block).** Exact rational coordinates, `coors=None`. Two simplices are
  conforming if a point of both has the same barycentric weight of each mesh vertex in both. Findings: hexahedra not
  numbered as in block meshes give non-matching diagonals of common faces; other kinds of cells are dropped while the
  materials of all cells are repeated (C98).
* **Newton (C101-C103; M_nls).** Exact reals; residual, matrix and linear solver are pure functions (a residual may fail or
  have infs); scaling functions are identities, logging/timing/hooks and solver tolerances left out; ScipyRoot, PETSc and
  the ainc and ipc line searches are not modelled. UnboundLocalError is a NameError.
* **Tiling (C99; M_tile).** Exact coordinates; the nodes of a face are exactly in its plane, the other nodes are at least
  eps away. The result of matching is used through `matches`, which C99_matches proves for `match_grid_plane` with an
  empty cache. Findings: the cached matching of another mesh attaches tiles upside down; with an absolute eps a small
  cell collapses.
* **Quadratures (C111-C113; M_quadtab, M_quad).** Exact reals: decimal literals are the exact rationals they denote, sqrt is
  exact; rounding of the table entries to doubles and of the products is not modelled. The integrals of the specification
  (S_quad) are iterated Riemann integrals of the standard library. M_quadtab is generated from the source text. Findings:
  a wedge of order 4 or more gets the rule of the cube (weights sum to 1, volume 1/2); full_order above the table is an
  UnboundLocalError; full_order on the wedge takes table keys (3 x degree) for degrees; symmetric=True with coors and
  weights instead of data is a TypeError (`data[0, 0]`).
* **LCBC operators (C114-C119; M_lcbc).** Exact reals; matrices are lists of entries, repeated entries are summed. Equation
  maps, nodes in regions, normals (compute_nodal_normals), user functions and the solutions of sympy.solve are data; shared
  DOFs and new_only=True are left out; the inverse matrix of average_force is any matrix with the defining property. A
  dense operator matrix in treat_pbcs (AttributeError, no tocsc) is not modelled. Findings: see the refutations of C114 and
  C116-C119.
* **DOF connectivity (C120-C122; M_facet).** Cells of one kind, regions of full dimension (no surface fields), no basis
  transform (hanging nodes) and no bubble-extended (P1B) or serendipity nodes. -1 in a remap is an error in the model. The
  region contains exactly the vertices, edges and faces of its cells (`region_ok`).
* **Terms (C123-C130; M_fmf, M_terms).** One cell, exact reals. The FMField kernels are modelled on their row-major storage
  (`val`, number of levels, rows, columns, level offset), with the loops of the C functions as folds over stores. Base
  functions, gradients and weighted Jacobians of the cell are data of the right shape; status codes for failed allocation
  and `ERR_CheckGo` are left out. Findings: divgrad_act_gt_m with different numbers of nodes of the virtual and state
  fields writes the second block at a wrong row (C126); the value of dw_v_dot_grad_s uses the transposed coefficient (C129).
* **Reference mappings (C131-C136; M_map, M_efaces).** Exact reals; numpy.linalg.det and the norms are their closed
  formulas. Geometries with one kind of facets (no wedges), integration kinds other than 'facet_extra'. The geometry basis
  is written in closed form and linked with the model of lagrange.c by C134_geometry_basis. The tolerances 1e-15 (normals)
  and 1e-16 (transform_coors_to_lower_dim) are arbitrary positive parameters. Findings: surface Jacobians of hexahedral
  faces in a swapped point (C134), the facet basis of orders >= 3 on tetrahedra (C135), the sign of 1D normals and small
  facets (C133), cells with the normal -z or a tiny size in transform_coors_to_lower_dim (C136).
* **Quadratic eigenproblems (C137; M_qeig).** Matrices over an arbitrary field (mathcomp); the linear eigensolver and the
  sparse Cholesky factorization are functions with their contracts as hypotheses (sound: pairs are eigenpairs; complete: all
  finite eigenvalues of the passed problem are found). The debug residuals (l.107-118, 131-139) are not modelled. Finding: a
  zero eigenvalue with the companion linearization gives the zero vector.
* **Mesh geometry and refinement (C138-C141; M_refine).** Exact reals; `n_nod`, coordinates, connectivity and groups of a
  mesh of one cell type. The tables of children are those of refine.py; edges and faces come from the model of mesh_build
  (M_mesh, C26). The tolerance CONST_MachEps is a nonnegative parameter. The new mesh is not sorted or oriented again, names
  and vertex groups are left out (the code drops them). `on` (a facet of a child lies in a facet of the parent) is
  combinatorial: every node of the small facet is a centroid of vertices of the large one. Findings: volumes of reentrant
  quadrilaterals and of wedges (C138), refine_1_2 with cells in another order than nodes (C141).
* **Hyperelastic terms (C142-C148; M_hyper).** Exact reals, one cell; `exp`, `log` and real powers are those of the standard
  library. A path (S_hyper) has a differentiable deformation gradient with det F > 0 and det F^2 > 1e-55 (below, the code
  returns 0 instead of the inverse). The evaluate cache of the family data (C47, C48) is left out: strains belong to the
  state of the call. The Ogden term, the TL diffusion and surface terms and the fibres are not modelled; negative or
  rounded brackets of the Yeoh term (NaN in floating point) cannot occur in exact reals. Findings: neo-Hookean prestress in
  1D (C143), the updated Lagrangian Mooney-Rivlin term (C144), the stale stress cache (C145), the Saint Venant-Kirchhoff
  modulus and the in-place change of its material (C146).
  C148 takes the mapping of the undeformed mesh saved by the field and the mapping of the moved mesh as given, and
  C148_moved_mapping shows that M_map builds the latter from the moved vertices.
* **Isogeometric analysis (C149-C152; M_iga, M_iga2).** Exact reals; arrays are functions of their indices, in-place updates
  are folds in the order of the loops. `while` loops carry fuel that is proved sufficient. Open knot vectors (first and last
  knot of multiplicity p + 1, S_iga.open_knots) with any interior multiplicities; the weights are positive. Points are in the
  half-open reference element. The inverse Jacobian is the closed formula (geme_invert3x3 returns zero below 1e-55). File
  input, igakit, the walk of the C pointers over cells and points and facet data are left out.

C153 adds the Bezier control net. Its specification (P_iga11) is tp_bernstein, the row-major tensor product of Bernstein polynomials, and patch_point, the sum of the NURBS functions times control points. continuous_knots says that inner knots have multiplicity at most p; C153_discontinuous_refuted shows what happens otherwise.

### DG time stepping (C154-C156)
M_dgts models ts_dg_solvers.py completely except output and tolerances, together with the parts of
problem.py (prestep/poststep functions, IsSave), ts.py (advance, set_substep_time) and variables.py
(one-step history) that it drives. DOF vectors are functions nat -> R with entrywise arithmetic; the
operators are arbitrary; the linear solver is exact (exact_solver in S_dgts, shown satisfiable with a
non-identity mass matrix). The facet terms read data[0] (dg/fields.py l.717) and the volume terms the
history, as in the code. Functional extensionality (standard library) is used for vectors.

### DG limiters (C157-C160)
M_dglim models limiters.py entirely (without messages); nm.sign, nm.where and fancy indexing become
functions of real numbers and lists of cell indices; MACHINE_EPS is the real 1e-30.

### DG facet terms (C161-C168)
M_dgnbr models get_facet_neighbor_idx with its cache and DG periodic conditions (fields.py l.485-608; the nodal periodic
conditions of l.610-660 are left out), for the whole mesh as region. M_dgflux takes from the field the facet basis values,
weights, facet sizes, normals and the neighbour arrays as given (the record `field`; numpy's negative indices are kept) and
models get_both_facet_basis_vals, get_both_facet_state_vals and the functions of terms_dg.py except
NonlinearScalarDotGradTerm. S_dgflux states what facing, matching and unit normals mean; P_dgflux4.line_meets shows that all
1D meshes, periodic or not, meet these hypotheses. The application of Dirichlet maps to COO entries (terms.py l.1690-1696) is
the identity for DG variables and left out. Findings: prescribed values at sides with a neighbour (C163), velocity taken from
the own cell (C164), row sums of the tensor, tensor of the own cell and reference gradients (C166), zero penalty for order 0
(C167), wave speed at the traces only (C168).

### Legendre bases (C169-C174)

Modelled (M_leg): dg/poly_spaces.py l.101-170, 273-620 (1D, tensor product, triangle) and the tables
l.665-711, and dg/fields.py set_cell_dofs l.1178-1205. scipy.special.comb, factorial, eval_jacobi
(integer alpha, beta = 0) and the polynomial objects of scipy.special.jacobi are external and stand for
their mathematical functions: eval_jacobi is sum_m C(n,m) C(n+alpha+m,n) ((x-1)/2)^m. Floating point is
not modelled. Not modelled: the tetrahedral branch (its eval_jacobi call has five arguments and raises
TypeError; b is computed with - t instead of - 1), reading the coefficient files for orders above 5 (the
files are not in the repository: creating a triangular DG field of order 6 raises IOError,
C173_high_order_refuted), the hexahedral interpolation scheme (a matrix indexed by three indices raises
IndexError in the constructor, C173_hexahedra_refuted).

### Linear solver bookkeeping and materials (C175-C181)

Modelled (M_ls): ls.py l.30-62, 183-213, 869-951, 983-1003. SHA1 is an arbitrary function of the bytes (theorems assume no
collision among the matrices of the history); the factorizations are external: a factorization is identified with the contents
factorized, and `fact_ok` says whether it exists. A matrix modified in place is a new value with the same identity. Matrix items
are rationals in the symmetry test. Not modelled: SchurMumps, the iterative and PETSc solvers, preconditioners. Findings: a
non-CSR matrix keeps the digest of the last CSR matrix (stale factorization later), the digest None after a call without
digests, MUMPS after a failed factorization, symmetry flag of mumpspy, diagonal matrices and patterns in coo_is_symmetric, the
item type is not hashed.

Modelled (M_mat): materials.py l.175-440 and functions.py l.92-177, mappings.py l.46-75. Values in a point are opaque; the
function of the user is arbitrary (may raise); the ndim check, values of different shapes, complex dtypes and facet regions in
ConstantFunctionByRegion are not modelled. Findings: an exception leaves an empty item, so stationary materials give None
silently; names of special parameters outlive 'force'; get_data() with a dict uses the attribute name as the key; one
evaluation per (region, order) even if the function depends on the term.

### Semi-smooth Newton (C182-C185)
Modelled (M_ssn): semismooth_newton.py l.68-345 over exact reals; the functions, their gradients and the linear solver are
arbitrary, conv_test is that of M_nls. Not modelled: logging, timing, the tolerances passed to the linear solver, sparse storage.
Findings: after the restore the residual vector (and so the steepest descent direction) is that of the rejected trial, because
r_last is overwritten before the test of the error; the multipliers of the brute force mode are swapped; the vector z of the
active part has ones for all active indices.

### Optimizer, solver options, containers (C186-C192)
Modelled (M_opt): optimize.py l.13-37 and l.160-323 without the SciPy line search ('full'), the gradient check and logging, over
exact reals. Findings: `ofg_norm and ...` skips an exactly zero gradient; status['status'] = status; the test
`aux < of * ls_on` accepts growing negative objectives; after a failed line search the step is reduced once more and not tested.

Modelled (M_sconf): solvers.py l.8-106 and l.178-252, auto_fallback.py, problem.py l.1155-1168, Struct.get/__add__/copy of
base.py. Construction of solvers is an arbitrary partial function. Not modelled: class attributes of Struct, solvers given as
classes in use_first_available (there the context is lost: the keyword is misspelled `contex`). Findings: the value in the
configuration is required even if the keyword argument is given; extra keyword options are lost; Struct.__add__ prefers the
fixed options over those of the user in the automatic solvers; 'kind' is popped from the dict of the caller.

Modelled (M_cont): base.py l.520-698. Objects do not change their names; deletion and indexing follow Python lists.

### Problem descriptions (C193-C200)
Modelled (M_conf, M_conf2): update_dict_recursively, conf.py l.20-300 (tuple_to_conf, all transform functions but those of options
and nbcs), get_item_by_name, validate, transform_input_trivial, update_conf, add_missing; conditions.py iter_single,
group_by_variables, _canonize; integrals.py Integrals.get. Dicts are association lists in insertion order; sharing and in-place
mutation of dicts of the caller, import of files, the parser of the command line and pickling are not modelled. The regular expressions
are modelled by hand: `'^' + 'a|b' + '$'` binds the `$` to the last alternative only. Strings are 8-bit; int() accepts a
sign, digits and surrounding spaces.
Findings: in tuples update_dict_recursively zips (src, dst) and takes a[1], i.e. the old value, and for dictionaries in tuples it calls
itself with swapped arguments; overwrite_by_none is not passed down; keys of dict entries collide silently; an LCBC of four items with
times has no kind; an integral given by a tuple of length 1 or > 3 repeats the previous one; `'grad' in dofs` matches names of
variables; keys contain positions, so that updates by name add duplicates.

## Notes: Probes (C201-C204)

`M_probe.v` models the points of `discrete/probes.py` (line, ray, circle, point probes), the
adaptive refinement loop and `make_axis_rotation_matrix` over the exact reals.  The diameter
of the element containing a point is an arbitrary function of the point; finding the
elements, evaluating the variable and the caches are not modelled.  Findings: an adaptive
circle probe with `size_hint` fails with NameError (`ed` is unbound), normals closer than
about 6 degrees to the z axis are replaced by the z axis, a `PointsProbe` at one point has
two parameters, `RayProbe` in both directions probes the start twice if `p_fun(0) = 0` and
with one point reports two.

## Notes: Membranes (C205-C207)

`M_membrane.v` models the quadrature point data of `mechanics/membranes.py` and
`terms/terms_membrane.py` over the reals for one point: deformation gradient, right
Cauchy-Green tensor, strain variation operator, stress, tangent stiffness.  The
specification (energy of the 3D tensor with unit determinant, directional derivatives of the
standard library) is written without the functions of the model.  Left out: the weights and
the thickness (positive factors) and `TLMembraneTerm`'s evaluation modes.

## Notes: Contact bodies, faces, convolution kernels (C208-C210)

`M_contact.v` models `mechanics/contact_bodies.py` (without plotting and without the
branches of `ContactPlane` for normals (anti)parallel to the third axis), the local bases of membrane faces and
`homogenization/convolutions.py` (without the least squares fit) over the reals.  Finding:
`ContactSphere.get_distance` indexes `vecs[ii]` inside `nm.where`, so that it fails
(ValueError) if a point lies at the centre and at least two others do not; with one other
point the centre gets the vector of that point as its normal.

C211-C213: `linalg/sparse.py` (insert_sparse_to_csr, infinity_norm) and `linalg/eigen.py`
(cg_eigs; LAPACK's eigvals_banded is not modelled, exact real arithmetic instead of floats).
Findings: insert_sparse_to_csr adds to the old values; the number of iterations returned by
cg_eigs is one too small (0 after one iteration), and the solution is that of the shifted system.
