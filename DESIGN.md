# Formal model of POT (Python Optimal Transport) in Rocq

## Scope and trusted base

* The theorems are about Gallina models written by reading `/repo`; nothing in
  `/repo` was built or run.  Every model definition cites the file and lines it models.
* Trusted: the Coq 8.16.1 kernel (`coqc`, re-checked with `coqchk`), the reading of the
  source recorded in the comments, and the standard-library axioms printed by
  `Print Assumptions` under each property theorem.  These are, at most, the axioms of the
  classical real numbers of the standard library:
  `ClassicalDedekindReals.sig_forall_dec`, `ClassicalDedekindReals.sig_not_dec`,
  `FunctionalExtensionality.functional_extensionality_dep` and (through `Rpower`/`ln`
  and Coquelicot-free analysis) `Classical_Prop.classic`.
  No axiom is added by this development.
* Floats.  POT computes in IEEE doubles.  Structural theorems (termination, index
  safety, iteration counts) are proved for an *arbitrary* number type with arbitrary
  comparison results (`NumOps` record, no laws assumed), so they cover doubles
  including NaN/inf.  Semantic theorems (couplings, optimality) are proved for the same
  generic code instantiated at the exact reals `R`; they say nothing about rounding.
  Concrete counterexamples are computed on the same code instantiated at `Q`.
* Not modelled: array backends other than the NumPy semantics, automatic
  differentiation, plotting, OpenMP scheduling, memory allocation, external solvers
  (scipy L-BFGS, cvxopt, geomloss), random number generators (a random choice is an
  arbitrary input sequence).

## Conventions

* `Num.v` numeric interface and the `R`/`Q` instances; `Sums.v` finite sums over `R`;
  `Spec.v` the independent specification vocabulary (coupling, sub-coupling, transport
  cost, KL divergence, optimality).  Nothing in `Spec.v` mentions a model.
* `*_model.v`: models only, mirroring the source branch by branch, exceptions as values.
* `*_proofs.v`: lemmas.
* `P_*.v`: the property theorems, each closed by `exact lemma`, with `Print Assumptions`
  and an `Example` showing that the hypotheses are met by a concrete non-trivial case.
* `_refuted` marks a theorem showing that the code violates the property on a witness;
  `_partial` marks a theorem that proves only part of the property.

## What is modelled, file by file

Anything not listed as modelled is not modelled.  Printing, warnings, dtype casts, argument
conversion (`list_to_array`, backend selection) and docstrings are never modelled.

| file of `/repo/ot` | modelled | not modelled |
|---|---|---|
| `lp/network_simplex_simple.h` | the whole solver (NS_model): init, pivots, block search, potentials, feasibility test, warm-start-free run; state vector and arc numbering (Graph_model) | warm start (`warmInit`), stream I/O, debug asserts |
| `lp/full_bipartitegraph.h`, `lp/sparse_bipartitegraph.h` | the graph classes (Graph_model) | — |
| `lp/EMD_wrapper.cpp` | `EMD_wrap` dense, full support (NS_emd_model) | sparse and lazy wrappers, OpenMP variant |
| `lp/network_simplex_simple_omp.h`, `lp/full_bipartitegraph_omp.h` | — | all (thread scheduling) |
| `lp/_network_simplex.py` | rescaling, zero-weight removal, dual centering and estimation (Duals_model), `emd` (Emd_model), gradients of `emd2` (Envelope_model) | lazy and sparse branches, multi-histogram `emd2` |
| `lp/emd_wrap.pyx`, `lp/solver_1d.py` | `emd_1d_sorted`, `emd_1d`, `emd2_1d` (Emd1d_model), `quantile_function`, `wasserstein_1d` (W1d_model), `emd_1d_dual_backprop` (Uot1d_model) | batched columns, vectorised emd_1d duals, `binary_search_circle` is below |
| `lp/solver_circle.py` | Circle_model | torch branch |
| `lp/dmmot.py` | Dmmot_model | logs |
| `lp/_barycenter_solvers.py` | free-support and generalized barycenters, gluing (Fsb_model, Glue_model), the program of `barycenter` (Lpbar_model) | the LP solvers |
| `bregman/_sinkhorn.py` | Sinkhorn_model | multi-histogram variants of the balanced solvers, `warn` |
| `batch/_utils.py` | the Bregman projections, `entropy_batch` | gradient modes |
| `batch/_linear.py`, `batch/_quadratic.py` | all (Batch_model) | gradient tracking, `dist_kl_batch(logits_X=True)`, shape check of M |
| `solvers.py` | `solve` (Solve_model), `solve_sample` (Sample_model) and `solve_gromov` (Sgromov_model) with the called solvers as a parameter; entropic and L2 branches of `solve` with their solvers, envelope gradient | batches |
| `unbalanced/_sinkhorn.py`, `_mm.py` | Unb_model (knopp, log, stabilized, translation invariant, several histograms, MM), Ubary_model (barycenters), Lbfgs_model (`_lbfgs.py`: objective, gradient, arguments) | the iterations of L-BFGS-B |
| `unbalanced/_solver_1d.py` | all (Uot1d_model) | the log dictionary |
| `unbalanced/_sliced.py` | all (Usot_model) | drawing the projections (Sliced_model), the log dictionary |
| `partial/partial_solvers.py`, `partial/partial_cython.pyx` | Partial_model, Pw1d_model | partial GW wrappers in this file; `partial_wasserstein_1d` proved for p = 1 only |
| `optim.py` | line searches, `generic_conditional_gradient`, `cg`, `gcg`, semirelaxed and partial oracles (Optim_model, Partial_model) | external line-search options of scipy |
| `gromov/_utils.py`, `_gw.py`, `_semirelaxed.py`, `_partial.py` | Gw_model, Gwbar_model, Ugw_model | `gromov_barycenters` outer loops |
| `gromov/_unbalanced.py` | block coordinate descent (Ugw_model) | front ends, initialisations |
| `gromov/_bregman.py` | entropic (fused) GW with both solvers, their '2' losses, BAPG and fused BAPG, both entropic barycenters | argument checks, verbose printing, gradients attached by set_gradients, random initial structures |
| `gromov/_quantized.py` | Quant_model | clustering algorithms, backends |
| `gromov/_estimators.py` | all (Estim_model) | the random generator, printing; sinkhorn and emd inside `sampled_gromov_wasserstein` are parameters |
| `gromov/_lowrank.py` | all (Lrgw_model) | the random start, warnings; the Frobenius norm is a parameter |
| `gromov/_dictionary.py` | both linear unmixings (Gdict_model) | the dictionary learning loops, Adam, random initial dictionaries |
| `utils.py` | simplex projections, distances, `sparse_ot_dist`, `reduce_lazytensor`, `DataScaler` (Utils_model) | kernels, label utilities, backends |
| `stochastic.py` | Semi_model | random generators |
| `smooth.py` | Smooth_model | L-BFGS iterations (scipy) |
| `regpath.py` | Schur updates, fully relaxed path, interpolation (Regpath_model), semi-relaxed path (Semipath_model) | - |
| `sliced/_utils.py`, `_sliced_distances.py`, `_sliced_plans.py` | Sliced_model | random draws, sparse output |
| `weak.py`, `factored.py` | Weak_model | lazy tensors other than the composed plan |
| `da.py` | BaseTransport (fit cost, transform, labels), SinkhornTransport continuous map, sinkhorn_lpl1_mm, sinkhorn_l1l2_gl (f, df), emd_laplace (Da_model), LinearTransport (Gaussian_model) | JCPOTTransport, NearestBrenierPotential, knn/gauss similarities |
| `coot.py` | co_optimal_transport, co_optimal_transport2 (Coot_model) | argument checks, NaN warning |
| `lowrank.py` | cost factors, random and deterministic init, Dykstra, lowrank_sinkhorn, sinkhorn_low_rank_kernel (Lowrank_model) | kmeans init, theory step size, Nystroem |
| `gaussian.py` | mapping, distances, barycenters (fixed point, deterministic gradient), Gaussian GW (Gaussian_model) | stochastic and averaged gradient, logs, warnings |
| `mapping.py` | both joint mappings, Brenier constants, constraints and fit (Mapping_model) | verbose output, solver statistics |
| `bregman/_barycenter.py`, `bregman/_utils.py` | all five histogram barycenters, free_support_sinkhorn_barycenter, jcpot_barycenter (Bary_model) | jax and tf tests, printing, convolutional variants (other file) |
| `bregman/_dictionary.py` | `unmix` (Unmix_model) | warnings, printing |
| `bregman/_empirical.py` | lazy and dense empirical_sinkhorn, empirical_sinkhorn2, divergence, lazy plan indexing (Emp_model) | Nystroem variants, gradients |
| `sliced/_spherical_sliced.py` | — | all |
| `bregman/_convolutional.py` | `_get_convol_img_fn` and the four solvers (Conv_model) | name dispatch, backend tests, weight-count assertion, warnings; squeeze on one-row images |
| `gmm.py` | all functions (Gmm_model) | shape assertions, logs of emd; in-place writes to the initial arrays |
| `bsp/` | `compute_bspot_bijection`, `merge_bijections`, `merge_bijections_c`, `MergeBijections`, `MergePlansNoPar`, `rankPlans`, `evalMatching`, `getInverse`, `partialBSPOT` and its two variants, `computeMatching`, `computeGaussianMatching` | warnings, random generation, Gaussian moments and eigenvectors, the unused rest of the header |
| `backend.py`, `datasets.py`, `dr.py`, `sgot.py`, `gnn/`, `plot.py`, `helpers/`, rest of `bregman/` | — | all |

## Per-property plan

| id | what is modelled | how it is proved |
|----|------------------|------------------|
| C01-C05 | network simplex state machine (init, findEnteringArc, findJoinNode, findLeavingArc, changeFlow, updateTreeStructure, updatePotential, start) of `network_simplex_simple.h`, plus the dense wrapper | state invariants (conservation, non-negativity, tree arcs have zero reduced cost, non-tree arcs carry zero flow) by induction over pivots; LP weak duality for optimality |
| C67 | pivot rule (strongly feasible trees) | every basis fixes flow and potentials; progress order; counting bases |
| C06 | `init` artificial costs, `start` feasibility check | positive: potentials argument under max >= -1; negative: run of the model on a 2x2 instance |
| C07 | `sequence` / reset loop | explicit inverse, counting |
| C08, C09 | `full_bipartitegraph.h`, `sparse_bipartitegraph.h` | index arithmetic; sortedness invariants and binary search |
| C10 | `PackedStateVector` | bit lemmas on N |
| C11-C13 | `_network_simplex.py` pre/post-processing | algebra on finite sums, maxima |
| C14-C17 | `emd_1d_sorted`, `emd_1d` | fuel-free structural recursion; invariants on cumulative sums; Monge exchange via summation by parts |
| C18 | `quantile_function`, `wasserstein_1d` | equality of the two cumulative-sum descriptions |
| C19, C20 | `solver_circle.py` | weighted median is optimal level, monotone coupling for the matching plan, circular distance as min over integers; closed form of the semidiscrete value; refutations at Q |
| C90, C91 | `solver_circle.py` | Minkowski on the embedded points, index computation for the padded quantile; every theta gives a coupling of the two measures (fold of the m+1 shifted atoms), halving argument for termination; `derivative_cost_on_circle` is an arbitrary parameter |
| C21-C25, C70 | `sinkhorn_knopp`, `sinkhorn_log` loops (`Sinkhorn_model.v`) | induction over iterations; Gibbs variational inequality; telescoping KL with a Hellinger bound for convergence; oscillation of the dual variable for C70 |
| C26, C71 | `greenkhorn` | loop invariant; decrease of a bounded potential; refutation of the stopThr guarantee |
| C27 | `sinkhorn_stabilized` | hidden-scaling refinement to the kernel iteration; refutation |
| C28 | `bregman_projection_batch`, `bregman_log_projection_batch` | transposed kernel iteration per element; summed gaps |
| C29 | `solve(grad="last_step")` | last update of sinkhorn_log is idempotent in u |
| C72 | `sinkhorn_epsilon_scaling` | induction over the loop |
| C30, C73, C74 | `sinkhorn_knopp_unbalanced`, its log and `sinkhorn_unbalanced2` | KL tangent inequality at the first-order conditions; sup-norm contraction of the log scalings with rate fi_1 fi_2 (fixed point as limit of a geometric sequence) |
| C31, C75 | `mm_unbalanced` (KL, L2) | log-sum and Cauchy-Schwarz majorisation; explicit decrease per step, hence explicit iteration bound |
| C32 | `sinkhorn_unbalanced_translation_invariant` | equal penalties: steady state rescaled by t meets the first-order conditions; unequal: 1x1 log-linear recursion, invariant interval |
| C76 | `sinkhorn_stabilized_unbalanced` | true scalings u e^(alpha/reg), v e^(beta/reg) follow the plain step; the effect of absorption computed; 1x1 counterexample |
| C77 | `sinkhorn_knopp_unbalanced` with several histograms | columns in lockstep with the plain iteration; 1x1 counterexample for reg_type kl |
| C33-C37, C69 | partial solvers | exchange argument on the extended problem; refutations; Dykstra mass invariant |
| C38-C44 | `optim.py` | polynomial minimisation; loop invariants with arbitrary oracles |
| C45-C48 | `gromov/_utils.py`, `_gw.py`, `_semirelaxed.py`, `_partial.py` | quadruple sum as a bilinear form; expansion; derivatives of finite sums; 1x1 refutation |
| C78-C81 | the conditional gradient solvers of the same files | loop invariant on a convex set of plans, with the carried gradient and the tracked loss |
| C49 | `gromov/_utils.py` update_barycenter_structure, update_barycenter_feature | weighted means; exact quadratic identity, KL tangent; 1x1 refutation |
| C50, C51 | product divergences and cost of `gromov/_utils.py` | linear summation functionals over index sets (vectors and plans at once); 1x1 refutation |
| C82-C85 | block coordinate descent of `gromov/_unbalanced.py`, inner solver a parameter | block problem = objective + constant; induction over rounds; 1x1 refutations |
| C52-C56, C68 | `utils.py` | KKT for the projection; algebra; induction over batches; refutation; state machine |
| C57, C58 | `NorthWestMMGluing`, `_clean_discrete_measure` | induction over the row loop; dictionary as a projection; state invariant of the merge loop |
| C59, C87, C89 | `_barycenter_solvers.py` | free-support solvers: barycentric identity gives descent by the displacement (exact oracle, or network simplex up to its tolerance); quadratic change of variables for the generalized problem; gluing (C57) for generic costs; refutations: weights, Y_init, L2 projection |
| C60, C86, C88 | `dmmot.py` | path invariant: duals feasible below the current multi-index (submodularity of max - min), masses; extension of the duals to the grid for optimality |
| C61, C62, C93, C95, C96 | `stochastic.py` | invariants over arbitrary index sequences; exact split of the primal into semi-dual + KL; double counting over batches; pointwise Fenchel inequality; 2x2 refutation for ASGD |
| C63, C64, C92 | `smooth.py`, L2 branch of `solvers.py` | conjugates of the three column regularizations (attained Fenchel inequality; simplex projections of C52/C68, Gibbs/KL); Lagrangian bound gives weak duality, gap, supergradient and certificate; 2x2 refutation |
| C65, C66, C97 | `regpath.py` (fully relaxed) | block inverse algebra; KKT conditions of the non-negative least squares; homotopy invariant: each entry and reduced cost is positive at the current gamma or non-negative for all smaller ones; Schur complement = squared norm gives the crossing directions; refutations for ties and itmax |
| C94 | gradients of `emd2` and `solve` | dual variables as subgradients of the value function, KL tangent; zero-cost refutation |
| C98-C100 | `sliced/_sliced_distances.py`, `sliced/_sliced_plans.py` | exactness of every slice from C18; Cauchy-Schwarz for the lower bound; composition of couplings and Minkowski for the triangle inequality; monotone matching for the permutation branch; double sum (Chebyshev) for monotonicity in beta; refutations at Q |
| C101, C102 | `weak.py`, `factored.py` | exact quadratic expansion for gradient and convexity; Jensen for the bounds; invariant of the conditional-gradient loop; exact change of the factored objective under a move of the support and telescoping over rounds; compactness of the couplings (`Exist.v`) shows that exact oracles exist |
| C103-C108 | `da.py`, label helpers of `utils.py` | case analysis on labels with explicit nan/inf; normalised rows as convex weights, Jensen; batching lemma of C45; sorted distinct labels; tangent majorisation of the square root; Cauchy-Schwarz per block; bilinear form of the Laplacian; conditional-gradient invariant for any regulariser |
| C109, C110 | `coot.py` | expansion of the quadruple sum under the marginal constraints; loop invariant over alternating exact minimisations; exact second-order expansion in the data; closed-form one-column Sinkhorn run for the refutation; stale value computed with the modelled simplex |
| C111-C115 | `gaussian.py`, LinearTransport of `da.py` | own linear algebra (`Mat.v`): matrix Young inequality 2<X,Y> <= tr(A XX') + tr(A^-1 YY') gives the variational formula of the Bures trace, hence symmetry, triangle inequality, the lower bound over couplings and the barycenter certificate; variance decomposition for gradient descent; Minkowski for the Gaussian GW value |
| C116-C120 | `lowrank.py` | loop invariants of the multiplicative Dykstra iteration (g q1 q2 = eps3, q = v1 v2, exact columns) give the KKT conditions of the KL projection, convexity of KL gives the certificate; derivative of the factored objective; the low rank kernel loop is related step by step to the knopp loop |
| C121-C126 | `bregman/_barycenter.py` | the loops keep sum_s w_s log u_s constant (tilt), plans u_s K v_s have exact first marginals, tangent inequality of x ln x gives the certificate; debiased: tilt of u equals log c, convexity of <d,Kd>; free support: variance identity plus optimality of the entropic plan; jcpot: row sums after the last projection, two-state invariant of the counterexample |
| C127 | `bregman/_sinkhorn.py` | compactness of bounded plans, crossed-ratio form of a scaling passes to the limit, uniqueness, convergence of converged runs from C25 |
| C128-C131 | `gromov/_bregman.py` entropic (fused) GW | loop trace, gradient identity on couplings, three-point identity of the Sinkhorn plan, concavity of the quadratic part for Euclidean structures, Hellinger bound KL >= dist^2/(4 mass) for termination, exchange directions for the converse of stationarity |
| C132 | `gromov/_bregman.py` BAPG | row and column potentials of the half steps, three-point identity on one marginal, loop invariant |
| C133-C134 | `gromov/_bregman.py` barycenters | C129 and C49 alternated, Euclidean class closed under the update; fused version: induction on the loop |
| C135-C138 | `batch/_linear.py`, `batch/_quadratic.py` (Batch_model) | algebra of the factorised tensor; a log-domain projection always ends on an exact column update, so each plan is a diagonal scaling and hence the entropic minimiser for its own marginals; induction on the loops; element-wise simulation of a batch by single problems |
| C139-C140 | `mapping.py`, `MappingTransport` (Mapping_model) | normal equations of a penalised least squares problem are sufficient (convexity); Gaussian kernel positive semidefinite via the power series; conditional-gradient descent lemma of C101/C40; co-coercivity argument for the interpolation constraints |
| C141-C142 | `emd_1d_dual_backprop`, `uot_1d` (Uot1d_model) | telescoping sums over the merged sorted cumulative weights (Euler identity); Monge costs for feasibility; generalised KL conjugate for weak duality; the translation is a maximiser by the arithmetic-geometric inequality |
| C143 | `partial_wasserstein_1d`, partial_cython.pyx (Pw1d_model) | the cost of a balanced selection is the length-weighted absolute excess; exchange argument along the difference path of two selections, so extending by the cheapest neighbouring free pair keeps optimality; chain arrays represent maximal runs; the cumulated chain costs give the marginal; fractional plans by averaging over rounding thresholds (Hermite identity) |
| C144 | `gmm.py` maps, loss, densities (Gmm_model) | entries are squares of the metric of C113; gluing of plans (Wp) gives the triangle inequality, a class-wise product plan the zero case; exp(logpdf differences) turns the denominators into posteriors; row-major index of the draw decoded |
| C145 | `gmm_barycenter_fixed_point` (Gmm_model) | loop invariants of the two nested update loops; marginals of the plans; completion of the square for the means; a two-component run with unequal weights |
| C146 | `sliced_unbalanced_ot`, `unbalanced_sliced_ot` (Usot_model, on Uot1d_model and Sliced_model) | invariant: the potentials are averages of feasible potentials of the directions; weak duality per direction; relabelling of sorted plans; simulation of the two loops for one direction |
| C147 | `barycenter_unbalanced_sinkhorn`, `_stabilized`, `barycenter_unbalanced` (Ubary_model) | weak duality entry by entry (Young), exact duality gap of a scaling step, ascent of the dual at each half step and a bound of the gap by the ascent (summable gaps); the stabilized loop is simulated in the variables u e^(alpha/reg), v e^(beta/reg) |
| C148 | `_partitioned`, `get_graph_partition`, `get_graph_representants`, `format_partitioned_graph`, both front ends (Quant_model) | sums over a concatenation split by block; each block is C17 scaled by the global entry; the order of the rows is the unique listing by label then number; refutations run at Q |
| C149 | `get_sinkhorn_lazytensor`, `empirical_sinkhorn`, `empirical_sinkhorn2`, `empirical_sinkhorn_divergence` (Emp_model) | concatenated batches are the whole range; one lazy iteration is one Sinkhorn half-step pair of the transposed problem in log form, so the gap argument of C22 and the limit argument of C23 apply; refutations by one iteration on two points |
| C150 | `GW_distance_estimation`, `pointwise_gromov_wasserstein`, `sampled_gromov_wasserstein` (Estim_model) | all rows drawn without replacement form a permutation; finite expectations factor over independent draws; loop invariant for the best plan; 1-D plans by C17; refutations on one- and two-point spaces |
| C151 | `MergePlansNoPar`, `rankPlans`, `evalMatching`, `getInverse`, `merge_bijections(_c)` (Bsp_model) | cycles of the relative permutation found by the visited loop; invariant: the two plans are exchanged on a union of cycles, so the current plan stays a bijection with its inverse and its costs; sums over visited cycles; pair exchanges lower the sum |
| C152 | `partialBSPOT`/`gaussianPartialBSPOT`/`partialOrthogonalBSPOT`, `computeMatching`, `compute_bspot_bijection` (Bsp_model) | induction on the recursion tree with a relation kept by every split; comonotone lists and Monge costs on the line; counting argument for similar clouds; merge by C151 |
| C153 | `_get_loss_unbalanced`, `lbfgsb_unbalanced(2)`, `get_parameter_pair` (Lbfgs_model) | tangent inequality of u ln u - u in the shifted variable p/q + eps for each logarithmic term, half squares and |.| for the others; sum against the projected gradient; strict monotonicity for uniqueness; directional derivatives for the gradient |
| C154 | `unmix` (Unmix_model) | positivity invariant; weighted AM-GM for the mass; fixed point of projC for alpha = 0 and 1; the invariant alpha log u + (1-alpha) log w = 0 of the row scalings and the tangent inequality of x ln x - x for optimality; induction on the loop |
| C155 | `convolutional_barycenter2d`, `convolutional_barycenter2d_debiased`, both methods (Conv_model) | images flattened to histograms on the grid; the steps are those of C121-C124 with a shift for stabThr; certificates reused from Bary_more/Bary_deb; exponential series for positive semi-definiteness (Conv_psd); induction on the loops |
| C156 | `solve_gromov` (Sgromov_model), called solvers as a parameter | case analysis of the dispatch into one record of arguments (Sgromov_proofs.dispatch); uniqueness of entropic plans (C127) and of row-wise softmax plans for the refutations; existence of suitable solvers by choice |
| C157 | `solve` (Solve_model), called solvers as a parameter | case analysis of the dispatch; on couplings the Kullback-Leibler divergence is an entropy plus a linear cost, uniqueness of entropic plans (C127) for the refutation; pointwise strict concavity of the dual for the potentials; existence of suitable solvers by choice |
| C158 | `solve_sample` (Sample_model), called solvers as a parameter | case analysis of the dispatch on top of C157; uniqueness of entropic plans (C127) for the agreement of lazy and dense; explicit descent step for the quadratic regularisation; existence of suitable solvers by choice |
| C159 | `semi_relaxed_path`, `semi_relaxed_next_gamma`, `construct_augmented_H` (Semipath_model) on top of Regpath_model | saddle point matrices: invariant that the Schur updates keep the inverse of the augmented matrix of the active set (no zero pivot at an event); plans affine in gamma between events; KKT conditions by induction on the loop; convexity; rational computation for the ties |
| C160 | `lowrank_gromov_wasserstein_samples`, `_flat_product_operator` (Lrgw_model) on top of Lowrank_model | factored products rewritten as sums (C1 C2 = -4 A P B), expansion of the GW objective, derivative along feasible directions, induction on the loop for the stale weights and the stopping test, C116/C117/C119 machinery for the inner solver |
| C161 | `barycenter` of `ot.lp` (Lpbar_model): c, A_eq, b_eq from block matrices | rows of block matrices by induction on the number of blocks; program = row sums, column sums; the dropped last columns from conservation of mass; encoding of competitors; LP solver as a hypothesis |
| C162 | linear unmixings of `gromov/_dictionary.py` (Gdict_model): gradient, direction, line search, both loops | exact quadratic expansion of the objective along a segment; the step minimises the parabola; loop invariants; convexity for reg <= 0; rational counterexample for asymmetric C |

## Assumptions of each theorem

Output of `Print Assumptions`, grouped (short names; all from `Coq.Reals` / `Coq.Logic`).

* no axioms (closed under the global context):
  C06_negative_costs_refuted, C07_arc_mixing, C08_full_bipartite, C09_sparse_graph, C10_packed_states, C100_unequal_weights_refuted, C102_no_iteration, C103_limit_max_refuted, C103_missing_attribute, C104_inverse, C105_inverse, C109_errors, C109_stale_value_refuted, C114_no_iterations, C116_unbound, C119_alpha_error, C134_features_never_updated, C135_self, C135_metric, C135_default_refuted, C136_errors, C139_two_transforms_refuted, C14_emd_1d_sorted_safe, C14_empty_input_refuted, C142_unsorted_refuted, C143_excess_refuted, C146_dims, C147_errors, C147_exit, C148_representants, C148_representants_refuted, C148_networkx_refuted, C148_order_refuted, C149_batches, C149_errors, C149_stopping, C149_warn, C149_lazy_plan, C149_last_row_refuted, C150_swap, C150_sample_sizes_refuted, C151_bijection, C151_fewer_refuted, C151_ignored_refuted, C151_errors, C152_bijection, C152_errors, C152_initial_dtype_refuted, C152_no_plan_refuted, C153_errors, C153_list_refuted, C154_stop, C154_shapes, C155_zero, C155_stop, C159_ties_refuted, C160_refusals, C161_refusals, C162_asymmetric_refuted, C19_w1_circle_rotation_refuted, C20_semidiscrete_permutation_refuted, C22_stopping, C26_within_threshold_refuted, C29_one_iteration_refuted, C33_negative_cost_refuted, C35_early_exit_refuted, C36_lagrange_log, C36_log_dropped_refuted, C39_unnormalised_default_start_refuted, C41_cg_accounting, C44_zero_linear_cost_refuted, C54_not_additive_refuted, C55_weights_by_sample_refuted, C55_index_error_refuted, C56_history, C58_moves_less_than_tol_refuted, C59_weights_refuted, C59_initial_point_refuted, C72_epsilon_scaling_always_warns, C80_start_mass_refuted, C84_eps_samp_ignored, C86_empty_last_bin_refuted, C89_l2_projection_refuted, C90_lcot_quantile_refuted, C95_sgd_local, C97_ties_refuted, C97_itmax_refuted, C99_unequal_weights_refuted, C99_unnormalised_refuted
* `functional_extensionality_dep`, `sig_forall_dec`:
  C01_emd_coupling, C01_emd_coupling_any_cost, C02_emd_optimal, C03_emd_duals, C04_emd_sparse, C05_emd_interrupted, C06_emd_never_infeasible, C101_gradient, C101_certificate, C101_run, C103_labels_ignored, C103_limit_drifts, C104_zero_row_refuted, C104_out_of_sample, C104_consistent, C105_transform_labels, C108_regulariser, C108_displacement, C108_run, C11_zero_weight_points, C11_emd_wrapper_correct, C111_mapping, C111_moments, C111_optimal, C111_inverse, C114_mean, C119_init_deterministic, C119_init_random, C12_null_weight_duals, C13_center_ot_dual, C134_one_iteration, C138_detect, C139_linear, C140_constants, C140_truth_feasible, C140_bounds, C140_interpolates, C140_fit, C143_all_partial_problems, C143_indices, C143_marginals, C143_excess, C144_component_map, C145_components, C145_mean, C145_best_means, C145_outcome, C145_euclidean_refuted, C148_solver, C148_samples_fused_refuted, C150_estimate, C150_zero_weight_refuted, C150_map_plan, C150_unbiased_refuted, C150_loss_order_refuted, C150_expectation, C150_gradient, C150_gradient_spec, C150_sampled, C150_sign, C151_cost, C151_wrapper, C152_solver, C152_similar, C152_gaussian_line_refuted, C155_weights, C156_reports, C156_fused_plan_ignores_reg, C156_refusals, C156_reg_type_ignored, C156_options, C157_reports, C157_ignored, C157_method, C157_refusals, C158_methods_ignore, C158_weights_ignored, C158_default_reg, C158_refusals, C159_start_invertible, C159_index_error, C159_stationary, C159_optimal, C160_rescale, C161_barycenter, C161_unequal, C161_feasible, C162_gradient, C162_step, C162_inner, C162_feature_cost, C162_unmixing, C162_no_iteration, C20_semidiscrete_sorted, C20_semidiscrete_uniform, C20_semidiscrete_uniform_invariant, C21_knopp_rows, C26_greenkhorn_bookkeeping, C28_batch, C33_partial_mass, C33_partial_answers, C34_partial_optimal, C35_lagrange_optimal, C37_entropic_partial_mass, C38_quad_linesearch, C39_cg_feasible, C39_cg_default_start, C40_cg_descends, C41_cg_exit, C42_armijo, C43_semirelaxed_oracle, C44_partial_oracle, C45_tensor_factorisation, C45_semirelaxed_and_partial, C46_gradients, C46_line_search, C47_square_discrepancy, C47_isometry_costs_zero, C49_structure_square, C49_features, C52_proj_simplex, C52_proj_simplex_unique, C54_reduce_lazytensor, C55_sparse_ot_dist, C57_north_west_gluing, C58_merge_is_image, C59_uniform_weights_exact, C59_uniform_descent, C59_weights_only_through_A, C60_greedy_optimal, C65_complement_schur_add, C65_complement_schur_remove, C65_first_block, C66_compute_transport_plan, C67_emd_terminates, C68_sparse_projection, C78_fused_gw, C79_semirelaxed_gw, C80_partial_gw, C81_stalled_is_stationary, C86_dual_value, C86_dual_is_subgradient, C87_free_support_descent, C87_step_with_network_simplex, C88_renormalize, C88_optimize_returns_histograms, C89_true_fixed_point_descent, C90_lcot_quantile_shifted, C94_emd2_gradients, C94_mass_changing_refuted, C96_dual_quadratic, C97_fully_relaxed_path
* `functional_extensionality_dep`, `sig_forall_dec`, `sig_not_dec`:
  C101_bounds, C102_factored, C102_logged_costs, C104_barycentric, C104_continuous, C106_mm_descends, C107_group_lasso, C107_exact, C112_lower, C112_attained, C113_zero, C113_symmetric, C113_triangle, C114_certificate, C114_descent, C114_unnormalised_refuted, C115_value, C115_metric, C115_mapping, C115_covariance, C115_skewness_refuted, C120_refines, C120_plan, C138_default_start, C139_kernel, C139_transform, C144_pdf, C144_ground_cost, C144_zero, C144_symmetric, C144_bary, C144_rand, C144_plan_density, C160_structure, C28_batch_converged, C53_distances, C56_standard, C56_minmax, C56_l2, C61_sag_table, C63_smooth_dual_defined, C85_rescaled_mass, C90_lcot_pseudometric, C93_asgd_average, C95_batch_unbiased, C96_same_plan, C98_projections_unit
* `classic`, `functional_extensionality_dep`, `sig_forall_dec`, `sig_not_dec`:
  C100_expected_plan, C100_expected_plan_monotone, C109_descent, C109_zero, C110_data_gradients, C110_attached, C110_weight_gradient_refuted, C116_factors, C116_returns, C116_lower_bound_refuted, C117_certificate, C117_exact, C117_mirror_step, C117_gradient, C118_value, C118_rescaled_refuted, C119_returns, C119_marginals, C121_certificate, C121_uniform, C121_weights_refuted, C122_log, C123_stabilized, C123_absorption_refuted, C124_fixed_point, C124_certificate, C124_log, C124_log_debias, C125_free_support_sinkhorn_descent, C125_one_measure_refuted, C126_shared_proportions, C126_labels, C126_errors, C126_minimiser_refuted, C126_labels_refuted, C128_steps, C128_gw_is_fused, C128_losses, C129_descent, C129_stops, C130_fixed_points, C130_stop_certificate, C131_warmstart_same_plan, C131_warmstart_scale_refuted, C132_half_steps, C132_columns, C132_columns_gw, C132_no_iteration, C132_fixed_plans, C132_gradient, C132_value, C132_optimal_not_fixed_refuted, C133_block_descent, C133_stop, C134_features_refuted, C135_sqeuclidean, C135_euclidean, C135_minkowski, C135_loss, C136_solve, C136_solvers_agree, C136_independent, C137_loss, C137_flag, C137_kl_arguments_refuted, C137_stale_constant_refuted, C138_value, C138_steps, C138_errors, C141_duals, C141_ties_refuted, C142_marginals, C142_certificate, C142_bracket, C142_axis_refuted, C142_ties_refuted, C144_triangle, C146_usot, C146_suot, C146_balanced, C146_one_direction, C146_axis_refuted, C147_plain, C147_converges, C147_stab, C147_stab_converges, C147_tau_refuted, C148_partitioned, C148_construction, C148_graph, C148_samples, C148_errors, C148_alpha_zero_refuted, C149_plan, C149_converges, C149_loss, C149_swapped, C149_lazy_differs_refuted, C149_warm, C149_warn_refuted, C149_divergence, C15_emd_1d_sorted_coupling, C15_emd_1d_rescaled_coupling, C150_best, C150_one_point_refuted, C150_pointwise, C150_threshold, C152_line, C153_value, C153_optimal, C153_exact, C153_gap, C153_unique, C153_gradient, C153_gradient_refuted, C153_l2_iff, C153_tv_refuted, C153_total, C153_entropy_refuted, C154_mass, C154_prior_only, C154_data_only, C154_alpha_refuted, C154_identity, C155_convolution, C155_sinkhorn, C155_log, C155_debiased, C155_debiased_log, C155_debias_term, C156_solves, C156_semirelaxed_reg_refuted, C157_solves, C157_potentials, C158_dense, C158_lazy_exact, C158_unbalanced_refuted, C158_weights_refuted, C158_methods_return, C16_emd_1d_sorted_monge_optimal, C17_emd_1d_optimal_in_callers_order, C160_mirror_step, C160_iteration, C160_gradient, C160_value, C160_marginals, C160_returns, C160_step_size, C160_error, C160_stopped, C18_wasserstein_1d_optimal, C18_wasserstein_1d_equals_emd2_1d, C19_w1_circle_optimal, C19_w1_circle_rotation, C21_log_rows, C23_log_agrees, C23_zero_iterations_refuted, C24_fixed_point_optimal, C25_converges, C25_log_converges, C27_stabilized, C27_converged_not_absorbed, C27_absorption_refuted, C28_batch_terminates, C28_batch_log_agrees, C29_last_step, C30_fixed_point_optimal, C30_converges, C30_gap, C31_kl_decreases, C31_l2_decreases, C32_equal_penalties, C32_refuted, C37_entropic_partial_gap, C37_fixed_point_optimal, C47_kl_discrepancy, C48_square_gradients, C48_kl_gradients, C48_partial_gradient_refuted, C49_structure_kl, C49_unnormalised_weights_refuted, C50_joint_cost, C50_independent_cost_balanced, C50_independent_cost_refuted, C51_div_to_product, C51_div_between_product, C61_sag_stationary, C62_semi_dual_plan, C62_c_transform_best, C63_smooth_dual, C63_smooth_dual_supergradient, C64_l2_plan_minimises_half, C64_l2_value_refuted, C69_logscale_same_iterates, C70_error_controls_objective, C71_greenkhorn_terminates, C73_total_cost, C73_refuted, C74_terminates, C75_kl_stops, C75_l2_stops, C76_last_step, C76_refuted, C77_columns, C77_refuted, C82_block_problems_exact, C82_objective_never_increases, C82_fixed_point_blockwise_optimal, C83_l2_block_problem_refuted, C84_sample_problem_refuted, C85_equal_mass_refuted, C91_wasserstein_circle_upper, C92_smooth_semi_dual, C92_smooth_semi_dual_supergradient, C92_semi_dual_dominates, C93_asgd_bias_refuted, C94_solve_entropy_gradients, C94_solve_kl_gradients, C94_solve_kl_gradient_refuted, C96_dual_entropic, C96_entropic_objective, C98_sliced_distances, C98_symmetric, C98_triangle, C98_zero, C99_sliced_plans, C99_min_sliced_plan
* `classic`, `dependent_unique_choice`, `functional_extensionality_dep`, `relational_choice`, `sig_forall_dec`, `sig_not_dec`:
  C127_runs_converge, C127_exists_unique, C149_limit, C149_divergence_limit, C156_solvers_exist, C156_fused_reg_refuted, C157_solvers_exist, C157_reference_refuted, C158_lazy_entropic, C158_lazy_reg_type_refuted, C158_solvers_exist
