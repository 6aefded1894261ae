{"id": "C01", "title": "emd plan is a coupling", "statement": "When ot.emd (network simplex) finishes with status OPTIMAL, the returned plan is entrywise non-negative, its row sums are a and its column sums are b.", "quantifier": "every problem size, every cost matrix, every pair of weight vectors with equal mass, every number of pivots", "why_tests_cant": "The plan is produced by an unbounded sequence of data-dependent pivots; tests sample a few random matrices, not all pivot sequences.", "anchors": ["ot/lp/network_simplex_simple.h:NetworkSimplexSimple::start/changeFlow/init", "ot/lp/EMD_wrapper.cpp:EMD_wrap", "ot/lp/_network_simplex.py:emd"]}
{"id": "C02", "title": "emd plan is cost-optimal", "statement": "When the solver reports OPTIMAL, the cost of the returned plan is at most the cost of any other coupling of (a,b) (up to the documented epsilon of the reduced-cost test times the transported mass).", "quantifier": "every problem size, cost matrix and competing coupling", "why_tests_cant": "The competing couplings form a continuum; a test can only compare with one other solver.", "anchors": ["ot/lp/network_simplex_simple.h:BlockSearchPivotRule::findEnteringArc/start", "ot/lp/_network_simplex.py:emd"]}
{"id": "C03", "title": "emd dual potentials certify the value", "statement": "On OPTIMAL the returned potentials (u,v) satisfy u_i+v_j <= M_ij (up to epsilon) with equality wherever the plan has mass, so <u,a>+<v,b> equals the returned cost.", "quantifier": "every problem on which the solver reports OPTIMAL", "why_tests_cant": "Requires an invariant (tree arcs have zero reduced cost) across all pivots.", "anchors": ["ot/lp/network_simplex_simple.h:updatePotential/findEnteringArc", "ot/lp/EMD_wrapper.cpp:extract_dense_full_support", "ot/lp/_network_simplex.py:emd"]}
{"id": "C04", "title": "emd plan is sparse", "statement": "The plan returned by emd has at most n+m-1 strictly positive entries (for positive weights), whatever the input and wherever the iteration limit stops the solver.", "quantifier": "all inputs and all stopping points", "why_tests_cant": "The bound follows from the spanning-tree invariant which must hold after every pivot.", "anchors": ["ot/lp/network_simplex_simple.h:updateTreeStructure"]}
{"id": "C05", "title": "interrupted emd never over-ships", "statement": "If emd stops on the iteration limit, the partial plan is still non-negative with row sums <= a and column sums <= b.", "quantifier": "every iteration limit (stopping point) and every input", "why_tests_cant": "There are unboundedly many stopping points.", "anchors": ["ot/lp/network_simplex_simple.h:start", "ot/lp/emd_wrap.pyx:check_result"]}
{"id": "C06", "title": "feasible problems are never declared infeasible", "statement": "emd with a dense cost matrix whose maximum is >= -1 and equal masses never returns the INFEASIBLE status when it terminates; for cost matrices with all entries below -1 it can (a defect of the artificial cost).", "quantifier": "all dense cost matrices", "why_tests_cant": "Depends on the magnitude of the artificial cost relative to every possible path cost.", "anchors": ["ot/lp/network_simplex_simple.h:init (ART_COST)", "ot/lp/network_simplex_simple.h:setDenseCostMatrix", "ot/lp/network_simplex_simple.h:start"]}
{"id": "C07", "title": "arc mixing is a bijection", "statement": "The internal permutation of arcs used by the solver assigns every arc exactly one slot, so costs and flows read back for cell (i,j) are those of cell (i,j), whatever the number of arcs.", "quantifier": "every arc count", "why_tests_cant": "The mixing stride depends on sqrt of the arc count with boundary cases at every remainder.", "anchors": ["ot/lp/network_simplex_simple.h:sequence", "ot/lp/network_simplex_simple.h:reset"]}
{"id": "C08", "title": "full bipartite arc numbering round-trips", "statement": "For the dense graph, source(arc(i,j))=i, target(arc(i,j))=j, arc ids are exactly 0..n*m-1, and in/out iteration visits each incident arc exactly once.", "quantifier": "all n, m and all arcs", "why_tests_cant": "Division/modulo index arithmetic must hold for all sizes.", "anchors": ["ot/lp/full_bipartitegraph.h:FullBipartiteDigraphBase"]}
{"id": "C09", "title": "sparse graph lookup is exact", "statement": "For the sparse (CSR) graph built from an edge list, looking up (s,t) returns an arc with that source and target if the edge is present and INVALID otherwise; in/out iteration enumerates exactly the incident edges.", "quantifier": "every edge list", "why_tests_cant": "Binary search plus counting sort over arbitrary lists.", "anchors": ["ot/lp/sparse_bipartitegraph.h:SparseBipartiteDigraph"]}
{"id": "C10", "title": "packed arc states behave like an array", "statement": "Writing a 2-bit packed arc state and reading any index returns the written value at that index and the previous value elsewhere.", "quantifier": "all vectors, indices and states", "why_tests_cant": "Bit packing has boundary cases at every position in the byte.", "anchors": ["ot/lp/network_simplex_simple.h:PackedStateVector"]}
{"id": "C11", "title": "zero-weight points do not change the problem", "statement": "Dropping zero-weight rows/columns before solving and padding back yields a coupling of the original weights with the same cost, and optimal for the original problem.", "quantifier": "all weight vectors with zeros anywhere, all costs", "why_tests_cant": "Quantifies over all couplings of the full problem.", "anchors": ["ot/lp/EMD_wrapper.cpp:EMD_wrap", "ot/lp/_network_simplex.py:_compute_active_subset/_inflate_from_active_subset"]}
{"id": "C12", "title": "null-weight dual completion is feasible", "statement": "estimate_dual_null_weights turns potentials that are feasible on the support into potentials feasible for every (i,j), without changing the dual objective value.", "quantifier": "all potentials, all supports, all cost matrices", "why_tests_cant": "Universally quantified inequalities over all pairs.", "anchors": ["ot/lp/_network_simplex.py:estimate_dual_null_weights"]}
{"id": "C13", "title": "centering preserves duality", "statement": "center_ot_dual keeps alpha_i+beta_j for every pair, makes <alpha,a>=<beta,b>, and keeps the dual objective when the masses agree.", "quantifier": "all potentials and all weights of positive total mass", "why_tests_cant": "Algebraic law over all reals.", "anchors": ["ot/lp/_network_simplex.py:center_ot_dual"]}
{"id": "C14", "title": "emd_1d_sorted is memory safe and bounded for any arithmetic", "statement": "For non-empty inputs the 1D solver loop terminates after at most n+m-1 steps, only reads valid indices of the inputs and writes at most n+m-1 distinct cells forming a monotone path, even if the float comparisons behave arbitrarily (NaN). On an empty histogram the compiled function reads element 0 of an empty array.", "quantifier": "all inputs, all comparison outcomes", "why_tests_cant": "boundscheck is off; out-of-bounds depends on rounding of running sums, which no finite test covers.", "anchors": ["ot/lp/emd_wrap.pyx:emd_1d_sorted"]}
{"id": "C15", "title": "emd_1d returns a coupling", "statement": "For non-negative weights of equal total mass the 1D plan has exactly the given marginals.", "quantifier": "all lengths and weights", "why_tests_cant": "Invariant of a two-pointer loop over all inputs.", "anchors": ["ot/lp/emd_wrap.pyx:emd_1d_sorted", "ot/lp/solver_1d.py:emd_1d"]}
{"id": "C16", "title": "emd_1d is optimal for convex costs", "statement": "For sorted supports and a cost h(|x-y|) with the Monge property (in particular |x-y|^p, p>=1) the 1D plan has minimal cost among all couplings.", "quantifier": "all supports, weights, couplings", "why_tests_cant": "Competing couplings form a continuum.", "anchors": ["ot/lp/emd_wrap.pyx:emd_1d_sorted", "ot/lp/solver_1d.py:emd_1d/emd2_1d"]}
{"id": "C17", "title": "emd_1d is expressed in the caller's order", "statement": "The plan returned by emd_1d refers to the caller's sample order: mass at (i,j) is the mass between x_i and y_j, for any (unsorted) input order.", "quantifier": "all permutations of inputs", "why_tests_cant": "All permutations.", "anchors": ["ot/lp/solver_1d.py:emd_1d"]}
{"id": "C18", "title": "wasserstein_1d agrees with the optimal 1D cost", "statement": "wasserstein_1d (quantile formula) equals the cost of the monotone coupling, hence the optimal transport cost.", "quantifier": "all sorted inputs with equal mass", "why_tests_cant": "Two independent algorithms must agree on all inputs.", "anchors": ["ot/lp/solver_1d.py:wasserstein_1d/quantile_function"]}
{"id": "C19", "title": "circular W1 is exact and rotation invariant when a sample sits at the cut", "statement": "wasserstein1_circle must return the optimal transport cost for the arc length, whatever the point where the circle is cut: no coupling is cheaper, some coupling attains it, and rotating both measures does not change it. This holds whenever some sample has value 0 modulo 1; the implementation omits the arc from 0 to the first sample, so it fails in general ({0.3} against {0.95} gives 0.05; rotated by -0.3 it gives 0.35).", "quantifier": "all pairs of measures on the circle and all rotations", "why_tests_cant": "Rotations form a continuum; the bug only shows when the level median is non-zero.", "anchors": ["ot/lp/solver_circle.py:wasserstein1_circle"]}
{"id": "C20", "title": "semidiscrete circular W2 ignores sample order and rotation for default weights", "statement": "With default weights semidiscrete_wasserstein2_unif_circle equals 1/12 - 1/2 sum_ij w_i w_j d_ij (1 - d_ij), d the arc length, hence is invariant under permuting the samples and under rotation. With explicit weights this holds when the samples are already sorted; otherwise the weights are not re-sorted and a simultaneous permutation of samples and weights changes the value.", "quantifier": "all permutations of samples and weights", "why_tests_cant": "All permutations.", "anchors": ["ot/lp/solver_circle.py:semidiscrete_wasserstein2_unif_circle"]}
{"id": "C21", "title": "Sinkhorn plans have exact column/row marginal on the last-updated side", "statement": "After every iteration of sinkhorn_knopp (and hence at whichever iteration it stops) the plan diag(u)K diag(v) has row sums exactly a; after sinkhorn_log likewise.", "quantifier": "all positive kernels, weights, iteration counts", "why_tests_cant": "Unbounded iteration counts and inputs.", "anchors": ["ot/bregman/_sinkhorn.py:sinkhorn_knopp/sinkhorn_log"]}
{"id": "C22", "title": "Sinkhorn stopping certificate", "statement": "If sinkhorn_knopp leaves its loop without warning, the reported error is below stopThr and the column marginal of the returned plan violates b by less than stopThr (l2 norm).", "quantifier": "all inputs and all iteration counts", "why_tests_cant": "The check is performed only every 10th iteration; must hold for every exit path.", "anchors": ["ot/bregman/_sinkhorn.py:sinkhorn_knopp"]}
{"id": "C23", "title": "log-domain and kernel Sinkhorn agree", "statement": "sinkhorn_log and sinkhorn_knopp produce the same plan after the same number of iterations in exact arithmetic.", "quantifier": "all inputs, all iteration counts", "why_tests_cant": "Induction over iterations.", "anchors": ["ot/bregman/_sinkhorn.py:sinkhorn_knopp/sinkhorn_log"]}
{"id": "C24", "title": "Sinkhorn fixed points are the entropic optimum", "statement": "Any plan of the form diag(u)K diag(v) with K=exp(-M/reg) and marginals (a,b) is the unique minimiser of <M,P> + reg*sum P log P over couplings.", "quantifier": "all couplings", "why_tests_cant": "Continuum of competitors.", "anchors": ["ot/bregman/_sinkhorn.py:sinkhorn"]}
{"id": "C25", "title": "Sinkhorn always converges", "statement": "For positive weights of equal mass and finite costs, the marginal error of the Sinkhorn iterates tends to zero, so for every stopThr > 0 a large enough numItermax makes the loop stop without warning.", "quantifier": "all inputs, all tolerances", "why_tests_cant": "Asymptotic statement over unbounded iterations.", "anchors": ["ot/bregman/_sinkhorn.py:sinkhorn_knopp"]}
{"id": "C26", "title": "greenkhorn bookkeeping is exact", "statement": "Throughout greenkhorn the incrementally updated plan equals diag(u)K diag(v) and the incrementally updated violations equal the true marginal violations. At exit without warning every row and column is within 2*stopThr; stopThr itself is not guaranteed because the test looks at the violations before the last update.", "quantifier": "all inputs and all greedy choices", "why_tests_cant": "Incremental updates across unbounded iterations.", "anchors": ["ot/bregman/_sinkhorn.py:greenkhorn"]}
{"id": "C27", "title": "stabilised Sinkhorn absorption leaves the plan unchanged", "statement": "sinkhorn_stabilized returns a plain Sinkhorn iterate after some k iterations, unless its last iteration absorbed the scalings: then the represented plan is divided by n*m (the scalings are reset to 1/dim instead of 1). An exit without warning, for small tolerances, is never of the second kind; an exit by exhausting numItermax can be.", "quantifier": "all states at which absorption triggers", "why_tests_cant": "Only visible if the loop stops right after an absorption.", "anchors": ["ot/bregman/_sinkhorn.py:sinkhorn_stabilized"]}
{"id": "C28", "title": "batched Sinkhorn meets tolerance for every element", "statement": "bregman_projection_batch returns plans with exact column marginals for every batch element, if it stops early the row error of every element is below tol, a large enough max_iter always makes it stop early, and bregman_log_projection_batch returns the same plans at the same iteration.", "quantifier": "all batches and iteration counts", "why_tests_cant": "Coupled stopping over arbitrary batches.", "anchors": ["ot/batch/_utils.py:bregman_projection_batch/bregman_log_projection_batch"]}
{"id": "C29", "title": "grad='last_step' satisfies the other marginal", "statement": "ot.solve(..., grad='last_step') with max_iter >= 2 returns a plan whose column marginal is exactly b (all other modes have the row marginal exact): recomputing u from v leaves u unchanged, only v moves. max_iter = 1 passes the argument check and then fails on an unbound variable.", "quantifier": "all inputs and iteration limits", "why_tests_cant": "All inputs; the failing limit is not in any test.", "anchors": ["ot/solvers.py:solve"]}
{"id": "C30", "title": "unbalanced Sinkhorn fixed points are optimal", "statement": "Scalings that one more iteration of sinkhorn_knopp_unbalanced leaves unchanged give the unique minimiser of <M,P>+reg*KL(P|c)+reg_m1*KL(P1|a)+reg_m2*KL(P^T1|b) over all non-negative plans (a marginal with infinite penalty being a constraint). With at least one finite penalty the iterates converge to it from every positive warm start, at a geometric rate known in advance, and every returned plan has an explicit optimality gap.", "quantifier": "all non-negative plans, all positive weights, costs, penalties, warm starts, stopping thresholds and iteration counts", "why_tests_cant": "Continuum of competitors.", "anchors": ["ot/unbalanced/_sinkhorn.py:sinkhorn_knopp_unbalanced"]}
{"id": "C31", "title": "MM unbalanced iterations decrease the objective", "statement": "Every iteration of mm_unbalanced keeps the plan non-negative and does not increase the documented objective (KL and L2 divergences, ignoring the 1e-16 guard).", "quantifier": "all inputs and iterations", "why_tests_cant": "Inequality over all states.", "anchors": ["ot/unbalanced/_mm.py:mm_unbalanced"]}
{"id": "C32", "title": "translation-invariant Sinkhorn solves the unbalanced problem", "statement": "sinkhorn_unbalanced_translation_invariant should solve the same problem as sinkhorn_knopp_unbalanced. With reg_m1 = reg_m2 every steady state gives the unique minimiser; with reg_m1 != reg_m2 it does not (there are inputs for which every returned plan, whatever the threshold and the number of iterations, is away from the minimiser by a fixed amount).", "quantifier": "all parameters, thresholds and iteration counts", "why_tests_cant": "Tests use equal marginal penalties.", "anchors": ["ot/unbalanced/_sinkhorn.py:sinkhorn_unbalanced_translation_invariant"]}
{"id": "C33", "title": "partial_wasserstein transports exactly m", "statement": "partial_wasserstein returns a non-negative plan with row sums <= a, column sums <= b and total mass exactly m, provided M_ij + 2 max(M) > 0 for all pairs; without that condition it can transport more than m.", "quantifier": "all costs, weights, m", "why_tests_cant": "Relies on an exchange argument over all optimal extended plans.", "anchors": ["ot/partial/partial_solvers.py:partial_wasserstein"]}
{"id": "C34", "title": "partial_wasserstein is optimal", "statement": "When M_ij + 2 max(M) > 0 for all pairs, the returned plan has minimal cost among all sub-couplings of mass m, up to the solver tolerance.", "quantifier": "all sub-couplings", "why_tests_cant": "Continuum of competitors.", "anchors": ["ot/partial/partial_solvers.py:partial_wasserstein"]}
{"id": "C35", "title": "partial_wasserstein_lagrange is optimal", "statement": "The returned plan minimises <gamma, M - reg_m> over all sub-couplings, up to the solver tolerance, for non-negative costs; the early exit reg_m < -max(M) returns the zero plan, which is not a minimiser when some cost is below reg_m.", "quantifier": "all sub-couplings", "why_tests_cant": "Continuum of competitors.", "anchors": ["ot/partial/partial_solvers.py:partial_wasserstein_lagrange"]}
{"id": "C36", "title": "partial_wasserstein_lagrange honours log", "statement": "With log=True the function returns a (plan, log) pair on every path except the early exit reg_m < -max(M), where it returns the bare plan.", "quantifier": "all inputs", "why_tests_cant": "Path coverage over all inputs.", "anchors": ["ot/partial/partial_solvers.py:partial_wasserstein_lagrange"]}
{"id": "C37", "title": "entropic partial plan has mass m and a readable optimality gap", "statement": "entropic_partial_wasserstein returns a positive plan whose total mass is exactly m after any number of Dykstra iterations; its suboptimality for <M,P> + reg sum P log P among sub-couplings of mass m is at most reg * sum_i log(q1_i)(a_i - row_i) + reg * sum_j log(q2_j)(b_j - col_j), so a fixed point of the iteration is optimal.", "quantifier": "all inputs and iteration counts", "why_tests_cant": "Unbounded iterations.", "anchors": ["ot/partial/partial_solvers.py:entropic_partial_wasserstein"]}
{"id": "C38", "title": "quadratic line search is exact", "statement": "solve_1d_linesearch_quad returns a minimiser over [0,1] of a t^2 + b t for every a, b.", "quantifier": "all real coefficients", "why_tests_cant": "All reals with boundary cases.", "anchors": ["ot/optim.py:solve_1d_linesearch_quad"]}
{"id": "C39", "title": "conditional gradient stays feasible", "statement": "Conditional gradient (cg, semirelaxed_cg, gcg) returns a feasible plan whenever the start is feasible, the linear oracle answers feasible plans and the step lies in [0,1]; the default start a b^T is feasible for weights of mass 1, and is shown infeasible for other masses.", "quantifier": "all objectives, oracles, iteration counts", "why_tests_cant": "Unbounded iterations, arbitrary user objectives.", "anchors": ["ot/optim.py:generic_conditional_gradient/cg"]}
{"id": "C40", "title": "conditional gradient descends", "statement": "With the exact line search on a quadratic objective, the loss recorded at every iteration is non-increasing and equals the true objective of the iterate.", "quantifier": "all quadratic objectives and iteration counts", "why_tests_cant": "Unbounded iterations.", "anchors": ["ot/optim.py:generic_conditional_gradient", "ot/gromov/_gw.py:solve_gromov_linesearch"]}
{"id": "C41", "title": "conditional gradient loop accounting", "statement": "The number of iterations is at most max(1,numItermax), the loss log has one more entry than the iterations performed, and on exit either the iteration limit or one of the stopping tests holds.", "quantifier": "all runs", "why_tests_cant": "All exit paths.", "anchors": ["ot/optim.py:generic_conditional_gradient"]}
{"id": "C42", "title": "Armijo step satisfies the decrease condition", "statement": "line_search_armijo returns either no step or a step satisfying the sufficient decrease inequality.", "quantifier": "all objective functions", "why_tests_cant": "Arbitrary functions.", "anchors": ["ot/optim.py:line_search_armijo"]}
{"id": "C43", "title": "semi-relaxed LP oracle is optimal", "statement": "The direction computed by semirelaxed_cg has row sums p, is non-negative and minimises the linearised cost over all plans with row sums p.", "quantifier": "all cost matrices and plans", "why_tests_cant": "Continuum of competitors, ties.", "anchors": ["ot/optim.py:semirelaxed_cg"]}
{"id": "C44", "title": "partial CG oracle respects the mass budget", "statement": "The LP oracle of partial_cg returns a plan of mass m, minimal for the gradient, when the gradient dominates -100 max(M) of the linear cost; for pure partial GW (M = 0) nothing penalises the dummy corner and it can exceed m.", "quantifier": "all linear costs and gradients", "why_tests_cant": "Only visible on ties.", "anchors": ["ot/optim.py:partial_cg", "ot/gromov/_partial.py:partial_gromov_wasserstein"]}
{"id": "C45", "title": "GW tensor factorisation is exact", "statement": "For a plan T with marginals p and q, tensor_product(init_matrix(...),T)_ij equals sum_kl L(C1_ik,C2_jl) T_kl and gwloss equals sum_ijkl L(C1_ik,C2_jl) T_ij T_kl, for the square and kl losses and any (also asymmetric) C1, C2; the semi-relaxed loss is exact for plans with first marginal p, the partial loss for every plan.", "quantifier": "all sizes, matrices, couplings", "why_tests_cant": "Algebraic identity over all inputs.", "anchors": ["ot/gromov/_utils.py:init_matrix/tensor_product/gwloss"]}
{"id": "C46", "title": "GW gradient and line search coefficients are exact", "statement": "The gradients of the balanced, semi-relaxed and partial losses are exact, and along any feasible direction D, loss(G+tD) = loss(G) + b t + a t^2 with the a,b computed by solve_gromov_linesearch (symmetric and asymmetric branches) and solve_semirelaxed_gromov_linesearch.", "quantifier": "all G, D, t", "why_tests_cant": "Polynomial identity over all inputs.", "anchors": ["ot/gromov/_gw.py:solve_gromov_linesearch", "ot/gromov/_semirelaxed.py:solve_semirelaxed_gromov_linesearch", "ot/gromov/_utils.py:gwggrad"]}
{"id": "C47", "title": "GW loss is a discrepancy", "statement": "The GW square loss of a plan is non-negative, zero exactly when the plan only pairs points with equal internal distances (in particular for a measure-preserving isometry), and unchanged when the two spaces are swapped; the kl loss is non-negative with the same zero set on positive matrices.", "quantifier": "all spaces and couplings", "why_tests_cant": "All inputs.", "anchors": ["ot/gromov/_utils.py:gwloss"]}
{"id": "C48", "title": "GW gradients in the structure matrices", "statement": "The gradients with respect to C1, C2 attached by gromov_wasserstein2 and semirelaxed_gromov_wasserstein2 are those of the loss at the returned plan (square and kl); those of partial_gromov_wasserstein2 use the full marginals p,q instead of those of the plan and are wrong when m is smaller than the total mass.", "quantifier": "all plans of mass m", "why_tests_cant": "Only differs for strictly partial plans.", "anchors": ["ot/gromov/_gw.py:gromov_wasserstein2", "ot/gromov/_semirelaxed.py:semirelaxed_gromov_wasserstein2", "ot/gromov/_partial.py:partial_gromov_wasserstein2"]}
{"id": "C49", "title": "GW barycenter updates are optimal", "statement": "For couplings whose masses are those handed over, update_barycenter_structure returns the minimiser over all matrices C of sum_s lambda_s GW_loss(C_s, C, T_s) (square loss, unique where the barycenter carries mass; kl loss over positive matrices, both conventions of target), and update_barycenter_feature minimises sum_s lambda_s sum T_s |Y_s - X|^2.  With one shared mass vector this needs sum_s lambda_s = 1: otherwise the result is rescaled and not the minimiser, although the lambdas are not checked.", "quantifier": "all structure matrices, plans, nonnegative weights", "why_tests_cant": "Continuum of competitors.", "anchors": ["ot/gromov/_utils.py:update_barycenter_structure", "ot/gromov/_utils.py:update_barycenter_feature"]}
{"id": "C50", "title": "unbalanced GW independent cost", "statement": "ucoot_cost in the log of fused_unbalanced_across_spaces_divergence equals the full objective (quadruple sums) for reg_type='joint', both divergences; for reg_type='independent' only when the plans have the prescribed marginals, since the arguments of div_to_product are exchanged (1x1 plan 2 with weights 1: 3 is reported instead of 2 ln 2 - 1).", "quantifier": "all plans", "why_tests_cant": "Tests check consistency of optimisers not this value.", "anchors": ["ot/gromov/_utils.py:fused_unbalanced_across_spaces_cost/div_to_product"]}
{"id": "C51", "title": "fast product divergences are exact", "statement": "div_to_product and div_between_product equal the divergence (KL, halved squared L2) between the full product measures they abbreviate, for nonnegative measures, entries equal to 0 included.", "quantifier": "all measures", "why_tests_cant": "Algebraic identity over all inputs.", "anchors": ["ot/gromov/_utils.py:div_to_product/div_between_product"]}
{"id": "C52", "title": "proj_simplex is the Euclidean projection", "statement": "proj_simplex returns the point of the simplex of mass z closest to the input.", "quantifier": "all vectors and all simplex points", "why_tests_cant": "Continuum of competitors.", "anchors": ["ot/utils.py:proj_simplex", "ot/smooth.py:projection_simplex"]}
{"id": "C53", "title": "pairwise squared distances", "statement": "euclidean_distances(squared=True) equals the true squared distance for every pair and is never negative.", "quantifier": "all inputs", "why_tests_cant": "Algebraic identity.", "anchors": ["ot/utils.py:euclidean_distances"]}
{"id": "C54", "title": "batched lazy reduction equals the full reduction", "statement": "reduce_lazytensor with any positive batch size gives the same result as reducing the whole tensor, for additive functions (axis None) and slice-wise functions (axis 0, 1); for other functions the result depends on the batch size.", "quantifier": "all tensors and batch sizes", "why_tests_cant": "All batch sizes and shapes.", "anchors": ["ot/utils.py:reduce_lazytensor"]}
{"id": "C55", "title": "sparse_ot_dist weights", "statement": "sparse_ot_dist should weight the k-th pair by w[k]; it uses w[i[k]] instead, which agrees only when i is the identity or the weights are constant.", "quantifier": "all weights and index lists", "why_tests_cant": "Tests use uniform weights.", "anchors": ["ot/utils.py:sparse_ot_dist"]}
{"id": "C56", "title": "DataScaler normalises", "statement": "After fit, DataScaler.transform of the fitted data has mean 0 and variance 1 per column (standard), fills [0,1] per column (minmax), or has unit rows (l2), constant columns and zero rows becoming 0; only the last fit matters, and an unfitted scaler raises (except l2).", "quantifier": "all data sets and call histories", "why_tests_cant": "All call sequences.", "anchors": ["ot/utils.py:DataScaler"]}
{"id": "C57", "title": "North-West gluing glues the plans", "statement": "NorthWestMMGluing on plans with a common first marginal terminates and returns distinct multi-indices with positive weights whose k-th marginal is the second marginal of plan k; they are the projection of the (K+1)-plan log['gamma'], whose (0,k) marginal is plan k, and the total mass is sum(a). The support has at most n(sum n_k + 1 - K) points.", "quantifier": "all lists of plans with a common first marginal", "why_tests_cant": "Loop over arbitrary numbers of plans and supports; exactness of the marginals for all real plans.", "anchors": ["ot/lp/_barycenter_solvers.py:NorthWestMMGluing"]}
{"id": "C58", "title": "merging duplicate points is a push-forward along detected-close chains", "statement": "_clean_discrete_measure returns the image of its input under a map that sends every point to a kept point it is linked to by a chain of detected-close pairs; the total mass is preserved and the kept points are pairwise not close. It does not keep points within the tolerance: closeness compares the squared distance with tol, and chains of close points collapse to one.", "quantifier": "all point sets", "why_tests_cant": "All closeness patterns (non-transitive).", "anchors": ["ot/lp/_barycenter_solvers.py:_clean_discrete_measure"]}
{"id": "C59", "title": "generalized barycenter: exact reduction for uniform weights, weights otherwise lost", "statement": "generalized_free_support_barycenter with weights=None and an exact inner solver never returns a barycenter worse, for sum_i (1/p) W2^2((P_i)#Y, X_i), than its starting point Y_init B^T with B = A^(-1/2). Given weights enter only through A = sum_i weights_i P_i^T P_i: with a common P any two weight vectors of equal sum give the same answer, so it is not the weighted barycenter. Y_init is taken in the transformed space, so numItermax=0 does not return Y_init.", "quantifier": "all supports, projections, weights, number of iterations", "why_tests_cant": "Tests use uniform weights.", "anchors": ["ot/lp/_barycenter_solvers.py:generalized_free_support_barycenter"]}
{"id": "C60", "title": "multi-marginal greedy solution is optimal", "statement": "dmmot_monge_1dgrid_loss on d nonnegative histograms of equal mass over n bins stops after at most d(n-1)+1 steps; log['A'] is a nonnegative tensor whose marginals are the histograms, the returned loss is its max-minus-min cost, and no multi-marginal plan of these histograms is cheaper.", "quantifier": "all numbers of histograms, lengths, real histograms and all competing multi-marginal plans", "why_tests_cant": "Loop over arbitrary dimensions; continuum of competitors in a space of n^d coordinates.", "anchors": ["ot/lp/dmmot.py:dmmot_monge_1dgrid_loss"]}
{"id": "C61", "title": "SAG gradient table is consistent for every sampling sequence", "statement": "In sag_entropic_transport the running sum always equals the sum of the stored per-sample gradients, row i of the table is the gradient of sample i at the potential of its last draw, and the potential keeps mean zero, for every sequence of sampled indices; a state that no draw changes gives the entropic optimum.", "quantifier": "all random index sequences", "why_tests_cant": "All schedules.", "anchors": ["ot/stochastic.py:sag_entropic_transport"]}
{"id": "C62", "title": "semi-dual plan has exact source marginal", "statement": "The plan built from c_transform_entropic is nonnegative with row sums exactly a for every dual vector beta; the a-weighted mean of coordinate_grad_semi_dual is its column residual and a supergradient of the semi-dual, which is a lower bound of the entropic problem; zero gradient certifies optimality; the c-transform is the best alpha for a given beta.", "quantifier": "all dual vectors (any number of SGD steps)", "why_tests_cant": "All real vectors.", "anchors": ["ot/stochastic.py:c_transform_entropic/solve_semi_dual_entropic"]}
{"id": "C63", "title": "smooth dual: gradient, weak duality and certificate", "statement": "At every pair of dual vectors, dual_obj_grad returns a lower bound of the regularised primal over all couplings (with columns of at most max_nz entries for the sparse regularisation), its gradient is the pair of marginal residuals of the plan built by get_plan_from_dual and a supergradient of the dual, and the plan is optimal up to <alpha,grad>+<beta,grad>; a zero gradient makes it an optimal coupling. It fails exactly when max_nz >= number of rows.", "quantifier": "all sizes, costs, dual vectors and couplings; L2, negative entropy and sparse", "why_tests_cant": "Continuum of competitors.", "anchors": ["ot/smooth.py:dual_obj_grad/get_plan_from_dual"]}
{"id": "C64", "title": "ot.solve L2 value matches the plan", "statement": "ot.solve(reg_type='L2') at a zero dual gradient returns the minimiser of <M,T>+reg/2||T||^2 while reporting (and documenting) <M,T>+reg||T||^2: the reported value is the true one of that plan, but the plan need not minimise it (refuted in general; the excess is bounded by reg/2(||T||^2-||P||^2)).", "quantifier": "all inputs", "why_tests_cant": "Values are not compared to the plan's optimality in tests.", "anchors": ["ot/solvers.py:solve", "ot/smooth.py:SquaredL2"]}
{"id": "C65", "title": "Schur complement updates are exact inverses", "statement": "complement_schur returns the (symmetric) inverse of the bordered matrix when the Schur complement is non-zero, and the inverse of the matrix with row and column id_pop deleted when the pivot is non-zero; starting from an empty matrix it returns the constant 0.5, which is right exactly when d = 2.", "quantifier": "all symmetric invertible matrices of all sizes", "why_tests_cant": "All sizes.", "anchors": ["ot/regpath.py:complement_schur"]}
{"id": "C66", "title": "regularisation path interpolation", "statement": "On a path with decreasing parameters compute_transport_plan returns a plan for every gamma: the stored plan at a breakpoint, the affine interpolation of two consecutive stored plans in between, always a convex combination of stored plans and non-negative when they are.", "quantifier": "all paths and gammas", "why_tests_cant": "All reals.", "anchors": ["ot/regpath.py:compute_transport_plan"]}
{"id": "C67", "title": "emd never cycles", "statement": "On the supported cost range, emd with no iteration limit (numItermax = 0) or a limit above 2^(nm+n+m) stops and reports OPTIMAL: the pivot rule of the network simplex never revisits a basis, including on degenerate problems.", "quantifier": "all sizes, weights, costs (ties and zero weights included)", "why_tests_cant": "Cycling only shows on specially built degenerate instances; no finite set of instances excludes it.", "anchors": ["ot/lp/network_simplex_simple.h:findLeavingArc", "ot/lp/network_simplex_simple.h:start"]}
{"id": "C68", "title": "sparse simplex projection is optimal", "statement": "projection_sparse_simplex returns a point of the simplex of mass z with at most max_nz non-zeros that is closest to the input among all such points.", "quantifier": "all vectors, all sparse simplex points", "why_tests_cant": "Combinatorial number of supports, continuum of points.", "anchors": ["ot/utils.py:projection_sparse_simplex"]}
{"id": "C69", "title": "log-scale and multiplicative partial solvers agree", "statement": "entropic_partial_wasserstein_logscale and entropic_partial_wasserstein run through the same sequence of plans: whatever each returns is one of the plans K_0..K_numItermax of that common sequence.", "quantifier": "all positive weights, costs, masses, thresholds, iteration limits", "why_tests_cant": "tests compare the two at convergence only, up to tolerances", "anchors": ["ot/partial/partial_solvers.py:562-647", "ot/partial/partial_solvers.py:650-813"]}
{"id": "C70", "title": "Sinkhorn's column error bounds its suboptimality", "statement": "The plan returned by sinkhorn_knopp at any iteration, with column sums c, exceeds the entropic objective of every coupling by at most reg*sum (c_j-b_j) log b_j + (max M - min M)*sum |c_j-b_j|.", "quantifier": "all inputs, iteration counts and couplings", "why_tests_cant": "Continuum of competitors.", "anchors": ["ot/bregman/_sinkhorn.py:sinkhorn_knopp"]}
{"id": "C71", "title": "greenkhorn terminates", "statement": "For positive weights of equal mass, a positive kernel and stopThr > 0 there is an iteration limit beyond which greenkhorn always stops without a warning.", "quantifier": "all inputs and tolerances", "why_tests_cant": "Asymptotic statement.", "anchors": ["ot/bregman/_sinkhorn.py:greenkhorn"]}
{"id": "C72", "title": "sinkhorn_epsilon_scaling warns for every limit up to 36", "statement": "With numItermax <= 36 sinkhorn_epsilon_scaling can only end with the non-convergence warning, even if it converged: it runs max(35, numItermax) iterations and tests only from iteration 36 on.", "quantifier": "all inputs, any arithmetic", "why_tests_cant": "All inputs; the loop bound and the test interact.", "anchors": ["ot/bregman/_sinkhorn.py:sinkhorn_epsilon_scaling"]}
{"id": "C73", "title": "total_cost in the unbalanced logs is not the objective", "statement": "The total_cost recorded by the unbalanced Sinkhorn solvers (returned by sinkhorn_unbalanced2 with returnCost='total') equals the unbalanced objective plus reg*(|P|-|c|)+reg_m1*(|P|-|a|)+reg_m2*(|P|-|b|): the mass terms of the KL divergences are missing, so it is not minimised by the optimal plan and can be smaller at another plan.", "quantifier": "all plans and parameters", "why_tests_cant": "An identity over all plans; tests only check that the value is finite or compare solvers with each other.", "anchors": ["ot/unbalanced/_sinkhorn.py:sinkhorn_knopp_unbalanced", "ot/unbalanced/_sinkhorn.py:sinkhorn_unbalanced2"]}
{"id": "C74", "title": "unbalanced Sinkhorn terminates by its stopping test", "statement": "With at least one finite penalty, for every stopThr > 0 there is an iteration budget from which on sinkhorn_knopp_unbalanced always stops by its own test (never by numItermax, never on a numerical error in exact arithmetic).", "quantifier": "all inputs, warm starts and thresholds", "why_tests_cant": "Termination for all inputs cannot be tested.", "anchors": ["ot/unbalanced/_sinkhorn.py:sinkhorn_knopp_unbalanced"]}
{"id": "C75", "title": "MM unbalanced terminates by its stopping test", "statement": "With a non-negative cost mm_unbalanced stops by its own test within a number of iterations bounded explicitly by the initial objective and stopThr (KL with reg_m1 > 0, and L2).", "quantifier": "all inputs and thresholds", "why_tests_cant": "Termination for all inputs cannot be tested.", "anchors": ["ot/unbalanced/_mm.py:mm_unbalanced"]}
{"id": "C76", "title": "stabilised unbalanced Sinkhorn", "statement": "The plan returned by sinkhorn_stabilized_unbalanced is what one plain unbalanced Sinkhorn step from some positive scaling gives, unless the last iteration absorbed the scalings into the potentials; in that case every column j of the plan is wrong by the factor max(u)*max(v)/v_j, because u is absorbed but not reset.", "quantifier": "all inputs, tau, thresholds and iteration counts", "why_tests_cant": "Depends on whether the last iteration crosses tau; the tests converge before.", "anchors": ["ot/unbalanced/_sinkhorn.py:sinkhorn_stabilized_unbalanced"]}
{"id": "C77", "title": "several target histograms in unbalanced Sinkhorn", "statement": "sinkhorn_knopp_unbalanced with several target histograms returns for every histogram the value of the plain iteration with the kernel exp(-M/reg), i.e. reg_type='entropy'; with the default reg_type='kl' the values differ from those obtained one histogram at a time.", "quantifier": "all inputs, histograms, thresholds and iteration counts", "why_tests_cant": "The tests only use the entropy variant for several histograms.", "anchors": ["ot/unbalanced/_sinkhorn.py:sinkhorn_knopp_unbalanced"]}
{"id": "C78", "title": "GW and fused GW solvers return what they report", "statement": "gromov_wasserstein and fused_gromov_wasserstein return a coupling of p and q, the reported distance is exactly the (fused) objective of the returned plan, the recorded losses never increase and the result is no worse than the start.", "quantifier": "all structure matrices, losses, couplings G0, linear oracles answering couplings, iteration limits", "why_tests_cant": "the loss is tracked incrementally by the line search, never recomputed; tests compare a few runs", "anchors": ["ot/gromov/_gw.py:gromov_wasserstein/fused_gromov_wasserstein"]}
{"id": "C79", "title": "semi-relaxed GW solvers", "statement": "semirelaxed_(fused_)gromov_wasserstein returns a plan with first marginal exactly p, reports exactly its objective, and never increases it.", "quantifier": "all structure matrices, losses, starts with first marginal p", "why_tests_cant": "same incremental tracking with a moving second marginal", "anchors": ["ot/gromov/_semirelaxed.py:semirelaxed_gromov_wasserstein"]}
{"id": "C80", "title": "partial GW tracking and mass", "statement": "partial_(fused_)gromov_wasserstein keeps its incrementally updated gradient equal to the true gradient, reports exactly the objective of the returned plan, never increases it, and keeps the mass m when the start has it; a user-given G0 of another mass is accepted and may be returned unchanged.", "quantifier": "all structure matrices, starts, oracles answering partial plans of mass m", "why_tests_cant": "the drift of an incrementally updated gradient is invisible in short tests; tests never give G0 of another mass", "anchors": ["ot/gromov/_partial.py:partial_gromov_wasserstein/solve_partial_gromov_linesearch"]}
{"id": "C81", "title": "a stalled GW step certifies stationarity", "statement": "If a round of (fused) Gromov-Wasserstein makes a zero step with an optimal linear oracle, the current plan is first-order stationary: no coupling decreases the linearised objective.", "quantifier": "all inputs, both line-search branches, convex or not", "why_tests_cant": "requires comparing with all couplings", "anchors": ["ot/gromov/_gw.py:solve_gromov_linesearch", "ot/optim.py:solve_1d_linesearch_quad"]}
{"id": "C82", "title": "unbalanced GW descent (kl)", "statement": "With divergence='kl' and rescale_plan=False the block problems handed to ot.solve are the objective restricted to the block up to a constant; hence if the inner solver is no worse than its plan_init, the objective never increases over any number of BCD rounds; and with exact inner solvers a round that changes nothing has found plans each optimal given the other.", "quantifier": "all data, weights, penalties, iteration counts, inner solvers", "why_tests_cant": "All iteration counts and all inner solver answers.", "anchors": ["ot/gromov/_unbalanced.py:fused_unbalanced_across_spaces_divergence", "ot/gromov/_utils.py:uot_cost_matrix"]}
{"id": "C83", "title": "unbalanced GW with l2 divergence", "statement": "With divergence='l2' the weights of the block problem must come from the other block for the problem to be the restricted objective; the code computes them from the block being updated, so an exact inner solve can increase the objective.", "quantifier": "existence of a failing input", "why_tests_cant": "Needs the exact minimiser of the sub-problem.", "anchors": ["ot/gromov/_unbalanced.py:367,394", "ot/gromov/_utils.py:uot_parameters_and_measures"]}
{"id": "C84", "title": "unbalanced GW eps_samp", "statement": "With reg_type='independent' and kl the result of the iteration does not depend on eps_samp at all (the sample update uses eps_feat), for any arithmetic and solver; when the two differ an exact sample update can increase the objective.", "quantifier": "all inputs, solvers, iteration counts", "why_tests_cant": "Universal non-dependence.", "anchors": ["ot/gromov/_unbalanced.py:391"]}
{"id": "C85", "title": "unbalanced GW rescale_plan", "statement": "rescale_plan=True is documented to keep the two plans at equal mass; each rescaling sets the mass of one plan to the geometric mean of its own and the other's, so the returned masses differ in general.", "quantifier": "all plans; existence of a failing run", "why_tests_cant": "Real-valued masses over all inputs.", "anchors": ["ot/gromov/_unbalanced.py:383,410"]}
{"id": "C86", "title": "multi-marginal dual variables certify the loss and are its gradient", "statement": "The dual objective reported by dmmot_monge_1dgrid_loss equals the loss. If the last bin of every histogram is occupied the dual variables are feasible, so that the gradient given to autograd is a subgradient of the loss over all histogram families; with an empty last bin they need not be feasible and the gradient can be wrong.", "quantifier": "all histogram families and all perturbations", "why_tests_cant": "Feasibility has n^d constraints; the failure needs trailing empty bins.", "anchors": ["ot/lp/dmmot.py:dmmot_monge_1dgrid_loss"]}
{"id": "C88", "title": "multi-marginal descent returns histograms", "statement": "dmmot_monge_1dgrid_optimize returns nonnegative columns summing to one, for every number of iterations and learning rates, unless a column was constant and nonpositive before normalisation.", "quantifier": "all inputs, learning rates and iteration counts", "why_tests_cant": "All iterates of a gradient method.", "anchors": ["ot/lp/dmmot.py:dmmot_monge_1dgrid_optimize"]}
{"id": "C87", "title": "free-support barycenter descends", "statement": "free_support_barycenter with weights summing to one lowers sum_i w_i W2^2(X, X_i) at every iteration by at least sum_r b_r |X'_r - X_r|^2; the logged displacements are summable, it stops on stopThr after at most 1 + objective/(min b * stopThr) iterations, and early stop means last displacement <= stopThr.", "quantifier": "all supports, weights, numItermax, stopThr", "why_tests_cant": "Monotone decrease over all inputs is a theorem on alternating minimisation.", "anchors": ["ot/lp/_barycenter_solvers.py:free_support_barycenter"]}
{"id": "C89", "title": "generic-cost barycenter: only true_fixed_point is monotone", "statement": "free_support_barycenter_generic_costs with method true_fixed_point returns a list of energies that never increases, for any ground costs and exact ground barycenter, with positive weights and the mass of the initial measure; with nonnegative costs the loop stops after at most 1 + V0/stopThr iterations. With method L2_barycentric_proj the energy can increase and the run still ends with status Stationary Point.", "quantifier": "all measures, costs, iteration counts", "why_tests_cant": "Tests run a few seeds; monotonicity and its failure need an argument over all couplings.", "anchors": ["ot/lp/_barycenter_solvers.py:free_support_barycenter_generic_costs", "ot/lp/_barycenter_solvers.py:ot_barycenter_energy"]}
{"id": "C90", "title": "linear circular OT is a squared pseudo-distance, on a shifted quantile", "statement": "linear_circular_ot is between 0 and 1/4, symmetric, zero on equal inputs, and its square root satisfies the triangle inequality. The embedding however reads the atom after the one the quantile level falls in (the cumulative weights are zero-padded before the search), so two different measures can be almost identified: {0, 1/2} against {1/2} gives 1/400.", "quantifier": "all sample sizes, positions and weights; all grid sizes", "why_tests_cant": "Triples of arbitrary measures; the shift by one atom is invisible on large samples.", "anchors": ["ot/lp/solver_circle.py:linear_circular_ot", "ot/lp/solver_circle.py:linear_circular_embedding", "ot/lp/solver_1d.py:quantile_function"]}
{"id": "C91", "title": "wasserstein_circle terminates and never underestimates", "statement": "For unit-mass non-negative weights and p >= 1, binary_search_circle ends after at most k+1 iterations when tp - tm < (eps / L) 2^k, and the value returned is at least the circular transport cost (arc length to the power p) of some coupling, hence at least the circular Wasserstein cost.", "quantifier": "all samples, weights, p >= 1, sorted or not, any values of the derivative", "why_tests_cant": "The search visits a continuum of thetas; rotations, wraps and ties in the cumulative weights.", "anchors": ["ot/lp/solver_circle.py:ot_cost_on_circle", "ot/lp/solver_circle.py:binary_search_circle", "ot/lp/solver_circle.py:wasserstein_circle"]}
{"id": "C92", "title": "smooth semi-dual: exact second marginal, weak duality and certificate", "statement": "For every dual vector, the plan of get_plan_from_semi_dual has column sums exactly b and admissible columns; semi_dual_obj_grad returns a lower bound of the regularised primal, the gradient is the first-marginal residual and a supergradient; a zero gradient certifies optimality; the semi-dual value dominates the dual value for every beta.", "quantifier": "all sizes, costs, dual vectors, positive b; L2, negative entropy and sparse", "why_tests_cant": "Continuum of dual vectors and competitors.", "anchors": ["ot/smooth.py:semi_dual_obj_grad/get_plan_from_semi_dual/NegEntropy/SquaredL2/SparsityConstrained"]}
{"id": "C94", "title": "gradients attached to transport values are tangent", "statement": "The gradients attached by ot.emd2 and by ot.solve(reg_type='entropy', grad='envelope') with respect to a, b and M are tangent to the optimal value: below it in (a,b) for mass-preserving changes, above it in M. For reg_type='KL' (the default) the gradients in a and b miss -reg*log a and -reg*log b (refuted with zero cost), and centring makes them wrong for mass-changing perturbations.", "quantifier": "all sizes, histograms, costs and perturbations", "why_tests_cant": "Finite differences test a few directions; the KL case is never compared.", "anchors": ["ot/lp/_network_simplex.py:emd2", "ot/solvers.py:solve", "ot/backend.py:set_gradients"]}
{"id": "C93", "title": "averaged SGD returns the mean iterate and is unbiased only for uniform a", "statement": "averaged_sgd_entropic_transport returns the mean of its iterates for every index sequence and its mean step is the semi-dual gradient when a is uniform; the weights a are never used, so with non-uniform a the mean step does not vanish at the optimum (refuted).", "quantifier": "all index sequences, sizes and step sizes", "why_tests_cant": "The tests use uniform weights.", "anchors": ["ot/stochastic.py:averaged_sgd_entropic_transport"]}
{"id": "C95", "title": "batch gradients of the dual are unbiased", "statement": "Averaged over any family of pairs of batches in which every sample occurs equally often, batch_grad_dual is proportional to the full dual gradient (the marginal residuals); an SGD step changes only the sampled coordinates.", "quantifier": "all sizes, batches, dual points", "why_tests_cant": "Expectation over all batches.", "anchors": ["ot/stochastic.py:batch_grad_dual/sgd_entropic_regularization"]}
{"id": "C96", "title": "dual losses and plans match", "statement": "For loss_dual_entropic/plan_dual_entropic and loss_dual_quadratic/plan_dual_quadratic: the loss is a lower bound of the regularised problem over all couplings, the marginal residuals of the plan are a supergradient of the loss, the plan is optimal up to its residuals, and if the plan is a coupling it is optimal and the dual point maximises the loss.", "quantifier": "all sizes, weights, costs, dual points", "why_tests_cant": "Continuum of dual points and competitors.", "anchors": ["ot/stochastic.py:loss_dual_entropic/plan_dual_entropic/loss_dual_quadratic/plan_dual_quadratic/solve_dual_entropic"]}
{"id": "C97", "title": "fully_relaxed_path follows the exact minimisers", "statement": "When fully_relaxed_path stops before itmax, no two cells change status at the same breakpoint and no event falls inside the tolerance window after a breakpoint, every stored plan and every plan read by compute_transport_plan for gamma >= reg minimises gamma<C,T> + 1/2(|T1-a|^2+|T'1-b|^2) over T >= 0 (equivalently the docstring problem with lambda = 1/(2 gamma)). With ties (equal costs and weights) the path terminates normally with a non-optimal plan, and when itmax is reached the last plan is extrapolated past missed events.", "quantifier": "all sizes, marginals, positive costs, reg >= 0, real arithmetic without the 1e-16 offset; refutations with the code's constants", "why_tests_cant": "A continuum of gammas and all active-set sequences; tests check a few seeds against another solver.", "anchors": ["ot/regpath.py:fully_relaxed_path", "ot/regpath.py:ot_next_gamma", "ot/regpath.py:compute_next_removal", "ot/regpath.py:compute_transport_plan"]}
{"id": "C98", "title": "Sliced distances are pseudo-distances and lower bounds of the Wasserstein distance", "statement": "With given projections, sliced_wasserstein_distance(X, Y, a, b, p=p) is the p-mean and max_sliced_wasserstein_distance the maximum of the exact one-dimensional transport values of the projected samples. For p >= 1 both are nonnegative, symmetric, zero between identical weighted samples and satisfy the triangle inequality on samples of equal mass; sliced <= max-sliced, and with directions of length at most one both are at most the p-Wasserstein cost of every coupling of the samples in R^d. get_random_projections returns directions of length one.", "quantifier": "all sample sizes, dimensions, samples, nonnegative weights of equal mass, directions, number of directions >= 1, p >= 1", "why_tests_cant": "Metric axioms and the bound by every coupling quantify over all triples of samples, all couplings and all real exponents; tests check a few random draws against tolerances.", "anchors": ["ot/sliced/_sliced_distances.py:99-137", "ot/sliced/_sliced_distances.py:223-258", "ot/sliced/_utils.py:52-65"]}
{"id": "C99", "title": "Plans and costs of sliced_plans and min_sliced_transport_plan", "statement": "Every plan of sliced_plans is an optimal coupling of the samples projected on its direction. min_sliced_transport_plan returns one of these plans, so a coupling of the weights whose cost in R^d is at least the optimal transport value. With equal normalised weights the returned cost is the cost of the returned plan and no direction gives a cheaper plan. Boundary: with unequal weights the returned cost is not the cost of the plan and a costlier plan than another direction's may be selected; with equal weights of mass different from 1 the returned cost is the plan's cost divided by the mass.", "quantifier": "all sample sizes, dimensions, samples, nonnegative weights of equal mass, directions, metrics, exponents >= 1, batch sizes", "why_tests_cant": "Optimality against all couplings, for both the permutation and the quantile branch, cannot be enumerated; the wrong selection only shows for weights outside the tested uniform ones.", "anchors": ["ot/sliced/_sliced_plans.py:81-185", "ot/sliced/_sliced_plans.py:318-352", "ot/utils.py:369-397"]}
{"id": "C100", "title": "expected_sliced_plan is a coupling whose cost decreases with beta", "statement": "expected_sliced_plan returns the average of the directions' plans with weights proportional to exp(-beta * cost); it is a coupling of (a, b) for every real beta. The returned cost is the cost of the returned plan when beta = 0, and for equal normalised weights also when beta is not 0; in that case a larger beta never gives a larger cost. Boundary: with unequal weights and beta not 0 the returned cost is not the plan's cost.", "quantifier": "all sample sizes, samples, nonnegative weights of equal mass, directions, metrics, exponents >= 1, all real beta", "why_tests_cant": "Holds for a continuum of beta and every sample; monotonicity in beta is a statement about all pairs of temperatures.", "anchors": ["ot/sliced/_sliced_plans.py:474-521"]}
{"id": "C101", "title": "weak_optimal_transport minimises the barycentric loss over the couplings", "statement": "With weights a > 0 the loss minimised by weak_optimal_transport is sum_i a_i |x_i - E[y | x_i]|^2; the gradient used is its exact gradient and the loss is convex, so the gap of the linear oracle at any plan bounds its distance to the optimum. With an exact linear oracle and a line search that answers steps in [0, 1] that do not raise the loss, the returned plan is a coupling of (a, b), its loss is at most the loss of the start, the logged losses never increase and the last one is the loss of the returned plan. The loss of every coupling is at most its quadratic transport cost and at least the squared distance between the weighted means.", "quantifier": "all sizes, dimensions, samples, positive a, couplings, starts, numbers of iterations and thresholds", "why_tests_cant": "Statements about every coupling and every iterate of a run of unbounded length; tests check one marginal pair and a few sizes.", "anchors": ["ot/weak.py:84-129", "ot/optim.py:331-535"]}
{"id": "C102", "title": "factored_optimal_transport is a descent through an intermediate support", "statement": "With exact inner solvers, numItermax >= 1 and r >= 1: the two plans are couplings of (a, uniform) and (uniform, b); the returned support is the best one for the returned plans, the plans are the best ones for the previous support, and every round lowers the total cost by (2/r) times the squared displacement of the support, so the number of rounds before the threshold is bounded. The lazy plan of the log is a coupling of (a, b) whose squared-Euclidean cost is at most twice the total cost through the support. Boundary: the logged costs costa and costb belong to the previous support and exceed the actual total by (2/r)|X - X_old|^2; numItermax = 0 raises.", "quantifier": "all sizes, dimensions, samples, weights admitting couplings with the uniform weights, starts, thresholds >= 0, numbers of rounds >= 1", "why_tests_cant": "Optimality in each block is a claim about all plans and all supports; the descent bound is about runs of every length.", "anchors": ["ot/factored.py:84-159"]}
{"id": "C103", "title": "Semi-supervised labels have no effect on the cost of BaseTransport.fit", "statement": "The documentation of limit_max says that transport between labelled source and target samples of different classes gets a cost defined by limit_max. In the code the correction is multiplied by the indicator that BOTH labels are -1 and by the indicator that they differ, so it is always 0 (and nan becomes 0): for nonnegative costs the cost_ used by fit equals the unsupervised cost whatever ys and yt are. Each fit with labels multiplies the constructor parameter limit_max by the largest cost. Classes that never set limit_max (EMDLaplaceTransport) raise as soon as ys and yt are both given.", "quantifier": "all sample sizes, nonnegative costs, labels, finite or infinite limit_max", "why_tests_cant": "The tests assert that the supervised and unsupervised costs have the same sum, so they pass on the broken behaviour; only a proof over all labels shows that no label can ever matter.", "anchors": ["ot/da.py:597-621", "ot/da.py:1756-1770", "ot/backend.py:1598-1599"]}
{"id": "C104", "title": "transform maps samples to conditional means, independently of batches and branches", "statement": "For a coupling, transform of the training samples sends every sample of positive weight to its conditional mean, inside the convex hull of the targets; the weighted mean of the images is the mean of the targets and the spread around any point is at most that of the targets. New samples are translated like a nearest training sample, the result does not depend on batch_size, and a training sample contained in a batch of new samples is sent to the same place as in training. The continuous map of SinkhornTransport equals, at training samples, the barycentric image under the returned plan for any number of iterations, and always lies in the convex hull. inverse_transform is transform of the transposed problem. Boundary: a sample without mass is sent to the origin.", "quantifier": "all sizes, dimensions, couplings, samples, batch sizes >= 1, potentials", "why_tests_cant": "Batch independence and consistency of the two code paths hold for every split of every batch; tests only compare shapes.", "anchors": ["ot/da.py:686-725", "ot/da.py:792-830", "ot/da.py:1348-1372"]}
{"id": "C105", "title": "Propagated labels are class shares", "statement": "transform_labels returns one column per distinct source label in increasing order; entry (j, k) is the share of the mass arriving at target j that comes from samples of the k-th label, so rows are nonnegative and sum to one, and vanish where no mass arrives; adding a constant to the labels changes nothing. inverse_transform_labels is the same for the transposed plan.", "quantifier": "all sizes, nonnegative plans, integer labels (negative, not contiguous)", "why_tests_cant": "A statement about all label sets and all plans; tests check shapes only.", "anchors": ["ot/da.py:750-765", "ot/da.py:845-859", "ot/utils.py:610-657"]}
{"id": "C106", "title": "sinkhorn_lpl1_mm descends on the smoothed group objective", "statement": "With an exact inner solver, eta >= 0 and at least one iteration, sinkhorn_lpl1_mm returns a coupling, and more iterations never give a larger value of <T, M> + reg*Omega_e(T) + eta * sum over targets and classes of sqrt(class mass + 1e-3). The weights of each round are the tangent majoriser of the concave regulariser. numItermax = 0 raises.", "quantifier": "all sizes, labels, costs, plans, eta >= 0, numbers of iterations, inner penalties", "why_tests_cant": "Descent along iterates of unbounded number for every concave majorisation; tests check marginals only.", "anchors": ["ot/da.py:150-190"]}
{"id": "C107", "title": "df of sinkhorn_l1l2_gl is a subgradient of the group lasso", "statement": "The regulariser of sinkhorn_l1l2_gl is the sum over targets and source classes of the Euclidean norm of the class block, and df satisfies the subgradient inequality against every other matrix up to eps/4 per block, and exactly when every block norm is 0 or at least eps.", "quantifier": "all sizes, labels, matrices, eps > 0", "why_tests_cant": "A convexity inequality between all pairs of matrices, including the nonsmooth points at zero.", "anchors": ["ot/da.py:294-306"]}
{"id": "C108", "title": "emd_laplace descends on a convex quadratic roughness of the images", "statement": "With symmetric similarities the regulariser of emd_laplace is alpha/2 * sum_ij S_ij |(G xt)_i - (G xt)_j|^2 + (1-alpha)/2 * sum_ij St_ij |(G^T xs)_i - (G^T xs)_j|^2; df is its exact gradient, and it is nonnegative and convex for alpha in [0,1] and nonnegative similarities. With reg='disp' the objective is, up to a constant, the same with images minus samples (displacements). With an exact linear oracle and weights of mass one the returned plan is a coupling, its objective is at most that of a b^T, the logged losses never increase and the last one is the objective of the returned plan.", "quantifier": "all sizes, samples, symmetric similarities, alpha, eta, weights of mass one, runs", "why_tests_cant": "Exact identity of a quartic matrix expression and of its gradient; the docstring swaps alpha and 1 - alpha, which a smoke test cannot see.", "anchors": ["ot/da.py:483-517", "ot/utils.py:52-56"]}
{"id": "C109", "title": "co_optimal_transport descends on the COOT objective and returns couplings", "statement": "With exact inner solvers, for any number of rounds, evaluation period, tolerances and warm start (even one that is not a coupling): both returned plans are couplings of the given weights, the logged values are values of sum (X_ik - Y_jl)^2 Ps_ij Pf_kl + alpha terms + eps * KL terms at couplings and never increase, the feature plan is a best response to the sample plan, and a run started at couplings never ends worse than it started; in particular data matched exactly by the warm start stay at cost 0. The last logged value is the objective of the returned plans when the last round was evaluated. Boundary: with eval_bcd > 1 the value returned by co_optimal_transport2 can be that of an earlier round, eval_bcd = 0 and (for co_optimal_transport2) nits_bcd = 0 raise.", "quantifier": "all sizes, matrices, weights, eps, alpha, extra costs, warm starts, numbers of rounds, exact inner solvers", "why_tests_cant": "Monotone descent over arbitrarily many alternating rounds; the expansion used for the inner costs is only valid because the other plan has the right marginals, a fact about every iterate.", "anchors": ["ot/coot.py:192-326", "ot/coot.py:464-485", "ot/backend.py:1542-1546"]}
{"id": "C110", "title": "Gradients attached by co_optimal_transport2", "statement": "The gradients attached to X and Y are exactly those of the objective at the returned plans, with quadratic remainder sum w_i w_k H_ik^2, so the value plus the linear term plus that remainder bounds the COOT value of perturbed data from above. Boundary: with entropic inner solvers the gradients attached to the weights are log u instead of eps*log u: on a two-sample example with eps = 1/2 the attached slope is twice the true slope of the value.", "quantifier": "all sizes, data, perturbations, plans returned by runs with exact inner solvers", "why_tests_cant": "An identity for all perturbations, and an inequality against the unknown global optimum of the perturbed nonconvex problem; a gradient test at eps = 1 cannot see the missing factor.", "anchors": ["ot/coot.py:503-518", "ot/coot.py:248-285"]}
{"id": "C111", "title": "Linear Gaussian map (bures_wasserstein_mapping, LinearTransport)", "statement": "For covariances on which sqrtm and inv are correct, the returned A is symmetric positive semidefinite, A Cs A = Ct and ms A + b = mt. The image of the source samples has exactly the target mean and, with reg = 0, the target covariance (in general up to reg (A A - I); without bias the second moments are matched). For any sample and any weights, sending each point to its image is an optimal plan between the sample and its image. LinearTransport.inverse_transform undoes transform and conversely.", "quantifier": "all dimensions, sample sizes, weights, reg, bias; all samples and couplings", "why_tests_cant": "Optimality is against every coupling; the moment identities hold for every sample set, tests compare one sample up to tolerance.", "anchors": ["ot/gaussian.py:75-93", "ot/gaussian.py:159-200", "ot/da.py:943-1040"]}
{"id": "C112", "title": "Empirical Bures-Wasserstein distance bounds the Wasserstein distance", "statement": "empirical_bures_wasserstein_distance is a lower bound: its square times the mass never exceeds the squared-Euclidean cost of any coupling of the two weighted samples, for every reg >= 0 and with or without bias; with reg = 0 it equals the cost of the linear map of C111.", "quantifier": "all samples, weights, reg >= 0, bias and all couplings", "why_tests_cant": "A bound against the whole coupling polytope for every sample and every regularisation.", "anchors": ["ot/gaussian.py:416-447", "ot/gaussian.py:240-361"]}
{"id": "C113", "title": "Bures-Wasserstein distance is a metric", "statement": "bures_wasserstein_distance is nonnegative, zero exactly for equal means and covariances, symmetric although the code treats the two covariances differently, and satisfies the triangle inequality, on invertible covariances on which sqrtm is correct.", "quantifier": "all dimensions, means, covariances", "why_tests_cant": "Symmetry and triangle inequality of an asymmetric formula with matrix square roots over all matrices.", "anchors": ["ot/gaussian.py:240-265", "ot/gaussian.py:319-361"]}
{"id": "C114", "title": "Gaussian barycenters", "statement": "If bures_barycenter_fixpoint stops with diff <= eps and the weights sum to one, the barycenter objective at the result exceeds that of any covariance X by at most diff * ||Cb^-1/2 (X - Cb) Cb^-1/2||, so a fixed point is a global minimiser. The deterministic gradient descent with step in [0, 2] never increases the objective. The returned mean is the exact minimiser of the weighted squared distances. Boundary: num_iter = 0 raises (NameError: diff); weights that do not sum to one are not rescaled and a converged result need not be a barycenter.", "quantifier": "all dimensions, numbers of Gaussians, weights, iteration counts, tolerances; all competitors X", "why_tests_cant": "Global optimality of the fixed point against all covariances; monotonicity over all runs.", "anchors": ["ot/gaussian.py:500-534", "ot/gaussian.py:600-670", "ot/gaussian.py:754-807", "ot/utils.py:1557-1563"]}
{"id": "C115", "title": "Gaussian Gromov-Wasserstein value and map", "statement": "gaussian_gromov_wasserstein_distance is a pseudo-metric across dimensions (nonnegative, symmetric, triangle inequality) that vanishes exactly when the spectra agree up to zeros. The linear map sends the source mean to the target mean and, when the source dimension is at least the target's and all signs are +-1, the source covariance to the target covariance; in general the image keeps the leading min(m, n) target eigenvalues times the squared sign. Boundary: with sign_eigs='skewness' symmetric samples get sign 0 and collapse onto the target mean.", "quantifier": "all dimensions, covariances, orthonormal eigenbases, signs", "why_tests_cant": "Identities and inequalities for all spectra and dimensions; the zero sign only appears on exactly symmetric data.", "anchors": ["ot/gaussian.py:936-961", "ot/gaussian.py:1068-1115", "ot/gaussian.py:1163-1236"]}
{"id": "C116", "title": "Inner Dykstra solver of the low rank problem", "statement": "For positive kernels and targets, whatever the number of iterations, the factors Q and R it returns are positive and their column sums both equal the returned g exactly; when it stops without the convergence warning the row sums of Q and R are within stopThr (in l1) of the two targets. It returns whenever numItermax >= 1 and stopThr < 1, and otherwise fails on an unbound variable. Boundary: alpha, documented as a lower bound for g, is not one (refuted, even for a run that reports convergence).", "quantifier": "all sizes, ranks, positive kernels, targets, alpha, tolerances, iteration counts", "why_tests_cant": "Exact equality of column sums for every number of iterations and every kernel.", "anchors": ["ot/lowrank.py:206-319"]}
{"id": "C117", "title": "The low rank step is a mirror descent step solved up to an explicit residual", "statement": "The triple returned by the inner solver has a KL objective that exceeds that of any feasible (Q, R, g) by at most the row violations weighted by fixed multipliers plus mu.(g - alpha), mu >= 0; with no lower bound and exact rows it is the exact KL projection. The kernels built by each outer iteration make this projection the minimiser of gamma <grad F, x> + KL(x | previous), where grad F is the derivative of the documented low rank objective (transport term plus reg times entropies).", "quantifier": "all inputs, all feasible comparison points, all mass preserving directions", "why_tests_cant": "Optimality against a continuum of feasible triples; correctness of the gradient for every direction.", "anchors": ["ot/lowrank.py:206-319", "ot/lowrank.py:468-500"]}
{"id": "C118", "title": "Values reported by lowrank_sinkhorn", "statement": "The lazy plan is Q diag(1/g) R^T. value_linear is the squared Euclidean transport cost of Q diag(1/g') R^T, where g' are the weights before the last iteration, when rescale_cost=False; value adds reg times the three entropies. Boundary: with the default rescale_cost=True (the documentation says the default is False, and ot.solve_sample(method='lowrank') cannot change it) value_linear is that cost divided by sqrt(max M1) sqrt(max M2), so it is not a transport cost (refuted: two points at squared distance 4 always report half).", "quantifier": "all data, weights, ranks, step size rules, tolerances", "why_tests_cant": "Identity over all data and all runs; tests only compare marginals or the sign of the value.", "anchors": ["ot/lowrank.py:150-203", "ot/lowrank.py:502-527", "ot/solvers.py:1877-1892"]}
{"id": "C119", "title": "Plan and starting points of lowrank_sinkhorn", "statement": "With positive weights, alpha <= 1/rank, numItermax >= 1 and stopThr < 1 the solver returns. Its plan is positive, and if the last inner solve did not warn the two marginals are within stopThr + 2 rank n m 1e-16 of a and b. The deterministic start gives positive couplings of (a, g) and (b, g) with uniform g; the random start gives positive factors with row sums a and b. Boundary: alpha > 1/rank raises ValueError only if rank was given, otherwise TypeError.", "quantifier": "all data, weights, ranks, initialisations, step sizes", "why_tests_cant": "Holds for every initialisation and data set, with an explicit bound.", "anchors": ["ot/lowrank.py:27-147", "ot/lowrank.py:322-527"]}
{"id": "C120", "title": "sinkhorn_low_rank_kernel refines sinkhorn", "statement": "For factors whose product K1 K2^T is positive, sinkhorn_low_rank_kernel returns the same scalings, records the same errors and stops in the same way as sinkhorn_knopp on the dense kernel K1 K2^T, from the same warm start; its lazy plan is positive with row sums exactly a.", "quantifier": "all sizes, factors, weights, tolerances, iteration counts, warm starts", "why_tests_cant": "A step by step equivalence of two loops for all inputs.", "anchors": ["ot/lowrank.py:586-730", "ot/bregman/_sinkhorn.py:588-687"]}
{"id": "C121", "title": "Entropic barycenter of histograms", "statement": "After any positive number of iterations the histogram a returned by barycenter_sinkhorn is the weighted geometric mean of the second marginals of plans with exact first marginals A_s, and the entropic objective of those plans exceeds that of any feasible plans by at most an explicit residual built from the disagreement of the second marginals (plus the defect of the dual constraint sum_s w_s log u_s = 0, constant along the run). With uniform weights that defect is zero and, when the stopping test fires, second marginals agree with a up to 2 sqrt(h) stopThr; if they agree exactly, a is the barycenter. Boundary: with non uniform weights the initial scalings use an unweighted geometric mean, the defect never vanishes and the result is wrong (refuted: weights (1,0) do not return the barycenter for any number of iterations).", "quantifier": "all sizes, costs, reg > 0, histograms, weights, tolerances, iteration counts", "why_tests_cant": "Optimality against a continuum of plans; the wrong limit for unequal weights is invisible to tests with uniform weights or marginal checks.", "anchors": ["ot/bregman/_barycenter.py:206-264", "ot/bregman/_utils.py:15-27"]}
{"id": "C122", "title": "Log-domain entropic barycenter", "statement": "_barycenter_sinkhorn_log gives, for every weights and every positive number of iterations, plans with first marginals A_s + 1e-16 whose objective is optimal up to the disagreement of their second marginals with the returned histogram, which is their weighted geometric mean; on convergence they agree up to 2 sqrt(h) stopThr and exact agreement means optimality. numItermax = 0 fails on an unbound variable.", "quantifier": "all sizes, costs, reg > 0, histograms, weights, tolerances, iteration counts", "why_tests_cant": "Same certificate over all runs and all weights.", "anchors": ["ot/bregman/_barycenter.py:405-478"]}
{"id": "C123", "title": "Stabilized entropic barycenter", "statement": "For two or more iterations barycenter_stabilized returns the same kind of certificate, tilted by beta/reg where beta is the potential absorbed so far; if no absorption happened the tilt is zero. In exact arithmetic the numerical error branch is never taken. Boundary: after an absorption (which takes maxima over the histograms and resets v to ones) the result is wrong (refuted: two iterations on the same data return the barycenter with tau = 10 and another histogram with tau = 1).", "quantifier": "all sizes, costs, reg > 0, histograms, weights, tau, tolerances", "why_tests_cant": "Quantifies over every absorption pattern; tests use a tau that is never reached.", "anchors": ["ot/bregman/_barycenter.py:550-631"]}
{"id": "C124", "title": "Debiased Sinkhorn barycenter", "statement": "For a symmetric cost with positive semidefinite kernel, any state reproduced by the loop of _barycenter_debiased is a global minimiser of the debiased objective (entropic costs minus half the self cost of the barycenter, written with its positive dual scaling). After any two or more iterations the value is optimal up to an explicit residual; the stopping test can fire only after the 20th iteration. The log-domain version has the same certificate and, on stopping, second marginals in agreement up to 2 sqrt(h) stopThr; each of its updates of the debiasing term is the plain one in log form, unchanged exactly at self-couplings.", "quantifier": "all sizes, symmetric positive semidefinite kernels, histograms, weights, tolerances, iteration counts", "why_tests_cant": "Global optimality of fixed points of a nonlinear iteration.", "anchors": ["ot/bregman/_barycenter.py:743-803", "ot/bregman/_barycenter.py:814-878"]}
{"id": "C125", "title": "Free support Sinkhorn barycenter", "statement": "With weights summing to one and an exact entropic inner solver every iteration lowers the entropic barycenter objective by at least sum_r b_r |X'_r - X_r|^2; the number of iterations before the threshold is bounded by data of the problem; the support stays in every box that holds the measures and the start. Boundary: started at the single measure to average it moves away from it (refuted as a fixed point: the support is halved in one step for points -1 and 1).", "quantifier": "all numbers of measures, sizes, dimensions, weights, tolerances", "why_tests_cant": "Monotone decrease for all inputs and iteration counts.", "anchors": ["ot/bregman/_barycenter.py:267-400"]}
{"id": "C126", "title": "Proportion estimation jcpot_barycenter", "statement": "For in-range labels and at least one iteration the result is a positive vector summing to one; up to the 1e-10 clipping every returned coupling gives each class the same mass, proportional to the result. Labels of each domain are read up to an own additive constant. Boundary: the result is not the documented minimiser when a class has several samples (refuted for every number of iterations); a domain lacking the smallest class is misread as holding it (refuted); numItermax = 0 and labels beyond the classes of the first domain fail.", "quantifier": "all domains, samples, labels, kernels, tolerances, iteration counts", "why_tests_cant": "Equality of class masses over all runs; the wrong fixed point is invisible without the optimum.", "anchors": ["ot/bregman/_barycenter.py:880-1063", "ot/bregman/_utils.py:30-41"]}
{"id": "C127", "title": "Limit of the Sinkhorn iterations", "statement": "For positive weights of equal mass, any cost and reg > 0 there is exactly one coupling of the form diag(u) exp(-M/reg) diag(v); it is the strict minimiser of <M,P> + reg sum P log P, and the plans of ot.sinkhorn runs with thresholds tending to 0 (from any positive warm starts) tend to it entry by entry.", "quantifier": "all sizes, positive weights, costs, regularisations, warm starts, sequences of thresholds", "why_tests_cant": "A limit statement over infinitely many runs.", "anchors": ["ot/bregman/_sinkhorn.py:591-692"]}
{"id": "C128", "title": "Entropic (fused) GW: what the iterations compute", "statement": "With exact inner Sinkhorn solutions every plan visited by entropic_gromov_wasserstein and entropic_fused_gromov_wasserstein is a coupling, positive after the first step, and the minimiser over couplings of the problem linearised at the previous plan with the true gradient (plus entropy for PGD, relative entropy to the previous plan for PPA), for both losses and symmetric or not. The loop ends at max_iter, or when the last two plans are within tol, or at once if tol >= 1. The distance reported is the objective at the plan returned, lin_loss and quad_loss of the fused '2' version add up to it, and the plain solver is the fused one at alpha = 1.", "quantifier": "all sizes, structures, losses, weights, alpha, epsilon, solvers, tolerances, iteration counts", "why_tests_cant": "Quantifies over every iterate of every run.", "anchors": ["ot/gromov/_bregman.py:150-253", "ot/gromov/_bregman.py:1140-1241", "ot/gromov/_bregman.py:1380-1400"]}
{"id": "C129", "title": "Entropic GW: descent and termination", "statement": "Square loss between Euclidean structures (in particular squared Euclidean distances), exact inner solutions, positive start: each PGD step lowers the entropic objective, and each PPA step the objective without entropy, by at least epsilon times the relative entropy between consecutive plans; for 0 < tol < 1 there is a number of iterations after which the loop has ended by its tolerance.", "quantifier": "all sizes, Euclidean structures, weights, alpha >= 0, epsilon > 0, tolerances in (0,1)", "why_tests_cant": "Monotonicity and termination over all inputs.", "anchors": ["ot/gromov/_bregman.py:186-242", "ot/gromov/_bregman.py:1172-1228"]}
{"id": "C130", "title": "Entropic GW: stationarity", "statement": "For every loss and all structures a step leaves a positive coupling unchanged exactly when the directional derivative towards every coupling vanishes: of the entropic objective for PGD, of the objective without entropy for PPA. A PGD run that ended by its tolerance returns a plan at which all those derivatives are at most 4 alpha Lmax mass sqrt(n m) tol in absolute value.", "quantifier": "all sizes, structures, losses, weights, alpha, epsilon, tolerances", "why_tests_cant": "Derivatives towards all couplings; an equivalence.", "anchors": ["ot/gromov/_bregman.py:186-242", "ot/gromov/_bregman.py:1172-1228"]}
{"id": "C131", "title": "Entropic GW: warm starts", "statement": "With exact inner solutions the plan and value returned do not depend on the inner solver, on warmstart or on the first potentials. Boundary: the potentials carried over are epsilon log u and epsilon log v although the inner solver starts from their exponentials, so for epsilon != 1 it does not restart from the scalings it ended with (refuted).", "quantifier": "all sizes, structures, weights, solvers, warm starts, iteration counts", "why_tests_cant": "Equality of two arbitrary runs; the scale error only costs iterations and no test sees it.", "anchors": ["ot/gromov/_bregman.py:186-242"]}
{"id": "C132", "title": "BAPG", "statement": "Each BAPG iteration minimises <df(T),S> + epsilon KL(S|T) over the matrices with row sums p, then the same over those with column sums q; df pairs with differences of couplings as the true gradient, with or without marginal_loss. After one iteration or more the columns of the result are exactly q and it is positive, for any tol; the rows need not be p and the distance reported differs from the objective by sum_ik f1(C1_ik) r_i (p_k - r_k). A positive plan is left unchanged by both projections exactly when it is a coupling at which df is constant. Boundary: with marginal_loss=True an optimal coupling need not be left unchanged (refuted).", "quantifier": "all sizes, structures, losses, weights, epsilon, alpha, starts, tolerances, iteration counts", "why_tests_cant": "Optimality over infinite feasible sets; an equivalence.", "anchors": ["ot/gromov/_bregman.py:520-617", "ot/gromov/_bregman.py:1540-1637"]}
{"id": "C133", "title": "Entropic GW barycenters", "statement": "With warmstartT=True, square loss, Euclidean structures and exact inner Sinkhorn solutions each iteration of entropic_gromov_barycenters lowers the weighted entropic objective in the plans and then minimises it exactly over all structures C; structures remain Euclidean and plans remain couplings, so the result is never worse than the start. The loop stops at max_iter or when its criterion passes; the 'loss' criterion compares sums of the distances that are not weighted by lambdas, and also stops after a sum equal to 0.", "quantifier": "all numbers of spaces, sizes, structures, weights, tolerances, iteration counts", "why_tests_cant": "Monotone decrease over all runs.", "anchors": ["ot/gromov/_bregman.py:860-994"]}
{"id": "C134", "title": "Entropic FGW barycenters never update the features", "statement": "entropic_fused_gromov_barycenters returns the initial features (zeros by default) whatever the data, the flags, the stopping rule and the number of iterations; with stop_criterion='barycenter' and tol >= 0 it makes exactly one iteration. So the features are not those minimising the objective for the plans found (refuted on one point).", "quantifier": "all arithmetic, sizes, data, flags, solvers, iteration counts", "why_tests_cant": "Absence of any update on every path; tests only compare shapes or log entries.", "anchors": ["ot/gromov/_bregman.py:1947-2113"]}
{"id": "C135", "title": "Batched cost matrices", "statement": "ot.batch.dist_batch returns the sums of squared differences ('sqeuclidean': nonnegative, zero exactly on equal samples), their roots ('euclidean'), the p-norm of the differences ('minkowski', any p > 0), compares X1 with itself when X2 is None, and raises ValueError exactly for other metric names than sqeuclidean, euclidean, minkowski and kl. loss_linear_samples_batch is the sum of M*T for the metric named; called with its default metric ('l2') it always raises ValueError.", "quantifier": "all samples, dimensions, metrics, exponents", "why_tests_cant": "Algebraic identities for all inputs; the failing default is a statement on every call.", "anchors": ["ot/batch/_linear.py:20-85", "ot/batch/_linear.py:150-233"]}
{"id": "C136", "title": "Batched entropic transport", "statement": "Every plan of ot.batch.solve_batch is positive, has its column sums exactly b (any max_iter >= 1, both solvers, with or without last_step) and minimises <M,T> + reg R(T) (entropy or KL to a b^T) among the plans with its own marginals; value_linear is <M,T>, value is the objective at the plan up to reg * 1e-16 * (n m + mass(a) mass(b)). The two solvers return the same plans and stop together. The elements of a batch interact only through the common iteration count: one k reproduces every element by its own problem run for k iterations. Unknown solver: ValueError; unknown reg_type or max_iter = 0: an unbound local.", "quantifier": "all batch sizes, sizes, costs, positive weights, regularisations, tolerances, iteration counts", "why_tests_cant": "Quantifies over all batches and the whole run.", "anchors": ["ot/batch/_linear.py:236-357", "ot/batch/_utils.py:46-290"]}
{"id": "C137", "title": "Batched Gromov-Wasserstein loss", "statement": "With recompute_const=True loss_quadratic_samples_batch equals the quadruple sum of L(C1[i,k], C2[j,l]) T[i,j] T[k,l] for every matrix T, every number of features per entry, symmetric or not, whatever the symmetric flag; with recompute_const=False the same for every T with marginals a and b (and a different value for some other T). For structures symmetric in every feature the flag does not change the tensor product. The loss used by 'kl' is KL(C2 || C1), not the documented sum a log(a/b).", "quantifier": "all sizes, features, structures, plans, flags", "why_tests_cant": "An identity of polynomials (and logarithms) for all inputs.", "anchors": ["ot/batch/_quadratic.py:17-266", "ot/batch/_quadratic.py:504-590"]}
{"id": "C138", "title": "Batched (fused) Gromov-Wasserstein solver", "statement": "From a start with columns b (the default start has marginals a and b when the masses agree) every later plan of solve_gromov_batch is positive with column sums exactly b and is the minimiser, among the plans with its own marginals, of the problem linearised at the previous plan (true gradient, reg times the relative entropy to the previous plan, to T_init + 1e-15 in the first step); the loop ends at max_iter or when the mean absolute change of every element is below tol. value_linear = (1-alpha)<M,T>, value_quad = alpha times the quadruple sum and value is their sum, at the plan returned, for every input. Exactly symmetric batches are recognised. ValueError exactly when one of M, alpha is missing or alpha is outside [0,1] (the documented default alpha = 0.5 does not exist); max_iter = 0 or max_iter_inner = 0: an unbound local.", "quantifier": "all batches, sizes, features, losses, weights, alpha, reg, tolerances and iteration counts", "why_tests_cant": "Quantifies over every iterate of every run.", "anchors": ["ot/batch/_quadratic.py:269-498", "ot/batch/_quadratic.py:535-602"]}
{"id": "C139", "title": "Joint transport and mapping estimation", "statement": "With an exact linear oracle, joint_OT_mapping_linear and joint_OT_mapping_kernel (with or without bias) return a coupling of the uniform weights and the mapping that is globally optimal for that plan (the Gaussian kernel matrix being positive semidefinite); log['loss'] starts at the best mapping for the plain transport plan, never increases, and ends at the objective of the returned pair; at most numItermax rounds, fewer only if the last relative change is below stopThr. MappingTransport.transform applies the mapping to new samples, but sends the very samples of the fit to the barycentric projection of the plan instead, so the same point has two images.", "quantifier": "all samples, sizes, mu > 0, eta >= 0, sigma <> 0, limits and thresholds", "why_tests_cant": "Monotone descent and global optimality of the mapping over all runs; tests only check shapes and a few values.", "anchors": ["ot/mapping.py:428-898", "ot/da.py:1970-2173", "ot/utils.py:42-49"]}
{"id": "C140", "title": "Nearest Brenier potentials", "statement": "The constants exist exactly when 0 < l < L, and the constraints built from them are satisfied by the values and gradients of every l-strongly convex L-smooth function (one per class): hence with an exact convex solver the interval of nearest_brenier_potential_predict_bounds contains the value of every such function having the fitted values and gradients. nearest_brenier_potential_fit returns a feasible pair, optimal for a transport plan, and its values never increase.", "quantifier": "all dimensions, samples, classes, constants, functions", "why_tests_cant": "Quantifies over all regular functions.", "anchors": ["ot/mapping.py:23-425"]}
{"id": "C141", "title": "Dual potentials of the 1-D solver", "statement": "emd_1d_dual_backprop returns the optimal cost and potentials whose weighted sums are equal and add up to that cost; they satisfy every dual constraint (so they are optimal) when no interior cumulative weight of one measure equals one of the other, but not in general: with two points of equal weight on each side a dual constraint is violated whatever order the sort gives to ties.", "quantifier": "all samples, nonnegative weights, p >= 1, sorted or not, all tie orders", "why_tests_cant": "Optimality of a dual pair quantifies over all constraints and all inputs; the tie failure needs a specific configuration that the random tests compare only through the cost.", "anchors": ["ot/lp/solver_1d.py:469-570"]}
{"id": "C142", "title": "Unbalanced transport in one dimension", "statement": "For each column uot_1d returns reweighted marginals a exp(-f/rho1) and b exp(-g/rho2) of equal mass, a linear cost that is the optimal transport cost between them, a total cost that is the unbalanced objective of an admissible plan, and potentials translated optimally; when the potentials are feasible (guaranteed if no ties were met) the dual value bounds the objective of every plan from below. Not so: with require_sort=False every call fails with a NameError; with exactly one infinite parameter and several columns each total contains the divergences of all columns; and with tied weights the potentials can be infeasible.", "quantifier": "all columns, samples, positive weights, parameters finite or infinite, p >= 1, iteration counts", "why_tests_cant": "Certificates for every number of Frank-Wolfe iterations and all weights.", "anchors": ["ot/unbalanced/_solver_1d.py:15-307"]}
{"id": "C143", "title": "Partial transport on the line solves every intermediate problem", "statement": "partial_wasserstein_1d with p = 1 returns k = n_transported_samples source indices, k target indices and k marginal costs such that, for every l <= k <= min(n, m), the first l indices of each array are distinct and in range, they can be matched at a total cost equal to the sum of the first l marginal costs, and no matching of l pairs and no fractional partial plan of mass l is cheaper; the marginal costs are non-decreasing; the default is k = min(n, m). Not so for k > min(n, m): the call succeeds and the arrays are padded with repeated indices of cost 0 instead of having the documented length min(n, m, k).", "quantifier": "all sample arrays (with ties, any order), all k, all prefixes, all competing plans", "why_tests_cant": "Optimality of every prefix against all fractional plans; the chain arrays and the heap have state that random tests visit only in part.", "anchors": ["ot/partial/partial_solvers.py:1533-1624", "ot/partial/partial_cython.pyx:14-495"]}
{"id": "C144", "title": "Transport between Gaussian mixtures: a metric, its maps and its density", "statement": "dist_bures_squared is the matrix of squared Bures-Wasserstein distances of the components. The square root of gmm_ot_loss is a distance between mixtures: non-negative, symmetric, triangle inequality, and zero exactly when the two mixtures are the same weighted set of Gaussians (components may be split, merged or reordered). gmm_ot_apply_map with method='bary' and a plan with the mixtures' weights as marginals returns sum_ij p_ij(x) T_ij(x), where T_ij is the optimal map from component i to component j and p_ij(x) = plan_ij pdf_i(x) / gmm_pdf(x) are non-negative and sum to one. Every other method string, misspelt ones included, gives the random map: rng.choice is called with exactly these p_ij and is never refused, and the sample is sent to T_ij(x) for the drawn pair, which has plan_ij > 0. gmm_ot_plan_density lies between 0 and gmm_pdf(x), vanishes if no T_ij(x) with plan_ij > 0 is within atol of y, and equals gmm_pdf(x) if all are.", "quantifier": "for all dimensions, mixtures with positive definite covariances, weights, plans with the right marginals, samples and generators", "why_tests_cant": "A test compares with a few numbers; that the loss separates mixtures, satisfies the triangle inequality and that the posterior weights are exactly those given to the generator are statements about all mixtures and points.", "anchors": ["ot/gmm.py:gaussian_pdf", "ot/gmm.py:gmm_pdf", "ot/gmm.py:dist_bures_squared", "ot/gmm.py:gmm_ot_loss", "ot/gmm.py:gmm_ot_plan", "ot/gmm.py:gmm_ot_apply_map", "ot/gmm.py:gmm_ot_plan_density"]}
{"id": "C145", "title": "Gaussian mixture barycenter: what the fixed point returns", "statement": "gmm_barycenter_fixed_point with barycentric_proj_method='euclidean' and equal component weights, or with 'bures' and any positive w_bar, returns after at least one iteration components that are Bures-Wasserstein barycenters of the K Gaussians obtained by projecting optimal plans (conditional means; conditional covariances averaged or their Bures barycenter). Hence the mean of the returned mixture is exactly the weighted mean of the means of the K mixtures, and no other position of a component is cheaper for the plans used. With 'euclidean' and unequal w_bar this fails: the plan rows are scaled by n instead of 1/w_bar[i], and the barycenter of the single Gaussian N(1,1) with w_bar=(1/4,3/4) has means 1/2 and 3/2. The log holds iterations+1 entries from the initial to the returned one; an unknown projection method is an error only if there is at least one iteration and one component.", "quantifier": "for all K, mixtures, initial components, coefficients, numbers of iterations and both projection methods", "why_tests_cant": "The invariants hold for every iteration count and input; the failing case needs unequal barycenter weights, which the tests with uniform weights never use.", "anchors": ["ot/gmm.py:gmm_barycenter_fixed_point", "ot/gaussian.py:bures_wasserstein_barycenter"]}
{"id": "C146", "title": "Sliced unbalanced transport: marginals, bracket, and when the two variants agree", "statement": "unbalanced_sliced_ot returns marginals a*exp(-f/reg_m1) and b*exp(-g/reg_m2) (the given weights when a parameter is infinite) that carry the same mass; for every direction the logged 1-D loss times the logged mass is the optimal projected cost between them, and the returned value is exactly the average of these costs plus the KL penalties, so it is never below the optimum of the unbalanced sliced problem. No translation of the potentials has a larger dual value, and if no interior cumulative weights ever coincide the dual value is a lower bound for every admissible choice of marginals and plans. sliced_unbalanced_ot returns the average over directions of the objective of an admissible unbalanced plan, and its dual values bound both problems from below. With both parameters infinite the two functions return the same value, the average optimal 1-D cost; with a single direction they return the same value and marginals for all parameters. Different dimensions raise ValueError. Boundary: with exactly one infinite parameter sliced_unbalanced_ot multiplies the penalty by the number of directions (repeating a direction changes the value).", "quantifier": "for all samples, directions, positive weights, positive or infinite parameters, p >= 1, numbers of iterations and tie-breaking orders of the sort", "why_tests_cant": "Tests look at a few random clouds with equal parameters; that the value is attained by an admissible plan at every iteration count, the lower bound over all plans, and the equality of the two algorithms for one direction are universal statements.", "anchors": ["ot/unbalanced/_sliced.py:sliced_unbalanced_ot", "ot/unbalanced/_sliced.py:get_reweighted_marginals_usot", "ot/unbalanced/_sliced.py:unbalanced_sliced_ot"]}
{"id": "C147", "title": "Unbalanced barycenters: certified result at every iteration count, convergence, and the absorption threshold", "statement": "barycenter_unbalanced (method 'sinkhorn'): after any number of iterations the returned histogram q is positive and is exactly the weighted average of the second marginals of the plans P_h = u_h K v_h; q and the plans are admissible, and their objective sum_h w_h [<P_h,M> + reg*Ent(P_h) + reg_m KL(P_h 1|a_h) + reg_m KL(P_h^T 1|q)] exceeds that of no other histogram and plans by more than reg_m sum_h w_h KL(P_h 1 | a_h u_h^(-reg/reg_m)); when that gap is zero the minimiser is unique. Without early stop the lower bound never decreases, the objective tends to the infimum, and among the first N+1 iterations one is within C/N. 'sinkhorn_stabilized' (its 1e-16 guards apart) returns a certified result after every number of iterations too, whatever tau, and converges for one histogram or whenever only finitely many iterations absorb. The two unimplemented method names fall back to 'sinkhorn', other names raise ValueError, a weights array of the wrong length raises AssertionError, numItermax=0 raises UnboundLocalError when log=True and returns the start otherwise. Boundary: with tau < 1 and several histograms the stabilized run can absorb forever and settle on a histogram that is not the barycenter.", "quantifier": "for all non-negative histograms (none empty), cost matrices, positive reg and reg_m, simplex weights, iteration counts, thresholds", "why_tests_cant": "Tests compare a few runs after convergence; the exact marginal identity and the optimality bracket at every iteration, uniqueness, convergence from every input and the failure for small tau quantify over all inputs and all competitors.", "anchors": ["ot/unbalanced/_sinkhorn.py:barycenter_unbalanced_stabilized", "ot/unbalanced/_sinkhorn.py:barycenter_unbalanced_sinkhorn", "ot/unbalanced/_sinkhorn.py:barycenter_unbalanced"]}
{"id": "C148", "title": "Quantized Gromov-Wasserstein: the plan couples the nodes listed by partition, block by block", "statement": "quantized_fused_gromov_wasserstein_partitioned: when the global plan has the partition masses as marginals and every partition has positive mass, the returned T couples the two concatenated measures; its block (i,j) is T_global[i,j] times an optimal plan, for the squared difference of the distances to the representants, between the two partitions normalised to mass 1; Ts_local has a key exactly where T_global is non-zero and the logged local distance is the optimal 1-D cost. quantized_fused_gromov_wasserstein(_samples), for positive probability weights: T couples p and q listed by increasing partition label then by node number, and the mass it moves between two partitions is the entry of T_global; if the labels are already sorted (in particular with one partition or one per node) T couples p and q in the caller's order and log['qFGW_dist'] is exactly alpha*GW(T) + (1-alpha)<D(F1,F2),T>. Each representant lies in its own partition; alpha outside ]0,1] and alpha != 1 without features raise ValueError. Boundaries: with labels that are not sorted the rows of T are not the caller's nodes, the row sums differ from p and qFGW_dist can be negative on two identical graphs; alpha=0, documented, never returns; part_method 'fluid' (the default), 'louvain' and rep_method 'pagerank' are always replaced by 'random', networkx installed or not; method 'kmeans_fused' with alpha=1 raises ValueError; get_graph_representants called with as many unsorted labels as nodes returns nodes of the wrong partitions.", "quantifier": "for all structure matrices, weights, partitions, representants, feature distances, global plans, alpha and method names", "why_tests_cant": "Tests run a few seeds with uniform weights, where the permuted marginals look right; that the row order is that of the partitions for every labelling, that every block is optimal and that networkx never has an effect are statements about all inputs.", "anchors": ["ot/gromov/_quantized.py:quantized_fused_gromov_wasserstein_partitioned", "ot/gromov/_quantized.py:get_graph_partition", "ot/gromov/_quantized.py:get_graph_representants", "ot/gromov/_quantized.py:format_partitioned_graph", "ot/gromov/_quantized.py:quantized_fused_gromov_wasserstein", "ot/gromov/_quantized.py:quantized_fused_gromov_wasserstein_samples"]}
{"id": "C149", "title": "Empirical Sinkhorn: the lazy solver is the swapped dense solver, whatever the batches", "statement": "empirical_sinkhorn(isLazy=True): the potentials, the error list and the warning do not depend on batchSize (an int or a pair, each at least 1; anything else raises ValueError; numIterMax=0 with log=True raises UnboundLocalError); it stops exactly when the L1 error on the first marginal, checked every ten iterations, is at most stopThr, otherwise warns if and only if warn; the returned plan has the second marginal b exactly, its entropic objective exceeds the optimum by at most an explicit multiple of the remaining error, and the first warm-start potential is never used; for positive weights of equal mass it converges within an explicit number of iterations, and as stopThr goes to 0 the plan and the loss tend to the entropic optimal plan and its cost. After any number of iterations its plan is the transpose of the dense plan of the swapped problem (b, a, M^T). empirical_sinkhorn2 returns <M,plan> for either mode. empirical_sinkhorn_divergence is at least 0, is 0 on equal samples and weights without warm start, and tends to max(0, l_ab-(l_a+l_b)/2) for the three entropic plans. The lazy plan read at non-negative indices, or at indices from the end up to -2, is the entry. Boundaries: isLazy changes the result of a finite run (after one iteration the lazy plan has the second marginal b, the dense one does not); the dense branch of empirical_sinkhorn ignores warn=False; lazy_plan[-1] is empty.", "quantifier": "for all samples (metric matrices), weights, regularisations, thresholds, batch sizes, warm starts and numbers of iterations", "why_tests_cant": "Tests compare lazy and dense results after convergence on a few samples with one or two batch sizes; independence of every batching, the exact relation between the two solvers at every iteration and the limits are statements about all inputs.", "anchors": ["ot/bregman/_empirical.py:get_sinkhorn_lazytensor", "ot/bregman/_empirical.py:empirical_sinkhorn", "ot/bregman/_empirical.py:empirical_sinkhorn2", "ot/bregman/_empirical.py:empirical_sinkhorn_divergence", "ot/utils.py:LazyTensor"]}
{"id": "C150", "title": "Stochastic Gromov-Wasserstein: what the estimators and the two samplers return", "statement": "GW_distance_estimation on a coupling of probability vectors: rejects exactly the calls asking for more distinct rows than points of positive weight; otherwise the estimate lies between the extreme losses over matched pairs, is exact with zero deviation when that loss is constant, and its mean over the column draws is the unweighted mean over the drawn rows of the conditional losses; with all rows and uniform weights that mean is the GW loss of the plan. With fewer source than target points the problem is transposed. pointwise_gromov_wasserstein: the result is the plan of lowest estimate among those visited every ten iterations and at the last one; for positive weights, alpha in [0,1] and no threshold no draw fails and the result is a coupling (an optimal 1-D plan between two rows if alpha=1); a positive threshold only removes mass; max_iter=0 raises UnboundLocalError. sampled_gromov_wasserstein: the result is a coupling whatever is drawn; with all rows and uniform weights the expected sampled cost is n/2 times the gradient of the GW loss, symmetric matrices or not. Boundaries: the estimate is documented as unbiased but with non-uniform weights every draw can give 1/2 for a loss of 3/8; one row of weight zero makes the default call raise ValueError; after transposition loss_fun receives its arguments exchanged; two one-point spaces make pointwise_gromov_wasserstein raise UnboundLocalError for every argument; an int nb_samples_grad with nb_samples_grad // ns > nt (the default 100 on two 5-node graphs) always raises ValueError; with a negative loss the division by the maximum turns the minimisation into a maximisation.", "quantifier": "for all structure matrices, weights, plans, loss functions, sample sizes, random draws and numbers of iterations", "why_tests_cant": "Tests fix one seed and uniform weights on 20 or more points; bias, behaviour over every possible draw and the exact set of failing arguments are statements about all draws and inputs.", "anchors": ["ot/gromov/_estimators.py:GW_distance_estimation", "ot/gromov/_estimators.py:pointwise_gromov_wasserstein", "ot/gromov/_estimators.py:sampled_gromov_wasserstein"]}
{"id": "C151", "title": "Merging bijections never costs more than any of them, and what merge_bijections really merges", "statement": "Merging (MergePlansNoPar, used by merge_bijections and by the BSP-OT solver): for bijections and any cost the result is a bijection (in every arithmetic), and its mean cost is at most that of every merged bijection and of the initial one. merge_bijections(X, Y, perms): with perms of shape (n_plans, n) and n_plans >= n it returns a bijection and its mean cost, at most that of each of the first n rows. Boundaries: the wrapper passes the number of columns as the number of plans, so with fewer plans than points the buffer is read out of bounds whatever the data, and with more plans than points the extra ones are ignored - the documented guarantee (no greater than any input) fails on three bijections of two points. Clouds of different shapes or not 2-D raise ValueError; merging no plan is undefined.", "quantifier": "for all numbers of points, costs (negative ones included), bijections, initial bijections and orders of the plans among equal costs", "why_tests_cant": "No test calls merge_bijections; the guarantee is an inequality over all costs and families of bijections, and the out-of-bounds read depends on the ratio of plans to points.", "anchors": ["ot/bsp/bsp_ot.py:merge_bijections", "ot/bsp/bsp_wrap.pyx:merge_bijections_c", "ot/bsp/bsp_wrapper.cpp:MergeBijections", "ot/bsp/BSP-OT_header_only.h:MergePlansNoPar"]}
{"id": "C152", "title": "compute_bspot_bijection returns a bijection that is optimal on the line and on scaled copies", "statement": "Every BSP matching is a bijection, whatever the slices and the pivots (strictly inside the range) and in every arithmetic. compute_bspot_bijection with n_plans >= 1 returns a bijection and its mean cost, at most the mean cost of each matching and of initial_perm. For points on a line sliced along the line it returns an optimal bijection for |x-y|^p, p >= 1, with one plan already. If Y is a scaled (positive factor), translated and relabelled copy of X and no slice merges two points, every matching is that relabelling and the returned squared cost is the optimum. Boundaries: initial_perm of a dtype other than int32 (numpy's default is int64) is refused; n_plans = 0 is undefined; in dimension 1 the orthogonal slices (default mode, fewer than 50 points) are the zero vector in exact arithmetic, so the line result fails there. Shape errors raise ValueError.", "quantifier": "for all clouds, exponents, numbers of plans, random slices and pivots, implementations of nth_element and initial bijections", "why_tests_cant": "The slices are random and the matchings exponentially many; tests check one seed, one scaled copy and one size.", "anchors": ["ot/bsp/bsp_ot.py:compute_bspot_bijection", "ot/bsp/bsp_wrap.pyx:bsp_solve_c", "ot/bsp/bsp_wrapper.cpp:BSPOT_wrap", "ot/bsp/BSP-OT_header_only.h:BijectiveBSPMatching"]}
{"id": "C153", "title": "L-BFGS-B unbalanced transport: stationary plans are optimal, and where the gradient and the stopping test fail", "statement": "lbfgsb_unbalanced(2): with valid arguments the minimiser is given the documented objective (with the constant 1e-16 inside the logarithms) and the returned costs are the linear part and the objective of the returned plan. A plan passing L-BFGS-B's projected-gradient test with tolerance d is within d times a mass, plus an explicit gap due to the constant, of the objective of every nonnegative plan; without logarithms ('l2' or 'tv' marginals with 'l2' or convex custom regularisation) it is a global minimiser; with reg > 0 it is unique, so G0 does not matter; for 'l2'/'l2' stationary plans are exactly the minimisers. The total cost is at least the linear one for 'kl' and 'l2'. Boundaries: the gradient returned for 'kl' and 'entropy' is not the derivative of the value (it ignores the constant): the excess is explicit and reaches the whole weight reg at a zero entry; with 'tv' the minimiser may fail the test and no plan at all be stationary; with 'entropy' the total cost may be below the linear one; a pair of functions passed as a list is silently replaced by 'l2'. Wrong names, reg_m of length 0 or more than 2 and unknown returnCost raise.", "quantifier": "for all sizes, costs (any sign), positive weights, reference measures, reg, reg_m >= 0, convex custom regularisations, starting plans and minimisers", "why_tests_cant": "Optimality and uniqueness are claims over all plans, and the gradient error is about 1e-16-scale entries a numerical check of gradients cannot see; no test exercises a tv optimum at the kink or a list of callables.", "anchors": ["ot/unbalanced/_lbfgs.py:_get_loss_unbalanced", "ot/unbalanced/_lbfgs.py:lbfgsb_unbalanced", "ot/unbalanced/_lbfgs.py:lbfgsb_unbalanced2", "ot/utils.py:get_parameter_pair"]}
{"id": "C154", "title": "Unmixing: mass of the proportions, what alpha really weighs, and shapes", "statement": "unmix(a, D, M, M0, h0, reg, reg0, alpha) with a dictionary of distributions covering every bin, positive a and h0 and at least one iteration returns positive proportions whose mass is at most alpha times the mass of a plus (1-alpha) times the mass of h0. The documentation says alpha is the trust in the prior; the code exchanges the weights: with alpha = 0 the result, after any number of iterations, is the prior smoothed by its Gibbs kernel and depends on neither a, M, reg nor D (so two priors give two results), and with alpha = 1 and the identity dictionary it is a smoothed by its kernel and does not depend on h0. With the identity dictionary, once the two plans meet their marginals they minimise alpha/reg times the entropic cost of the data plan plus (1-alpha)/reg0 times that of the prior plan over all admissible pairs. The loop stops at the first recorded error below stopThr and otherwise after numItermax errors. A prior of dimension other than n_atoms (documented as dim_prior) raises ValueError unless one of the two is 1; log=True with numItermax=0 reads an unset variable; nothing else fails.", "quantifier": "for all sizes, costs, positive weights and regularisations, alpha in [0,1], norms, thresholds and numbers of iterations; stopping and shapes for any arithmetic", "why_tests_cant": "A test compares one result with a reference value; which of alpha and 1-alpha multiplies which term, independence of the ignored inputs, and optimality over all plan pairs are statements over all inputs.", "anchors": ["ot/bregman/_dictionary.py:unmix", "ot/bregman/_utils.py:projR", "ot/bregman/_utils.py:projC"]}
{"id": "C155", "title": "Convolutional barycenters of images solve the barycenter problem of the pixel grid", "statement": "The separable convolutions of convolutional_barycenter2d(_debiased) multiply by the Gibbs kernel of the squared distance between pixels of the unit square, for every image size, and that kernel is positive semi-definite. After two or more iterations of method='sinkhorn' the U and V in the log scale plans whose first marginals are exactly the images; the returned image is the weighted geometric mean of their second marginals times the factors introduced by stabThr; on convergence (checked every tenth iteration) the second marginals differ from it by at most 2 sqrt(n_hists) stopThr; and the plans minimise the weighted sum of entropic costs up to the disagreement of the marginals and a term proportional to the stabilisation. With stabThr = 0 agreement of the marginals means optimality; method='sinkhorn_log' has the same guarantees for the images A + stabThr, without the extra term, from the first iteration. The debiased versions do the same for the debiased objective. With numItermax = 0 the plain versions return the uniform image, the debiased log version the all-ones image, 'sinkhorn_log' raises, and log=True raises.", "quantifier": "for all image sizes, images, weights, reg > 0, thresholds and numbers of iterations (>= 2 for 'sinkhorn', >= 1 for 'sinkhorn_log'); stopping and zero iterations for any arithmetic", "why_tests_cant": "Tests compare one image with a stored result; exactness of the first marginals, optimality over all families of plans and the positive semi-definiteness on grids of every size are universal statements.", "anchors": ["ot/bregman/_convolutional.py:_get_convol_img_fn", "ot/bregman/_convolutional.py:_convolutional_barycenter2d", "ot/bregman/_convolutional.py:_convolutional_barycenter2d_log", "ot/bregman/_convolutional.py:_convolutional_barycenter2d_debiased", "ot/bregman/_convolutional.py:_convolutional_barycenter2d_debiased_log"]}
{"id": "C156", "title": "solve_gromov solves the problem it documents, except that regularised fused problems are solved for another weight", "statement": "If the solvers behind solve_gromov report the numbers of the plan they return, then for every combination of options that is not refused the returned plan obeys the documented constraints (both marginals, the first marginal, or at most the marginals with the given mass), value is the documented objective of that plan, and value_linear and value_quad, when given, are its two parts. If they find minimisers, the plan minimises the documented problem, except for the regularised fused problem (linear cost given, alpha not 0 or 1, balanced or semi-relaxed): there the weight reg is not passed on, the plan does not depend on reg at all, only the value does, affinely; with perfect solvers the plan is not a solution for any reg > 0 other than 0.1 as soon as the structures are constant and the linear cost is not separable (balanced) or not constant on a row (semi-relaxed). The refusals are exactly: NotImplementedError for an unknown loss, an unbalanced penalty other than semirelaxed or partial, or a regularisation of the balanced problem other than entropy; ValueError when more mass is asked for than there is; TypeError for alpha=None with a linear cost (although documented), or for a semi-relaxed problem without linear cost and another regularisation. Partial and semi-relaxed fused problems ignore reg_type.", "quantifier": "for all sizes, matrices, weights, losses, options and all behaviours of the called solvers", "why_tests_cant": "A test fixes options and compares with one solver; that the dispatch covers every combination of options correctly, and that a dropped argument changes the problem for every reg, are statements about all inputs and all solver behaviours.", "anchors": ["ot/solvers.py:solve_gromov"]}
{"id": "C157", "title": "solve solves the problem it documents, except that the balanced problem ignores the reference measure", "statement": "If the solvers behind solve report the numbers of the plan they return, then for every combination of options that is not refused value_linear is the linear cost of the returned plan in every gradient mode, value is the formula of the branch at that plan, and the plan has the prescribed marginals (balanced) or is nonnegative (unbalanced), grad='last_step' aside. If they find minimisers, the plan minimises the documented problem for every unbalanced problem and for the balanced one without regularisation, with a user-defined one, with the entropy, or with the Kullback-Leibler divergence and no reference measure. With a reference measure c the balanced Kullback-Leibler problem is not solved: for every positive c whose logarithm is not a row term plus a column term some coupling is strictly better than the returned plan. The potentials of the entropic branch are the optimal dual potentials divided by reg: reg times them is the unique dual solution, they themselves are not one unless reg = 1. Initial potentials, initial plan, c and method do not influence the balanced problem with a named regularisation; method never influences anything. The refusals are exactly: NotImplementedError for an unknown unbalanced penalty or an unknown regularisation name with reg > 0, ValueError for last_step with max_iter=0.", "quantifier": "for all sizes, costs, weights, reference measures, options and all behaviours of the called solvers", "why_tests_cant": "A test compares one combination of options with one solver; that no combination solves another problem, and that a documented argument is dropped for every value of it, are statements about all inputs and all solver behaviours.", "anchors": ["ot/solvers.py:solve"]}
{"id": "C158", "title": "solve_sample: lazy and dense calls agree for exact and entropic transport, but lazy calls and large scale methods drop documented arguments", "statement": "Without lazy and without a large scale method, solve_sample solves the problem of the cost matrix of the samples exactly as solve does. With lazy=True, no regularisation and no method the plan is optimal and value and value_linear equal those of lazy=False. With lazy=True and reg > 0 the lazy plan solves the entropic problem, equals the plan of lazy=False for the entropy (or KL without reference measure) and has the same value_linear, but value is missing, and reg_type and c have no effect: for reg_type='L2' and two points at distance 1 some coupling is strictly better for every reg > 0. The methods 1d, gaussian, lowrank, nystroem, factored and geomloss* ignore unbalanced, unbalanced_type, reg_type, c and the initialisations without an error: if giving up all mass is cheaper than every coupling, method='1d' reports more than the unbalanced optimum. gaussian and factored ignore the weights a and b: equal samples with different weighted means are at reported distance 0. reg=None (documented as no regularisation) means reg = 1 for nystroem and 1e-6 for gaussian. The refusals are exactly: those of solve for dense calls; NotImplementedError for a metric the method does not know, for lazy unbalanced problems, and for lazy exact problems with an unlisted method; UnboundLocalError for lazy=True with a method that starts like geomloss but is not one of its five names.", "quantifier": "for all sizes, samples, cost functions, weights, options and all behaviours of the called solvers", "why_tests_cant": "A test fixes data and options; that an argument is without effect for all its values, that the two calling modes agree on all data, and that the list of refusals is complete, are statements about all inputs and all solver behaviours.", "anchors": ["ot/solvers.py:solve_sample"]}
{"id": "C159", "title": "semi_relaxed_path: every plan of the path satisfies the column constraint exactly and is stationary; without ties it is optimal for every gamma >= reg, with ties it may not be", "statement": "semi_relaxed_path(a, b, C, reg, itmax) raises an IndexError exactly when itmax <= 1. Otherwise the returned gamma values are strictly decreasing and end at reg, and every returned plan as well as every plan that compute_transport_plan interpolates for gamma >= reg has column sums exactly b and equal marginal costs gamma C_ij + (T1 - a)_i on the cells of each column that carry mass, whatever ties occur and whatever the iteration budget. If b > 0, every column has a unique cheapest row, the iteration budget was not exhausted, at most one empty cell is tied at each breakpoint and events are separated by more than the filters 1e-10 and 1e-8, the interpolated plan is non-negative and minimises gamma <C,T> + 1/2 |T1 - a|^2, that is <C,T> + 1/(2 gamma) |T1 - a|^2 (the docstring says 1/gamma), over all non-negative plans with column sums b, for every gamma >= reg. With two equally cheap cells in a column this fails with the constants of the code: the path consists of the plan (1, 0) although (1/2, 1/2) is strictly better.", "quantifier": "for all sizes, weights, costs, reg >= 0, iteration budgets and gamma >= reg, in exact arithmetic with 1e-16 replaced by 0", "why_tests_cant": "A test checks the last plan of some random problems; that all interpolated plans of the continuum gamma >= reg are feasible and optimal, that the incremental inverse stays an inverse whatever sequence of additions and removals occurs, and where optimality is lost, are statements about all inputs.", "anchors": ["ot/regpath.py:semi_relaxed_path", "ot/regpath.py:semi_relaxed_next_gamma", "ot/regpath.py:compute_next_removal", "ot/regpath.py:construct_augmented_H", "ot/regpath.py:recast_semi_relaxed_as_lasso", "ot/regpath.py:compute_transport_plan"]}
{"id": "C160", "title": "lowrank_gromov_wasserstein_samples: mirror descent on the Gromov-Wasserstein objective of the (rescaled) squared Euclidean structures; its value_quad mixes in the weights of the previous iteration", "statement": "lowrank_gromov_wasserstein_samples(X_s, X_t, a, b, reg, rank, ...) works with the squared Euclidean distances of the samples, divided by one constant per side when rescale_cost is True (the default, documented as False): the order of the couplings by Gromov-Wasserstein objective is unchanged by this, but the reported values are those of the rescaled structures. Each iteration hands the inner solver kernels whose KL projection is the mirror descent step for the gradient of GW(Q diag(1/g) R^T) plus reg times the entropies, computed through the factors only; with gamma_init='rescale' the step is 10 over the largest squared gradient entry. The result is the plan Q diag(1/g) R^T, positive, with marginals within the inner tolerance of the weights when the last inner solver converged. value_quad is the sum of the two constant terms minus twice the bilinear term between the plan and the plan with the weights g from before the last iteration, so it equals the Gromov-Wasserstein objective of the returned plan when g did not move and the marginals are exact; value adds reg times the entropies. No warning means that the last iteration moved by at most stopThr, measured as symmetrised KL divergence over gamma^2. The call returns for positive weights, alpha <= 1/rank and non-zero iteration budgets; rank 0 and alpha > 1/rank raise ValueError (TypeError for the latter when rank is None), another gamma_init NotImplementedError, an empty iteration budget or stopThr >= 1 UnboundLocalError.", "quantifier": "for all sizes, dimensions, samples or user supplied factors, weights, ranks, reg, alpha, thresholds, iteration budgets and starting points, over the reals", "why_tests_cant": "Tests compare marginals and shapes on one problem; that the low rank products equal the gradient of the quartic objective, what the reported value is at non-converged states, and when every call returns, quantify over all inputs.", "anchors": ["ot/gromov/_lowrank.py:lowrank_gromov_wasserstein_samples", "ot/gromov/_lowrank.py:_flat_product_operator", "ot/lowrank.py:_LR_Dysktra", "ot/lowrank.py:compute_lr_sqeuclidean_matrix"]}
{"id": "C161", "title": "ot.lp.barycenter: the linear program it builds is the Wasserstein barycenter problem exactly when all distributions have the same mass", "statement": "barycenter(A, M, weights, solver=...) builds one linear program over all transport plans and the barycenter. If the LP solver returns an optimal solution of the program it is given and all columns of A have the same mass, the returned b is non-negative and is the common second marginal of plans P_i with first marginals A[:, i] whose weighted cost sum_i weights_i <M, P_i> is minimal among all plans to any common non-negative marginal; every P_i of positive weight is an optimal plan between A[:, i] and b. weights=None means uniform weights. If the masses differ no error is raised: b has the mass of the first column only, and plan i >= 1 misses b in its last entry by the difference of the masses, because that constraint is left out as redundant. For non-negative columns of equal mass the program is feasible, and bounded for non-negative M and weights. A wrong number of weights raises AssertionError; a failed linprog (x is None) TypeError.", "quantifier": "for all sizes, numbers of distributions >= 1, distributions, cost matrices, weights and LP solvers, over the reals", "why_tests_cant": "Tests compare one barycenter with a reference; that the kron / block_diag / hstack assembly with its dropped rows encodes the barycenter problem for every size and number of distributions is a statement about all inputs.", "anchors": ["ot/lp/_barycenter_solvers.py:barycenter"]}
{"id": "C162", "title": "Linear unmixing on a (fused) Gromov-Wasserstein dictionary: exact gradient, exact line search, reported loss and optimality - for symmetric structures", "statement": "gromov_wasserstein_linear_unmixing and fused_gromov_wasserstein_linear_unmixing alternate a transport solver with a conditional gradient on the weights w. For a symmetric structure C and a plan T with second marginal q: the gradient used is the derivative of alpha GW(C, sum_d w_d Cdict_d, T) + (1 - alpha) <T, squared feature distances> - reg |w|^2; every step goes to the best point of the segment towards a minimiser of the linearised objective over the simplex; w stays in the simplex, Cembedded and Yembedded are the structures w composes, the loss carried along is the objective exactly and never increases. With tol_inner <= 0, weights at which the criterion stopped the inner loop admit no feasible descent direction, and for reg <= 0 minimise the objective over the simplex for that plan. For a solver returning plans with their value, never worse than the warm start, the whole call returns weights in the simplex, a coupling of p and q, the objective as loss, and no more than the start value; with max_iter_outer = 0 it returns 10**15. For an asymmetric C the constant term is transposed: the reported loss can be 0 where the objective is 1/2, and the objective can increase.", "quantifier": "for all sizes, dictionaries, structures, features, weights, regularisations, tolerances, iteration counts and transport solvers, over the reals", "why_tests_cant": "Tests run a few unmixings and check shapes and decreasing values; that the incrementally updated loss equals the objective after any number of iterations, and optimality at the stop, concern every input and history.", "anchors": ["ot/gromov/_dictionary.py:gromov_wasserstein_linear_unmixing", "ot/gromov/_dictionary.py:_cg_gromov_wasserstein_unmixing", "ot/gromov/_dictionary.py:_linesearch_gromov_wasserstein_unmixing", "ot/gromov/_dictionary.py:fused_gromov_wasserstein_linear_unmixing", "ot/gromov/_dictionary.py:_cg_fused_gromov_wasserstein_unmixing", "ot/gromov/_dictionary.py:_linesearch_fused_gromov_wasserstein_unmixing"]}
