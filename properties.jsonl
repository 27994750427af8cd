{"id": "C01", "title": "Norm is the same at every cut", "statement": "After calc_l()/calc_r() on a finite chain, for every bond n in 0..N the contraction adot(l[n], r[n]) equals the squared norm of the represented state, i.e. the sum of |amplitude|^2 over all basis configurations.", "quantifier": "all N, all bond dimensions D, all site dimensions q, all tensors A, all bonds n", "why_tests_cant": "A test fixes one chain length, one set of bond/physical dimensions and one set of tensors; the claim is about all of them, and the brute-force reference value needs exponentially many amplitudes.", "anchors": ["evoMPS/mps_gen.py: EvoMPS_MPS_Generic.calc_l, calc_r", "evoMPS/core_common.py: eps_l_noop, eps_r_noop", "evoMPS/matmul.py: adot"]}
{"id": "C02", "title": "Environments are Hermitian and positive", "statement": "After calc_l()/calc_r(), every l[n] and r[n] is Hermitian and positive semi-definite, so norms are real and non-negative.", "quantifier": "all N, D, q, tensors and all bonds n", "why_tests_cant": "A test fixes one chain length, one set of bond/physical dimensions and one set of tensors; the claim is about all of them, and the brute-force reference value needs exponentially many amplitudes.", "anchors": ["evoMPS/mps_gen.py: calc_l, calc_r", "evoMPS/core_common.py: eps_l_noop, eps_r_noop"]}
{"id": "C03", "title": "expect_1s is the exact expectation value", "statement": "With l and r up to date, expect_1s(op, n) equals <psi|op_n|psi> computed from the full state vector, where op_n acts as op[s,t]=<s|op|t> on site n and as identity elsewhere; for Hermitian op the value is real.", "quantifier": "all N, D, q, tensors, operators, 1<=n<=N", "why_tests_cant": "A test fixes one chain length, one set of bond/physical dimensions and one set of tensors; the claim is about all of them, and the brute-force reference value needs exponentially many amplitudes.", "anchors": ["evoMPS/mps_gen.py: expect_1s", "evoMPS/core_common.py: eps_r_op_1s"]}
{"id": "C04", "title": "expect_2s is the exact expectation value", "statement": "With l and r up to date, expect_2s(op, n) equals <psi|op_{n,n+1}|psi> computed from the full state vector, with op[s,t,u,v]=<st|op|uv>; for Hermitian op the value is real.", "quantifier": "all N, D, q (also different on the two sites), tensors, operators, 1<=n<N", "why_tests_cant": "A test fixes one chain length, one set of bond/physical dimensions and one set of tensors; the claim is about all of them, and the brute-force reference value needs exponentially many amplitudes.", "anchors": ["evoMPS/mps_gen.py: expect_2s", "evoMPS/tdvp_common.py: calc_C_mat_op_AA, eps_r_op_2s_C12_AA34", "evoMPS/core_common.py: calc_AA"]}
{"id": "C05", "title": "expect_3s is the exact expectation value", "statement": "With l and r up to date, expect_3s(op, n) equals <psi|op_{n,n+1,n+2}|psi> computed from the full state vector.", "quantifier": "all N, D, q, tensors, operators, 1<=n<=N-2", "why_tests_cant": "A test fixes one chain length, one set of bond/physical dimensions and one set of tensors; the claim is about all of them, and the brute-force reference value needs exponentially many amplitudes.", "anchors": ["evoMPS/mps_gen.py: expect_3s", "evoMPS/tdvp_common.py: calc_C_3s_mat_op_AAA, eps_r_op_3s_C123_AAA456", "evoMPS/core_common.py: calc_AAA"]}
{"id": "C06", "title": "expect_1s_1s gives the exact two-point function at any distance", "statement": "For n1<n2, expect_1s_1s(op1, op2, n1, n2) equals <psi|op1_{n1} op2_{n2}|psi> from the full state vector; with return_intermediates=True entry j (1<=j<=n2-n1) is the value for sites n1, n1+j and entry 0 is the on-site product <op1 op2>.", "quantifier": "all N, D, q, tensors, operators, all pairs n1<n2 at any distance", "why_tests_cant": "A test fixes one chain length, one set of bond/physical dimensions and one set of tensors; the claim is about all of them, and the brute-force reference value needs exponentially many amplitudes.", "anchors": ["evoMPS/mps_gen.py: expect_1s_1s", "evoMPS/core_common.py: eps_l_op_1s, eps_l_noop"]}
{"id": "C07", "title": "inner() is the Hilbert-space inner product", "statement": "a.inner(b) equals the sum over configurations of conj(amplitude_b)*amplitude_a (that is <b|a>), for two chains with equal q but arbitrary different bond dimensions; consequently b.inner(a) = conj(a.inner(b)) and a.inner(a) is the squared norm.", "quantifier": "all N, q, all pairs of states with any bond dimensions", "why_tests_cant": "A test fixes one chain length, one set of bond/physical dimensions and one set of tensors; the claim is about all of them, and the brute-force reference value needs exponentially many amplitudes.", "anchors": ["evoMPS/mps_gen.py: inner"]}
{"id": "C08", "title": "density_1s is the (transposed) one-site reduced density matrix", "statement": "density_1s(n)[s,t] equals the sum over the other sites of psi(..t..)*conj(psi(..s..)): it is Hermitian, positive, has trace <psi|psi>, and sum_{s,t} rho[s,t]*op[s,t] = expect_1s(op,n). Finding: with the usual convention rho[s,t]=<s|rho|t> the returned array is the transpose, so trace(rho.op) differs from expect_1s(op,n) for non-symmetric op.", "quantifier": "all N, D, q, tensors, sites n, operators", "why_tests_cant": "A test fixes one chain length, one set of bond/physical dimensions and one set of tensors; the claim is about all of them, and the brute-force reference value needs exponentially many amplitudes.", "anchors": ["evoMPS/mps_gen.py: density_1s"]}
{"id": "C09", "title": "density_2s fills a complete two-site density matrix", "statement": "density_2s(n1,n2) assigns every entry of its q[n1]q[n2] x q[n1]q[n2] result exactly once, with the two-site reduced density matrix element. This holds if q[n1]=q[n2]; Finding: for q[n1]!=q[n2] the flat index s1*q[n1]+s2 either goes out of range (IndexError) or leaves entries uninitialised / overwrites others.", "quantifier": "all q[n1], q[n2], all loop iterations", "why_tests_cant": "Tests use equal q everywhere; the index map must be a bijection for all pairs of dimensions.", "anchors": ["evoMPS/mps_gen.py: density_2s"]}
{"id": "C10", "title": "apply_op_1s acts as the operator on the state", "statement": "After apply_op_1s(op, n, do_update=False) the amplitudes are those of op_n|psi>, for every configuration; amplitudes are unchanged if op is the identity and successive applications compose as the matrix product.", "quantifier": "all N, D, q, tensors, operators, sites", "why_tests_cant": "A test fixes one chain length, one set of bond/physical dimensions and one set of tensors; the claim is about all of them, and the brute-force reference value needs exponentially many amplitudes.", "anchors": ["evoMPS/mps_gen.py: apply_op_1s"]}
{"id": "C11", "title": "MPO application and MPO expectation agree with the operator they represent", "statement": "For an MPO on sites n1..n1+k-1, apply_op_MPO yields the state O|psi> amplitude by amplitude (O having matrix elements given by the product of MPO matrices), and expect_MPO(MPO,n1) equals <psi|O|psi>.", "quantifier": "all N, D, q, tensors, MPOs with any bond dimensions and any length, any first site", "why_tests_cant": "A test fixes one chain length, one set of bond/physical dimensions and one set of tensors; the claim is about all of them, and the brute-force reference value needs exponentially many amplitudes.", "anchors": ["evoMPS/mps_gen.py: expect_MPO, apply_op_MPO", "evoMPS/tdvp_common.py: apply_MPO_local", "evoMPS/core_common.py: eps_r_op_MPO"]}
{"id": "C12", "title": "String expectation values", "statement": "expect_string_1s(op,n,d) is documented to return <op_n ... op_{n+j-1}> for string lengths j=1..d. Exact behaviour: entry k holds the value for the string of length k+2 with op replaced by its adjoint, and entry d-1 (written first with the length-1 value) is overwritten by the value for length d+1; entry order is therefore off by one. Finding: documented contract is violated.", "quantifier": "all N, D, q, tensors, op, n, d", "why_tests_cant": "The off-by-one is invisible for the identity string and the conjugation is invisible for Hermitian strings, which is what tests use.", "anchors": ["evoMPS/mps_gen.py: expect_string_1s"]}
{"id": "C13", "title": "Connected correlators and their reported expectation values", "statement": "correlation_1s_1s(op1,op2,n1,d)[j] = <op1_{n1} op2_{n1+j}> - <op1_{n1}><op2_{n1+j}> exactly. Finding: with return_exvals=True the third result is the expectation values of op1 (not op2), and d=0 raises ZeroDivisionError.", "quantifier": "all N, D, q, tensors, op1, op2, n1, d", "why_tests_cant": "A test fixes one chain length, one set of bond/physical dimensions and one set of tensors; the claim is about all of them, and the brute-force reference value needs exponentially many amplitudes.", "anchors": ["evoMPS/mps_gen.py: correlation_1s_1s"]}
{"id": "C14", "title": "Bond dimensions are reduced to exactly the useful maximum", "statement": "Constructing a chain with requested bond dimensions D and site dimensions q yields D'[0]=D'[N]=1 and D'[n] = min(D[n], q[1]..q[n], q[n+1]..q[N]) for every inner bond: never larger than either half Hilbert space, never larger than requested and never smaller than necessary.", "quantifier": "all N, all D and q lists with positive entries (the overflow-avoiding accumulator must not change the result)", "why_tests_cant": "The running product is conditionally skipped; tests cannot cover all interleavings of the skip with the clamping.", "anchors": ["evoMPS/mps_gen.py: correct_bond_dim_open_chain, _correct_bond_dimension, __init__"]}
{"id": "C15", "title": "The initial state", "statement": "initialize_state is documented to give a full-rank state of norm 1 without error. Exact behaviour: the norm is 1 when every bond either keeps its dimension, or grows with D[n]<=q[n]*D[n-1], or shrinks with D[n-1]=q[n]*D[n]. Findings: with D=[1,2,1], q=4 the norm is not 1; with q=2 the constructor call with D=[1,1,4,2,1] raises an IndexError although the corrected dimensions satisfy all documented constraints.", "quantifier": "all N, D, q after bond-dimension correction", "why_tests_cant": "Only particular dimension profiles trigger the wrong branch.", "anchors": ["evoMPS/mps_gen.py: initialize_state"]}
{"id": "C16", "title": "set_state_product represents the given product state", "statement": "set_state_product(psi) makes the amplitude of configuration s equal prod_n psi[n][s_n]. Holds when q is the same on all sites including the ignored entry q[0]; Finding: the loop for site n+1 uses q[n], so with q[0]=0 (as set by set_state_from_tensors) the state becomes zero, and with varying q components are dropped or an IndexError raised.", "quantifier": "all N, q, D, psi", "why_tests_cant": "Tests use one uniform q including q[0].", "anchors": ["evoMPS/mps_gen.py: set_state_product, set_state_from_tensors"]}
{"id": "C17", "title": "Right canonical form by QR preserves the state and orthonormalises", "statement": "The QR sweep of restore_RCF leaves every amplitude unchanged up to one global factor G0 (exactly recovered with normalize=False; a positive multiple with normalize=True so the phase is kept), yields r[n]=1 for all bonds n>=1 and bond dimensions D'[n-1]=min(D[n-1], q[n] D'[n]).", "quantifier": "all N, D, q, tensors, and every QR routine satisfying the LAPACK contract", "why_tests_cant": "A test fixes one chain length, one set of bond/physical dimensions and one set of tensors; the claim is about all of them, and the brute-force reference value needs exponentially many amplitudes.", "anchors": ["evoMPS/mps_gen.py: restore_RCF", "evoMPS/tdvp_common.py: restore_RCF_r_seq"]}
{"id": "C18", "title": "Diagonalising l keeps state and right-orthonormality", "statement": "restore_RCF_l_seq changes no amplitude, keeps r[n]=1, and yields l[n] exactly diagonal with non-negative entries whose sum is the squared norm; these are the Schmidt coefficients squared.", "quantifier": "all N, D, q, right-orthonormal tensors, every eigh routine satisfying its contract", "why_tests_cant": "A test fixes one chain length, one set of bond/physical dimensions and one set of tensors; the claim is about all of them, and the brute-force reference value needs exponentially many amplitudes.", "anchors": ["evoMPS/tdvp_common.py: restore_RCF_l_seq", "evoMPS/mps_gen.py: restore_RCF, schmidt_sq"]}
{"id": "C19", "title": "Left canonical form by QR preserves the state and orthonormalises", "statement": "The QR sweep of restore_LCF leaves every amplitude unchanged up to one global factor, yields eps_l(l[n-1],A[n],A[n])=1, and restore_LCF_r_seq then makes r diagonal without changing amplitudes. Finding: the recorded l[n] has the old bond dimension, wrong whenever QR reduces the bond dimension.", "quantifier": "all N, D, q, tensors, every QR/eigh routine satisfying its contract", "why_tests_cant": "A test fixes one chain length, one set of bond/physical dimensions and one set of tensors; the claim is about all of them, and the brute-force reference value needs exponentially many amplitudes.", "anchors": ["evoMPS/mps_gen.py: restore_LCF", "evoMPS/tdvp_common.py: restore_LCF_l_seq, restore_LCF_r_seq"]}
{"id": "C20", "title": "simple_renorm normalises and keeps the ray and all other data consistent", "statement": "After simple_renorm the squared norm is 1, every amplitude is the old one divided by the square root of the old squared norm, and the updated l[N] and r[n] (n<N) equal what calc_l/calc_r would recompute.", "quantifier": "all N, D, q, tensors of non-zero norm", "why_tests_cant": "A test fixes one chain length, one set of bond/physical dimensions and one set of tensors; the claim is about all of them, and the brute-force reference value needs exponentially many amplitudes.", "anchors": ["evoMPS/mps_gen.py: simple_renorm"]}
{"id": "C21", "title": "Truncation of zero Schmidt values is lossless", "statement": "truncate(new_D) in right canonical form, discarding only bond indices whose l-weight is zero, leaves every amplitude unchanged. Findings: truncate(self.D) (no change) raises, and a new bond dimension 0 keeps the whole old index range ([-0:]) and so raises a shape error.", "quantifier": "all N, D, q, right-canonical tensors, all admissible new_D", "why_tests_cant": "A test fixes one chain length, one set of bond/physical dimensions and one set of tensors; the claim is about all of them, and the brute-force reference value needs exponentially many amplitudes.", "anchors": ["evoMPS/mps_gen.py: truncate, auto_truncate"]}
{"id": "C22", "title": "Structured matrices behave like the dense matrices they stand for", "statement": "eyemat and simple_diag_matrix support dot, left dot, H/conj/T, inverse, sqrt, trace, ravel with results equal to those of the dense matrix, and mmul/mmul_diag/adot/invmh/sqrtmh over any mixture of them and dense matrices equal the dense result. Finding: simple_diag_matrix.dot has no shape check, so a length-1 diagonal times a larger matrix broadcasts instead of failing.", "quantifier": "all dimensions, all entries, all mixtures of representations in a product of any length", "why_tests_cant": "The claim is over all product expressions mixing three representations.", "anchors": ["evoMPS/matmul.py: eyemat, simple_diag_matrix, mmul, mmul_diag, adot, adot_noconj, sqrtmh, invmh"]}
{"id": "C23", "title": "Multi-threaded C eps maps equal the sequential map for any thread count", "statement": "eps_l_noop_inplace / eps_r_noop_inplace in the C extension split the physical index over min(threads,d) chunks executed in any order/interleaving; the result equals the plain sum over the physical index for every number of threads and every schedule.", "quantifier": "all d>=1, all thread counts >=1, all schedules of chunk executions, all tensors", "why_tests_cant": "Needs all schedules and all thread counts.", "anchors": ["evoMPS/eps_maps_c.pyx: eps_l_noop_inplace, eps_r_noop_inplace"]}
{"id": "C24", "title": "Left and right eps maps are adjoint", "statement": "adot(eps_l_noop(x,A1,A2), y) = adot(x, eps_r_noop(y,A1,A2)), likewise with a one-site operator, and both maps are linear; the dense transfer matrix sum_s kron(A1[s],conj(A2[s])) acts as the right map on the row-major raveled matrix and its conjugate transpose as the left map.", "quantifier": "all dimensions, tensors, matrices, operators", "why_tests_cant": "A test fixes one chain length, one set of bond/physical dimensions and one set of tensors; the claim is about all of them, and the brute-force reference value needs exponentially many amplitudes.", "anchors": ["evoMPS/core_common.py: eps_l_noop, eps_r_noop, eps_l_op_1s, eps_r_op_1s", "evoMPS/mps_uniform_pinv.py: brute_LOP, pinv_1mE_brute"]}
{"id": "C25", "title": "Fast reshaped/tensordot implementations equal the reference loops", "statement": "All implementations of the two-site operator maps (A, AA12, func_op, C12, C34, C12_AA34 reshaped) and of C (func_op, func_op_AA, mat_op_AA) give identical results for the same operator, and the multi-tensor map eps_r_noop_multi (mixed-radix index decoding, differently grouped ket and bra tensors) equals the sum over all joint site indices.", "quantifier": "all dimensions, groupings, tensors and operators", "why_tests_cant": "Index decoding by // and % must be right for all shapes.", "anchors": ["evoMPS/core_common.py: eps_r_op_2s_*, calc_C_func_op*, eps_r_noop_multi", "evoMPS/tdvp_common.py: calc_C_mat_op_AA, eps_r_op_2s_C12_AA34"]}
{"id": "C26", "title": "Inverse square roots and Hermitian factorisations", "statement": "herm_sqrt_inv(x) and herm_fac_with_inv(A) return matrices with the documented products (x_sqrt^2=x, x_sqrt x_sqrt_i = 1; G^dagger G = A etc.) for positive definite input, and with the pseudo-inverse projector on the numerical support in the rank-deficient case. Finding: rank 0 makes the slice [-0:] the whole array, so zeros are inverted.", "quantifier": "all dimensions, all positive (semi-)definite matrices, every eigh routine satisfying its contract", "why_tests_cant": "All spectra, including rank deficient ones.", "anchors": ["evoMPS/tdvp_common.py: herm_sqrt_inv, herm_fac_with_inv"]}
{"id": "C27", "title": "nullspace_qr returns an orthonormal null-space basis", "statement": "For an m x k matrix with m<=k, nullspace_qr(A) has k-m columns, A.ns=0 and ns^dagger ns = 1.", "quantifier": "all m<=k, all complex matrices, every full QR satisfying its contract", "why_tests_cant": "All matrices and sizes.", "anchors": ["evoMPS/nullspace.py: nullspace_qr"]}
{"id": "C28", "title": "TDVP tangent vectors satisfy the gauge-fixing condition", "statement": "The B[n] computed from Vsh satisfies sum_s B[n][s] r[n] A[n][s]^dagger = 0 (right gauge), resp. the left condition for Vsh_l, hence the tangent vector is orthogonal to the state; and the parametrisation x -> B is norm preserving.", "quantifier": "all N, D, q, tensors with invertible r (l), all sites, all x", "why_tests_cant": "A test fixes one chain length, one set of bond/physical dimensions and one set of tensors; the claim is about all of them, and the brute-force reference value needs exponentially many amplitudes.", "anchors": ["evoMPS/tdvp_common.py: calc_Vsh, calc_Vsh_l", "evoMPS/tdvp_gen.py: _calc_B_r_n, _calc_B_l_n"]}
{"id": "C29", "title": "K accumulates the Hamiltonian expectation value", "statement": "After calc_C/calc_K, adot(l[0],K[1]) = H_expect = sum_n <psi|h_n|psi>, for nearest-neighbour and three-site Hamiltonians; the mirrored calc_K_l gives the same total; h_expect[n] is the n-th term.", "quantifier": "all N, D, q, tensors, Hamiltonian terms", "why_tests_cant": "A test fixes one chain length, one set of bond/physical dimensions and one set of tensors; the claim is about all of them, and the brute-force reference value needs exponentially many amplitudes.", "anchors": ["evoMPS/tdvp_gen.py: calc_C, calc_K, calc_K_l", "evoMPS/tdvp_common.py: calc_K, calc_K_l, calc_K_3s"]}
{"id": "C30", "title": "TDVP step direction is the orthogonal projection of H|psi> onto the tangent space", "statement": "For each site n, the tangent-plane vector with parameters x computed by calc_x satisfies <Phi(x')|H|psi> = <x',x> for all x' in the gauge-fixed parametrisation; the sum over sites of B(x) therefore minimises the distance to H|psi> among gauge-fixed tangent vectors, and eta^2 is its squared norm.", "quantifier": "all N, D, q, tensors, Hamiltonians, sites and competing tangent vectors", "why_tests_cant": "A test fixes one chain length, one set of bond/physical dimensions and one set of tensors; the claim is about all of them, and the brute-force reference value needs exponentially many amplitudes.", "anchors": ["evoMPS/tdvp_common.py: calc_x", "evoMPS/tdvp_gen.py: calc_x, calc_B, _calc_B_r_n"]}
{"id": "C31", "title": "RK4 steps implement the classical fourth-order Runge-Kutta formula", "statement": "take_step_RK4(dtau) of the finite and sandwich classes sets A to A0 - dtau/6 (k1+2k2+2k3+k4) with k_i evaluated at the classical points. With B_i given, its arrays serve as k1 (and are overwritten with the weighted sum). Finding: in the uniform class 'B_fin += 2*B[k]' adds an array to a list, which numpy broadcasts over the unit cell: every site receives the sum of k3 over all sites, so the formula only holds for one site per cell.", "quantifier": "all vector fields, all dtau, all initial tensors, all unit-cell sizes", "why_tests_cant": "The list/array aliasing changes the arithmetic silently; tests would need an exact reference integrator.", "anchors": ["evoMPS/tdvp_gen.py: take_step_RK4", "evoMPS/tdvp_uniform.py: take_step_RK4", "evoMPS/tdvp_sandwich.py: take_step_RK4"]}
{"id": "C32", "title": "Memory-saving step equals the ordinary Euler step", "statement": "take_step(dtau, save_memory=True) produces the same tensors as take_step(dtau): although A[n] is overwritten while sweeping, no B[m] computed later depends on an already overwritten tensor.", "quantifier": "all N, D, q, tensors, Hamiltonians, gauge choices, dtau", "why_tests_cant": "Order-of-overwrite argument for all sites and ranges of the Hamiltonian.", "anchors": ["evoMPS/tdvp_gen.py: take_step, calc_B, _calc_B_r_n, _calc_B_l_n"]}
{"id": "C33", "title": "Dynamic bond expansion implements the two-site tangent term to first order", "statement": "With dynexp, the expanded tensors at a bond have the block form such that the product of neighbouring tensors equals the old evolved product plus (-dtau) times the two-site correction, and the new bond dimension is D[n]+dD bounded by D_max.", "quantifier": "all D, dD, tensors, dtau", "why_tests_cant": "A test fixes one chain length, one set of bond/physical dimensions and one set of tensors; the claim is about all of them, and the brute-force reference value needs exponentially many amplitudes.", "anchors": ["evoMPS/tdvp_gen.py: take_step"]}
{"id": "C34", "title": "Splitting a two-site tensor loses nothing but the discarded singular values", "statement": "split_twosite reproduces the two-site tensor exactly when nothing is truncated, the kept factor on the swept side is an isometry, and the squared discarded weight equals the squared Frobenius norm of the difference.", "quantifier": "all D, q, tensors, every SVD satisfying its contract, all truncation settings", "why_tests_cant": "A test fixes one chain length, one set of bond/physical dimensions and one set of tensors; the claim is about all of them, and the brute-force reference value needs exponentially many amplitudes.", "anchors": ["evoMPS/split_step.py: split_twosite"]}
{"id": "C35", "title": "Effective Hamiltonians used in local solvers are Hermitian projections of H", "statement": "Vari_Opt_Single_Site_Op and Vari_Opt_SC_op act as the Hamiltonian projected onto the one-site (resp. bond) variational space for canonical environments and are Hermitian, so their energies are real.", "quantifier": "all D, q, environments, Hamiltonian terms, vectors", "why_tests_cant": "A test fixes one chain length, one set of bond/physical dimensions and one set of tensors; the claim is about all of them, and the brute-force reference value needs exponentially many amplitudes.", "anchors": ["evoMPS/tdvp_gen.py: Vari_Opt_Single_Site_Op, Vari_Opt_SC_op", "evoMPS/split_step.py: Vari_Opt_*"]}
{"id": "C36", "title": "Split-step sweep schedule visits each site and bond correctly", "statement": "In one time step evolve_split evolves every site (pair) once per half sweep in order, with a backward bond evolution between consecutive ones, and the orthogonality centre ends where the next half sweep starts, for every N.", "quantifier": "all N, all settings", "why_tests_cant": "All lengths and option combinations.", "anchors": ["evoMPS/split_step.py: evolve_split"]}
{"id": "C37", "title": "take_step_split is usable with its exponential integrator", "statement": "take_step_split consumes the tuple returned by gexpmv. Finding: five variables are unpacked from a six-element tuple, so every non-DMRG call raises.", "quantifier": "all states and parameters", "why_tests_cant": "One would need every call path.", "anchors": ["evoMPS/tdvp_gen.py: take_step_split", "evoMPS/sexpmv.py: gexpmv"]}
{"id": "C38", "title": "Time evolution driver does exactly num_steps steps", "statement": "evolve(sys, t, dt) performs exactly num_steps = int(t/dt) integrator steps of total time num_steps*dt, and num_steps+1 updates and callback calls with indices 0..num_steps around them. Findings: an unknown integrator name makes no steps but still calls back as if it did; for dt > 1 the RK4 branch with bond expansion makes its main step backwards in time; in binary64 int(0.3/0.1) = 2 loses a step.", "quantifier": "all t, dt, systems, callbacks, integrator names", "why_tests_cant": "All loop counts and all option strings.", "anchors": ["evoMPS/dynamics.py: evolve"]}
{"id": "C39", "title": "Adaptive imaginary-time step stays in its safe interval", "statement": "For every sequence of measured energies/gradients, the automatic step size of the imaginary-time optimiser stays within [0.01*base, 2*base] (as coded), so it can neither vanish nor run away.", "quantifier": "all histories of eta/energy values and all base step sizes > 0", "why_tests_cant": "Unbounded histories.", "anchors": ["evoMPS/dynamics.py: _im_time_autostep, opt_im_time"]}
{"id": "C40", "title": "Krylov exponential integrator accounts for the whole time interval", "statement": "Whenever gexpmv reports success with its loop completed, the accepted sub-steps add up to the requested time; its error estimate accumulates; when Arnoldi breaks down early the reduced problem is exact. Findings: a vector of length 1 and mxstep=0 are not handled as documented; finishing on the last allowed step is reported as not converged.", "quantifier": "all operators, vectors, tolerances, histories of accepted/rejected steps", "why_tests_cant": "Unbounded step histories.", "anchors": ["evoMPS/sexpmv.py: gexpmv"]}
{"id": "C41", "title": "Arnoldi/Krylov reduction is exact on invariant subspaces", "statement": "If A V = V H (happy breakdown) then p(A) v = beta V p(H) e_1 for every polynomial p, and the Arnoldi basis is orthonormal.", "quantifier": "all matrices, vectors, polynomials, dimensions", "why_tests_cant": "All operators.", "anchors": ["evoMPS/sexpmv.py: gexpmv"]}
{"id": "C42", "title": "Transfer-matrix pseudo-inverse operators are consistent", "statement": "PinvOp.matvec applies 1 - exp(i p) (E - |r><l|) (resp. its left version); left and right operators are adjoint to each other, agree with the brute-force dense construction, and the ping-pong buffers never alias input or output for any unit cell length.", "quantifier": "all L, D, q, tensors, momenta, vectors", "why_tests_cant": "All unit cell lengths and aliasing patterns.", "anchors": ["evoMPS/mps_uniform_pinv.py: PinvOp, brute_LOP, pinv_1mE_brute"]}
{"id": "C43", "title": "Uniform environments: one fixed point determines all offsets consistently", "statement": "In the uniform class with unit cell L, given left/right dominant eigenvectors at one bond with eigenvalue 1, the l[k], r[k] computed by applying the eps maps satisfy the fixed-point equation at every offset and adot(l[k],r[k]) is independent of k (equal to 1 after normalisation).", "quantifier": "all L, D, q, tensors, offsets", "why_tests_cant": "All L.", "anchors": ["evoMPS/mps_uniform.py: calc_lr"]}
{"id": "C44", "title": "Uniform expectation values equal those of any finite window", "statement": "With fixed points l, r, expect_1s and expect_1s_1s of the uniform class equal the expectation value computed on any finite window of sites containing the support, with boundary density l, r, independent of the window. Finding: expect_2s (and expect_2s_tp) use r[k] instead of r[k+1], hence are wrong for L>1.", "quantifier": "all L, D, q, tensors, operators, windows", "why_tests_cant": "All windows and unit cells.", "anchors": ["evoMPS/mps_uniform.py: expect_1s, expect_1s_1s, expect_2s, expect_2s_tp"]}
{"id": "C45", "title": "Blocking to a translation-invariant unit cell preserves the physics", "statement": "convert_to_TI_blocked maps L sites to one site of dimension q^L with tensor entries equal to the ordered products, under a bijection between block index and site configurations; the blocked Hamiltonian has the matrix elements of the sum of translated terms.", "quantifier": "all L, q, D, tensors, Hamiltonians", "why_tests_cant": "Digit order must be right for all L and q.", "anchors": ["evoMPS/mps_uniform.py: convert_to_TI_blocked", "evoMPS/tdvp_uniform.py: convert_to_TI_blocked"]}
{"id": "C46", "title": "Uniform canonical forms are gauge transformations with the advertised environments", "statement": "restore_RCF (full rank) and restore_SCF (full rank) of the uniform class change the tensors by an exact gauge transformation and the stored l, r are the transformed fixed points (r=1, l diagonal; resp. l=r diagonal). Findings: restore_LCF with diag_r applies the eigenbasis on the wrong side; restore_SCF inverts the wrong end of the singular values when rank deficient.", "quantifier": "all L, D, q, tensors with positive definite fixed points, every eigh/SVD satisfying its contract", "why_tests_cant": "A test fixes one chain length, one set of bond/physical dimensions and one set of tensors; the claim is about all of them, and the brute-force reference value needs exponentially many amplitudes.", "anchors": ["evoMPS/mps_uniform.py: restore_RCF, restore_LCF, restore_SCF"]}
{"id": "C47", "title": "Changing the site dimension and back is lossless", "statement": "set_q to a larger q and back restores the tensors exactly and keeps all amplitudes of old configurations, new ones being zero.", "quantifier": "all q<=q', D, L, tensors", "why_tests_cant": "All sizes.", "anchors": ["evoMPS/mps_uniform.py: set_q"]}
{"id": "C48", "title": "Sandwich site accessors are consistent across the boundary", "statement": "For every integer site n (also far outside 1..N) get_A, get_l, get_r, get_q, get_D describe one bi-infinite chain: l(n)=eps_l(l(n-1),A(n)) and r(n-1)=eps_r(r(n),A(n)). Holds for bulk unit cells dividing N suitably; Findings: index offsets disagree if N is not a multiple of L, and r[N+1] is set to r[N].", "quantifier": "all integers n, all N, L", "why_tests_cant": "Unbounded site numbers on both sides.", "anchors": ["evoMPS/mps_sandwich.py: get_A, get_l, get_r, get_D, get_q"]}
{"id": "C49", "title": "Growing the nonuniform region does not change the state", "statement": "grow_left(m)/grow_right(m) change only the labelling: get_A(n) of the new object at shifted position equals get_A of the old object for every integer n. Findings: grow_right(0) raises; the centre site is shifted by m instead of m*L.", "quantifier": "all m, N, L, all site indices", "why_tests_cant": "Unbounded sizes.", "anchors": ["evoMPS/mps_sandwich.py: grow_left, grow_right", "evoMPS/tdvp_sandwich.py: grow_left"]}
{"id": "C50", "title": "Saving and loading round-trips", "statement": "load_state after save_state (finite, uniform export/import, sandwich from_file) yields the same tensors and so the same amplitudes.", "quantifier": "all N, D, q, tensors", "why_tests_cant": "All shapes.", "anchors": ["evoMPS/mps_gen.py: save_state, load_state", "evoMPS/mps_sandwich.py: save_state, from_file, load_state", "evoMPS/tdvp_uniform.py: export_state, import_state"]}
{"id": "C51", "title": "Environment buffers of the dominant-eigenvector operator never alias", "statement": "EOp.matvec applies the L single-site maps in order for every L with two alternating buffers; the result equals the composition.", "quantifier": "all L, tensors, vectors", "why_tests_cant": "All L.", "anchors": ["evoMPS/mps_uniform.py: EOp.matvec"]}
{"id": "C52", "title": "Retry loop of the eigenvalue solver reports success correctly", "statement": "_calc_lr_ARPACK is documented to try max_retries times. Finding: success on the last permitted try is reported as failure and max_retries=1 always fails.", "quantifier": "all histories of solver successes/failures, all max_retries", "why_tests_cant": "All histories.", "anchors": ["evoMPS/mps_uniform.py: _calc_lr_ARPACK, _calc_E_largest_eigenvalues"]}
{"id": "C53", "title": "ODE state vector packing round-trips", "statement": "The flattening of the tensors to one vector and back used for scipy's ODE integrators is the identity for all shapes. Finding: the driver rebinds its one-element flag list to a bool and raises TypeError in the first step.", "quantifier": "all N, D, q, tensors", "why_tests_cant": "All shapes.", "anchors": ["evoMPS/dynamics.py: evolve_scipy_ode"]}
{"id": "C54", "title": "Line search leaves the state as it found it", "statement": "find_min_h_brent evaluates trial steps on the state and restores tensors and environments before returning. Finding: with skipIfLower the early return path does not.", "quantifier": "all trial-step histories", "why_tests_cant": "All search histories.", "anchors": ["evoMPS/tdvp_gen.py: find_min_h_brent"]}
{"id": "C55", "title": "Optimiser iteration limits", "statement": "opt_im_time and opt_conj_grad make at most max_itr steps, report one more than the number of steps, and stop early only when converged; opt_grad_descent always terminates with at most max_itr steps. Finding: its reported iteration count can exceed max_itr by one.", "quantifier": "all convergence histories", "why_tests_cant": "All histories.", "anchors": ["evoMPS/dynamics.py: opt_im_time, opt_conj_grad, opt_grad_descent"]}
{"id": "C56", "title": "Construction from a list of tensors", "statement": "mps_from_tensors_gen(As) returns a state whose tensors are exactly As if and only if the outer bond dimensions are 1, no bond dimension exceeds the Hilbert-space bound on either side, and no bond dimension changes by more than a factor q[n] across a site; otherwise an exception is raised. Finding: valid MPS with over-complete bond dimensions are rejected.", "quantifier": "all N, D, q and tensors with positive dimensions", "why_tests_cant": "Over-complete dimension profiles are not tried by tests.", "anchors": ["evoMPS/mps_gen.py: mps_from_tensors_gen, set_state_from_tensors, correct_bond_dim_open_chain, initialize_state"]}
{"id": "C57", "title": "Row-major data through column-major BLAS calls", "statement": "Each inner kernel of the C extension (dense, diagonal and identity x, left and right) adds exactly A1[s]^dagger x A2[s] (left) resp. A1[s] x A2[s]^dagger (right) to its row-major output block, although BLAS sees the arrays column-major with swapped arguments; the previous content of the work array is irrelevant and no other block is written.", "quantifier": "all dimensions (also rectangular), all tensors, all memory contents, all chunk numbers", "why_tests_cant": "Argument order and leading dimensions are indistinguishable for square or symmetric test data.", "anchors": ["evoMPS/eps_maps_c.pyx: gdmm, eps_l_noop_dense, eps_l_noop_diag, eps_l_noop_id, eps_r_noop_dense, eps_r_noop_diag, eps_r_noop_id"]}
{"id": "C58", "title": "Uniform chain: energy density and right environment K", "statement": "h_expect set by calc_K is the expectation value of the L Hamiltonian terms of a unit cell divided by L, wherever the cell is taken in the infinite chain; K[k] is the action of all terms to the right of the bond with their mean energy subtracted (for every window length the terms inside the window plus K at its far end), and has no component along l. Same for two-site, three-site and tensor-product Hamiltonians.", "quantifier": "all L, q, D, tensors with consistent normalised environments, Hamiltonian terms, window positions and lengths", "why_tests_cant": "Infinite chain, unbounded windows.", "anchors": ["evoMPS/tdvp_uniform.py: calc_C, calc_K, calc_PPinv", "evoMPS/tdvp_common.py: calc_K, calc_K_3s, calc_K_tp"]}
{"id": "C59", "title": "Uniform chain: the TDVP tangent vector is the projection of H on the tangent space", "statement": "calc_B returns tensors B[k] that satisfy the right gauge condition, are orthogonal to the state and to each other, have norm eta, and whose overlap with every tensor in the gauge equals the overlap of that tensor with H applied to the state, for all terms of the infinite chain. q = 1 is refused.", "quantifier": "all L, q, D, full-rank environments, two-site, three-site and tensor-product terms, all tangent directions", "why_tests_cant": "Infinite chain, all directions.", "anchors": ["evoMPS/tdvp_uniform.py: calc_B, get_B_from_x, calc_l_r_roots", "evoMPS/tdvp_common.py: calc_x, calc_x_3s, calc_x_tp, calc_Vsh"]}
{"id": "C60", "title": "Uniform chain: left environment K_left", "statement": "calc_K_l returns the same energy density as calc_K, and K_left[k] is the action of all terms to the left of bond k with their mean energy subtracted. Finding: for more than one site per cell only K_left[L-1] is; the loop for the others starts from self.K instead of self.K_left.", "quantifier": "all L, q, D, tensors, Hamiltonian terms", "why_tests_cant": "Infinite chain; K_left is only used by the sandwich and excitation code.", "anchors": ["evoMPS/tdvp_uniform.py: calc_K_l"]}
{"id": "C61", "title": "Sandwich: restore_CF reaches the canonical form around the centre site without changing the state", "statement": "restore_CF of the sandwich class succeeds; afterwards l is the identity left of the centre site and r right of it, the other environments in the window are real diagonal with ascending entries, all stored environments of the window satisfy their recursion and fit the bulks, l of the left bulk and r of the right bulk are the identity, both bulks are the same uniform states with consistent environments, and every reduced density matrix of a stretch of the infinite chain around the window is unchanged up to the one factor that normalises the state (no factor if the norm is within the tolerance of 1).", "quantifier": "all window lengths >= 2, centre sites, cell lengths and bond dimensions, all full-rank states, stretches of all lengths", "why_tests_cant": "The state is infinite and the gauge transformations run through both bulks.", "anchors": ["evoMPS/mps_sandwich.py: restore_CF, _restore_CF_ONR, _restore_CF_diag, simple_renorm", "evoMPS/tdvp_common.py: restore_RCF_r, restore_LCF_l, restore_LCF_r, restore_RCF_l", "evoMPS/mps_uniform.py: restore_RCF, restore_LCF"]}
{"id": "C62", "title": "Sandwich TDVP with two-site terms: energies and tangent vector of the window", "statement": "On the infinite chain made of a left bulk, a nonuniform window of N sites with centre site n_c, and a right bulk, with stored environments that satisfy the transfer recursions and bulk energy environments with the bulk energies subtracted: calc_K fills h_expect[n] with <psi|h_n|psi> for n = 0..N and dH_expect with the energy of the chain less (N+1) times the bulk energy density handed over; calc_B then returns a B such that <phi|B> = <phi|H - E|psi> for every phi obtained from psi by replacing one window tensor by an arbitrary one, E being the energy; B satisfies the left gauge condition left of the centre and the right gauge condition right of it, eta is the norm of the tangent vector, and a normalised psi is orthogonal to it. With uniform bulks whose energy environments solve their defining equations (for every unit-cell length on both sides), this holds with the K[0] and K_left[L-1] that the uniform class computes.", "quantifier": "all N >= 1, centre sites, bond and site dimensions, cell lengths, Hermitian or non-Hermitian terms, environments of full rank in the window", "why_tests_cant": "The chain is infinite, H|psi> is never formed by the code, and the energy environments of two bulks and both sweeps meet at the centre.", "anchors": ["evoMPS/tdvp_sandwich.py: calc_C, calc_K, calc_x, calc_B, calc_B_centre, calc_B_n", "evoMPS/tdvp_uniform.py: calc_K, calc_K_l"]}
{"id": "C63", "title": "Sandwich TDVP with three-site terms: tangent vector at the centre", "statement": "Same setting with three-site terms: dH_expect is the energy less (N+2) times the bulk energy density, the tangent vector of calc_B satisfies the gauge conditions and represents the projection of (H - E)|psi>, and a normalised state is orthogonal to it.", "quantifier": "all N >= 1, centre sites, bond and site dimensions, cell lengths, environments of full rank in the window", "why_tests_cant": "A wrong energy offset changes only the component of the tangent vector along the state, which normalisation after the step hides.", "anchors": ["evoMPS/tdvp_sandwich.py: calc_C, calc_K, calc_x, calc_B, calc_B_centre, calc_B_n"]}
{"id": "C64", "title": "Lindblad trajectories: one stochastic step", "statement": "take_step_dissipative(dt) on an up-to-date state in the right gauge adds dt*B to the tensors, where the tangent vector B is gauge-fixed and represents the orthogonal projection onto the tangent space (up to the component along the state) of -iH psi + sum_k (-1/2 L_k^+ L_k + conj(<L_k>) L_k + (W_k/dt) L_k) psi, with exact expectation values <L_k>, W_k = (u0 + i u1)/sqrt 2 the k-th complex noise sample, several operators on the same sites and sites without Hamiltonian term included; the tangent vector is orthogonal to the state, so the norm does not change to first order. Operators that do not fit on the chain make the call raise.", "quantifier": "all chain lengths, bond and site dimensions, Hamiltonians, lists of Lindblad operators (two- and three-site), noise samples, full-rank states", "why_tests_cant": "The noise is random and the projected vector exponentially long; a test can only compare ensemble averages.", "anchors": ["evoMPS/tdvp_gen_diss.py: take_step_dissipative", "evoMPS/tdvp_gen.py: take_step, calc_C, calc_K, calc_B"]}
{"id": "C65", "title": "calc_B_1s_diss projects out the change of the norm", "statement": "calc_B_1s_diss(op, n) returns a tensor whose vector (tensor n of the state replaced by it) is op applied to the state with the change in norm projected out, i.e. orthogonal to a normalised state.", "quantifier": "all states, sites and one-site operators", "why_tests_cant": "Only projectors hide the wrong expectation value.", "anchors": ["evoMPS/tdvp_gen_diss.py: calc_B_1s_diss"]}
{"id": "C66", "title": "Hamiltonians given as matrix product operators", "statement": "For an operator given by MPO tensors on a finite chain, with environments produced by calc_MPO_l / calc_MPO_rm1: the MPO parts of the one-site and bond effective Hamiltonians give exactly the matrix elements of the operator between states that differ in that tensor (in any gauge), and are Hermitian when the operator is; calc_B_MPO returns the gauge-fixed tangent vector that is the orthogonal projection of the operator applied to the state (up to the component along the state), eta is its norm, and H_expect (also the corner entry of the right environment used by take_step_split) is the exact expectation value. Finding: eta_sq is not cleared, so that values left at sites without tangent vectors in this gauge are added.", "quantifier": "all chain lengths, site, bond and MPO bond dimensions, MPOs with outer dimension 1, full-rank states for the projection, arbitrary states otherwise", "why_tests_cant": "The operator applied to the state is exponentially large, and the effective matrices are never formed.", "anchors": ["evoMPS/tdvp_gen.py: calc_MPO_l, calc_MPO_rm1, calc_B_MPO, Vari_Opt_Single_Site_Op.apply_ham_MPO, Vari_Opt_SC_op.apply_ham_MPO", "evoMPS/tdvp_common.py: apply_MPO_local", "evoMPS/split_step.py: apply_ham_MPO"]}
{"id": "C67", "title": "Fidelity per site, phase and gauge alignment of uniform states", "statement": "fidelity_per_site of two normalised uniform states returns the per-site modulus of the leading eigenvalue of the overlap of the common unit cell; it never exceeds 1, and it is 1 exactly when the tensors agree up to a gauge transformation and phases. phase_align leaves the state unchanged and makes that eigenvalue real. gauge_align, given fidelity 1, succeeds, makes all tensors equal to those of the other state without changing the physical state, keeps the environments consistent, and returns the transformation (A = w g A' g^-1); otherwise it changes nothing. Finding: when the other state's unit cell does not divide the own one, phase_align applies the phase several times per common cell and the eigenvalue stays complex.", "quantifier": "all cell lengths, site and bond dimensions (also different ones for the fidelity), all tensors with consistent positive definite environments; for gauge_align an injective other state", "why_tests_cant": "Needs all eigenvectors of the overlap and all gauge transformations; tests use fixed random states.", "anchors": ["evoMPS/mps_uniform.py: fidelity_per_site, phase_align, gauge_align, _calc_E_largest_eigenvalues, _get_dense_transfer_op_block"]}
{"id": "C68", "title": "One-site DMRG sweeps never raise the energy", "statement": "evolve_split(..., DMRG=True) with one-site updates, on a state in right canonical form with a Hermitian two- or three-site Hamiltonian and an exact local eigensolver: after every sweep the state is normalised and right-canonical again, its energy is not above the energy (per squared norm) before the sweep, and no other choice of the first tensor gives a lower energy.", "quantifier": "all chain lengths, site dimensions, bond dimensions the QR steps can keep, initial states in right canonical form, Hermitian Hamiltonians, any number of sweeps", "why_tests_cant": "Needs the environments to be current at each of 2N local problems per sweep; a stale environment still converges to something close on small test chains.", "anchors": ["evoMPS/split_step.py: evolve_split, opt_A, right_move_1site, left_move_1site, update_Heff_left, update_Heff_right", "evoMPS/tdvp_common.py: restore_LCF_l_seq, restore_RCF_r_seq"]}
{"id": "C69", "title": "Split-step real-time evolution conserves norm and energy", "statement": "evolve_split with a time step with non-zero imaginary part (real-time evolution), Hermitian Hamiltonian and exact local exponentials: every step leaves the norm and the energy of the state exactly unchanged and the state right-canonical, for any step size. Finding: the real part of a complex step is ignored altogether.", "quantifier": "all chain lengths, site dimensions, bond dimensions the QR steps can keep, normalised initial states in right canonical form, two- and three-site Hermitian Hamiltonians, step sizes, any number of steps", "why_tests_cant": "Conservation holds for every step size although the state itself is only accurate to some order, so comparing with exact evolution does not test it.", "anchors": ["evoMPS/split_step.py: evolve_split, evolve_A, evolve_G, right_move_1site, left_move_1site", "evoMPS/tdvp_common.py: restore_LCF_l_seq, restore_RCF_r_seq"]}
{"id": "C70", "title": "Truncations are best approximations", "statement": "split_twosite returns the pair of tensors closest (Frobenius norm) to the two-site tensor among all pairs joined by a bond that is not larger. truncate on one bond of a state in right canonical form returns the closest state among all states, matrix product or not, that factorise through that many terms at that bond. restore_RCF followed by truncate on any number of bonds approximates the normalised state within a factor 2 (N - 1) in squared distance of the best matrix product state with the new bond dimensions.", "quantifier": "all chain lengths, site, old and new bond dimensions, states, competing states", "why_tests_cant": "The minimum ranges over all competing states; a test can only compare with a few.", "anchors": ["evoMPS/split_step.py: split_twosite", "evoMPS/mps_gen.py: truncate, restore_RCF"]}
{"id": "C71", "title": "Strings of one-site operators and symmetries of uniform states", "statement": "expect_string_per_site_1s returns the 1/L power of the leading eigenvalue of the map that the operator string over one unit cell induces on the bond. For a unitary operator its modulus never exceeds 1, and it is 1 when the operator only changes gauge and phases of the tensors. Conversely, when the per-site overlap returned by expect_string_1s_density_hc has modulus 1 (right canonical or symmetric gauge, injective state), the returned virtop is unitary and represents the string: applying the operator to the first N sites of the half chain equals, for every N, virtop at the cut up to a matrix at the far end that is a phase times virtop at cell boundaries; expvals is its diagonal, and the leading Schmidt vector has value 1 if its coefficient is not degenerate. basis_occupancy returns the diagonal of the one-site density matrix, a probability distribution. Finding: the code takes the largest Schmidt coefficient of a state with a symmetry to be non-degenerate; for the dimer state and the spin flip the phase is 0/0 and no values are returned.", "quantifier": "all cell lengths, cuts, site and bond dimensions, all tensors with consistent positive definite environments, all operators (unitary ones for the bound)", "why_tests_cant": "Needs every eigenvector of the string map and infinite half chains; a test can check a few operators on a few states.", "anchors": ["evoMPS/mps_uniform.py: expect_string_per_site_1s, expect_string_1s_density_hc, basis_occupancy, schmidt_sq"]}
{"id": "C72", "title": "Overlap of two sandwich states", "statement": "overlap of two sandwich states whose bulks are the same up to a gauge transformation and phases returns, up to an overall phase, the inner product of the two states: the sum over all configurations of the window, with the other state's amplitudes brought to the gauge of this state at both ends; for the same state in two gauges the modulus is the squared norm. When the fidelity per site of one of the bulks differs from 1 the result is 0. Finding: for a window of one site the site is contracted twice, so that the modulus of the result is (bond dimension 1) the square of the true overlap.", "quantifier": "all window lengths from 2, site and bond dimensions, window tensors, bulk cell lengths, gauges; bulks whose transfer map has no other eigenvalue of modulus 1", "why_tests_cant": "The gauge between the bulks is found from eigenvectors with arbitrary phase and scale; tests compare a state with itself, where a wrong factor on both sides cancels.", "anchors": ["evoMPS/mps_sandwich.py: overlap", "evoMPS/mps_uniform.py: fidelity_per_site"]}
{"id": "C73", "title": "Inner product of a sandwich state with a momentum tangent vector", "statement": "overlap_tangent(B, p) for a right gauge-fixing B returns the inner product of the state with the tangent vector that is the sum over all sites j of exp(ipj) times the chain of left bulk tensors, B at site j, right bulk tensors. At p = 0 this holds: for every K the result is the sum of the exact overlaps with B at the last K bulk sites and the window sites, plus the exact remainder further left; sites right of the window do not contribute; in the topologically trivial case with equal bulks the pseudo-inverse solves the full equation. Finding: for p != 0 site j of the window enters with exp(ipj) but bulk site -m with exp(ip(m-1)), i.e. with the opposite momentum and an extra phase; for bond dimension 1 and p = pi the exact value is -1/2 and the code returns -11/10.", "quantifier": "all window lengths, site and bond dimensions, bulk and window tensors, B, momenta, numbers K of bulk sites", "why_tests_cant": "The terms form an infinite sum over positions; the repository has no test of this function.", "anchors": ["evoMPS/mps_sandwich.py: overlap_tangent", "evoMPS/mps_uniform_pinv.py: pinv_1mE, PinvOp"]}
{"id": "C74", "title": "Expectation values and correlations with one changed tensor in a uniform state", "statement": "For a uniform state in which the tensor at site nb of a window of 2d+1 sites is replaced by B (and the tensors right of it optionally by those of a second state), expect_tangent_1s and expect_tangent_2s (B in the middle) return for every site of the window the value of the operator in that state, not normalised; correlation_tangent_1s_1s returns as g the values of op1 at site 1 times op2 at site n and as c the connected correlation. For environments that are fixed points the norm is adot(l, E_B(r)) and without a changed tensor every entry is the uniform expectation value. Finding: c subtracts <op1 at n><op2 at n> instead of <op1 at 1><op2 at n>; it is right at site n exactly when <op1> agrees at the sites 1 and n or <op2> vanishes at n. For the product state 0 1 0 and op1 = op2 = Z the connected correlation of sites 1 and 2 is 0 and c is -2. For nb = 0 the tensor B has no effect.", "quantifier": "all d, positions nb, site and bond dimensions, tensors A, B, A2, environments, operators", "why_tests_cant": "The repository has no test of these functions; with B = A the wrong product is not visible because all entries agree.", "anchors": ["evoMPS/tdvp_uniform.py: _get_tangent_lr, expect_tangent_1s, expect_tangent_2s, correlation_tangent_1s_1s"]}
{"id": "C75", "title": "Overlap of momentum tangent vectors of a uniform state", "statement": "_B_overlap(B1, B2, p) for one-site cells and one-site tangent vectors returns the overlap of the tangent vectors of momentum p per site without its disconnected part: for every K it is the sum over the positions of B1 at distance at most K from B2 of exp(ip distance) times (exact overlap minus the product of the two overlaps with the state), plus exact remainders further out. It does not change when A x - exp(-ip) x A is added to either tangent vector (_B_rand_GT), it is Hermitian in its two arguments, it vanishes when one argument is the state tensor A itself, for every p including 0, and the flags B1_is_GF, B2_is_GF change nothing for gauge-fixing tangent vectors.", "quantifier": "all site and bond dimensions, tensors A, B1, B2 with normalised fixed points l, r, momenta p for which the operator to be inverted is nonsingular, gauge matrices x, K", "why_tests_cant": "_B_overlap_test only prints differences for random tensors; the terms form an infinite sum.", "anchors": ["evoMPS/tdvp_uniform.py: _B_overlap, _B_overlap_calc_BR, _B_overlap_onsite, _B_rand_GT", "evoMPS/mps_uniform_pinv.py: PinvOp"]}
{"id": "C76", "title": "Gauge fixing of a momentum tangent vector keeps the vector", "statement": "For one-site cells and one-site tangent vectors _B_to_B_GF(B, p) returns a tensor that satisfies the right gauge-fixing condition eps_r(r, newB, A) = 0 whatever the ranks of l and r. For full rank, newB differs from B exactly by a gauge transformation A y - exp(-ip) y A and by the removed component <l|eps_r(r, B, A)> A, so _B_overlap of newB and B with every tangent vector agree. The returned x are coordinates in which _B_overlap is the standard inner product; _B_overlap(B, B) is never negative and is zero only for gauge transformations plus multiples of A. Tensors that are already gauge-fixing are returned unchanged, and tangent vectors that differ by a gauge transformation and a multiple of A give the same x.", "quantifier": "all site and bond dimensions, tensors A, B with normalised fixed points l, r, momenta p for which the operator to be inverted is nonsingular, eigh and QR routines within their contracts", "why_tests_cant": "No test calls _B_to_B_GF; the conjugate gradient method would only converge more slowly with a wrong direction.", "anchors": ["evoMPS/tdvp_uniform.py: _B_to_B_GF, _B_overlap_calc_BR, _B_overlap", "evoMPS/tdvp_common.py: herm_sqrt_inv, calc_Vsh"]}
{"id": "C77", "title": "Spectral gap of the transfer operator and correlation length", "statement": "calc_E_gap returns (m1 - m2)/m1 for the largest and second-largest eigenvalue magnitudes counted with multiplicity, and correlation_length returns -L/log(x) for the largest magnitude x that is smaller than the maximum by at least tol; neither depends on the order in which the solver returned the eigenvalues. When no magnitude differs from the largest by tol, correlation_length is documented (by its warning) to return nan. Finding: the loop never removes the last entry, so nan is returned only for a spectrum of one eigenvalue; a completely degenerate spectrum gives -L/log of the smallest of the degenerate magnitudes (log 1 for 1, 1, 1).", "quantifier": "all lists of eigenvalue magnitudes, tolerances tol > 0, cell lengths and bond dimensions", "why_tests_cant": "Tests have no states with a completely degenerate leading spectrum, and floating-point results there depend on rounding.", "anchors": ["evoMPS/mps_uniform.py: calc_E_gap, correlation_length"]}
{"id": "C78", "title": "Ground state driver: numbering of callbacks, bond dimension, termination", "statement": "find_ground numbers the callbacks of all its optimisation stages consecutively from 0, without repetition or gap; when it returns, the bond dimension had reached expand_to_D before the last optimisation; every expansion asks for expand_step more than the present bond dimension but never more than expand_to_D, and if the expansion stage reaches what it is asked for the loop ends after the least possible number of turns. Finding: the loop has no iteration limit; if the expansion stage does not raise the bond dimension, in particular for max_itr = 0, find_ground never returns, although max_itr limits every other optimiser.", "quantifier": "all optimisers within the contract of C55, all bond dimensions, expand_to_D, expand_step, numbers of turns", "why_tests_cant": "Unbounded loops and all sequences of optimiser results.", "anchors": ["evoMPS/dynamics.py: find_ground, opt_im_time, opt_conj_grad"]}
{"id": "C79", "title": "Retry loop of the excitation solvers", "statement": "excite_top_triv and excite_top_nontriv are documented to retry at most max_retries times, with growing ncv, in case of no convergence. If the eigenvalue solver's answer depends only on v0 and ncv, the result of the first successful call is returned; with the default ncv the number of vectors never shrinks. Findings: the loop has no break, so the solver is always called max_retries times and the outcome is that of the last call; a result found earlier is discarded and EvoMPSNoConvergence raised when the last, superfluous, call (from a random start vector) does not converge; an ncv given by the caller is replaced by max(20, nev*(3+i)), which may be smaller; max_retries=0 ends in UnboundLocalError.", "quantifier": "all solver histories, nev, ncv, v0, max_retries", "why_tests_cant": "All histories of a randomised solver.", "anchors": ["evoMPS/tdvp_uniform.py: excite_top_triv, excite_top_nontriv"]}
