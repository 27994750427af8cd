# Formal model of evoMPS in Rocq (Coq 8.16.1 + mathcomp 1.x)

## 1. Approach

evoMPS manipulates matrix product states (MPS).  What a user relies on is that the
cheap tensor-network manipulations agree with the exponentially large object they
stand for (the state vector), for *every* chain length, bond dimension, site
dimension and tensor.  The model is therefore a shallow, executable-style Gallina
transcription of the Python functions over exact arithmetic, and the
specification is the state vector written out configuration by configuration.

* **Scalars**: an abstract `C : numClosedFieldType` (mathcomp's algebraically
  closed field with conjugation and order; `algC` is an instance).  Rounding
  is *not* modelled: every theorem is about exact arithmetic.
* **Tensors**: a site tensor `A[n]` is `nat -> 'M[C]_(D (n-1), D n)`: the
  physical index is a plain number (as in Python), bond indices are typed.
  The family of tensors of a chain is `A : forall n, nat -> 'M_(D n, D n.+1)`
  (`A n` in Coq is `self.A[n+1]` in Python; bonds keep their Python number).
* **Specification of the state** (`Spec.v`): a configuration is a list of site indices;
  the amplitude is the ordered matrix product.  Norms, inner products,
  expectation values, reduced density matrices are sums over all configurations.
  Nothing of the model (eps maps, l, r, K...) is used in the specification.
* **LAPACK** (QR, eigh, SVD, Cholesky), random numbers, ARPACK, ODE solvers:
  oracles, i.e. universally quantified functions/values with the documented
  contract as an explicit hypothesis of the theorem.
* **Index, shape and control-flow code** (bond-dimension correction, schedules, retry
  loops, slices with negative indices, Python exceptions) is modelled with
  `nat`/`Z`/lists and exceptions as values.
* Where the faithful model violates the property, the counterexample is proved
  (`..._refuted`) next to the exact domain on which the property does hold.

## 2. Plan per property

See section 4 (kept in step with MANIFEST.json); the plan was

| Property | Model | Proof |
|---|---|---|
| C01,C02,C24 | eps maps, calc_l, calc_r | induction over sites; adjointness |
| C03-C08,C10-C13 | expectation values, density matrices, operators | cut of the configuration sum at the operator's sites |
| C09,C14,C15,C16 | index arithmetic and loops on nat lists | loop invariants; witnesses for the findings |
| C17-C21 | QR/eigh sweeps with oracles | gauge-transformation invariant along the sweep |
| C22,C23,C25 | tagged matrix representations; chunked sums under any schedule; reshapes | case analysis, permutation-invariance of sums, bijections |
| C26,C27,C28 | factorisations with oracle contracts | matrix algebra |
| C29,C30,C32,C33 | TDVP C, K, x, B, take_step | recursion invariants, gauge orthogonality |
| C31 | RK4 list/array semantics | symbolic execution of the loop |
| C34,C35,C36,C37 | split-step code | SVD contract; Hermiticity; trace of the schedule |
| C38-C41,C52-C55 | drivers and Krylov code as state machines with oracle histories | invariants over histories |
| C42-C47,C51 | uniform MPS | periodic families, gauge algebra |
| C48-C50 | sandwich and persistence | integer index arithmetic |

## 3. Trusted base

* The Coq kernel (and coqchk), mathcomp library definitions.
* That the Gallina transcription matches the cited Python lines (each
  definition cites them); exact instead of floating-point arithmetic.
* numpy/scipy primitives behave as documented (the contract is an explicit
  hypothesis for LAPACK-type routines).
* `Print Assumptions` output is listed in section 5.

## 4. Status

### 4.1 Per property

| Property | Title | Status | File | Theorems | Note |
|---|---|---|---|---|---|
| C01 | Norm is the same at every cut | proved | P01_Expectation.v | 3 | exact arithmetic |
| C02 | Environments are Hermitian and positive | proved | P01_Expectation.v | 1 | exact arithmetic |
| C03 | expect_1s is the exact expectation value | proved | P01_Expectation.v | 2 | exact arithmetic |
| C04 | expect_2s is the exact expectation value | proved | P01_Expectation.v | 2 | exact arithmetic |
| C05 | expect_3s is the exact expectation value | proved | P01_Expectation.v | 1 | exact arithmetic |
| C06 | expect_1s_1s gives the exact two-point function at any distance | proved | P02_Correlations.v | 2 | exact arithmetic; d>0 for the plain return value (docs require n1<n2) |
| C07 | inner() is the Hilbert-space inner product | proved | P02_Correlations.v | 3 | exact arithmetic |
| C08 | density_1s is the (transposed) one-site reduced density matrix | proved | P02_Correlations.v | 3 | settled: returned array is conj/transpose of the density operator; REFUTED as universal claim when read as an operator (C08_trace_with_op_refuted) |
| C09 | density_2s fills a complete two-site density matrix | proved | P02_Correlations.v | 2 | settled: exact on equal dimensions; REFUTED as universal claim for unequal dimensions (IndexError / uninitialised entries) |
| C10 | apply_op_1s acts as the operator on the state | proved | P02_Correlations.v | 4 | exact arithmetic |
| C11 | MPO application and MPO expectation agree with the operator they represent | proved | P02_Correlations.v | 3 | exact arithmetic |
| C12 | String expectation values | proved | P02_Correlations.v | 3 | settled: exact value of every entry; REFUTED as universal claim (documented string lengths, d=0) |
| C13 | Connected correlators and their reported expectation values | proved | P02_Correlations.v | 4 | settled: correlator exact; REFUTED as universal claim for return_exvals (second list, d=0) |
| C14 | Bond dimensions are reduced to exactly the useful maximum | proved | P03_Init.v | 2 | integer code, exact |
| C15 | The initial state | proved | P03_Init.v | 5 | settled: exact no-error and norm-one domains; REFUTED as universal claim (norm 1/2 for D=[1,2,1], q=4; IndexError through the constructor for D=[1,1,4,2,1], q=2) |
| C16 | set_state_product represents the given product state | proved | P03_Init.v | 4 | settled: exact for all inputs with q[n] used for site n+1; REFUTED as universal claim (q[0]=0, decreasing q) |
| C17 | Right canonical form by QR preserves the state and orthonormalises | proved | P04_Canonical.v | 8 | exact arithmetic; QR path (the default); LAPACK qr as an oracle with contract |
| C18 | Diagonalising l keeps state and right-orthonormality | proved | P04_Canonical.v | 7 | exact arithmetic; qr, eigh, eigvals as oracles with contract; for an eigh whose 1x1 eigenvector is 1 the amplitudes are exact, otherwise exact up to that phase |
| C19 | Left canonical form by QR preserves the state and orthonormalises | proved | P04_Canonical.v | 8 | exact arithmetic; settled: amplitudes and canonical form hold always; REFUTED as universal claim for the recorded l (wrong shape exactly when the sweep lowers a bond dimension) |
| C20 | simple_renorm normalises and keeps the ray and all other data consistent | proved | P04_Canonical.v | 3 | exact arithmetic; settled: exact for dense l[N]; REFUTED as universal claim for structured l[N] (TypeError) |
| C21 | Truncation of zero Schmidt values is lossless | proved | P04_Canonical.v | 11 | exact arithmetic; settled: lossless for zero weights, error bound otherwise; REFUTED as universal claim (unchanged dimensions raise, zero dimension raises) |
| C22 | Structured matrices behave like the dense matrices they stand for | proved | P04_Canonical.v | 11 | exact arithmetic; settled; REFUTED as universal claim for mismatched sizes (size-1 diagonal matrices broadcast) |
| C23 | Multi-threaded C eps maps equal the sequential map for any thread count | proved | P05_Threads.v | 6 | exact arithmetic; every interleaving of single-element stores; settled for d>0; REFUTED as universal claim for d=0 (ZeroDivisionError) |
| C24 | Left and right eps maps are adjoint | proved | P01_Expectation.v | 4 | exact arithmetic |
| C25 | Fast reshaped/tensordot implementations equal the reference loops | proved | P02_Correlations.v | 5 | exact arithmetic |
| C26 | Inverse square roots and Hermitian factorisations | proved | P06_Factor.v | 9 | exact arithmetic; eigh, cholesky as oracles with contract; settled: exact for every Hermitian input with an eigenvalue above zero_tol; REFUTED as universal claim for herm_fac_with_inv with none (slice [-0:]) |
| C27 | nullspace_qr returns an orthonormal null-space basis | proved | P06_Factor.v | 3 | exact arithmetic; full QR as an oracle with contract; settled; complete null space exactly for full row rank; REFUTED as universal claim for rank-deficient input |
| C28 | TDVP tangent vectors satisfy the gauge-fixing condition | proved | P07_Tdvp.v | 7 | exact arithmetic; eigh and full QR as oracles with contract; gauge condition and orthogonality for all l, r (also singular); isometry and completeness when every eigenvalue of l, r exceeds zero_tol |
| C29 | K accumulates the Hamiltonian expectation value | proved | P07_Tdvp.v | 10 | exact arithmetic; settled: right gauge for all (also absent) terms, left gauge when all terms are present and N >= 2; REFUTED as universal claim for the left gauge (absent term or N = 1 raises; three-site h_expect shifted by one entry) |
| C30 | TDVP step direction is the orthogonal projection of H|psi> onto the tangent space | proved | P07_Tdvp.v | 12 | exact arithmetic; eigh and full QR as oracles with contract; settled for two- and three-site terms in both gauges; REFUTED as universal claim for absent terms (three-site right gauge, two-site left gauge raise) and for the three-site left gauge with site-dependent q (IndexError or a silently missing term) |
| C31 | RK4 steps implement the classical fourth-order Runge-Kutta formula | proved | P08_Steps.v | 8 | exact arithmetic; programs on an explicit memory of arrays, vector field arbitrary; settled: classical formula for finite and sandwich classes, with and without B_i; exact result of the uniform class, classical for one site per cell; REFUTED as universal claim for the uniform class with several sites, and the arrays passed as B_i are overwritten |
| C32 | Memory-saving step equals the ordinary Euler step | proved | P08_Steps.v | 4 | exact arithmetic; two- and three-site terms, right gauge (the only one with a memory-saving branch); eta bookkeeping not modelled |
| C33 | Dynamic bond expansion implements the two-site tangent term to first order | proved | P10_Expand.v | 9 | exact arithmetic; eigh, full QR, svd as oracles with contract; settled for two-site terms: block form, exact polynomial in dtau of every amplitude, bond dimensions, Y as projection of H/psi>; REFUTED as universal claim for absent terms (calc_BB_Y_2s raises) |
| C34 | Splitting a two-site tensor loses nothing but the discarded singular values | proved | P09_Split.v | 9 | exact arithmetic; svd as an oracle with contract; settled: exact truncation error, isometries, kept dimension; REFUTED as universal claim for the default arguments (TypeError) and min_schmidt above all singular values (bond dimension 0) |
| C35 | Effective Hamiltonians used in local solvers are Hermitian projections of H | proved | P11_Heff.v | 9 | exact arithmetic; one-site, bond and two-site operators with two-site terms, one-site and bond operators with three-site terms: matrix elements of H, norm-preserving parametrisation, Hermitian; MPO parts in C66; REFUTED for the two-site operator with a three-site Hamiltonian (applies the complex conjugate of a term) |
| C36 | Split-step sweep schedule visits each site and bond correctly | proved | P12_Schedule.v | 8 | control flow and array traffic of evolve_split exact, numerical routines arbitrary; settled: environments and gauges current at every local solve for every mix of moves, exact schedules; REFUTED as universal claim: two-site mode raises IndexError on finite chains, switch_to_1site can evolve the last site twice, the real part of a complex step is dropped |
| C37 | take_step_split is usable with its exponential integrator | proved | P12_Schedule.v | 3 | settled: every non-DMRG call raises (REFUTED as universal claim), the DMRG variant visits every site once per direction for N >= 2, N = 1 raises |
| C38 | Time evolution driver does exactly num_steps steps | proved | P13_Drivers.v | 10 | exact arithmetic; system object arbitrary; settled: exact trace, the final state as replay of the logged steps, total and reached time; REFUTED as universal claim: an unknown integrator name makes no step silently, the RK4 branch with expansion steps backwards for dt > 1, int(t/dt) in binary64 loses a step (0.3/0.1) |
| C39 | Adaptive imaginary-time step stays in its safe interval | proved | P13_Drivers.v | 4 | exact arithmetic; all histories of energies and gradients |
| C40 | Krylov exponential integrator accounts for the whole time interval | proved | P14_Krylov.v | 8 | exact arithmetic; estimates, rounding and powers as oracles with contract; settled: sub-steps positive, sum to the whole interval on success, error bound; REFUTED as universal claim: vectors of length 1 are refused, m = 1 divides by zero, mxstep = 0 and finishing on the last allowed step are reported as not converged; termination not claimed |
| C41 | Arnoldi/Krylov reduction is exact on invariant subspaces | proved | P14_Krylov.v | 6 | exact arithmetic; modified Gram-Schmidt Arnoldi loop; all polynomials after an exact breakdown, Taylor orders up to m of the corrected scheme otherwise; la.expm itself not modelled |
| C42 | Transfer-matrix pseudo-inverse operators are consistent | proved | P15_Uniform.v | 6 | exact arithmetic; the iterative solver is outside the model, its solution is a hypothesis |
| C43 | Uniform environments: one fixed point determines all offsets consistently | proved | P15_Uniform.v | 10 | exact arithmetic; eigensolvers as oracles (eigenvector equations); settled: brute-force path with negative overlap fails (REFUTED as universal claim) |
| C44 | Uniform expectation values equal those of any finite window | proved | P15_Uniform.v | 11 | exact arithmetic; settled: one-, two-point and three-site values for every cell length; REFUTED as universal claim: expect_2s uses the wrong right environment and a stale AA, correlation exvals repeat the first operator, density_1s is transposed |
| C45 | Blocking to a translation-invariant unit cell preserves the physics | proved | P16_Block.v | 8 | exact arithmetic; Hamiltonian given as an array of 2 or 3 site terms (a callable Hamiltonian is not supported by the code) |
| C46 | Uniform canonical forms are gauge transformations with the advertised environments | proved | P17_UCanon.v | 6 | exact arithmetic; settled: restore_RCF, restore_LCF(diag_r=False) and restore_SCF for full-rank environments; REFUTED for restore_LCF(diag_r=True), whose stored environments are wrong although the tensors still describe the same state, and for restore_SCF on rank-deficient environments (division by zero) |
| C47 | Changing the site dimension and back is lossless | proved | P16_Block.v | 5 | exact arithmetic; settled: round trip with the negated offset; REFUTED for the same positive offset (ValueError) |
| C48 | Sandwich site accessors are consistent across the boundary | proved | P18_Sandwich.v | 12 | exact arithmetic; settled for arbitrary tensor and environment types: recursion at all sites left of and inside the window, at all integer sites when the right unit cell divides N and r[N+1] is right; update(restore_CF=False) normalises; shapes; REFUTED as universal claim: index offset when L does not divide N, r[N+1]=r[N] after growing with L=2, r[N+1] with a separate right bulk, one-site window |
| C49 | Growing the nonuniform region does not change the state | proved | P18_Sandwich.v | 10 | settled for arbitrary tensor and environment types; REFUTED as universal claim: grow_right(0) raises, the centre site is moved by m instead of m*L, the three-site Hamiltonian term at n=-1 reads the last list entry |
| C50 | Saving and loading round-trips | proved | P19_Persist.v | 19 | NumPy's save/load contract trusted; settled: tensors (and the saved environments) come back for the finite class (with a loader that accepts pickled arrays), uniform export/import, sandwich from_file and load_state; REFUTED as universal claim: numpy.load without allow_pickle, q not recovered, expand_q/shrink_q, autogrow with longer unit cells, TDVP sandwich load_state for D > 1 |
| C51 | Environment buffers of the dominant-eigenvector operator never alias | proved | P15_Uniform.v | 2 | exact arithmetic; arrays as a store with explicit buffers |
| C52 | Retry loop of the eigenvalue solver reports success correctly | proved | P15_Uniform.v | 3 | settled: exact outcome of the retry loop; REFUTED as universal claim (success on the last try reported as failure) |
| C53 | ODE state vector packing round-trips | proved | P13_Drivers.v | 4 | settled: packing is a bijection for all shapes; the driver evolve_scipy_ode itself raises TypeError in its first step (REFUTED as usable) |
| C54 | Line search leaves the state as it found it | proved | P20_LineSearch.v | 11 | exact arithmetic; the scipy searches are arbitrary adaptive procedures and (for the restoring part) the trial evaluation is an arbitrary function of the object; settled: without skipIfLower every field take_step needs is restored and the returned energy is the energy of the returned step; conjugate gradient never raises the energy for tau >= 0, also instantiated with the finite-chain evaluation. REFUTED as universal claim: skipIfLower, the cached AA, negative steps |
| C55 | Optimiser iteration limits | proved | P13_Drivers.v | 7 | exact arithmetic; settled: exact iteration/step/callback counts; REFUTED as universal claim: opt_grad_descent can report max_itr + 1 |
| C56 | Construction from a list of tensors | proved | P03_Init.v | 2 | settled: exact acceptance domain; REFUTED as universal claim (over-complete bond dimensions rejected) |
| C57 | Row-major data through column-major BLAS calls | proved | P05_Threads.v | 3 | exact arithmetic; BLAS by its reference definition |
| C58 | Uniform chain: energy density and right environment K | proved | P21_UTdvp.v | 9 | exact arithmetic; the linear solver is an oracle with its equation as hypothesis (C42 shows what that operator is) |
| C59 | Uniform chain: the TDVP tangent vector is the projection of H on the tangent space | proved | P21_UTdvp.v | 11 | exact arithmetic; eigh and qr as oracles with contract; orthogonality, gauge and components need no rank condition, isometry, completeness and the projection need full rank |
| C60 | Uniform chain: left environment K_left | proved | P21_UTdvp.v | 9 | exact arithmetic; settled: energy density, K_left[L-1] and its unique family of left environments for every L, all of K_left for L = 1; REFUTED as universal claim for L > 1 (the loop uses self.K) |
| C61 | Sandwich: restore_CF reaches the canonical form around the centre site without changing the state | proved | P22_SwCanon.v | 3 | exact arithmetic; eigh, cholesky and the triangular inverse as oracles with contract; calc_lr of the bulks is the input of the model; full-rank environments, N >= 2 (for N = 1 the centre site is 0 and the code does not work) |
| C62 | Sandwich TDVP with two-site terms: energies and tangent vector of the window | proved | P23_SwTdvp.v | 4 | exact arithmetic; eigh and qr as oracles with contract; the chain is seen through a finite number of sites with arbitrary boundary matrices and bulk energy environments; C62_uniform ties them to what the uniform class computes; the loop bounds q[0], q[2] of calc_B_centre must agree with the dimensions at the centre |
| C63 | Sandwich TDVP with three-site terms: tangent vector at the centre | proved | P23_SwTdvp.v | 5 | exact arithmetic; eigh and qr as oracles with contract; settled: exact energies, exact offset used by calc_B_centre (h_expect is shifted by one entry left of the centre), projection when the energies concerned agree; REFUTED as universal claim: otherwise the tangent vector is not orthogonal to a normalised state |
| C64 | Lindblad trajectories: one stochastic step | proved | P24_Diss.v | 3 | exact arithmetic; eigh and qr as oracles with contract; the noise samples are arguments; right gauge, plain Euler step (save_memory and dynamic expansion are covered by other properties); three-site terms need a term or an operator on every site, as in C30 |
| C65 | calc_B_1s_diss projects out the change of the norm | proved | P24_Diss.v | 4 | exact arithmetic; settled: the result is op - <op^+ op>, orthogonal exactly when <op^+ op> = <op>; REFUTED as universal claim (op = 2) |
| C66 | Hamiltonians given as matrix product operators | proved | P25_MPO.v | 8 | exact arithmetic; eigh and qr as oracles with contract; settled: eta is exact when eta_sq is zero at the sites without right-gauge tangent vectors, otherwise (e.g. after a left-gauge calc_B) exactly these entries are added |
| C67 | Fidelity per site, phase and gauge alignment of uniform states | proved | P26_Align.v | 8 | exact arithmetic; eigenvalue routine (dense or largest-magnitude sparse) and eigh as oracles with contract (a routine satisfying it is constructed); settled: bound, equality case in both directions, gauge_align for equal cell lengths; REFUTED as universal claim: phase_align with cells of 1 and 2 sites |
| C68 | One-site DMRG sweeps never raise the energy | proved | P27_Sweep.v | 2 | exact arithmetic; eigsh and qr as oracles with contract (routines satisfying them are constructed); two_site=False, bond dimensions that the QR steps keep (dims_ok), KL_bulk = KR_bulk = None |
| C69 | Split-step real-time evolution conserves norm and energy | proved | P27_Sweep.v | 3 | exact arithmetic; gexpmv as oracle: for i times a Hermitian operator a unitary commuting with it (the Cayley transform is shown to satisfy the contract); two_site=False, dims_ok; settled: a complex step acts like its imaginary part, so the energy is conserved for every complex step with nonzero imaginary part |
| C70 | Truncations are best approximations | proved | P28_Optimal.v | 6 | exact arithmetic; svd, qr and eigh as oracles with contract (for the last theorem eigh returns the eigenvector 1 for 1x1 matrices, as LAPACK does); the left canonical form is not treated |
| C71 | Strings of one-site operators and symmetries of uniform states | proved | P29_Strings.v | 7 | exact arithmetic; eigs(which=LM, k=1) as oracle with contract (a routine satisfying it is constructed), the complex power 1/L as a function with pw(z)^L = z; settled: bound, both directions of the symmetry statement, phase convention for a non-degenerate largest Schmidt coefficient; REFUTED as universal claim: degenerate largest coefficient (dimer state, spin flip) |
| C72 | Overlap of two sandwich states | proved | P30_SwOverlap.v | 5 | exact arithmetic; eigenvalue routine as oracle with contract (a routine satisfying it is constructed); the other state has the same bond dimensions; settled: windows of two or more sites, mismatching bulks; REFUTED as universal claim: window of one site (two normalised states with overlap 3/5 give 9/25) |
| C73 | Inner product of a sandwich state with a momentum tangent vector | proved | P31_OvTangent.v | 5 | exact arithmetic; the iterative linear solver as oracle (solves its equation exactly); settled: exact factor of every site, p = 0, right bulk, pseudo-inverse with equal bulks; REFUTED as universal claim: p != 0 (bond dimension 1, p = pi) |
| C74 | Expectation values and correlations with one changed tensor in a uniform state | proved | P32_ETangent.v | 10 | exact arithmetic; settled: single-site, two-site and joint values for all windows, exact condition under which c is the connected correlation; REFUTED as universal claim: c subtracts the product of the values at the same site (product state 0 1 0, Z) |
| C75 | Overlap of momentum tangent vectors of a uniform state | proved | P33_BOverlap.v | 8 | exact arithmetic; the iterative linear solver as oracle (solves its equation exactly, operator nonsingular; an instance is given); L = 1, M = 1, other=None; allclose(BRblock, 0) is the exact test |
| C76 | Gauge fixing of a momentum tangent vector keeps the vector | proved | P34_BGF.v | 9 | exact arithmetic; eigh, QR and the iterative linear solver as oracles with contracts; L = 1, M = 1; full rank of l and r as hypothesis for all theorems but C76_gf; allclose(BRblock, 0) is the exact test |
| C77 | Spectral gap of the transfer operator and correlation length | proved | P35_CorrLen.v | 8 | exact arithmetic; the eigenvalues returned by the solver are the input, log is any function; settled: value for every spectrum; REFUTED as universal claim: nan only for one eigenvalue, not for a degenerate spectrum |
| C78 | Ground state driver: numbering of callbacks, bond dimension, termination | proved | P36_FindGround.v | 7 | the optimisers are functions with the contract that C55 proves for opt_im_time (C78_im_numbers); settled: callbacks, targets, number of turns; REFUTED as universal claim: no return when the expansion does not raise D (max_itr = 0) |
| C79 | Retry loop of the excitation solvers | proved | P37_ExRetry.v | 6 | eigsh as arbitrary function of call number, v0 and ncv; settled: C79_outcome describes every run; REFUTED as universal claim: success can be lost, ncv can shrink |

Reading the status column: "proved" means that the theorems listed in MANIFEST.json settle the property for the
model.  Where the code violates the property as stated, they settle it by (a) positive theorems on the exact domain on
which it does hold and (b) a `..._refuted` theorem with a concrete counterexample; the note then says REFUTED.  No
property is claimed with a bound on sizes, steps or histories.

### 4.2 What is modelled

| Model file | Code |
|---|---|
| Eps.v, Eps2.v, Multi.v | core_common.py: calc_AA, calc_AAA, eps maps (no-op, 1-, 2-, 3-site, MPO, multi), calc_C_*, reference loops and tensordot versions |
| Chain.v, Density2.v, MPO.v | mps_gen.py: calc_l, calc_r, expect_*, density_*, correlation, string, inner, apply_op_*, MPO application and expectation |
| Init.v | mps_gen.py: correct_bond_dimension, initialize_state, set_state_product, mps_from_tensors |
| Struct.v | matmul.py: eyemat, simple_diag_matrix, mmul, adot, sqrtmh, invmh |
| LinAlg.v, Svd.v | contracts of qr, eigh, svd and proofs that routines with these contracts exist |
| Canon.v, Trunc.v | mps_gen.py/tdvp_common.py: restore_RCF/LCF with the sequential QR routines, simple_renorm, truncate, auto_truncate, schmidt_sq |
| Threads.v | core_common C module: pthread eps maps, BLAS calls on row-major data |
| Factor.v | tdvp_common.py: herm_sqrt_inv, herm_fac_with_inv, nullspace_qr, calc_Vsh, calc_Vsh_l |
| Tdvp.v | tdvp_gen.py/tdvp_common.py: calc_C, calc_K, calc_K_l, calc_x*, calc_B (both gauges, 2- and 3-site terms) |
| Steps.v | take_step, take_step_RK4 (finite, uniform, sandwich), save_memory branch |
| Sweep.v, SweepSolver.v | split_step.py: evolve_split with two_site=False as numbers (opt_A, evolve_A, evolve_G, the one-site moves, initial environments, sweeps); eigsh, gexpmv and qr are oracles, SweepSolver.v constructs routines that meet the contracts |
| EckartYoung.v | no code: the truncated singular value decomposition is the best approximation (used for Split.v and Trunc.v in C70) |
| Split.v, Heff.v, Heff2.v, Schedule.v | split_step.py: split_twosite, effective Hamiltonians, sweep schedule; tdvp_gen.py: take_step_split |
| Expand.v, TwoSite.v | calc_BB_Y_2s, calc_BB_2s, calc_BB_2s dynamic expansion in take_step |
| Drivers.v | dynamics.py: evolve, opt_im_time, opt_conj_grad, opt_grad_descent, evolve_scipy_ode packing |
| Krylov.v | sexpmv.py: step control, Arnoldi |
| LineSearch.v | tdvp_gen.py: find_min_h_brent, calc_B_CG |
| Uniform.v, Block.v, UCanon.v, UAlign.v | mps_uniform.py / mps_uniform_pinv.py: E operators, pseudo-inverse operator, calc_lr, retry loop, expectation values, blocking, set_q, canonical forms, fidelity per site, phase and gauge alignment |
| UString.v | mps_uniform.py: expect_string_per_site_1s, expect_string_1s_density_hc, basis_occupancy |
| SwOverlap.v | mps_sandwich.py: overlap; mps_uniform.py: fidelity_per_site with left=True |
| OvTangent.v | mps_sandwich.py: overlap_tangent |
| ETangent.v | tdvp_uniform.py: _get_tangent_lr, expect_tangent_1s, expect_tangent_2s, correlation_tangent_1s_1s |
| BOverlap.v | tdvp_uniform.py: _B_overlap, _B_overlap_calc_BR, _B_overlap_onsite, _B_rand_GT (L = 1, M = 1) |
| BGF.v | tdvp_uniform.py: _B_to_B_GF (L = 1, M = 1) |
| CorrLen.v | mps_uniform.py: calc_E_gap, correlation_length |
| FindGround.v | dynamics.py: find_ground |
| ExRetry.v | tdvp_uniform.py: retry loops of excite_top_triv, excite_top_nontriv |
| BTangent.v, UTdvp.v, UTdvpL.v | tdvp_uniform.py: calc_C, calc_K, calc_K_l, calc_l_r_roots, get_B_from_x, calc_B (2-, 3-site and tensor-product terms); the linear solver is an oracle |
| SwCanon.v | mps_sandwich.py: _restore_CF_ONR, _restore_CF_diag, simple_renorm, restore_CF; tdvp_common.py: restore_RCF_r, restore_LCF_l; mps_uniform.py: restore_RCF/restore_LCF(diag=False, ret_g=True) |
| MPOEff.v | tdvp_gen.py: calc_MPO_l, calc_MPO_rm1, calc_B_MPO; apply_ham_MPO of the effective Hamiltonians (tdvp_gen.py, split_step.py) |
| Diss.v | tdvp_gen_diss.py: take_step_dissipative (right gauge), calc_B_1s_diss |
| SwTdvp.v | tdvp_sandwich.py:400-676: calc_C, calc_K, calc_x, calc_B, calc_B_centre, calc_B_n (two- and three-site terms) |
| Sandwich.v | mps_sandwich.py / tdvp_sandwich.py: accessors, calc_l/r, growth of the window, update |
| Persist.v | save_state/load_state, export_state/import_state, from_file |

Simplifications common to all: exact arithmetic instead of complex128; in-place writes and views are values, except
where aliasing is the point (Steps.v, Threads.v and the operator buffers in Uniform.v use explicit memories); logging
and sanity-check warnings are left out; Python exceptions are `None`, the exception class is only named in comments.

### 4.3 What is not modelled

* Floating-point rounding, and LAPACK/ARPACK/scipy internals (oracles with contracts).
* tdvp_uniform.py apart from the parts listed (two-site expansion, excitations, its line search).
* tdvp_uniform.py: _B_overlap and _B_to_B_GF for cells of several sites, tangent vectors of several sites and other != None.
* mps_sandwich.py: overlap of states with different bond dimensions inside the window.
* split_step.py: the sweep with MPO Hamiltonians (their environments and effective operators are in MPOEff.v).
* mps_gen.py: the non-sequential canonical-form routines (restore_RCF_r, restore_LCF_l) are only covered through
  herm_fac_with_inv (C26).
* nullspace.py other than nullspace_qr; CUDA code; examples.

### 4.4 Findings

Deviations of the code from its documentation or from the property; (T) marks those with a theorem, the others were
seen while reading and are outside the model.

Finite chains
* density_1s, density_2s (and the uniform density_1s) return the transpose of the density operator (T); density_2s
  uses the wrong index for unequal site dimensions (T).
* set_state_product uses q[n] for site n+1 (T).
* expect_string_1s: entry k is the string of length k+2 of the adjoint operator; d = 0 raises IndexError (T).
* correlation_1s_1s(return_exvals): the second list repeats the first operator; d = 0 raises ZeroDivisionError (T).
* initialize_state: norm not one in general, IndexError for some dimensions (T); mps_from_tensors rejects
  over-complete bond dimensions (T).
* restore_LCF records l with the bond dimension before the sweep (T); restore_RCF multiplies the last tensor with the
  1x1 eigenvector of eigh, i.e. an arbitrary phase (T).
* simple_renorm raises TypeError for a structured l[N] (T); truncate raises ValueError if nothing is truncated and
  treats dimension 0 as "everything" (T).
* herm_fac_with_inv: slice [-0:] when no eigenvalue exceeds zero_tol (T); nullspace_qr is incomplete for rank
  deficient input (T); size-1 diagonal matrices broadcast (T); eps maps with zero site dimension divide by zero (T).
* update() is documented to return the truncation result but returns None.

TDVP
* calc_K_l: fails for absent terms and N = 1; three-site h_expect is shifted by one entry (T).
* calc_x_3s, calc_x_l, calc_BB_Y_2s raise for absent terms (T); calc_x_l_3s is wrong for site-dependent q (T).
* take_step_RK4 overwrites the caller's B_i (T); the uniform version is not the classical formula for several sites per
  cell (T); sandwich take_step sets the caller's B[n] to None.
* find_min_h_brent: skipIfLower leaves the trial state and returns a bare number (T); AA/AAA are not restored (T);
  negative steps are accepted with the old energy (T); the skip test compares a tangent-vector overlap with an energy.
* calc_B_CG on the finite class is called by the driver with a keyword only the uniform class has (TypeError).
* calc_B_MPO does not clear eta_sq: entries of sites without right-gauge tangent vectors, e.g. from a left-gauge calc_B
  before, are added to eta^2 (T).
* dissipative class: calc_B_1s_diss subtracts <op^+ op> instead of <op> (T); take_step_dissipative always calls calc_K, so
  gauge_fixing = 'left' works with the wrong K; a callable Hamiltonian raises TypeError.

Split step
* split_twosite: the default arguments raise TypeError; min_schmidt above all singular values gives dimension 0 (T).
* two-site effective Hamiltonian with three-site terms applies the complex conjugate of a term (T).
* evolve_split: two-site mode raises IndexError on finite chains; switch_to_1site can evolve the last site twice; the
  real part of a complex step is dropped (T).
* take_step_split: unpacks five of six return values, so every non-DMRG call raises (T).

Drivers and Krylov
* unknown integrator names make no step silently; the RK4 branch with expansion steps backwards for dt > 1; int(t/dt)
  loses a step (T); opt_grad_descent can report max_itr + 1 (T); evolve_scipy_ode raises TypeError (T).
* gexpmv: length-1 vectors refused, m = 1 divides by zero, mxstep = 0 and finishing on the last step reported as not
  converged (T).

Uniform and sandwich
* retry loop: success on the last try is reported as failure (T); the brute-force path leaves the phase of the norm (T).
* expect_2s uses r[k] instead of r[k+1] and a stale AA (T); set_q back with the same positive offset raises (T).
* expect_string_1s_density_hc divides 0 by 0 when the largest Schmidt coefficient is degenerate and the symmetry moves the leading Schmidt vector (dimer state and spin flip; AKLT-like states are of this kind) (T: C71_phase_refuted).
* overlap of two sandwich states with a window of one site contracts that site twice: two normalised states with overlap 3/5 give 9/25 (T: C72_single_site_refuted).
* overlap_tangent with momentum p uses the factor exp(ipj) at site j of the window but exp(ip(m-1)) at bulk site -m: the pseudo-inverse in left mode carries exp(-ip) and is conjugated by adot, and the extra exp(-ip) does not belong there (T: C73_value, C73_momentum_refuted).
* correlation_tangent_1s_1s subtracts exs1[n] * exs2[n] instead of exs1[first site] * exs2[n]; the connected correlation of a product state comes out as -2 (T: C74_connected, C74_connected_iff, C74_connected_refuted).
* find_ground has no limit on the number of expansion turns: with max_itr = 0 (or whenever the expansion stage cannot raise D) it does not return (T: C78_stuck, C78_max_itr_0_refuted).
* excite_top_triv, excite_top_nontriv: no break after success, so the solver always runs max_retries times and a failing last run discards the result; a caller's ncv can be replaced by a smaller one (T: C79_outcome, C79_success_lost_refuted, C79_ncv_shrinks_refuted).
* correlation_length never drops the last eigenvalue (`ev.shape[0] > 1`), so its nan branch for a completely degenerate spectrum is unreachable and it divides by log of a degenerate magnitude, log 1 (T: C77_nan, C77_degenerate, C77_all_degenerate_refuted).
* phase_align with a longer unit cell in the other state leaves a complex overlap eigenvalue (T).
* restore_SCF divides by zero for singular environments, restore_LCF(diag_r=True) stores wrong environments (T).
* calc_K_l with several sites per cell: only K_left[L-1] is right, the loop propagates self.K (T); q = 1 makes calc_B
  raise (T).
* sandwich, three-site terms: the left loop of calc_K stores the energy of term n-2 at h_expect[n-1], so that
  calc_B_centre subtracts a wrong energy and the tangent vector overlaps with the state (T).
* sandwich: r[N+1] and index offsets for L > 1, grow_right(0), centre site after growth, Hamiltonian index -1 (T).
* persistence: numpy.load without allow_pickle, q not recovered, import options that do not exist, TDVP sandwich
  load_state for D > 1 (T).

### 4.5 Mutation tests

`seeded/LOG.jsonl` lists wrong programs tried against the theorems, in a scratch copy.  "failed" names the first
statement of each file that can no longer be proved; everything depending on it is then not available either.

## 5. Print Assumptions

`Print Assumptions` was run for all 485 theorems in MANIFEST.json (each P-file also does it for its own theorems):
every one reports "Closed under the global context".  No axiom, of the standard library or otherwise, is used; classical
reasoning is confined to decidable equality and order of mathcomp structures and to `xchoose` on decidable predicates.
coqchk additionally reports, for the libraries it re-checks, sealed constants of mathcomp modules
(fields of mathcomp's own module signatures) under its heading for axioms; no theorem here depends on an axiom.
