# Formal model of juanjosegarciaripoll/mps in Rocq (Coq 8.16.1)

## 1. Approach

* **Scalars.** Every numeric template of the library is instantiated in C++ twice
  (`double`, `std::complex<double>`).  The model is generic over `Scalar`
  (`Scalar.v`): a commutative ring with a conjugation (ring involution) and a
  decidable equality.  Concrete instances: integers (conj = id, the real code) and
  Gaussian integers (the complex code); these run under `vm_compute`, so every refutation is
  an executed witness.  Properties that need an order (truncation, entropy, norms) are stated
  over the standard library's real numbers (`RScal.v`: a scalar with a real norm; instances R and C).
  **Rounding is not modelled**: arithmetic is exact.
* **Tensors** (`Tensor.v`) model the external `tensor` library, which is *not* in /repo:
  a dimension list and a flat column-major list of elements.  `fold`, `foldc`,
  `foldin`, `reshape`, `permute`, `trace`, `kron`, `kron2`, `mmult`, ... are executable
  functions.  Their semantics are an assumption about that library (trusted base).
* **States**: an MPS/MPO is a list of rank-3/rank-4 tensors, as `MP<Tensor>` is a `std::vector`.
* **Specification** (`Spec.v`): amplitudes are sums over all bond
  indices of products of tensor elements; inner products, expectation values and
  operator elements are sums over all configurations.  The specification does not use any of the
  model's contraction routines.
* **Failures.** `assert`/`abort()` and out-of-range accesses are a distinct outcome of
  the model functions (type `result`), never a default value, wherever the property is
  about them or the code can reach them; otherwise the theorem has the corresponding well-formedness
  hypothesis (and an `Example` that meets it).
* **External numerics** (SVD, eigensolvers, linear solvers, random numbers) are
  `Section` parameters with their contract as explicit hypotheses of the theorem.

## 2. Plan per property

| id | what is modelled | how it is proved |
|----|------------------|------------------|
| C01 | `mps_to_vector` loop of fold+reshape, final trace | induction on the list of sites, index arithmetic of reshape |
| C02,C03 | `prop_init/right/left`, `prop_matrix_close`, `scalar_product`, `state_norm` | invariant: the environment equals the sum over configurations of the visited sites |
| C04,C05,C06,C07 | `single_site_expected`, `two_sites_expected`, `all_expected_vector_fast`, `all_correlations_fast` | same invariant, with an optional operator per site |
| C08 | `do_density_matrix` | environments of C02; failure at edge sites and wrong conjugation are refuted with witnesses |
| C09,C10,C11 | local operator, product, GHZ and cluster states | induction on the chain |
| C12,C13 | constructors, `presize_mps`, `random`, index normalisation, dimension queries | case analysis and list induction |
| C14,C15 | `split`, `set_canonical_inner`, `canonical_form`, `set_canonical_2_sites` | SVD contract as hypothesis, amplitude invariance under gauge insertion |
| C16 | `where_to_truncate` over the reals | loop invariant |
| C17 | `expected_dimensions`, `truncate` initialisation | list induction |
| C18 | `Sweeper` | state machine induction |
| C19-C25 | MPO constructors and every `add_*` routine | automaton invariant (row 0 = nothing started, row 1 = finished) preserved by every history |
| C26,C27,C29-C31 | `apply`, `mmult`, `mpo_to_matrix`, `mpo_to_mps`, `expected` | induction on sites |
| C28 | both `adjoint` | complex proved, real refuted |
| C32 | `apply_canonical` | split contract |
| C33 | MPO from Hamiltonian | composition of C20, C21; failure cases refuted |
| C34-C38 | lattice code over `Z` (64-bit words never exceed 2^35; the one 32-bit conversion is explicit) | combinatorics on binary words, sorting, binary search |
| C39,C40 | Hamiltonian classes | history induction; kron algebra |
| C41 | `sparse_1d_hamiltonian` (both versions), `sparse_hamiltonian` on full matrices | kron algebra with mixed-radix offsets; periodic term via C43; refuted by norm, order, missing last term |
| C42 | `number/creation/destruction_operator`, `spin_operators` over the reals | tridiagonal products in closed form; trace argument for other spins |
| C58 | `coherent_state` (real and complex) | loop invariant; exponential series bound |
| C43 | `limited_svd`, `decompose_operator`, `split_interaction` | SVD contract; refuted by witness |
| C57 | inherited `interaction_left/right/depth` | on top of C43; depth refuted |
| C44,C45 | LinearForm/QuadraticForm as state machines | environment invariant over every history of moves |
| C46,C47 | `TrotterSolver::Unitary`, calls of `one_step` of the three solvers as data | induction over the blocks of a layer; exact sums; periodic and imaginary time refuted |
| C59 | `apply_onto_one/two_sites`, `apply`, `one_step`, first with `simplify_obc` as a parameter, then with its model (`TrotterObc.v`) | amplitude invariant over the sweep: visited blocks are applied, the rest not; SVD contract; C62 for the calls of `simplify_obc`; bonds of canonical states are at most the dimension of the space (`BondBound.v`); `Properties_TrotterLayers.v` treats the last two calls of Forest-Ruth with TRUNCATE_EACH_LAYER, made with Dmax = 0; `Properties_Trotter4.v` follows the seven calls of Forest-Ruth with TRUNCATE_EACH_LAYER (exponential of a diagonal operator in `PhaseExp.v`, unique closest product state) to refute the bond bound |
| C60 | the same calls as a product of exponentials of operators of the whole chain (`OpSpec.v`) | coefficient of every word, computed with rationals and transferred to R; norm estimates of the remainders (`OpExp.v`, `TrotterError.v`); a layer is the exponential of the sum of its terms (`LayerExp.v`); unitarity for many steps; steps with simplify_obc that return error zero through C59_simplified_exact (`Properties_TrotterOrder.v`) |
| C61 | layers with `expm` = exponential series | exp of anti-Hermitian is unitary (Cauchy product of the series) |
| C62 | `simplify_obc` (both algorithms, all sweeps) | the form after any history gives the gradient (C44); invariant: isometries behind the centre; Pythagoras for the update, Eckart–Young for the truncation of a pair (`EckartYoung.v`); the last pair is the best with bond ≤ Dmax (`ObcBest.v`, C62_two_best) |
| C48 | `do_simplify`, `MPSManySimplifier` (one and two sites), all sweeps | environment rows as an invariant of the sweep; the same Pythagoras/Eckart–Young steps as C62; `PairBest.core_best` turns the last pair step into optimality among all pairs with bond ≤ Dmax (C48_two_best); a generic loop (`StopFacts.loop_spec`) gives the exact condition under which the sweeps end (C48_many_ends, C48_one_ends); four refutations |
| C49 | `Minimizer` (one and two sites, all sweeps), `eigs` as an oracle with a contract | the form gives the local operator (C45); invariant: isometries around the centre, so the local Rayleigh quotient is the global one; when the sweeps end: a generic loop with a count of growths (`GrowthFacts.gloop_spec`) |
| C50 | `orthogonalize`, `orthogonal_projectors`, `add_states`, `add_constraint`, `minimize_with` | projector algebra, invariant of the sweeps with a linear form (MinOrtho, MinOrthoRun; MinBoth, MinBothRun for the two-site algorithm together with the constraint); simulation for the ignored constraint; witnesses for the refutations |
| C51 | `solve` (both algorithms), linear solvers (dense and conjugate gradients) as external functions | normal equations of the local problem are solvable (kernel argument), invariant of the sweeps with linear and quadratic form (SolveAlg, SolveStep, SolveMain; SolveTwo for pairs of sites); when the sweeps end by `StopFacts.loop_spec` (C51_ends); witnesses for operators that are not Hermitian |
| C52 | canonical, direct and boundary expected values of iTEBD | transfer matrices of sections and rings (`ITebdFacts.v`, `ITebdSlow.v`); orthonormality lets sections grow; witnesses for the refutations |
| C53 | constructors and `apply_operator` of iTEBD | dimension invariants; the split is a truncated SVD of the cell; induction on the number of cells of a ring |
| C63 | `canonical_form` (two tensors), `ortho_basis`, `itebd_power_eig` with `eigs`, `eig_sym`, `svd` as oracles with contracts | gauge algebra on rings (`ITebdGauge.v`, `ITebdCanon.v`); Perron–Frobenius-like positivity from `primitive` (`ITebdEig.v`); contracts shown satisfiable in `SpectralExist.v`; two refutations |
| C64 | `entropy(site)`, `entropy()`, `schmidt(site)` of iTEBD | unfolding plus witnesses for the refutations |
| C65 | the three predefined infinite states | induction over rings, concrete tensors |
| C66 | canonical_form with truncation (CanonModel) | overlap of the swept part with the original (left/right environments), SVD weights, Eckart-Young for the refutation |
| C67 | simplify(mpo) | the operator as a state (C30), C14, C66 |
| C68 | fidelity(mpo, mpo) | C30, Cauchy-Schwarz with its equality case |
| C69 | ArnoldiSolver: constructor, basis loop, coefficients, final simplification (`ArnoldiModel.v`) | loop invariant (Gram matrix, recurrence); exponentials preserving a metric (`MetricExp.v`); C62 for the simplifications; Lanczos recurrence and truncated series (`ArnoldiKrylov.v`); dt = 0: lowest eigenvector of the projected operator, `eig` as an oracle with a contract (`Properties_Arnoldi3.v`) |
| C70 | class DMRG, one-site: constructor, init_matrices, blocks, minimize_single_site, sweeps (`DmrgModel.v`) | block matrices = energies of families of states differing in one tensor (`DmrgBlocks`, `DmrgFamily`); weakest preconditions over the sweeps (`DmrgStep`); when the sweeps end: a generic loop with a count of growths (`GrowthFacts.gloop_spec`) |
| C71 | the two-site algorithm of class DMRG, no conserved quantities | the reshaped vector fails set_canonical_2_sites for every input; only an Arpack failure returns |
| C72 | iTEBD(AB,lAB): ensure_3_indices, px, itebd_power_eig, canonical_form(G,l), split_tensor | the cell as a two-site state with an identity tensor; change of bases as in C63 (gauge_rel), then split_tensor = apply_operator with the identity; eigenvectors of the cell map |
| C73 | CMPS(const RMPS&), expected() with real state and complex operator (sites, pairs, Hamiltonian) | the conversion commutes with chain and amp, so the overloads are those of C04-C06, C40 on the converted state; antisymmetric imaginary parts cancel |
| C74 | minimize() with a constraint: add_constraint, compute_constraint_subspace, apply_qform2_with_subspace, take_two_site_matrix_diag | the local basis vectors at two sites form an orthonormal family of states (canonical environments) whose <N> is the diagonal the code compares; the eigensolver contract on the projected matrix; induction over sweeps |
| C75 | `do_dump_mpo` as a list of headers and matrices (`DumpModel.v`) | induction over the sites; sortedness and membership of the listing; extensionality of tensors |
| C76 | no new model: the functions of C02, C26-C33, C39-C41 | composition of their theorems; exchange of finite sums; extensionality of tensors |
| C54 | `evolve_itime`, its loops with a generic step (`ToolsModel.v`) and with the operations of infinite states (`ITimeModel.v`) | iteration lemma; C53 and C63 for every layer and measurement; termination without truncation from an invariant (no zero weight, some ring amplitude not zero; `ITebdTotal.v`); refuted when the interval does not divide the number of steps |
| C55 | `entropy` of a vector over the reals, NaN as `None` | `ln x <= x - 1`; refuted for zero weights |
| C56 | `tensor::Flags` is outside the repository: a growing vector; the creation order of src/tools/flags.cc | history induction |

## 3. Trusted base

1. **Coq 8.16.1's kernel** (including `vm_compute`, used for the concrete examples, the refutation
   witnesses and the 256-entry byte table of C34). No plugin, no switched-off check.
2. **Axioms.** None is declared here. `ASSUMPTIONS.md` (generated by `tools/assumptions.py`) lists the output of
   `Print Assumptions` for every theorem of `MANIFEST.json`. Most are closed under the global context; the theorems
   over real numbers use the standard library's `ClassicalDedekindReals.sig_forall_dec`,
   `ClassicalDedekindReals.sig_not_dec` and `FunctionalExtensionality.functional_extensionality_dep`. `SvdExist.v`
   (existence of an SVD, a sanity check of the contract, not a property) also uses `Classical_Prop.classic` and
   `ClassicalEpsilon.constructive_indefinite_description`.
3. **The external `tensor` library** (not in /repo). `Tensor.v` states what each routine is assumed to do: column-major
   storage, `fold`, `foldc`, `foldin`, `reshape`, `permute`, `kron`, `kron2`, `mmult`, `trace`, `squeeze`, views, ...;
   `LatticeModel.v` assumes `sort_indices` sorts and sparse matrices add repeated entries.
4. **External numerics** are hypotheses of the theorems that need them, never axioms: `svd_contract` (`CanonSpec.v`) says
   A = U diag(s) V with orthonormal factors and decreasing non-negative s. `SvdExist.v` proves it satisfiable over R and C; `svd_economic` (min(m,n) values; only for C48 with one state) is satisfiable by `SvdEconomic.v`. `expm_contract` (`TrotterExp.v`)
   says expm(M) is the sum of the series M^k/k!; proved satisfiable there. `eigs_contract` (`MinimizeSpec.v`): for a Hermitian operator
   eigs returns a smallest eigenvalue with a normalised eigenvector; proved satisfiable in `EigsExist.v`. `lsolve_contract` (`SolveSpec.v`): solve_with_svd
   returns a solution of a square system that has one; proved satisfiable in `SolveAlg.v`; `cgs_contract` (`SolveSpec.v`): the same for conjugate gradients, satisfiable (`cgs_contract_satisfiable`, `Properties_Solve2.v`). `msolve_contract` (`ArnoldiSpec.v`): the same
   with a matrix on the right-hand side; satisfiable (`ArnoldiProj.v`). For infinite states: `eig_sym_contract` (a Hermitian matrix has an orthonormal eigenbasis with real eigenvalues) and
   `eigs_largest`/`eigs_sized` (an eigenvector of largest modulus, of the size of the space), both in `ITebdSpec2.v` and proved satisfiable in
   `SpectralExist.v`; `power_iterates` (`Properties_ITebd3.v`): eig_power returns a multiple of some power of the map applied to its start.
5. **Exact arithmetic.** `double` and `std::complex<double>` are modelled as exact scalars; rounding, overflow, NaN
   are not modelled. Integers are `nat`/`Z`; the only narrowing conversion that matters (`int right_mask` of
   `Lattice::bipartition`) is modelled.
6. **The reading of the C++ source** in the comments of the `*Model.v` files (file and lines cited at each definition).

### Modelled

| files of /repo | model |
|---|---|
| src/mps/mps.cc, mps_prop_matrix.cc, mps_scprod.cc, mps_norm.cc, mps_expected.cc, mps_correlations*.cc, mps_density_matrix.cc, mps_to_vector.cc, mps_product.cc, mps_random.cc, ghz, cluster, local operator, add/linear algebra | MpsModel.v, RealModel.v |
| src/mps/mps_split.cc, mps_canonical.cc, truncate, where_to_truncate, set_canonical_2_sites, Sweeper | CanonModel.v, SweepModel.v |
| src/mpo/*.cc: constructors, add_*, apply, apply_canonical, mmult, adjoint, mpo_to_matrix, mpo_to_mps, expected, simplify, fidelity | MpoModel.v, ApplyCanon.v, MpoSimplModel.v |
| src/hamiltonian/*.cc: ConstantHamiltonian, TIHamiltonian, expected energies, MPO from a Hamiltonian | HamModel.v |
| src/tools/limited_svd_*.cc, src/quantum/decompose_operator.cc, src/hamiltonian/split_interaction.cc, hamiltonian.cc | DecompModel.v |
| src/dmrg/lform.cc, qform.cc | FormModel.v |
| src/dmrg/simplify_obc.cc, simplify_obc_d.cc, simplify_obc_z.cc | SimplifyModel.v |
| src/dmrg/minimizer.cc | MinimizerModel.v |
| src/dmrg/inverse.cc (and _d, _z) | SolveModel.v |
| src/mps/mps_simplify.cc, mps_simplify_many.cc (and _d, _z, many2) | SimplifyManyModel.v |
| src/evolve/arnoldi.cc | ArnoldiModel.v |
| src/dmrg/dmrg.cc (without Q_values; P0_ only in the one-site algorithm), include/mps/dmrg.h | DmrgModel.v |
| src/evolve/trotter_unitary.cc, solver_trotter2/3/4.cc, solver_base.cc | TrotterModel.v |
| src/iTEBD/itebd_itime.hpp | ToolsModel.v (loop and coefficients), ITimeModel.v |
| src/tools/flags.cc, entropy.cc | ToolsModel.v |
| src/iTEBD/itebd.hpp, itebd_canonical.hpp, canonical_expected.hpp, slow_expected.hpp, bdry_expected.hpp, itebd_energy, itebd_expected*, itebd_string_order*, aklt, cluster, ghz; src/tools/propagate_mps.hpp, build_E_matrix.hpp | ITebdModel.v, ITebdNewModel.v (constructor from one tensor AB) |
| src/quantum/fock.cc, spin.cc | QuantumModel.v |
| src/quantum/lattice.cc, lattice_apply.cc, lattice_bipartition.cc | LatticeModel.v |

### Not modelled

File input/output, the Python/Matlab front ends, timing and debug output, `MPS_DEBUG` branches, the internals of ARPACK and
LAPACK calls, the concrete random number generator (any function).
