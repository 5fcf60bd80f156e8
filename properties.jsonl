{"id": "C01", "title": "mps_to_vector lists the amplitudes, site 0 fastest", "statement": "mps_to_vector(psi) returns the vector of length d_0*...*d_{L-1} whose entry number i_0 + d_0*(i_1 + d_1*(i_2+...)) is the amplitude of the configuration (i_0,...,i_{L-1}), i.e. the sum over all bond indices of the product of the site tensors, with the first and last bond traced together (so a periodic state is handled as well as an open one).", "quantifier": "all non-empty MPS with matching bonds, any length, physical dimensions, bond dimensions, open or periodic, real or complex", "why_tests_cant": "tests compare a few short chains; the reshape arithmetic must be right for every length and dimension", "anchors": ["src/mps/rmps_to_vector.cc:mps_to_vector", "src/mps/cmps_to_vector.cc:mps_to_vector"]}
{"id": "C02", "title": "scprod is the inner product of the represented vectors, in both directions", "statement": "scprod(a,b,sense) equals the sum over all configurations of conj(amplitude in a)*(amplitude in b); the left-to-right and the right-to-left contraction give the same number; it also holds for periodic chains.", "quantifier": "all pairs of MPS of the same length and physical dimensions, with independent bond dimensions, open or periodic, and both values of sense", "why_tests_cant": "the number of configurations is exponential in the length, tests only compare tiny chains; both contraction orders must agree for every size", "anchors": ["src/mps/mps_scprod_d.cc:scprod", "src/mps/mps_scprod_z.cc:scprod", "src/mps/mps_prop_matrix.cc:prop_init,prop_right,prop_left,prop_matrix_close"]}
{"id": "C03", "title": "norm2 and scprod obey the inner product laws", "statement": "scprod(b,a) is the complex conjugate of scprod(a,b), scprod(a,a) is the sum of |amplitude|^2 (so it is real and never negative), and norm2(a)^2 = scprod(a,a).", "quantifier": "all MPS, open or periodic", "why_tests_cant": "algebraic laws over all states", "anchors": ["src/mps/mps_norm_d.cc:norm2", "src/mps/mps_norm_z.cc:norm2", "src/mps/mps_scprod_z.cc:scprod"]}
{"id": "C04", "title": "single-site expectation values", "statement": "expected(psi,Op,k) equals the sum over configurations of conj(psi(i)) * Op(i_k,j_k) * psi(j), where j agrees with i except at site k; a negative k counts from the end, and the result does not depend on which sites are to the left or right of k.", "quantifier": "all MPS, all sites k in -L..L-1, all square operators of the site's dimension", "why_tests_cant": "every site position, chain length and dimension must agree with the full sum", "anchors": ["src/mps/mps_expected1.cc:single_site_expected", "src/mps/mps_expected1_d.cc:expected", "src/mps/mps_expected1_z.cc:expected"]}
{"id": "C05", "title": "two-site expectation values", "statement": "expected(psi,Op1,k1,Op2,k2) equals <psi| Op1 at k1 * Op2 at k2 |psi>: for different sites (in either order) the product of the two local operators, for equal sites the operator product Op1*Op2; negative positions count from the end.", "quantifier": "all MPS, all pairs of positions in -L..L-1, all operators", "why_tests_cant": "quadratically many pairs, times all lengths; the mixed positive/negative spelling of the same site is easily missed by tests", "anchors": ["src/mps/mps_expected2.cc:two_sites_expected"]}
{"id": "C06", "title": "sums and vectors of single-site expectation values", "statement": "expected(psi,Op) is the sum over all sites k of expected(psi,Op,k), and expected_vector(psi,{O_k},phi) is the vector whose k-th entry is <psi| O_k at site k |phi>.", "quantifier": "all MPS, all operators and all lists of L operators", "why_tests_cant": "the implementation shares left/right environments between sites; the sharing must be sound for every k and L", "anchors": ["src/mps/mps_expected1_d.cc:expected", "src/mps/mps_expected1_all.cc:all_expected_vector_fast"]}
{"id": "C07", "title": "the correlation matrix holds the pairwise expectation values", "statement": "expected(psi, {A_k}, {B_k}) returns the L x L matrix C with C(i,j) = <psi| A_i B_j |psi> for every pair i, j, where at equal sites the operators are multiplied.", "quantifier": "all MPS, all lists of operators, all pairs (i,j)", "why_tests_cant": "environments are reused along a double loop; every pair and length must match the direct value", "anchors": ["src/mps/mps_expected2_all.cc:all_correlations_fast"]}
{"id": "C08", "title": "density_matrix is the reduced density matrix", "statement": "density_matrix(psi,k) has the matrix elements rho(i,j) obtained by summing over all configurations of the other sites; hence trace(rho)=scprod(psi,psi), rho is Hermitian and expected(psi,Op,k) = sum_ij Op(i,j) rho-entry.", "quantifier": "all MPS and all sites, open or periodic", "why_tests_cant": "must hold for every state and every site", "anchors": ["src/mps/mps_dty_matrix.cc:density_matrix"]}
{"id": "C09", "title": "apply_local_operator applies the operator to one site only", "statement": "apply_local_operator(psi,Op,k) returns an MPS whose amplitude at i is sum_j Op(i_k,j) psi(i with i_k replaced by j); all other tensors and all bond dimensions are unchanged.", "quantifier": "all MPS, all sites, all operators (square or not)", "why_tests_cant": "must hold for every state and site", "anchors": ["src/mps/apply_local_operator_d.cc:apply_local_operator", "src/mps/apply_local_operator_z.cc:apply_local_operator"]}
{"id": "C10", "title": "product_state represents the product of its vectors", "statement": "product_state(L,v) has amplitude prod_k v(i_k) at every configuration, bond dimension one, and is not periodic; its squared norm is the product of the squared norms of its vectors.", "quantifier": "all lengths and all vectors", "why_tests_cant": "every length and every configuration", "anchors": ["src/mps/rmps_product_state.cc:product_state", "src/mps/cmps_product_state.cc:product_state"]}
{"id": "C11", "title": "ghz_state and cluster_state have the documented amplitudes", "statement": "ghz_state(L) has amplitude 1/sqrt(2) at 00..0 and 11..1 and zero elsewhere; cluster_state(L) has amplitudes of equal modulus 2^{-L/2} whose sign is (-1)^{number of neighbouring 11 pairs} up to the code's boundary convention; both have norm one.", "quantifier": "all lengths and all configurations, open and periodic", "why_tests_cant": "the number of configurations is exponential in the length", "anchors": ["src/mps/rmps_ghz_state.cc:ghz_state", "src/mps/rmps_cluster_state.cc:cluster_state"]}
{"id": "C12", "title": "constructed MPS have consistent dimensions", "statement": "An MPS built from (length, physical dimension(s), bond dimension, periodic) has the requested physical dimension at each site, right bond of each site equal to the left bond of the next one, bond dimension never larger than requested, outer bonds 1 when open and equal to each other when periodic; random() obeys the same contract.", "quantifier": "all lengths, all lists of dimensions, both boundary conditions", "why_tests_cant": "for every list of dimensions", "anchors": ["src/mps/mps_presize.h:presize_mps", "src/mps/rmps.cc:RMPS", "src/mps/rmps_random.cc:random", "src/mps/cmps_random.cc:random"]}
{"id": "C13", "title": "negative indices and summary queries", "statement": "Site arguments of the expectation value routines count from the end when negative (-L<=k<0 names site L+k) and every other value outside 0..L-1 is rejected; psi[k] and at(k) reject everything outside 0..L-1; dimensions(psi) lists the physical dimensions, is_periodic is true exactly when the outer bonds are larger than one, and largest_bond_dimension is an upper bound of every left bond that is attained.", "quantifier": "all MPS and all integer indices", "why_tests_cant": "all indices and sizes", "anchors": ["include/mps/mp_base.h:MP", "src/mps/rmps.cc:is_periodic", "src/mps/mps_dimensions_d.cc:dimensions", "src/tools/bond_dimension_d.cc:largest_bond_dimension"]}
{"id": "C14", "title": "canonical_form keeps the state and makes the tensors isometric", "statement": "canonical_form(psi,sense) represents the same vector as psi (when nothing is truncated), all but the last visited tensor are isometries in the direction of the sweep; normal_form of an open, non-zero state additionally has norm one and is the original divided by its norm (a periodic state is divided by the weight of the opened chain instead, so that its norm need not be one); set_canonical on one site changes nothing but that site and its neighbour.", "quantifier": "all MPS, both senses, any length, for any matrix factorisation routine meeting the SVD contract", "why_tests_cant": "numerical tests check a few random states to rounding error only", "anchors": ["src/mps/mps_canonical.cc:set_canonical_inner", "src/mps/mps_canonical_d.cc:canonical_form,normal_form", "src/tools/split_tensor.cc:split"]}
{"id": "C15", "title": "set_canonical_2_sites splits a two-site tensor without changing the state", "statement": "Given a two-site tensor for sites k,k+1, set_canonical_2_sites stores two site tensors whose contraction is the given tensor (when nothing is truncated), in the requested sense one of them is an isometry; no other site changes.", "quantifier": "all states, sites, senses and two-site tensors, for any routine meeting the SVD contract", "why_tests_cant": "for every tensor", "anchors": ["src/mps/mps_canonical2.cc:set_canonical_2_sites"]}
{"id": "C16", "title": "where_to_truncate keeps enough weight and respects the maximum dimension", "statement": "where_to_truncate(s,tol,max_dim) returns a number of singular values not larger than length(s) nor than max_dim (when max_dim is positive); when max_dim does not bind, the discarded weight (sum of squares of the dropped values) is at most max(tol, DBL_EPSILON) times the total, and at most one value more than necessary is kept; with tol=0 only exact trailing zeros are dropped.", "quantifier": "all vectors s of non-negative numbers, all tolerances and maximum dimensions", "why_tests_cant": "boundary cases (all zeros, equal weights, exact ties, tol at and above 1) for all vectors", "anchors": ["src/tools/truncate.cc:where_to_truncate"]}
{"id": "C17", "title": "truncate delivers the requested bond dimensions", "statement": "truncate(P,Q,Dmax,periodic,increase) delivers an MPS with matching bonds and unchanged physical dimensions, whose bond dimensions are the smaller of the old ones and the cap (Dmax and, for open chains, what the physical dimensions allow), or exactly the cap when increase is set; it keeps the leading block of every tensor, and the flag it returns says whether some bond exceeded its cap; if none did, the state is unchanged.", "quantifier": "all MPS, all Dmax, open and periodic", "why_tests_cant": "all lists of dimensions", "anchors": ["src/tools/truncate_mps.cc:truncate,expected_dimensions"]}
{"id": "C18", "title": "a Sweeper visits every site in order and stops", "statement": "Iterating do{visit(*s)}while(--s) over a Sweeper built by psi.sweeper(sense) visits each site exactly once, in increasing order for positive sense and decreasing order otherwise, and then stops; flip() reverses the direction so that the next sweep covers the same sites the other way round.", "quantifier": "all lengths and both senses, and any number of flips", "why_tests_cant": "all lengths and histories", "anchors": ["src/tools/sweeper.cc:Sweeper", "include/mps/tools.h:Sweeper"]}
{"id": "C19", "title": "a fresh MPO is the zero operator", "statement": "RMPO(dims)/CMPO(dims) represents the operator whose matrix is zero, has consistent bond dimensions, and a size below two is rejected.", "quantifier": "all lists of dimensions", "why_tests_cant": "all lengths and dimensions", "anchors": ["src/mpo/rmpo.cc:RMPO,clear", "src/mpo/cmpo.cc:CMPO,clear"]}
{"id": "C20", "title": "add_local_term adds exactly the local operator", "statement": "After add_local_term(mpo,H,k), the matrix represented by the MPO is the old one plus H acting on site k and the identity elsewhere; the other sites are untouched and wrong sites, non-square H or wrong dimensions are rejected. This holds at any point in any history of add_* calls.", "quantifier": "all histories of add_* calls starting from a fresh MPO, all sites, all operators", "why_tests_cant": "the representation depends on the whole history; tests try a few histories", "anchors": ["src/mpo/mpo_add_term.cc:add_local_term"]}
{"id": "C21", "title": "add_interaction adds exactly the two-site product", "statement": "After add_interaction(mpo,Hi,i,Hj) the represented matrix is the old one plus Hi at site i times Hj at site i+1; it may be called in any order, any number of times, mixed with other add_* calls.", "quantifier": "all histories of add_* calls, all bonds i, all operators", "why_tests_cant": "the bond dimension grows with the history, every history must work", "anchors": ["src/mpo/mpo_add_term.cc:add_interaction"]}
{"id": "C22", "title": "long-range add_interaction adds all pair products with the string operator", "statement": "add_interaction(mpo,H,i,sign) adds the sum over all j different from i of H_i and H_j with the string operator on the sites strictly between them (identity when no string is given); sites with a zero operator contribute nothing.", "quantifier": "all histories, all lists of operators, all centres i, all strings", "why_tests_cant": "any pattern of zero operators, any position of i, any history", "anchors": ["src/mpo/mpo_add_long_range_term.cc:add_interaction"]}
{"id": "C23", "title": "add_hopping_matrix and add_jordan_wigner_matrix add the quadratic form of the matrix", "statement": "add_hopping_matrix(mpo,J,ad,a) adds sum over i different from j of J(i,j) ad_i a_j and add_jordan_wigner_matrix inserts the string between the sites; the result does not depend on which entries vanish.", "quantifier": "all matrices J, all operators, all sizes and histories", "why_tests_cant": "all matrices", "anchors": ["src/mpo/mpo_add_hopping_matrix.cc:add_hopping_matrix,add_jordan_wigner_matrix"]}
{"id": "C24", "title": "add_product_term adds the tensor product of its operators", "statement": "add_product_term(mpo,{H_0..H_{L-1}}) adds H_0 x ... x H_{L-1} to the represented matrix, for every list of operators of the right dimensions.", "quantifier": "all histories and lists of operators, including those containing identities", "why_tests_cant": "the code strips identities at both ends; all patterns must be covered", "anchors": ["src/mpo/mpo_add_product_term.cc:add_product_term"]}
{"id": "C25", "title": "local_Hamiltonian_mpo is the sum of its local terms", "statement": "local_Hamiltonian_mpo({H_k}) represents sum_k H_k at site k.", "quantifier": "all lists of at least two square operators", "why_tests_cant": "all lengths and dimensions", "anchors": ["src/mpo/mpo_local_Hamiltonian.cc:local_Hamiltonian_mpo"]}
{"id": "C26", "title": "apply(mpo,psi) is the matrix-vector product", "statement": "The amplitude of apply(mpo,psi) at i is sum_j M(i,j) psi(j) where M is the matrix of the MPO; bond dimensions multiply.", "quantifier": "all MPO and MPS of equal length with matching physical dimensions, open or periodic", "why_tests_cant": "exponentially many configurations", "anchors": ["src/mpo/mpo_apply.cc:apply"]}
{"id": "C27", "title": "mmult(A,B) is the operator product", "statement": "The matrix represented by mmult(A,B) is the product of the matrix of A and the matrix of B, in that order.", "quantifier": "all pairs of MPO with matching physical dimensions", "why_tests_cant": "all lengths and dimensions; order of the factors matters for all non-commuting pairs", "anchors": ["src/mpo/mpo_mmult.cc:mmult"]}
{"id": "C28", "title": "adjoint is the Hermitian conjugate", "statement": "The matrix represented by adjoint(mpo) is the conjugate transpose of the one represented by mpo; in particular scprod(a,apply(mpo,b)) = scprod(apply(adjoint(mpo),a),b). For a real MPO this is the transpose.", "quantifier": "all real and complex MPO", "why_tests_cant": "all operators; symmetric test operators hide a missing transpose", "anchors": ["src/mpo/mpo_adjoint_d.cc:adjoint", "src/mpo/mpo_adjoint_z.cc:adjoint"]}
{"id": "C29", "title": "mpo_to_matrix lists the matrix elements", "statement": "mpo_to_matrix(mpo) is the matrix whose element at (row,column) is the operator element between the configurations numbered with site 0 fastest; it is compatible with mps_to_vector: mpo_to_matrix(O)*mps_to_vector(psi) = mps_to_vector(apply(O,psi)).", "quantifier": "all MPO", "why_tests_cant": "all lengths and dimensions", "anchors": ["src/mpo/mpo_to_matrix.cc:mpo_to_matrix"]}
{"id": "C30", "title": "mpo_to_mps, fidelity and the Hilbert-Schmidt product", "statement": "mpo_to_mps(O) is an MPS with physical dimensions d_k^2 whose amplitudes are the matrix elements of O, so scprod(mpo_to_mps(A),mpo_to_mps(B)) = trace(A^+ B).", "quantifier": "all MPO", "why_tests_cant": "all operators", "anchors": ["src/mpo/mpo_to_mps_d.cc:mpo_to_mps", "src/mpo/mpo_fidelity_d.cc:fidelity"]}
{"id": "C31", "title": "expected(bra,mpo,ket) is the matrix element", "statement": "expected(bra,O,ket) = sum_ij conj(bra(i)) O(i,j) ket(j) and expected(psi,O) = expected(psi,O,psi).", "quantifier": "all MPO and MPS of matching dimensions", "why_tests_cant": "all states and operators", "anchors": ["src/mpo/mpo_expected_d.cc:expected", "src/mpo/mpo_expected_z.cc:expected"]}
{"id": "C32", "title": "apply_canonical computes the same state as apply", "statement": "apply_canonical(mpo,psi,sense,truncate=false) represents the same vector as apply(mpo,psi), in either sense. The result is in canonical form in that sense.", "quantifier": "all MPO and open MPS, both senses, any routine meeting the SVD contract", "why_tests_cant": "for every state", "anchors": ["src/mpo/mpo_apply_canonical.cc:apply_canonical"]}
{"id": "C33", "title": "an MPO built from a Hamiltonian represents that Hamiltonian", "statement": "RMPO(H)/CMPO(H) represents the sum of all local terms and nearest neighbour interactions of H.", "quantifier": "all Hamiltonians (constant and translationally invariant)", "why_tests_cant": "all sizes and interaction lists", "anchors": ["src/mpo/rmpo_from_hamiltonian.cc:RMPO", "src/mpo/cmpo_from_hamiltonian.cc:CMPO"]}
{"id": "C34", "title": "lattice configurations are enumerated exactly once in increasing order", "statement": "Lattice(sites,N) enumerates every bit pattern of `sites` bits with exactly N ones exactly once, in increasing order; more than 34 sites or N larger than sites is rejected; dimension() is the binomial coefficient.", "quantifier": "all sites<=34 and N<=sites", "why_tests_cant": "binomially many words; byte tables must be right for every word", "anchors": ["src/quantum/lattice.cc:Lattice,states_with_n_particles,count_bits"]}
{"id": "C35", "title": "the hopping operator has the right matrix elements", "statement": "hopping_operator(to,from,statistics) maps every configuration with `from` occupied and `to` empty to the one with the particle moved, with coefficient one for hard-core bosons and the sign (-1)^{number of particles strictly between} for fermions, and all others to zero; for to=from it is the number operator.", "quantifier": "all lattices, all pairs of sites, both statistics, all configurations", "why_tests_cant": "all words", "anchors": ["src/quantum/lattice.cc:hopping_operator_inner,sign_value,hopping_operator"]}
{"id": "C36", "title": "number and interaction operators and the lattice Hamiltonian", "statement": "number_operator(i) and interaction_operator(i,j) are diagonal with entries n_i and n_i*n_j; Hamiltonian(J,U,mu..) is the sum of its hopping and interaction terms.", "quantifier": "all lattices and matrices", "why_tests_cant": "all configurations", "anchors": ["src/quantum/lattice.cc:number_operator,interaction_operator,Hamiltonian"]}
{"id": "C37", "title": "apply_lattice agrees with the sparse Hamiltonian", "statement": "The operator that Lattice::eigs(J,U,...) diagonalises (apply_lattice; Lattice::apply itself is declared but not defined) maps psi to Lattice::Hamiltonian(J,U,0,statistics) times psi.", "quantifier": "all matrices J, U and all vectors", "why_tests_cant": "symmetric test matrices hide transposition and double counting", "anchors": ["src/quantum/lattice_apply.cc:apply_lattice", "src/quantum/lattice.cc:Hamiltonian"]}
{"id": "C38", "title": "bipartition splits every configuration into left and right parts", "statement": "bipartition(sites_left,...) lists the left and right parts of the configurations, each exactly once and in increasing order, maps every configuration to an index that decodes to its left and right parts, so that the pair determines the configuration and no index is out of range; a cut with an empty side is rejected.", "quantifier": "all lattices and cuts", "why_tests_cant": "all words", "anchors": ["src/quantum/lattice_bipartition.cc:bipartition,find_configuration"]}
{"id": "C39", "title": "ConstantHamiltonian remembers exactly what was set and added", "statement": "After any sequence of set_local_term / set_interaction / add_interaction calls, local_term(k) is the last one set and interaction(k) is the last set one plus all the products added since; other sites are unaffected.", "quantifier": "all histories of calls", "why_tests_cant": "all histories", "anchors": ["src/hamiltonian/hamiltonian_constant.cc:ConstantHamiltonian"]}
{"id": "C40", "title": "expected(psi,H) is the sum of all terms", "statement": "expected(psi,H,t) = sum_k <local_term(k)> + sum_k sum_n <interaction_left(k,n) at k * interaction_right(k,n) at k+1>, with the wrap-around bond included for periodic Hamiltonians.", "quantifier": "all Hamiltonians and MPS", "why_tests_cant": "all lengths and term lists", "anchors": ["src/hamiltonian/hamiltonian_expected.cc:do_expected"]}
{"id": "C41", "title": "sparse_1d_hamiltonian builds the chain operator", "statement": "sparse_1d_hamiltonian and sparse_hamiltonian build the matrix sum_k local_k + sum_k interaction_{k,k+1} on the tensor product space, site 0 fastest, plus the wrap-around term when periodic.", "quantifier": "all lengths and terms", "why_tests_cant": "the matrix dimension is exponential in the length", "anchors": ["src/quantum/sparse_1d_hamiltonian.cc:sparse_1d_hamiltonian", "src/quantum/sparse_1d_hamiltonian_many.cc", "src/hamiltonian/sparse_hamiltonian.cc"]}
{"id": "C42", "title": "Fock and spin operators have their defining matrix elements", "statement": "creation_operator(n) is the adjoint of destruction_operator(n), number_operator(n) is creation*destruction with diagonal 0..n, and spin_operators(s,sx,sy,sz) satisfy the angular momentum relations.", "quantifier": "all cutoffs n and all half-integer spins", "why_tests_cant": "all dimensions", "anchors": ["src/quantum/fock.cc", "src/quantum/spin.cc:spin_operators"]}
{"id": "C43", "title": "decompose_operator and split_interaction reproduce the operator", "statement": "The operator lists O1,O2 returned by decompose_operator/split_interaction satisfy sum_n O1_n x O2_n = the given two-site operator.", "quantifier": "all two-site operators, real and complex", "why_tests_cant": "normalised or real test operators hide a lost factor or conjugation", "anchors": ["src/quantum/decompose_operator.cc", "src/hamiltonian/split_interaction.cc:split_interaction", "src/tools/limited_svd_d.cc:limited_svd"]}
{"id": "C44", "title": "LinearForm stays consistent with its bra and ket", "statement": "For any sequence of propagate_left/propagate_right calls with fitting tensors, single_site_vector() contracted with any tensor T at here() gives <sum_i w_i bra_i | ket with T at here()>, two_site_vector(+1/-1) likewise for the pair of sites on the right/left, norm2() squared is the norm of sum_i w_i bra_i, and here() never leaves the chain. (Weights enter conjugated; the header's sum_i w_i <bra_i|ket> agrees for real weights.)", "quantifier": "all weights, all lists of open bras with the same physical dimensions, all kets, all histories of moves with arbitrary new tensors and bond sizes", "why_tests_cant": "environments are cached; every history of moves must keep them consistent", "anchors": ["src/dmrg/lform.cc:LinearForm"]}
{"id": "C45", "title": "QuadraticForm stays consistent with its operator, bra and ket", "statement": "For any sequence of propagate calls, single_site_matrix, two_site_matrix(+1/-1), apply_one_site_matrix and apply_two_site_matrix at here() represent <bra|O|ket> as a form in the tensors of the current site(s) of bra and ket, and the take_*_diag functions return the diagonals of those matrices.", "quantifier": "all open MPO with square sites, bras, kets and histories of moves with arbitrary new tensors and bond sizes", "why_tests_cant": "environments are cached; every history must keep them consistent", "anchors": ["src/dmrg/qform.cc:QuadraticForm"]}
{"id": "C46", "title": "the Trotter unitaries cover every bond exactly once", "statement": "In TrotterSolver the exponents of the even and odd unitaries together contain each nearest neighbour interaction exactly once and each local term with total weight one; for a periodic Hamiltonian this includes the interaction of the last with the first site.", "quantifier": "all chain lengths, site dimensions, Hamiltonians and histories of a ConstantHamiltonian", "why_tests_cant": "every length, even or odd", "anchors": ["src/evolve/trotter_unitary.cc:Unitary"]}
{"id": "C47", "title": "Trotter solvers advance the time by exactly one step", "statement": "The coefficients of the unitaries applied by one_step() of the Trotter-2, Trotter-3 and Forest-Ruth solvers add up to -i dt for both the even and the odd part, for every strategy, so that each step advances the time by time_step().", "quantifier": "all complex dt, strategies, dimensions and normalisation flags", "why_tests_cant": "exact sums are hidden by rounding in tests", "anchors": ["src/evolve/solver_trotter2.cc", "src/evolve/solver_trotter3.cc", "src/evolve/solver_trotter4.cc", "src/evolve/trotter_unitary.cc:Unitary", "include/mps/time_evolve.h:time_step"]}
{"id": "C48", "title": "simplify returns a canonical, locally best, never worse approximation with its true error", "statement": "simplify(P, {Q_i}, w, ..., &sense, sweeps, normalize), with one or two sites updated at a time, replaces P by an open MPS with the same physical dimensions that is in canonical form with respect to the site where the last sweep ended; no other tensor at that site is closer to Q = sum_i w_i Q_i; the returned error is |P-Q|^2 = |Q|^2-|P|^2; bond dimensions do not grow (or respect Dmax); if P was orthogonal as documented and nothing is truncated, P is never farther from Q than before, whatever the number of sweeps, and a P equal to Q stays so. With two sites at a time and only Dmax limiting the bonds, no pair of tensors at the last pair of sites with a bond of at most Dmax is closer; for two sites the result is the best of all states with that bond. The version for a single Q has the same properties. As documented, sense is opposite to the direction of the last sweep, normalize=true gives norm one, the version for one state also returns |P-Q|^2, and periodic boundary conditions are supported. The sweeps end exactly when the error changes by less than 10^-5 of |Q|^2 (for one state: falls by less than 10^-5 of itself) or is below the tolerance or 10^-14; otherwise all sweeps are made.", "quantifier": "all open MPS of any length and bond dimension, any number of states and weights, all numbers of sweeps, directions, Dmax, tolerances, every SVD that meets its contract", "why_tests_cant": "an invariant over sweeps of any length and all states; tests compare a few random states", "anchors": ["src/mps/mps_simplify.cc:do_simplify", "src/mps/mps_simplify_many.cc:MPSManySimplifier", "src/mps/mps_simplify_many.cc:MPSManySimplifier2"]}
{"id": "C49", "title": "minimize() returns an improved, canonical state and its energy", "statement": "minimize(H,psi) with a Hermitian H and an open state returns for every valid set of options; when at least one sweep was allowed the result is an open state with the same physical dimensions, in canonical form at the end where the last sweep stopped, with weight in (0,1]; bond dimensions never grow (one site) or stay within Dmax (two sites). When nothing is truncated the weight is one and the returned number is exactly <psi|H|psi>/<psi|psi>; it is never below a lower bound of H, never above the energy of the initial state, equals the ground energy when the chain has a single optimised block, is optimal for the last block, and more sweeps never raise it; the loop stops once the energy change is below the tolerance. The sweeps end exactly when the energy changes by less than the tolerance, or grows in a sweep after having grown in allow_E_growth earlier ones, or the eigenvalue solver fails; otherwise all are made.", "quantifier": "all lengths, open states, Hermitian MPOs, options (mode, sweeps, tolerance, Dmax) and all SVD/eigensolvers that meet their contract", "why_tests_cant": "all histories of sweeps, all Hamiltonians and all solvers", "anchors": ["src/dmrg/minimizer.cc:Minimizer", "include/mps/minimizer.h:minimize"]}
{"id": "C50", "title": "minimize() with states to be orthogonal to and with a constraint", "statement": "minimize(H, psi, opt, constraint, value, other): the state returned is orthogonal to each state of the list, whatever its norm, has the lowest energy that is possible with that, and the energy returned is its energy; the local projector P satisfies <phi|P(T)> = 0 and P(P(T)) = P(T); the expectation value of the constraint is the value asked for; the call returns for any states of the list.", "quantifier": "all Hamiltonians, initial states, states of the list (real or complex, of any norm), constraints, options and solvers that satisfy the contract", "why_tests_cant": "unnormalised constraint vectors are never tested", "anchors": ["src/dmrg/minimizer.cc:orthogonalize", "src/dmrg/minimizer.cc:orthogonal_projectors", "src/dmrg/minimizer.cc:add_states", "src/dmrg/minimizer.cc:add_constraint", "src/dmrg/minimizer_d.cc:minimize", "src/dmrg/minimizer_z.cc:minimize"]}
{"id": "C51", "title": "solve approximates the solution of the linear equation", "statement": "solve(H,P,Q) approximates the solution of H P = Q: the number it returns is ||H P' - Q||^2 for the state P' it leaves, this is minimal with respect to the site (one-site algorithm) or the pair of sites (two-site algorithm) where the last sweep ended, it is never worse than the start and never worse with more sweeps as long as nothing is truncated, an exact solution stays one, and with the two-site algorithm no bond exceeds Dmax. The sweeps end exactly when an error different from zero falls by less than 10^-5 of it or below the tolerance; otherwise all sweeps are made.", "quantifier": "all operators H, right-hand sides Q, initial states P (or none), senses, numbers of sweeps", "why_tests_cant": "Hermitian test operators hide a missing adjoint", "anchors": ["src/dmrg/inverse.cc:solve"]}
{"id": "C52", "title": "iTEBD string order and two-point functions agree among their variants", "statement": "string_order(Op1,i,Opmid,Op2,j) computed by the canonical, the boundary and the direct method is the same expectation value in the infinite state, for all i<j.", "quantifier": "all states, operators and pairs of sites", "why_tests_cant": "parities of i and j and all separations", "anchors": ["src/iTEBD/canonical_expected.hpp:do_string_order", "src/iTEBD/slow_expected.hpp", "src/iTEBD/bdry_expected.hpp"]}
{"id": "C53", "title": "iTEBD construction and apply_operator keep the infinite state consistent and apply the operator", "statement": "A constructed iTEBD has matching bond dimensions; after apply_operator(U, site, tolerance, max_dim) the state is well formed, no new inner bond exceeds max_dim, and without truncation every ring of cells of the new state is, up to the scale N^n, the product of U on every cell (even site) or on every pair between cells (odd site) applied to the ring of the old state; the discarded weight is what truncation removes from the cell.", "quantifier": "all physical and bond dimensions, two-site operators, tolerances, maximum dimensions and ring lengths, for any routine meeting the SVD contract", "why_tests_cant": "the infinite chain has rings of every length; dimensions and operators are unbounded", "anchors": ["include/mps/itebd.h:iTEBD", "src/iTEBD/itebd_apply.hpp:apply_operator", "src/iTEBD/itebd_class.hpp"]}
{"id": "C54", "title": "evolve_itime performs the requested number of steps", "statement": "evolve_itime(psi,H12,dt,nsteps,...) applies exactly nsteps evolution steps exp(-dt H), to the order of the chosen method, and records energy and entropy of the states it passes.", "quantifier": "all infinite states, interactions, time steps, nsteps, methods and reporting intervals", "why_tests_cant": "all combinations of nsteps and interval", "anchors": ["src/iTEBD/itebd_itime.hpp:evolve_itime"]}
{"id": "C55", "title": "entropy is non-negative and vanishes only for product cuts", "statement": "entropy(s) of a normalised Schmidt vector is non-negative, and schmidt/block entropies are computed from normalised weights; zero Schmidt values do not produce NaN.", "quantifier": "all non-negative vectors", "why_tests_cant": "zero entries and all lengths", "anchors": ["src/tools/entropy.cc:entropy"]}
{"id": "C56", "title": "flags return the value last set", "statement": "FLAGS.get(k) returns the value most recently set for key k and the documented default otherwise; an unknown key is rejected; create_key returns a key different from all earlier ones.", "quantifier": "all histories of create_key/set/get", "why_tests_cant": "all histories", "anchors": ["src/tools/flags.cc:MPS_TRUNCATION_TOLERANCE", "include/mps/flags.h:FLAGS"]}
{"id": "C57", "title": "A Hamiltonian that only defines interaction(k) inherits a matching decomposition", "statement": "For a class derived from Hamiltonian that defines interaction(k), the inherited interaction_left(k,n), interaction_right(k,n), n=0..interaction_depth(k)-1 satisfy sum_n left_n x right_n = interaction(k).", "quantifier": "all two-site operators and all truncation tolerances", "why_tests_cant": "all Hamiltonians of the test suite override the three methods", "anchors": ["src/hamiltonian/hamiltonian.cc:interaction_left", "src/hamiltonian/hamiltonian.cc:interaction_depth"]}
{"id": "C58", "title": "coherent_state has the elements of a coherent state", "statement": "coherent_state(alpha,nmax) has nmax+1 elements exp(-|alpha|^2/2) alpha^n/sqrt(n!), is an eigenvector of destruction_operator(nmax) with eigenvalue alpha on all but the last row, and has norm at most one.", "quantifier": "all amplitudes alpha, real or complex, and all cutoffs nmax", "why_tests_cant": "uncountably many amplitudes and unbounded cutoffs; the elements come from a running product", "anchors": ["src/quantum/fock.cc:coherent_state", "include/mps/quantum.h"]}
{"id": "C59", "title": "one Trotter step applies exactly the product of its layers", "statement": "one_step() of a Trotter solver with DO_NOT_TRUNCATE turns the state into the product of its layers of exponentials applied to it when the reported error is zero; with TRUNCATE_EACH_UNITARY, TRUNCATE_EACH_LAYER or TRUNCATE_GROUPS no bond of the result exceeds Dmax, and the result is the exact product if the reported error is zero and every layer is counted; with normalize the result has norm one. With normalize, TRUNCATE_GROUPS and TRUNCATE_EACH_LAYER normalise the result when the bonds had to be reduced; ForestRuthSolver with TRUNCATE_EACH_LAYER always does.", "quantifier": "all nearest neighbour Hamiltonians, states, sweep directions, time steps and dimensions", "why_tests_cant": "the state is exponentially large and the sweep depends on parity of the chain and direction", "anchors": ["src/evolve/trotter_unitary.cc:apply", "src/evolve/solver_trotter2.cc:one_step", "src/evolve/solver_trotter3.cc:one_step", "src/evolve/solver_trotter4.cc:one_step"]}
{"id": "C60", "title": "order of the Trotter solvers", "statement": "One step of Trotter2Solver and Trotter3Solver without truncation agrees with exp(-i dt H) up to an error of order |dt|^3, one step of ForestRuthSolver up to |dt|^5, and n steps of a Hermitian H accumulate at most n times that error. The same holds of steps with TRUNCATE_EACH_LAYER (all solvers) and TRUNCATE_GROUPS (Forest-Ruth) that return error zero, and TRUNCATE_GROUPS returns error zero if Dmax is at least the dimension of the space and MPS_TRUNCATION_TOLERANCE is at least 1.", "quantifier": "all Hamiltonians with nearest-neighbour interactions on chains of any length, all states, all time steps", "why_tests_cant": "a test at fixed dt cannot tell the order; an error in one constant changes only high-order terms", "anchors": ["include/mps/time_evolve.h:Trotter2Solver", "src/evolve/solver_trotter4.cc:FR_param"]}
{"id": "C61", "title": "real time evolution preserves scalar products", "statement": "For a Hermitian Hamiltonian and a real time step one_step() without truncation preserves scalar products and norms. So do n steps of ForestRuthSolver with TRUNCATE_GROUPS if Dmax is at least the dimension of the space and MPS_TRUNCATION_TOLERANCE is at least 1.", "quantifier": "all Hermitian nearest neighbour Hamiltonians, real time steps and states", "why_tests_cant": "all states and Hamiltonians", "anchors": ["src/evolve/trotter_unitary.cc:Unitary", "src/evolve/solver_trotter4.cc:one_step"]}
{"id": "C62", "title": "simplify_obc returns the best state for its bonds and the true distance", "statement": "simplify_obc(P,w,Q,sense,sweeps,normalize,Dmax,tol) leaves P in canonical form at the end of the last sweep, whose direction it stores in sense; the returned error is the relative distance |P - sum w_i Q_i| / |sum w_i Q_i| and *norm is |P|^2; no other tensor at the centre is closer; inner bonds are at most Dmax (two sites) or do not grow (one site); if P starts in canonical form with admissible bonds and nothing is truncated by the tolerance it never ends farther from the target than it began; a state equal to the target is a fixed point; with normalize the result has norm one. With two sites at a time and only Dmax limiting the bonds, no pair of tensors at the last pair of sites with a bond of at most Dmax is closer; for two sites the result is the best of all states with that bond. The sweeps end exactly when the error is below the tolerance or has changed by less than 1e-5 of itself, and further sweeps then change nothing.", "quantifier": "all open states P, Q_i, weights, senses, numbers of sweeps, Dmax, tolerances and both algorithms, for any routine meeting the SVD contract", "why_tests_cant": "optimality is a statement about all other tensors; the distance must be right after every number of sweeps", "anchors": ["src/dmrg/simplify_obc.cc:do_simplify", "src/dmrg/simplify_obc_z.cc", "src/forms/linear_form.cc"]}
{"id": "C63", "title": "canonical_form of an infinite state keeps the state and makes its cells orthonormal", "statement": "canonical_form() of an infinite state is the same state (every ring has the same amplitudes), its cell bonds are left and right orthonormal, so expected values computed from it are those of the infinite chain; it returns for every state whose cell transfer map is primitive.", "quantifier": "all well-formed infinite states of any bond dimension, all ring lengths and configurations, for any eigenvalue and SVD routine meeting its contract", "why_tests_cant": "rings of every length must agree; the routine returns an eigenvector of arbitrary phase, which a test with one LAPACK cannot vary", "anchors": ["src/iTEBD/itebd_canonical.hpp:ortho_basis", "src/iTEBD/itebd_canonical.hpp:canonical_form", "src/iTEBD/itebd_power_eig.hpp"]}
{"id": "C64", "title": "entropy and schmidt of an infinite state refer to the requested bond", "statement": "entropy(site) is the entropy of the normalised squared Schmidt weights of the bond next to that site, schmidt(site) returns these weights, and entropy() is the average over both bonds.", "quantifier": "all infinite states, canonical or not, and all sites", "why_tests_cant": "needs all states, and an asymmetric one to tell the two bonds apart", "anchors": ["include/mps/itebd.h:entropy", "src/iTEBD/itebd_entropy.hpp"]}
{"id": "C65", "title": "predefined infinite states are the states they name", "statement": "infinite_ghz_state is, in every ring, the sum of all-zero and all-one; infinite_aklt_state is annihilated by the spin-2 projector on every pair of neighbours in every ring; infinite_cluster_state is stabilised by Z X Z on every three neighbours in every ring.", "quantifier": "all rings and all positions", "why_tests_cant": "rings of every length", "anchors": ["src/iTEBD/itebd_aklt_state.cc:infinite_aklt_state", "src/iTEBD/itebd_cluster_state.cc:infinite_cluster_state", "src/iTEBD/itebd_ghz_state.cc:infinite_ghz_state"]}
{"id": "C66", "title": "canonical_form with truncation is an orthogonal projection; error bounds", "statement": "canonical_form(psi) with any tolerance returns the orthogonal projection of psi on a subspace: the difference is orthogonal to the result and the squared error is the lost squared norm. Starting from a state in canonical form with its centre at the other end, the relative squared error is at most (n-1) times the tolerance. (Without that premise even the default tolerance gives no bound on the relative error.)", "quantifier": "all open states, sites, tolerances and decompositions", "why_tests_cant": "error bounds over all states, tolerances and all valid SVDs", "anchors": ["src/mps/mps_canonical.cc:either_form_inner", "src/mps/mps_canonical_d.cc:canonical_form", "src/tools/split_tensor.cc:do_split"]}
{"id": "C67", "title": "simplify of an operator keeps its elements", "statement": "simplify(mpo, sense) returns an operator with the same dimensions and boundary conditions, no bond larger, and, when only exact zeros are truncated, the same elements; with truncation it is an orthogonal projection in the Hilbert-Schmidt product. (With the default tolerance the relative error is not bounded.)", "quantifier": "all operators, directions and tolerances", "why_tests_cant": "all operators, sizes and SVDs", "anchors": ["src/mpo/mpo_simplify.cc:do_simplify", "include/mps/mpo.h:simplify"]}
{"id": "C68", "title": "fidelity of operators", "statement": "fidelity(Ua,Ub) is |tr(Ua^+ Ub)|/(|Ua||Ub|) as documented, lies in [0,1] and is symmetric; it is one exactly for proportional operators, and not a number if an operator is zero. (With the default tolerance two representations of one operator may have fidelity below one.)", "quantifier": "all pairs of operators of equal dimensions", "why_tests_cant": "all operators and sizes", "anchors": ["src/mpo/mpo_fidelity_z.cc:fidelity", "src/mpo/mpo_fidelity_d.cc:fidelity"]}
{"id": "C69", "title": "A step of ArnoldiSolver is unitary up to its error", "statement": "ArnoldiSolver(H,dt,n).one_step(&psi,Dmax), for a Hermitian H, a state psi of norm one and nothing but zeros truncated, builds a basis of at most n states of norm one starting with psi, with their exact scalar products and matrix elements of H, and replaces psi by a state of norm one, with the same dimensions and bonds of at most Dmax, whose overlap a with a combination of the basis of norm one is positive and obeys 1-err^2 <= a^2; the combination is exp(-i dt H) psi when H maps the span of the basis into itself, in particular for eigenvectors. Each vector after the first is H v[k-1] - <v[k-1]|H|v[k-1]> v[k-1] - <v[k-1]|H|v[k-2]> v[k-2], normalized, up to a recorded error; if the recorded errors are zero the basis is orthonormal and the combination of m vectors differs from exp(-i dt H) psi by O(dt^m). The returned error is the distance to the combination plus the recorded errors weighted with the squares of the coefficients. With dt=0 and recorded errors zero, one_step instead finds a state of the lowest energy among the combinations of the basis. Constructors accept 1 to 29 vectors. (The message of the abort says 30; a state whose norm is not one gets a wrong phase.)", "quantifier": "all Hermitian operators, states, time steps, bond limits, numbers of vectors", "why_tests_cant": "all operators, states and time steps; exactness involves the limit of a series", "anchors": ["src/evolve/arnoldi.cc:ArnoldiSolver::one_step", "include/mps/time_evolve.h:ArnoldiSolver"]}
{"id": "C70", "title": "class DMRG, one-site algorithm: minimize(&psi)", "statement": "DMRG(H).minimize(&psi), for an open nearest-neighbour Hamiltonian with all local terms given, returns whenever Arpack does not fail; the new psi is an open state of the same sites in canonical form with no larger bonds; when nothing is truncated it has norm one, the returned number is its energy, is not above the energy of the given state, never below the spectrum of H, not increased by more sweeps, and no state that differs in one tensor (the last one optimised) has less energy; a ground state stays one; sweeps that change the energy by less than the tolerance end the search; allow_E_growth, which the constructor leaves uninitialised, has no effect. The constructor rejects chains of less than two sites and periodic ones. (Deviations: states given to orthogonal_to() are ignored; with sweeps <= 0 the caller's number comes back; a missing local term or a conserved quantity makes the call abort.) The sweeps end exactly when the energy changes by less than the tolerance, or grows in a sweep after having grown in allow_E_growth earlier ones, or the eigenvalue solver fails; otherwise all are made.", "quantifier": "all open nearest-neighbour Hamiltonians with Hermitian terms, sizes, initial states, options; all eigenvalue solvers meeting their contract", "why_tests_cant": "quantifies over all Hamiltonians and initial states, and over all runs of the sweeps", "anchors": ["src/dmrg/dmrg.cc:DMRG<MPS>::minimize", "src/dmrg/dmrg.cc:minimize_single_site", "src/dmrg/dmrg.cc:init_matrices", "include/mps/dmrg.h:DMRG"]}
{"id": "C71", "title": "class DMRG, two-site algorithm: minimize(&psi, Dmax)", "statement": "DMRG(H).minimize(&psi,Dmax) with Dmax > 0 should minimise the energy over pairs of sites. It does not: every call aborts, unless Arpack fails in the first step; a call that returns gives back the caller's number and a state with the amplitudes of the given one in canonical form (when nothing is truncated). The product handed to Arpack is also that of another operator than the matrix used for small sizes.", "quantifier": "all Hamiltonians, states, Dmax <> 0, options", "why_tests_cant": "the claim is about every call; the existing tests do not call it", "anchors": ["src/dmrg/dmrg.cc:minimize_two_sites", "src/dmrg/dmrg.cc:DMRG<MPS>::minimize"]}
{"id": "C72", "title": "iTEBD(AB, lAB, tolerance, max_dim): infinite state from the tensor of a cell", "statement": "The constructor of iTEBD from the tensor AB(a,i,j,b) of a two-site cell and the vector lAB of the bond between cells, when it returns, gives a well formed state with positive normalised weights, bonds within max_dim and a bond between cells not larger than the given one. Without truncation the wave function of every ring of n cells is N^n times the one of the result, for one positive N, and if the cell has a unique limit the states left and right of the bond between cells are orthonormal, although the state is not marked canonical. Without truncation it returns whenever linalg::eigs gives definite matrices and the state is not zero. Cells whose two sites have different dimension always fail.", "quantifier": "all cells, tolerances, bond limits, rings of every length and configurations", "why_tests_cant": "the wave function has to agree for all ring lengths and configurations and all cells; there is no test of this constructor", "anchors": ["src/iTEBD/itebd_canonical.hpp:iTEBD(AB,lAB)", "src/iTEBD/itebd_canonical.hpp:split_tensor", "src/iTEBD/itebd_canonical.hpp:canonical_form", "src/iTEBD/itebd_canonical.hpp:itebd_power_eig"]}
{"id": "C73", "title": "Real states with complex operators", "statement": "CMPS(psi) of a real state is a complex state of the same chain with the same amplitudes, vector and scalar products. The overloads of expected() that take a real state and complex matrices (one site, sum over the sites, two sites, a whole Hamiltonian) give the matrix element of the operator in that state; with a real matrix they agree with the real overload, and a Hermitian matrix gives a real number, namely the expectation value of its real part. As for C05, two operators on one site named by a negative and a non-negative index are an exception: the second one is ignored.", "quantifier": "all real states, open or periodic, all complex operators and sites", "why_tests_cant": "the amplitudes have to agree for every configuration of every state; the mixed overloads are not tested", "anchors": ["src/mps/cmps_from_rmps.cc:CMPS(const RMPS&)", "src/mps/mps_expected1_dz.cc:expected", "src/mps/mps_expected2_dz.cc:expected", "src/hamiltonian/hamiltonian_expected_d.cc:expected"]}
{"id": "C74", "title": "minimize() with a constraint <N> = value (two-site algorithm)", "statement": "minimize(H, psi, opt, N, value) for Hermitian open H and N and the two-site algorithm returns for every valid call. A returned state that is not empty is an open state of the same sites, with weight at most one, canonical around an end and with bonds of at most Dmax. Its last step worked on two neighbouring sites at an end: there is an orthonormal family of states spanning all states that differ from the result only there, and the step chose the combination of lowest energy E among the members with |<N> - value| < 10^-6; without truncation this is the result. On a chain of two sites the members are the basis states, so the result has amplitudes only in configurations whose diagonal element of N is the value, and it is the state of lowest energy among those; if there is no such configuration the result is the empty state and the energy 10^28, and if there is one the state is not empty. Only the diagonal of N counts: for N with a zero diagonal the constraint <N> = 0 is not enforced and <N> = 1 gives no state.", "quantifier": "all Hermitian Hamiltonians and constraints, starting states, values, options and sizes", "why_tests_cant": "the result has to be the minimum over all admissible states, for all Hamiltonians and constraints; the tests have no constrained minimization with an exact comparison", "anchors": ["src/dmrg/minimizer_z.cc:minimize", "src/dmrg/minimizer_d.cc:minimize", "src/dmrg/minimizer.cc:add_constraint", "src/dmrg/minimizer.cc:two_site_step", "src/dmrg/minimizer.cc:apply_qform2_with_subspace", "src/dmrg/qform.cc:take_two_site_matrix_diag"]}
{"id": "C75", "title": "Printing an operator lists every block once and determines the operator", "statement": "operator<< for RMPO and CMPO prints, for every site n and every pair (i,j) of left and right bond indices of its tensor P, in lexicographic order and each once, the header (n,i,j) and the matrix P(i,:,:,j) of dimension(1) rows and dimension(2) columns; two operators without empty bonds that print the same listing are equal.", "quantifier": "all operators, of any length, bond and physical dimensions", "why_tests_cant": "injectivity of the listing is a statement about all pairs of operators", "anchors": ["src/mpo/mpo_dump.cc:do_dump_mpo", "src/mpo/mpo_dump_d.cc", "src/mpo/mpo_dump_z.cc", "include/mps/io.h"]}
{"id": "C76", "title": "The different ways of computing the same quantity agree", "statement": "For a Hamiltonian of an open chain with a local term on every site and any state psi, expected(psi,H), expected(psi,CMPO(H)), scprod(psi,apply(CMPO(H),psi)) and the product of mps_to_vector(psi) with the matrix are the same number, which is real when H is Hermitian; sparse_hamiltonian(H) and mpo_to_matrix(CMPO(H)) are the same matrix; apply(mmult(A,B),psi) and apply(A,apply(B,psi)) represent the same vector; expected(psi,mmult(adjoint(O),O)) is the squared norm of apply(O,psi); expected(psi,A,k), the expectation value of the MPO with only this local term and scprod(psi,apply_local_operator(psi,A,k)) are the same number, and likewise expected(psi,A,k,B,k+1) and the MPO with only this interaction, and expected(psi,A), the sum of expected_vector and the MPO of all local terms.", "quantifier": "all Hamiltonians (all histories of set/add calls), operators and states, all lengths and dimensions", "why_tests_cant": "the routes share almost no code; their agreement must hold for every Hamiltonian and state", "anchors": ["src/hamiltonian/hamiltonian_expected.cc", "src/mpo/cmpo_from_hamiltonian.cc", "src/hamiltonian/sparse_hamiltonian.cc", "src/mpo/mpo_to_matrix.cc", "src/mpo/mpo_apply.cc", "src/mpo/mpo_mmult.cc", "src/mpo/mpo_expected_z.cc"]}
