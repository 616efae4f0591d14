{"id": "C01", "title": "MPI decomposition is invisible in results", "statement": "For a lattice routine that splits its mesh over MPI ranks, computes each mesh point independently into a zero-initialised array and sums the arrays over ranks, every rank ends up with the array the serial run computes, and the same holds for routines that accumulate a sum over the split mesh.", "quantifier": "every mesh size, every number of ranks >= 1 (also more ranks than points), every per-point function, every order in which threads finish the points", "why_tests_cant": "a test runs on one or a few rank counts and mesh sizes; remainders, empty chunks and thread orders are unbounded", "anchors": ["c++/triqs_tprf/mpi.hpp:mpi_view", "c++/triqs_tprf/lattice/gf.cpp:lattice_dyson_g0_Xk", "c++/triqs_tprf/lattice/gf.cpp:lattice_dyson_g_X"]}
{"id": "C02", "title": "Channel identity is a two-sided unit", "statement": "In each of the PH, PH-bar and PP channels, product(identity(A), A) = A = product(A, identity(A)).", "quantifier": "every two-particle function A, every number of fermionic frequencies and orbitals, all three channels", "why_tests_cant": "tests use one random tensor of one size", "anchors": ["c++/triqs_tprf/linalg.cpp:product", "c++/triqs_tprf/linalg.cpp:identity", "c++/triqs_tprf/channel_grouping.hpp"]}
{"id": "C03", "title": "Channel inverse is a two-sided inverse", "statement": "If A is invertible in a channel then product(inverse(A), A) = product(A, inverse(A)) = identity(A), and inverse(inverse(A)) = A.", "quantifier": "every invertible A, every size, all three channels", "why_tests_cant": "tests use one random tensor of one size", "anchors": ["c++/triqs_tprf/linalg.cpp:inverse"]}
{"id": "C04", "title": "Channel product has the documented index pairing and is associative", "statement": "product_PH(A,B)_abcd(n,n') is the sum over m,e,f of A_abfe(n,m) B_efcd(m,n'); PH-bar and PP use their documented groupings; each product is associative and bilinear.", "quantifier": "all tensors, frequencies, orbital indices, all three channels", "why_tests_cant": "index permutations agree with wrong ones on symmetric test data", "anchors": ["c++/triqs_tprf/linalg.cpp:product", "c++/triqs_tprf/channel_grouping.hpp:channel_stride_order"]}
{"id": "C05", "title": "Three-legged contraction with triangle vertices", "statement": "scalar_product_PH(L,M,R)_abcd is the sum over n,n',e,f,g,h of L_efba(n) M_efgh(n,n') R_hgcd(n'), i.e. transpose(L)*M*R in the particle-hole grouping.", "quantifier": "all L, M, R, all sizes", "why_tests_cant": "the reference loop in the code is commented out and symmetric data hides swaps", "anchors": ["c++/triqs_tprf/linalg.cpp:scalar_product_PH", "c++/triqs_tprf/lattice/chi_imfreq.cpp:attatch_tri_vert"]}
{"id": "C06", "title": "Local BSE inverts the lattice BSE", "statement": "The vertex that the local Bethe-Salpeter solver extracts from (chi0, chi) reproduces chi when inserted with the same chi0 in the lattice equation.", "quantifier": "all invertible chi0, chi of any size", "why_tests_cant": "numerical agreement for one impurity model only", "anchors": ["python/triqs_tprf/bse.py:solve_local_bse", "c++/triqs_tprf/lattice/chi_imfreq.cpp:chiq_from_chi0q_and_gamma_PH"]}
{"id": "C07", "title": "Dual BSE and BSE give the same lattice susceptibility", "statement": "With the reducible vertex from the impurity functions, the triangle vertex chi0^-1 chi summed over its second frequency, the impurity susceptibility and the non-local bubble, the dual equation gives exactly the (un-corrected) susceptibility of the ordinary lattice BSE with the local irreducible vertex, provided the left and right triangle vertices are transposes of each other, which holds whenever bubble and susceptibility have the particle-hole transposition symmetry.", "quantifier": "all impurity and lattice functions for which the inverses exist, any size", "why_tests_cant": "agreement up to truncation for one model is all a test can show", "anchors": ["python/triqs_tprf/dbse.py:impurity_reducible_vertex_F", "python/triqs_tprf/dbse.py:solve_lattice_dbse", "python/triqs_tprf/bse.py:solve_lattice_bse"]}
{"id": "C08", "title": "The susceptibility with vanishing vertex is the tail-corrected bubble", "statement": "solve_lattice_bse with zero vertex returns the full bubble computed with the large frequency window, independent of the small window.", "quantifier": "all Green functions, all window sizes", "why_tests_cant": "one window size per test", "anchors": ["python/triqs_tprf/bse.py:solve_lattice_bse", "c++/triqs_tprf/lattice/chi_imfreq.cpp:chiq_sum_nu_from_g_wk_and_gamma_PH"]}
{"id": "C09", "title": "The two ways of computing the bubble in the BSE-from-self-energy routine agree", "statement": "The bubble built from dispersion and self-energy equals the bubble built from the Green function that solves Dyson's equation with the same dispersion and self-energy.", "quantifier": "every dispersion, self-energy, chemical potential, momentum and bosonic frequency", "why_tests_cant": "no test calls the self-energy version at non-zero bosonic frequency", "anchors": ["c++/triqs_tprf/lattice/chi_imfreq.cpp:chi0_n_from_e_k_sigma_w_PH", "c++/triqs_tprf/lattice/chi_imfreq.cpp:chi0_n_from_g_wk_PH"]}
{"id": "C10", "title": "RPA solves its Dyson equation", "statement": "solve_rpa_PH returns the unique chi with chi = chi0 + chi0*U*chi, where the product contracts the trailing index pair of the left factor with the leading pair of the right factor in the same order; U = 0 gives chi0.", "quantifier": "every chi0, U with 1-chi0*U invertible, every orbital count, every mesh point", "why_tests_cant": "symmetric interactions hide the index order", "anchors": ["c++/triqs_tprf/lattice/rpa.cpp:solve_rpa_PH"]}
{"id": "C11", "title": "RPA is the BSE with a constant vertex", "statement": "Summing the lattice BSE with frequency-independent vertex U over fermionic frequencies equals the RPA from the summed bubble, provided the interaction is invariant under simultaneous exchange of the indices inside each pair (U_badc = U_abcd).", "quantifier": "all bubbles, vertices, sizes", "why_tests_cant": "the shipped test checks one interaction", "anchors": ["c++/triqs_tprf/lattice/rpa.cpp:solve_rpa_PH", "c++/triqs_tprf/lattice/chi_imfreq.cpp:chiq_sum_nu_from_chi0q_and_gamma_PH", "python/triqs_tprf/rpa_tensor.py:get_gamma_rpa"]}
{"id": "C12", "title": "Matrix RPA agrees with tensor RPA", "statement": "chi_rpa_spin/chi_rpa_charge on reordered tensors agree with the tensor RPA, independently of the row order chosen when the tensor is flattened.", "quantifier": "every orbital count, every chi0 and U with the pair-exchange symmetry, every flattening order", "why_tests_cant": "python-set order is an implementation accident; tests see one order and few orbitals", "anchors": ["python/triqs_tprf/matrix_rpa.py:tensor_to_matrix", "python/triqs_tprf/matrix_rpa.py:matrix_rpa", "python/triqs_tprf/matrix_rpa.py:tprf_order_to_matrix_rpa_order"]}
{"id": "C13", "title": "Spin-charge decoupling of RPA", "statement": "For a spin-rotation symmetric interaction built from charge and spin tensors, the RPA of the spinful problem splits into charge and spin susceptibilities that are the spinless RPA with interactions -U_c and U_s.", "quantifier": "every number of orbitals, every bare bubble and pair of tensors with invertible denominators", "why_tests_cant": "tests compare numbers for one model", "anchors": ["python/triqs_tprf/rpa_tensor.py:general_susceptibility_from_charge_and_spin", "python/triqs_tprf/rpa_tensor.py:charge_and_spin_susceptibility_from_general", "python/triqs_tprf/rpa_tensor.py:quartic_tensor_from_charge_and_spin", "c++/triqs_tprf/lattice/rpa.cpp"]}
{"id": "C14", "title": "Charge/spin splitting of quartic tensors is a round trip", "statement": "Splitting the quartic tensor built from charge and spin tensors returns these two tensors, and splitting succeeds on every such tensor.", "quantifier": "every orbital count, all complex tensors", "why_tests_cant": "tests use Kanamori tensors for few orbitals", "anchors": ["python/triqs_tprf/rpa_tensor.py:split_quartic_tensor_in_charge_and_spin", "python/triqs_tprf/rpa_tensor.py:quartic_tensor_from_charge_and_spin"]}
{"id": "C15", "title": "Charge/spin splitting of susceptibilities is a round trip", "statement": "charge_and_spin_susceptibility_from_general inverts general_susceptibility_from_charge_and_spin for both spin orders.", "quantifier": "every orbital count, all susceptibilities, both spin orders", "why_tests_cant": "finite samples", "anchors": ["python/triqs_tprf/rpa_tensor.py:general_susceptibility_from_charge_and_spin", "python/triqs_tprf/rpa_tensor.py:charge_and_spin_susceptibility_from_general"]}
{"id": "C16", "title": "Screened interaction solves W = V + V*Pi*W in every overload", "statement": "All overloads of dynamical_screened_interaction_W return V(1-Pi V)^-1, satisfy W = V + V Pi W and agree with each other when the dynamic interaction is the static one at every frequency.", "quantifier": "all Pi, V, orbital counts, mesh points", "why_tests_cant": "overloads are written with different loops; the tests use diagonal tensors", "anchors": ["c++/triqs_tprf/lattice/dynamical_screened_interaction.cpp:screened_interaction_from_generic_susceptibility", "c++/triqs_tprf/lattice/dynamical_screened_interaction.cpp:dynamical_screened_interaction_W_opt_bubble"]}
{"id": "C17", "title": "Screened interaction from bubble and from susceptibility agree", "statement": "W computed from the bubble Pi equals W computed from the generalized susceptibility chi = (1-Pi V)^-1 Pi.", "quantifier": "all Pi, V with invertible denominator", "why_tests_cant": "finite samples", "anchors": ["c++/triqs_tprf/lattice/dynamical_screened_interaction.cpp"]}
{"id": "C18", "title": "Lattice Dyson equation", "statement": "lattice_dyson_g_wk inverts (iw+mu)1 - e_k - sigma at each point, equals the non-interacting function for zero self-energy, lattice_dyson_g_w is its momentum average, and conjugating the frequency gives the Hermitian conjugate when e_k is Hermitian and sigma obeys the same rule.", "quantifier": "all dispersions, self-energies, chemical potentials, mesh sizes, orbital counts", "why_tests_cant": "one lattice per test", "anchors": ["c++/triqs_tprf/lattice/gf.cpp:lattice_dyson_g0_Xk", "c++/triqs_tprf/lattice/gf.cpp:lattice_dyson_g_Xk", "c++/triqs_tprf/lattice/gf.cpp:lattice_dyson_g_X"]}
{"id": "C19", "title": "Momentum/real-space transforms are inverse to each other", "statement": "Transforming from k to r and back, or from r to k and back, is the identity.", "quantifier": "every mesh size in each of three directions, every function", "why_tests_cant": "finite meshes only", "anchors": ["c++/triqs_tprf/lattice/fourier.hpp:fourier_wk_to_wr_general_target", "c++/triqs_tprf/lattice/fourier.hpp:fourier_wr_to_wk_general_target", "c++/triqs_tprf/fourier/fourier_lattice.cpp"]}
{"id": "C20", "title": "Bubble in real space equals bubble in momentum space", "statement": "chi0 from the real-space product followed by the transform to momentum equals the direct momentum sum.", "quantifier": "every Green function, mesh size, frequency", "why_tests_cant": "test compares one lattice", "anchors": ["c++/triqs_tprf/lattice/chi_imfreq.cpp:chi0r_from_gr_PH", "c++/triqs_tprf/lattice/chi_imfreq.cpp:chi0q_from_chi0r", "c++/triqs_tprf/lattice/chi_imfreq.cpp:chi0q_from_g_wk_PH"]}
{"id": "C21", "title": "Fock self-energy: real-space and momentum versions agree", "statement": "fock_sigma from (v_r, rho_r) and from (v_k, g_wk) give the same self-energy.", "quantifier": "all interactions and densities", "why_tests_cant": "tests use inversion-symmetric interactions only", "anchors": ["c++/triqs_tprf/lattice/gw.cpp:fock_sigma"]}
{"id": "C22", "title": "Hartree self-energy: real-space and momentum versions agree", "statement": "hartree_sigma from (v_k, rho_r) and from (v_k, g_wk) give the same self-energy.", "quantifier": "all interactions and densities", "why_tests_cant": "tests use momentum-independent interactions only", "anchors": ["c++/triqs_tprf/lattice/gw.cpp:hartree_sigma"]}
{"id": "C23", "title": "Static/dynamic splitting is lossless", "statement": "Adding back the constant part returned by split_into_dynamic_wk_and_constant_k restores the input exactly, whatever the tail fit returns.", "quantifier": "every function, every tail fit result", "why_tests_cant": "depends on the fit in tests", "anchors": ["c++/triqs_tprf/lattice/lattice_utility.cpp:split_into_dynamic_wk_and_constant_k", "c++/triqs_tprf/lattice/lattice_utility.cpp:add_dynamic_and_static_template"]}
{"id": "C24", "title": "Eliashberg product is linear in the gap", "statement": "The linearized Eliashberg product is a linear map of the gap function and linear in the vertex.", "quantifier": "all gaps, vertices, Green functions, meshes", "why_tests_cant": "finite samples", "anchors": ["c++/triqs_tprf/lattice/eliashberg.cpp:eliashberg_product", "c++/triqs_tprf/lattice/eliashberg.cpp:eliashberg_g_delta_g_product"]}
{"id": "C25", "title": "Eliashberg sum and FFT products agree for static vertices", "statement": "For a vertex without frequency dependence the FFT product equals the direct sum, given that the transform to imaginary time evaluates F at tau=0 as the frequency average.", "quantifier": "every vertex, Green function, gap, mesh", "why_tests_cant": "finite meshes", "anchors": ["c++/triqs_tprf/lattice/eliashberg.cpp:eliashberg_product", "c++/triqs_tprf/lattice/eliashberg.cpp:eliashberg_product_fft_constant_template"]}
{"id": "C26", "title": "RPA pairing vertices match the documented formulas", "statement": "construct_gamma_singlet_rpa and construct_gamma_triplet_rpa return the documented combination of U and ladder vertices.", "quantifier": "all inputs", "why_tests_cant": "a test that recomputes the same formula cannot find a wrong sign", "anchors": ["python/triqs_tprf/eliashberg.py:construct_gamma_singlet_rpa", "python/triqs_tprf/eliashberg.py:construct_gamma_triplet_rpa", "doc/theory/eliashberg.rst"]}
{"id": "C27", "title": "Scalar-multiple test decides proportionality", "statement": "allclose_by_scalar_multiplication answers True for any pair of proportional vectors and False for vectors that are not proportional.", "quantifier": "all vectors", "why_tests_cant": "tests feed a few vectors", "anchors": ["python/triqs_tprf/eliashberg.py:allclose_by_scalar_multiplication"]}
{"id": "C28", "title": "Symmetrizing the gap really symmetrizes it and is idempotent", "statement": "enforce_symmetry returns data with the requested even/odd symmetry in frequency, momentum and orbital, leaves its input unchanged, and applying it twice equals applying it once.", "quantifier": "every mesh size, orbital count, symmetry combination", "why_tests_cant": "tests use at most two orbitals and one mesh", "anchors": ["python/triqs_tprf/symmetries.py:enforce_symmetry", "python/triqs_tprf/symmetries.py:_enforce_orbital_symmetry"]}
{"id": "C29", "title": "check_symmetry recognises symmetric functions", "statement": "check_symmetry reports the sign for which the function is even or odd and None if it is neither.", "quantifier": "every mesh and orbital count", "why_tests_cant": "small orbital counts in tests", "anchors": ["python/triqs_tprf/symmetries.py:check_symmetry"]}
{"id": "C30", "title": "Quadratic operators round trip", "statement": "quadratic_matrix_from_operator(get_quadratic_operator(h, f), f) = h for every Hermitian h and list of distinct operators.", "quantifier": "every matrix size and matrix", "why_tests_cant": "finite samples", "anchors": ["python/triqs_tprf/OperatorUtils.py:get_quadratic_operator", "python/triqs_tprf/OperatorUtils.py:quadratic_matrix_from_operator"]}
{"id": "C31", "title": "Quartic tensors round trip through operators", "statement": "operator_from_quartic_tensor(quartic_tensor_from_operator(H, f, perm_sym), f) = H for every normal-ordered quartic H, and the symmetrized tensor is antisymmetric in both index pairs.", "quantifier": "every number of modes, every operator", "why_tests_cant": "finite samples", "anchors": ["python/triqs_tprf/OperatorUtils.py:quartic_tensor_from_operator", "python/triqs_tprf/OperatorUtils.py:operator_from_quartic_tensor"]}
{"id": "C32", "title": "Quartic symmetrizers are projections", "statement": "permutation, conjugation and Pauli symmetrization are idempotent, produce tensors with their symmetry and fix tensors that already have it; the Pauli version does not change its argument.", "quantifier": "all tensors of all sizes", "why_tests_cant": "finite samples", "anchors": ["python/triqs_tprf/OperatorUtils.py:quartic_permutation_symmetrize", "python/triqs_tprf/OperatorUtils.py:quartic_conjugation_symmetrize", "python/triqs_tprf/OperatorUtils.py:quartic_pauli_symmetrize", "python/triqs_tprf/OperatorUtils.py:symmetrize_quartic_tensor"]}
{"id": "C33", "title": "Single-particle basis change composes", "statement": "operator_single_particle_transform with the identity leaves the operator unchanged and leaves operators outside the subspace alone; successive transforms compose as matrix products.", "quantifier": "all operators, matrices, subspaces", "why_tests_cant": "finite samples", "anchors": ["python/triqs_tprf/OperatorUtils.py:operator_single_particle_transform"]}
{"id": "C34", "title": "Hartree-Fock iteration bookkeeping", "statement": "solve_iter performs at most nitermax iterations, stops at the first step whose density-matrix change is below tol, returns the density every iteration started from, and with 0 < mixing <= 1 a density at which it stands still solves the Hartree-Fock equations at the requested filling.", "quantifier": "every starting density, map, mixing, tolerance, iteration limit", "why_tests_cant": "finite runs", "anchors": ["python/triqs_tprf/hf_solver.py:HartreeFockSolver.solve_iter"]}
{"id": "C35", "title": "Hartree-Fock total energy counts the interaction once", "statement": "The total energy reported by the mean-field solver is the expectation value of the Hamiltonian: kinetic plus mean interaction energy, and Omega differs from Omega0 by minus the interaction energy.", "quantifier": "all density matrices and interactions", "why_tests_cant": "tests only use Omega", "anchors": ["python/triqs_tprf/hf_solver.py:HartreeFockSolver.update_total_energy", "python/triqs_tprf/hf_solver.py:HartreeFockSolver.update_interaction_energy", "python/triqs_tprf/hf_solver.py:HartreeFockSolver.update_mean_field"]}
{"id": "C36", "title": "Hermitian matrix packing in the Newton solver is lossless", "statement": "vec2mat(mat2vec(M)) = M for Hermitian M and mat2vec(vec2mat(v)) = v, and the Hartree solver's diagonal packing is lossless on diagonal matrices.", "quantifier": "every size and matrix", "why_tests_cant": "small matrices in tests", "anchors": ["python/triqs_tprf/hf_solver.py:HartreeFockSolver.mat2vec", "python/triqs_tprf/hf_solver.py:HartreeFockSolver.vec2mat", "python/triqs_tprf/hf_solver.py:HartreeSolver.mat2vec"]}
{"id": "C37", "title": "Parameter collections behave like immutable updates", "statement": "alter returns a collection with the given keys replaced and others kept, does not touch the original, and parameter_scan yields every combination exactly once in lexicographic order, last keyword fastest.", "quantifier": "every parameter set, every history of operations", "why_tests_cant": "finite histories", "anchors": ["python/triqs_tprf/ParameterCollection.py:ParameterCollection.alter", "python/triqs_tprf/ParameterCollection.py:parameter_scan"]}
{"id": "C38", "title": "Separate parameter-collection lists do not share contents", "statement": "Appending to one ParameterCollections object never changes another one created separately.", "quantifier": "every sequence of constructions and appends", "why_tests_cant": "aliasing appears only across object histories", "anchors": ["python/triqs_tprf/ParameterCollection.py:ParameterCollections.__init__"]}
{"id": "C39", "title": "Timer accounting", "statement": "For every properly nested sequence of start/stop calls the times reported are non-negative, exclusive times plus 'Other' add up to the total, and writing the report leaves running timers running.", "quantifier": "every call history and clock reading", "why_tests_cant": "histories are unbounded", "anchors": ["python/triqs_tprf/ase_timing.py:Timer"]}
{"id": "C40", "title": "Timer decorator is exception safe", "statement": "A function decorated with timer leaves the set of running timers unchanged, also when it raises.", "quantifier": "every call history with exceptions", "why_tests_cant": "histories are unbounded", "anchors": ["python/triqs_tprf/ase_timing.py:timer"]}
{"id": "C41", "title": "Wannier90 hopping parser inverts the file format", "statement": "Parsing a well-formed _hr.dat file returns, for every R and orbital pair, the stored amplitude divided by the degeneracy of R.", "quantifier": "every number of R-points (also not a multiple of 15) and orbitals", "why_tests_cant": "a few sample files", "anchors": ["python/triqs_tprf/wannier90.py:parse_hopping_from_wannier90_hr_dat"]}
{"id": "C42", "title": "Square-lattice models are Hermitian", "statement": "create_square_lattice yields a Hermitian tight-binding Hamiltonian for the documented (real or complex) hopping parameters.", "quantifier": "every norb, t, tp, zeeman and spin setting", "why_tests_cant": "tests use real t only", "anchors": ["python/triqs_tprf/tight_binding.py:create_square_lattice"]}
{"id": "C43", "title": "Frequency windows keep the centre", "statement": "Restricting to a fixed fermionic window keeps exactly the 2*nwf central frequencies in order, and windowing twice equals windowing once with the smaller size.", "quantifier": "every mesh size and window", "why_tests_cant": "finite sizes", "anchors": ["python/triqs_tprf/utilities.py:G2_loc_fixed_fermionic_window_python", "python/triqs_tprf/bse.py:fixed_fermionic_window_python_wnk"]}
{"id": "C44", "title": "BSE at a specific frequency equals the full BSE at that frequency", "statement": "solve_lattice_bse_at_specific_w returns the slice of solve_lattice_bse at the same bosonic index.", "quantifier": "every index in the mesh, every input", "why_tests_cant": "one index per test", "anchors": ["python/triqs_tprf/bse.py:solve_lattice_bse_at_specific_w", "python/triqs_tprf/lattice_utils.py:add_fake_bosonic_mesh"]}
{"id": "C45", "title": "Memory-saving bubble equals the plain bubble", "statement": "imtime_bubble_chi0_wk gives the same momentum-frequency bubble in the memory-saving and the plain path.", "quantifier": "every input for which both paths are taken", "why_tests_cant": "one lattice per test", "anchors": ["python/triqs_tprf/lattice_utils.py:imtime_bubble_chi0_wk", "c++/triqs_tprf/lattice/chi_imtime.cpp:chi0_wr_from_grt_PH"]}
{"id": "C46", "title": "Crossing symmetry of the assembled two-particle function", "statement": "block_3nu_AABB_to_tensor_valued produces a tensor whose ABBA components are minus the AABB components at the exchanged frequency, and leaves the AABB components as given.", "quantifier": "every number of blocks and frequencies", "why_tests_cant": "finite samples", "anchors": ["c++/triqs_tprf/freq_conv.cpp:block_3nu_AABB_to_tensor_valued"]}
{"id": "C47", "title": "Block Green function becomes block-diagonal matrix", "statement": "block_iw_AB_to_matrix_valued places each block on the diagonal in order and zero elsewhere; nothing is lost.", "quantifier": "every number and size of blocks", "why_tests_cant": "finite samples", "anchors": ["c++/triqs_tprf/freq_conv.cpp:block_iw_AB_to_matrix_valued"]}
{"id": "C48", "title": "Orbital symmetrizers of the DLR fit", "statement": "The fit's parameter packing produces Hermitian matrices from every parameter vector and is undone by the unpacking.", "quantifier": "every orbital count and parameter vector", "why_tests_cant": "tests use one or two orbitals", "anchors": ["python/triqs_tprf/fitdlr.py:Symmetrizer", "python/triqs_tprf/fitdlr.py:BlockSymmetrizer"]}
{"id": "C49", "title": "Fermi function branches agree", "statement": "fermi(x) is the same function 1/(1+e^x) on both branches, lies strictly between 0 and 1 and obeys fermi(-x) = 1 - fermi(x).", "quantifier": "all real x", "why_tests_cant": "finite samples", "anchors": ["c++/triqs_tprf/lattice/lattice_utility.cpp:fermi", "c++/triqs_tprf/lattice/chi_retime.cpp:fermi_scalar"]}
{"id": "C50", "title": "Lindhard function equals the bubble of spectral decompositions", "statement": "The analytic Lindhard susceptibility has the documented residue form, and exchanging the index pairs together with frequency and momentum sign leaves it unchanged.", "quantifier": "every dispersion, temperature, frequency", "why_tests_cant": "finite samples; multi-orbital complex dispersions are not tested", "anchors": ["c++/triqs_tprf/lattice/lindhard_chi00.cpp"]}
{"id": "C51", "title": "Ladder vertex is the screened interaction minus the bare one", "statement": "The particle-hole ladder vertex phi(w,k) built from a susceptibility and an interaction is the contraction U.chi.U at every frequency and momentum; when chi is the RPA susceptibility of that interaction, phi equals W - U, with W the screened interaction returned for the same bubble.", "quantifier": "every number of orbitals, every mesh point, every interaction tensor and susceptibility with non-singular Dyson factor", "why_tests_cant": "tests sample one- or two-orbital models with random numbers; the identity between separate entry points must hold for all tensors", "anchors": ["c++/triqs_tprf/lattice/eliashberg.cpp:construct_phi_wk", "c++/triqs_tprf/lattice/rpa.cpp:solve_rpa_PH"]}
{"id": "C52", "title": "Matsubara transforms are inverse to each other on every accepted mesh", "statement": "Transforming a function from Matsubara frequency to imaginary time with given high-frequency moments and back with the same second and third moment returns the input at every frequency of the mesh, also when the moments are wrong; the run-time size check accepts a fermionic mesh exactly when no two of its frequencies alias; the subtracted poles carry exactly the prescribed first three moments.", "quantifier": "every fermionic or bosonic mesh accepted by the size check, every function, every moment triple, every inverse temperature", "why_tests_cant": "tests use functions with a known tail; the claim includes wrong moments and every mesh size up to the limit of the check", "anchors": ["c++/triqs_tprf/fourier/fourier_matsubara.cpp:_fourier_impl", "c++/triqs_tprf/fourier/fourier_common.hpp"]}
{"id": "C53", "title": "End-point derivative fit is exact on polynomials", "statement": "The second and third moments obtained by the nine-point finite-difference fit at the two ends of the imaginary-time interval are exact for every polynomial of degree at most eight.", "quantifier": "every polynomial of degree at most 8, every inverse temperature and every time mesh with at least nine points, both statistics", "why_tests_cant": "tests sample exponentials with a tolerance; exactness on a nine-dimensional space of functions is what fixes the table of coefficients", "anchors": ["c++/triqs_tprf/fourier/fourier_matsubara.cpp:fit_derivatives"]}
{"id": "C54", "title": "Spectral function of the real-frequency lattice Green's function is positive", "statement": "For a Hermitian dispersion and a static Hermitian self energy the anti-Hermitian part of the real-frequency lattice Green's function with positive broadening gives a positive semi-definite spectral function at every momentum and frequency.", "quantifier": "every number of orbitals, every Hermitian dispersion and static self energy, every real frequency and chemical potential, every positive broadening, every rank count and loop order", "why_tests_cant": "positivity is a statement over all vectors of orbital amplitudes and all matrices; sampled lattices only show it for a few", "anchors": ["c++/triqs_tprf/lattice/gf.cpp:lattice_dyson_g_fk", "c++/triqs_tprf/lattice/gf.cpp:lattice_dyson_g0_fk"]}
{"id": "C55", "title": "GW self-energy of a static interaction is the Fock self-energy", "statement": "gw_sigma called with a screened interaction that does not depend on frequency returns, at every frequency, the same self-energy as the static overload gw_sigma(V_k, g_wk).", "quantifier": "every static interaction, Green's function, number of orbitals, lattice, rank count and loop order; any linear transforms and tail fit exact on constants", "why_tests_cant": "tests use interactions that are even in the momentum, for which the two code paths coincide", "anchors": ["c++/triqs_tprf/lattice/gw.cpp:gw_sigma_impl", "c++/triqs_tprf/lattice/gw.cpp:fock_sigma"]}
{"id": "C56", "title": "GW self-energy is a momentum convolution", "statement": "gw_sigma returns the frequency transform of -1/N sum_q W_acdb(tau,q) G_cd(tau,k-q) for the dynamic part plus the same convolution of the static part with the density matrix; it accepts exactly the calls with equal inverse temperatures, bosonic W, fermionic G and equal momentum meshes.", "quantifier": "every interaction, Green's function, lattice, number of orbitals, rank count, loop order and any linear time transforms", "why_tests_cant": "tests compare against a reference on small lattices; index order and momentum signs only show for interactions without symmetry", "anchors": ["c++/triqs_tprf/lattice/gw.cpp:gw_sigma_impl", "c++/triqs_tprf/lattice/gw.cpp:gw_dynamic_sigma_impl"]}
{"id": "C57", "title": "Static G0W self-energy is the Fock self-energy of the free system", "statement": "For a density-density interaction g0w_sigma, evaluated from eigenvalues and eigenvectors of the dispersion, equals the Fock self-energy of the density matrix sum_l U_cl U*_dl f(e_l).", "quantifier": "every interaction, dispersion, eigenvector matrix, occupation function, lattice and number of orbitals", "why_tests_cant": "tests run a one-band model, where the orbital indices cannot be wrong", "anchors": ["c++/triqs_tprf/lattice/gw.cpp:g0w_sigma"]}
{"id": "C58", "title": "Eliashberg product is the documented one", "statement": "eliashberg_product returns -1/(2 N beta) sum Gamma_cadb(k-k') G_cf(k') G_de(-k') Delta_ef(k') of the theory page whenever the Green's function obeys G_ab(-w) = conj(G_ba(w)).", "quantifier": "every vertex, Green's function with that symmetry, gap, lattice, number of orbitals and frequencies, rank count and loop order", "why_tests_cant": "the index order only shows for Green's functions that are not symmetric in the orbitals, which the tests do not use", "anchors": ["c++/triqs_tprf/lattice/eliashberg.cpp:eliashberg_product", "c++/triqs_tprf/lattice/eliashberg.hpp", "doc/theory/eliashberg.rst"]}
{"id": "C59", "title": "FFT Eliashberg product is a convolution", "statement": "eliashberg_product_fft returns the time-to-frequency transform of the momentum convolution of the dynamic vertex with the pair amplitude, plus the convolution of the constant vertex with the amplitude at time zero; it rejects time meshes of different size and, when the dynamic part vanishes, agrees with eliashberg_product_fft_constant.", "quantifier": "every vertex, Green's function, gap, lattice, number of orbitals, rank count, loop order, any linear time transforms", "why_tests_cant": "tests compare the FFT and the sum on one model within a tolerance", "anchors": ["c++/triqs_tprf/lattice/eliashberg.cpp:eliashberg_product_fft_template", "c++/triqs_tprf/lattice/eliashberg.cpp:dynamic_and_constant_to_tr"]}
{"id": "C60", "title": "Eliashberg product preserves momentum parity", "statement": "With a vertex and a Green's function even in the momentum the product maps gaps even in the momentum to even gaps and odd gaps to odd gaps.", "quantifier": "every even vertex and Green's function, every gap of a parity, lattice, orbitals, rank count and loop order", "why_tests_cant": "a selection rule over all gaps; a test sees one initial gap", "anchors": ["c++/triqs_tprf/lattice/eliashberg.cpp:eliashberg_product"]}
{"id": "C61", "title": "Accepted Eliashberg meshes cover all evaluations", "statement": "When eliashberg_product accepts its arguments every frequency difference it evaluates lies on the mesh of the vertex and every frequency of the gap lies on the mesh of the Green's function.", "quantifier": "every number of frequencies of gap, vertex and Green's function", "why_tests_cant": "out-of-range evaluation is silent in release builds, and tests only use meshes far from the boundary", "anchors": ["c++/triqs_tprf/lattice/eliashberg.cpp:eliashberg_product"]}
{"id": "C62", "title": "Spin projection keeps the up block", "statement": "lose_spin_degree_of_freedom returns the up-spin elements of a Green's function, for spin as the fast and as the slow index.", "quantifier": "every Green's function, number of orbitals, both spin orders", "why_tests_cant": "tests use spin-degenerate Green's functions, for which up and down blocks coincide", "anchors": ["python/triqs_tprf/rpa_tensor.py:lose_spin_degree_of_freedom", "python/triqs_tprf/matrix_rpa.py:lose_spin_degree_of_freedom"]}
{"id": "C63", "title": "Kanamori tensor and Hamiltonian", "statement": "kanamori_quartic_tensor(norb, U, Up, J, Jp) is get_rpa_tensor of the Kanamori Hamiltonian given in its documentation: intra-orbital U, inter-orbital Up and Up - J, spin flip and pair hopping with the documented strengths, for every number of orbitals and every choice of the four parameters.", "quantifier": "all norb, U, Up, J, Jp, all numberings of the spin-orbitals, all four tensor indices", "why_tests_cant": "The test compares one set of parameters with Up = U - 2J and Jp = J and three orbitals, where a spin flip scaled by J or by Jp gives the same numbers.", "anchors": ["python/triqs_tprf/rpa_tensor.py:58-70", "python/triqs_tprf/rpa_tensor.py:87-120", "python/triqs_tprf/rpa_tensor.py:175-233"]}
{"id": "C64", "title": "Relabelling of operators", "statement": "relabel_operators with both operators of every mode listed renames the modes: it maps generators to generators, is linear, keeps products for a permutation of modes, leaves other modes alone, and renaming to unused modes and back is the identity.", "quantifier": "all lists of modes, all operators", "why_tests_cant": "Renaming changes the normal order and with it signs, which the single use in the tests does not exercise.", "anchors": ["python/triqs_tprf/OperatorUtils.py:312-344"]}
{"id": "C65", "title": "Operators composed of listed modes", "statement": "is_operator_composed_of_only_fundamental_operators returns whether every mode of the operator is listed.", "quantifier": "all operators and lists of modes", "why_tests_cant": "The function is not tested; operators with a constant term raise.", "anchors": ["python/triqs_tprf/OperatorUtils.py:347-364"]}
{"id": "C66", "title": "Mean field and density matrix of the Hartree-Fock solver", "statement": "For a Hermitian interaction the mean field is the derivative of the mean interaction energy with respect to the density matrix and is Hermitian; the density matrix is Hermitian, occupies every one-particle state between zero and one times, and commutes with the mean-field Hamiltonian at every momentum.", "quantifier": "every interaction, density matrix, dispersion, temperature and chemical potential", "why_tests_cant": "a convention error only changes numbers that no test compares with an independent calculation", "anchors": ["python/triqs_tprf/hf_solver.py:HartreeFockSolver.update_mean_field", "python/triqs_tprf/hf_solver.py:HartreeFockSolver.update_density_matrix"]}
{"id": "C67", "title": "The chemical potential search reaches every filling", "statement": "update_chemical_potential finds a chemical potential for every filling between empty and full, and the density matrix then has that filling.", "quantifier": "every spectrum, temperature and filling", "why_tests_cant": "tests use half-filled bands with many momenta", "anchors": ["python/triqs_tprf/hf_solver.py:HartreeFockSolver.update_chemical_potential"]}
{"id": "C68", "title": "A failed stop leaves the timer usable", "statement": "Timer.stop with a name that is not the innermost running timer raises RuntimeError and leaves the timer as it was, so that later reports are still correct.", "quantifier": "every timer state and name", "why_tests_cant": "tests only use matching names", "anchors": ["python/triqs_tprf/ase_timing.py:Timer.stop"]}
{"id": "C69", "title": "Wannier90 lattice vectors are read from their section", "statement": "parse_lattice_vectors_from_wannier90_wout and parse_reciprocal_lattice_vectors_from_wannier90_wout return the three vectors after the first header of their section, converted to Angstrom, and raise when the file has no such section.", "quantifier": "every file", "why_tests_cant": "tests use one sample file", "anchors": ["python/triqs_tprf/wannier90.py:parse_lattice_vectors_from_wannier90_wout", "python/triqs_tprf/wannier90.py:parse_reciprocal_lattice_vectors_from_wannier90_wout"]}
{"id": "C70", "title": "Wannier90 orbital positions are coordinates in the lattice basis", "statement": "parse_orbital_positions_from_wannier90_wout returns for every orbital coordinates f with f1 a1 + f2 a2 + f3 a3 equal to the centre printed in the final state.", "quantifier": "every file, every non-singular lattice", "why_tests_cant": "tests use one sample file with positive coordinates", "anchors": ["python/triqs_tprf/wannier90.py:parse_orbital_positions_from_wannier90_wout"]}
{"id": "C71", "title": "Wannier90 band structures keep bands and points in order", "statement": "parse_band_structure_from_wannier90_band_dat returns E[b][p] and w[b][p], the energy and path coordinate of point p on band b.", "quantifier": "every number of bands and points", "why_tests_cant": "tests use one sample file", "anchors": ["python/triqs_tprf/wannier90.py:parse_band_structure_from_wannier90_band_dat"]}
{"id": "C72", "title": "Channel functions use the documented frequencies", "statement": "from_3nu_PH, from_3nu_PH_bar and from_3nu_PP read the three-frequency function at the frequencies that the documentation lists for the channel and lose nothing; for a crossing symmetric function the two particle-hole channels are minus each other with the creation operators exchanged.", "quantifier": "all frequencies, components and functions", "why_tests_cant": "the tests convert between conventions computed with the same formulas", "anchors": ["c++/triqs_tprf/freq_conv.cpp:from_3nu"]}
{"id": "C73", "title": "Susceptibility of uncorrelated particles is the bare susceptibility", "statement": "For the two-particle function of uncorrelated particles the generalized susceptibility computed by chi_from_gg2 from the channel function of from_3nu equals the bare susceptibility chi0_from_gg2, in both channels.", "quantifier": "every Green function, temperature, frequency and component", "why_tests_cant": "tests compare one numerical model", "anchors": ["c++/triqs_tprf/freq_conv.cpp:from_3nu", "c++/triqs_tprf/chi_from_gg2.cpp"]}
{"id": "C74", "title": "Real-time Green functions obey the equal-time, time-evolution and equilibrium relations", "statement": "For the lesser and greater functions of g0_Tk_les_gtr_from_e_k: i(G^> - G^<) is the unit matrix at T = 0 and composes under addition of times; G(T)^dagger = -G(-T) for both; G^>(T) = -G^<(T + i beta); -i G^<(0) has diagonal elements between 0 and 1; nothing depends on the choice of eigenvectors.", "quantifier": "every Hermitian dispersion, number of bands, temperature, time and eigenvalue solver", "why_tests_cant": "tests compare chosen models with one eigenvalue solver", "anchors": ["c++/triqs_tprf/lattice/chi_retime.cpp:g0_Tk_les_gtr_from_e_k"]}
{"id": "C75", "title": "Real-time bubble", "statement": "chi0_Tr_from_g_Tr_PH of the Green functions of a Hermitian dispersion is the documented i G^<_da(t,r) G^>_bc(-t,-r) - i G^>_da(t,r) G^<_bc(-t,-r).", "quantifier": "every Hermitian dispersion, temperature, time, lattice vector and components", "why_tests_cant": "tests only evaluate symmetric one-band models", "anchors": ["c++/triqs_tprf/lattice/chi_retime.cpp:chi0_Tr_from_g_Tr_PH", "c++/triqs_tprf/lattice/chi_retime.hpp"]}
{"id": "C76", "title": "GW iteration", "statement": "GWSolver.solve_iter returns the last of a chain of Green functions, each made by the Dyson equation from the sum of the requested self-energies of the one before; the chain ends at the first two consecutive members closer than tol, or after maxiter; the returned self-energy, polarization, screened interaction and density belong to that chain, a self-consistent start is not changed, and two calls continue one another.", "quantifier": "every start, tolerance, number of iterations and choice of contributions, every implementation of the self-energies", "why_tests_cant": "tests run a few iterations of one model", "anchors": ["python/triqs_tprf/gw_solver.py:solve_iter", "python/triqs_tprf/gw_solver.py:dyson_equation"]}
{"id": "C77", "title": "GW at fixed density", "statement": "With N_fix the Green function returned by GWSolver.solve_iter has the density N_fix to within N_tol.", "quantifier": "every density, tolerance, model and root finder with its promised accuracy", "why_tests_cant": "tests check one model with small compressibility", "anchors": ["python/triqs_tprf/gw_solver.py:dyson_equation", "python/triqs_tprf/gw_solver.py:__init__"]}
{"id": "C78", "title": "Polarization of the GW solver and bubble_PI_wk", "statement": "GWSolver.polarization(g) and gw.bubble_PI_wk(g), both meant as the polarization argument of dynamical_screened_interaction_W, are the same function.", "quantifier": "every Green function, lattice, frequency mesh and distribution of the work", "why_tests_cant": "each is tested on its own", "anchors": ["python/triqs_tprf/gw.py:bubble_PI_wk", "python/triqs_tprf/gw_solver.py:polarization"]}
{"id": "C79", "title": "Susceptibility of the GW solver", "statement": "GWSolver.chi_wk is the solution of chi = P + P V chi for the polarization and interaction of the solver and W - V = V chi V; with spinless=True it is the same-spin part of the solution for two spins and a spin-independent interaction.", "quantifier": "every polarization, interaction, mesh point and distribution of the work for which 1 - P V (1 - 2 P V) is invertible", "why_tests_cant": "the identity between three independently computed arrays is not tested, least of all with several orbitals", "anchors": ["python/triqs_tprf/gw_solver.py:susceptibiltiy", "python/triqs_tprf/gw_solver.py:screened_interaction"]}
{"id": "C80", "title": "Interaction tensor of the GW routines", "statement": "get_gw_tensor(H, ops) returns V with H = 1/2 sum V_abcd c+_a c+_c c_d c_b and V_abcd = V_cdab; as documented it is antisymmetrized.", "quantifier": "every number-conserving quartic Hamiltonian and list of operators", "why_tests_cant": "tests use one density-density Hamiltonian", "anchors": ["python/triqs_tprf/gw.py:get_gw_tensor"]}
{"id": "C81", "title": "Hartree-Fock response", "statement": "HartreeFockResponse.response(op1, op2) is minus the change of the expectation value of op2 in a field op1 when the density matrix follows the applied field and the mean field of its own change; this change is unique. For operators with symmetric matrices these are the operators themselves, otherwise their transposes.", "quantifier": "every dispersion, interaction Hamiltonian and pair of operators for which 1 - chi0 U is invertible", "why_tests_cant": "tests compare with finite fields for one model and real symmetric operators", "anchors": ["python/triqs_tprf/hf_response.py:HartreeFockResponse", "python/triqs_tprf/hf_solver.py:update_mean_field"]}
{"id": "C82", "title": "Bare susceptibility by finite differences", "statement": "The bare susceptibility of HartreeFockResponse reproduces the finite-difference change of the density matrix in every Hermitian basis field, with step size eps, and does not depend on the eigenvectors returned by the eigenvalue solver; compute_chi0_k returns its momentum-resolved form.", "quantifier": "every Hermitian dispersion, temperature and eigenvalue solver", "why_tests_cant": "the tests use real dispersions and the default step size", "anchors": ["python/triqs_tprf/hf_response.py:_compute_chi0_kabcd", "python/triqs_tprf/hf_response.py:_compute_drho_k_dop", "python/triqs_tprf/hf_response.py:compute_chi0_k"]}
{"id": "C83", "title": "Hartree response", "statement": "HartreeResponse.response(op1, op2) for diagonal operators is minus the change of the expectation value of op2 when the densities follow the applied potentials and the Hartree potential of their change; this change is unique; other operators are refused. Its bare susceptibility is the density part of the one of HartreeFockResponse at twice the step size.", "quantifier": "every dispersion, interaction Hamiltonian and pair of operators for which 1 - U chi0 is invertible", "why_tests_cant": "tests use one model", "anchors": ["python/triqs_tprf/hf_response.py:HartreeResponse"]}
{"id": "C84", "title": "Power method", "statement": "power_method_LR returns the eigenvalue with the largest real part, also when it is negative, with an eigenvector of norm one, both within the tolerance.", "quantifier": "every matrix (as a function on vectors), start vector, tolerance with n tol < 1 and number of iterations", "why_tests_cant": "tests use one matrix per sign and random start vectors", "anchors": ["python/triqs_tprf/eliashberg.py:power_method_LR"]}
{"id": "C85", "title": "Solution of the linearized Eliashberg equation", "statement": "solve_eliashberg returns pairs of eigenvalue and non-zero mode that satisfy the documented linearized Eliashberg equation; with a symmetrization every mode has the symmetry; FFT and SUM give the same pairs for a static vertex; unknown names of product and solver are refused.", "quantifier": "every vertex, Green function, symmetrization, start vector and exact eigenvalue solver", "why_tests_cant": "tests look at one model with real positive eigenvalues", "anchors": ["python/triqs_tprf/eliashberg.py:solve_eliashberg", "python/triqs_tprf/eliashberg.py:implicitly_restarted_arnoldi_method"]}
{"id": "C86", "title": "Preparation of the vertex and of the start vector", "statement": "preprocess_gamma_for_fft splits the vertex without loss into a dynamic part and the given constant, or the fitted one when none is given. semi_random_initial_delta gives a non-zero start vector with a random momentum dependence whose outer frequencies are not randomized.", "quantifier": "every vertex, constant, Green function, random numbers and fraction", "why_tests_cant": "tests pass one constant as float and Gf and one Green function", "anchors": ["python/triqs_tprf/eliashberg.py:preprocess_gamma_for_fft", "python/triqs_tprf/eliashberg.py:semi_random_initial_delta"]}
{"id": "C87", "title": "Discontinuity and positivity constraints of the DLR fit", "statement": "The discontinuity option of the constrained DLR fit admits exactly the Green functions with G(0) + G(beta) = -1 (unit matrix), with the TRIQS and the pydlr driver; the reported norm residual vanishes exactly for these. The positivity option admits exactly the functions with spectral weights of one sign on the diagonal and is compatible with the discontinuity.", "quantifier": "every number of orbitals and DLR frequencies, real-valued and complex fits, every parameter vector", "why_tests_cant": "tests fit a few random examples and look at residuals; no test uses positivity with the TRIQS driver", "anchors": ["python/triqs_tprf/fitdlr.py:constrained_lstsq_dlr_from_tau", "python/triqs_tprf/fitdlr.py:triqs_driver", "python/triqs_tprf/fitdlr.py:pydlr_driver"]}
{"id": "C88", "title": "Density matrix constraint of the DLR fit", "statement": "The density option of the constrained DLR fit admits exactly the functions whose first moment -- the sum of the slopes at 0 and beta -- is the one-body Hamiltonian plus the mean field (the one of HartreeFockSolver) of the density matrix -G(beta). A self-consistent Hartree-Fock Green function is therefore admitted by all constraints.", "quantifier": "every Hermitian one-body matrix, Hermitian interaction, number of DLR frequencies and parameter vector", "why_tests_cant": "tests check the residual after one fit", "anchors": ["python/triqs_tprf/fitdlr.py:constrained_lstsq_dlr_from_tau", "python/triqs_tprf/hf_solver.py:HartreeFockSolver.update_mean_field"]}
{"id": "C89", "title": "Green function and observables of the analytic Hubbard atom", "statement": "The analytic single-particle Green function is the Lehmann representation of the half-filled Hubbard atom at the given temperature, m2 is the thermal average of S_z squared and chi_m_static is beta times the connected correlation <n_up n_up> - <n_up n_do>.", "quantifier": "every real beta and U, every frequency that is no pole", "why_tests_cant": "tests compare one temperature and interaction with a numerical impurity solution", "anchors": ["c++/triqs_tprf/hubbard_atom.cpp:single_particle_greens_function", "python/triqs_tprf/analytic_hubbard_atom.py:analytic_hubbard_atom"]}
{"id": "C90", "title": "Magnetic susceptibility of the analytic Hubbard atom", "statement": "The analytic generalised magnetic susceptibility conserves the spin: at every finite transfer frequency its sum over one fermionic frequency is fixed by the Green function, omega sum chi(omega, nu, nu2) = beta (G(nu + omega) - G(nu)). Its double sum at zero transfer is the static susceptibility chi_m_static.", "quantifier": "every positive beta and U, every pair of frequencies; sums are limits over growing windows", "why_tests_cant": "tests compare finite windows at one or two parameters, all at beta U >= 10", "anchors": ["c++/triqs_tprf/hubbard_atom.cpp:chi_ph_magnetic", "python/triqs_tprf/analytic_hubbard_atom.py:analytic_hubbard_atom"]}
{"id": "C91", "title": "Vertex of the analytic Hubbard atom", "statement": "The analytic magnetic vertex solves the Bethe-Salpeter equation chi = chi0 + chi0 gamma chi with the analytic susceptibility and the bubble of the Green function, at every transfer frequency, zero included.", "quantifier": "every positive beta and U, every pair of frequencies at which no factor of the vertex divides by zero; the inner sum is a limit over growing windows", "why_tests_cant": "tests compare with the numerical inverse on a finite window at low accuracy and one parameter set", "anchors": ["c++/triqs_tprf/hubbard_atom.cpp:gamma_ph_magnetic", "c++/triqs_tprf/hubbard_atom.cpp:chi_ph_magnetic", "python/triqs_tprf/analytic_hubbard_atom.py:analytic_hubbard_atom"]}
{"id": "C92", "title": "Real frequency GW self energy", "statement": "The real frequency GW self energy is finite for every positive broadening, does not depend on the eigenvectors chosen, reduces to the exchange with the occupation matrix when W equals the bare interaction, is causal (its anti-Hermitian part is negative semidefinite) for a dissipative interaction, and its analytic formula at the Matsubara frequencies is the convolution of the propagator with the dynamical interaction.", "quantifier": "every mesh, band structure, broadening and interaction", "why_tests_cant": "tests compare one square lattice model with a reference implementation of the same loop on one mesh", "anchors": ["c++/triqs_tprf/lattice/gw.cpp:g0w_dynamic_sigma", "c++/triqs_tprf/lattice/gw.cpp:g0w_sigma", "c++/triqs_tprf/lattice/lattice_utility.cpp:bose"]}
{"id": "C93", "title": "Contraction of susceptibilities with operators", "statement": "chi_contraction gives the response of one operator to the other and rejects operators of another shape. The response computed from an RPA susceptibility does not depend on the single-particle basis. In a spin rotation invariant system the three spin directions respond alike, with half of the spin susceptibility returned by charge_and_spin_susceptibility_from_general, different directions and spin and charge do not mix, and the charge responds with twice the charge susceptibility.", "quantifier": "every number of orbitals, susceptibility, operator, unitary basis change, pair of spin directions, both spin orders", "why_tests_cant": "no unit test calls chi_contraction with more than one operator pair; basis independence quantifies over all unitary matrices", "anchors": ["python/triqs_tprf/lattice_utils.py:chi_contraction", "c++/triqs_tprf/lattice/rpa.cpp:solve_rpa_PH", "python/triqs_tprf/rpa_tensor.py:charge_and_spin_susceptibility_from_general"]}
{"id": "C94", "title": "Newton solvers of the Hartree-Fock equations", "statement": "solve_newton leaves the solver at a solution of the Hartree-Fock equations with the requested density, and solve_newton_mu at a solution with the given chemical potential; E_tot and Omega are the energies of the density matrix the solver ends with. total_density is the expectation value of the unit operator, and the expectation value of a projector is the occupation of the state.", "quantifier": "every number of orbitals and momenta, Hermitian dispersion, interaction with Hermitian mean field, behaviour of fsolve, density, chemical potential", "why_tests_cant": "the result depends on the order in which fsolve evaluates its target, which a test fixes to a single sequence", "anchors": ["python/triqs_tprf/hf_solver.py:solve_newton", "python/triqs_tprf/hf_solver.py:solve_newton_mu", "python/triqs_tprf/hf_solver.py:total_density", "python/triqs_tprf/hf_solver.py:expectation_value"]}
{"id": "C95", "title": "Momentum grids and interpolation", "statement": "Relative coordinates of mesh momenta are the index over the mesh size in every direction, the mesh index is recovered from them even with errors below half the mesh spacing, and the dispersion on the mesh is the one of the tight-binding model at these momenta. The interpolators reproduce the susceptibility at every mesh momentum, with the extended boundary also on the opposite faces of the zone, and in absolute coordinates also at mesh momenta shifted by reciprocal lattice vectors. cluster_mesh_fourier_interpolation gives the same result in python and C++, and the susceptibility chi_wk at mesh momenta.", "quantifier": "every lattice, mesh size, susceptibility, interpolation kind, set of zone shifts", "why_tests_cant": "a test fixes a lattice and a mesh; the statement about mesh momenta holds for inversion symmetric test systems even with the wrong sign", "anchors": ["python/triqs_tprf/lattice_utils.py:get_rel_k_chi_interpolator", "python/triqs_tprf/lattice_utils.py:get_abs_k_chi_interpolator", "python/triqs_tprf/lattice_utils.py:extend_data_on_boundary", "python/triqs_tprf/lattice_utils.py:cluster_mesh_fourier_interpolation", "python/triqs_tprf/lattice_utils.py:ek_tb_dispersion_on_bzmesh", "c++/triqs_tprf/lattice/fourier_interpolation.cpp:cluster_mesh_fourier_interpolation"]}
{"id": "C96", "title": "Interactions read from VASP cRPA files", "statement": "read_vasp_crpa_vq_to_triqs returns, at the mesh point of every momentum in the files, V(q) and U(q) = U_full + V_full - V_reduced with U[a,b,c,d] the VASP entry (b,a,d,c) of the selected orbitals, whatever the order of the momenta in the files and of the rows inside a momentum; momenta are folded into the mesh, a momentum given twice is read once; data that does not determine the interaction on the whole mesh is rejected.", "quantifier": "every number of orbitals, table of interactions, orbital subset, mesh, order of rows and momenta", "why_tests_cant": "no unit test reads VASP files; orbital and momentum orders are unbounded", "anchors": ["python/triqs_tprf/vasp_crpa_parsers.py:read_vasp_crpa_vq_to_ndarray", "python/triqs_tprf/vasp_crpa_parsers.py:convert_from_ndarray_to_triqs", "python/triqs_tprf/vasp_crpa_parsers.py:read_vasp_crpa_vq_to_triqs"]}
{"id": "C97", "title": "Green's functions on smaller meshes, as matrices and on the real axis", "statement": "put_gf_on_mesh and strip_sigma return the values of the input at exactly the frequencies of the smaller mesh and refuse a mesh the input does not cover or whose temperature or statistic differ; gf_tensor_to_matrix groups the pairs of indices and gf_matrix_to_tensor undoes it; pade_analytical_continuation_wk continues every momentum and every component of a scalar, matrix or four-index function by itself.", "quantifier": "every mesh size, statistic, temperature, number of orbitals and momenta, data and fit", "why_tests_cant": "the restriction of meshes has no unit test and index grouping is only seen for a few shapes; shapes and meshes are unbounded", "anchors": ["python/triqs_tprf/lattice_utils.py:put_gf_on_mesh", "python/triqs_tprf/lattice_utils.py:strip_sigma", "python/triqs_tprf/lattice_utils.py:gf_tensor_to_matrix", "python/triqs_tprf/lattice_utils.py:gf_matrix_to_tensor", "python/triqs_tprf/lattice_utils.py:pade_analytical_continuation_wk"]}
{"id": "C98", "title": "What a GW solver reports after several calls", "statement": "After any sequence of solve_iter calls the functions given by calc_real_freq and calc_real_space belong to the last call: one Green's function determines the Hartree, Fock and dynamic self-energies, the polarization, the interactions and the susceptibility, and the reported Green's function solves the Dyson equation with their sum. The static interaction V_wr is V_r at every frequency. Storing and restoring a solver keeps every attribute except the timer.", "quantifier": "every sequence of calls with any flags and number of iterations, every physical model", "why_tests_cant": "state left behind by earlier calls only shows in sequences of calls; tests make one", "anchors": ["python/triqs_tprf/gw_solver.py:GWSolver.calc_real_space", "python/triqs_tprf/gw_solver.py:GWSolver.calc_real_freq", "python/triqs_tprf/gw_solver.py:GWSolver.__reduce_to_dict__", "python/triqs_tprf/gw_solver.py:GWSolver.__factory_from_dict__"]}
{"id": "C99", "title": "Text, storage and vectors of parameter collections", "statement": "print(p) shows every parameter on its own line with its dotted path, collections in alphabetical order whatever the order of assignment; an archive gives back the same collection with Python booleans; ps.name is the vector of the parameter over the collections and sort_on orders the same collections by it; collections can be copied.", "quantifier": "every nesting of collections, names, values and recursion limit", "why_tests_cant": "nesting and naming are unbounded; tests print one collection", "anchors": ["python/triqs_tprf/ParameterCollection.py:ParameterCollection.__str__", "python/triqs_tprf/ParameterCollection.py:ParameterCollection.__factory_from_dict__", "python/triqs_tprf/ParameterCollection.py:ParameterCollection._clean_bools", "python/triqs_tprf/ParameterCollection.py:ParameterCollections.__getattr__", "python/triqs_tprf/ParameterCollection.py:ParameterCollections.sort_on"]}
{"id": "C100", "title": "GW results do not depend on the orbital basis", "statement": "Two GW solvers whose dispersion, interaction and starting Green function are the same operators written in two orbital bases (g -> T g T^-1, contragredient for the density matrix and the two-particle quantities) hold after any number of iterations the same operators: same chemical potential and particle number, Green function, self-energies, polarization, screened interaction and susceptibility related by the change of basis; relabelling the orbitals changes nothing else, not even the iteration at which it stops.", "quantifier": "every lattice, number of orbitals, invertible change of basis, interaction, flags, number of iterations, distribution over ranks, particle number fixed or not", "why_tests_cant": "tests run one basis; the change of basis ranges over a continuous group and the statement is about the whole iteration", "anchors": ["python/triqs_tprf/gw_solver.py:GWSolver.solve_iter", "python/triqs_tprf/gw_solver.py:GWSolver.dyson_equation", "python/triqs_tprf/gw_solver.py:GWSolver.__init__", "c++/triqs_tprf/lattice/gw.cpp:lattice_dyson_g_wk", "c++/triqs_tprf/lattice/rpa.cpp:dynamical_screened_interaction_W"]}
{"id": "C101", "title": "spinless=True is one spin of the spin-symmetric GW calculation", "statement": "solve_iter(spinless=True) with Fock and dynamic self-energies gives, after any number of iterations, the Green function, self-energies, density matrix, polarization, screened interaction and same-spin susceptibility of one spin of the calculation with both spins, interaction V_abcd between all spins and spinless=False; same chemical potential and number of iterations, half the particle number. The Hartree self-energy counts one spin only: with hartree=True the spinless calculation is the one with interactions between opposite spins only (Hubbard), and has half the self-energy when like spins interact as well.", "quantifier": "every lattice, number of orbitals, interaction, tolerance, number of iterations, distribution over ranks, particle number fixed or not", "why_tests_cant": "tests compare one iteration of a dimer with one orbital; equality of two runs of different dimension is not a property of one run", "anchors": ["python/triqs_tprf/gw_solver.py:GWSolver.screened_interaction", "python/triqs_tprf/gw_solver.py:GWSolver.solve_iter", "python/triqs_tprf/gw_solver.py:GWSolver.hartree_sigma"]}
{"id": "C102", "title": "GW results are Hermitian", "statement": "With a Hermitian dispersion, a Hermitian interaction and a Hermitian start, after any number of iterations the chemical potential and the particle number are real, the Green function and the Hartree, Fock, dynamic and total self-energies satisfy X(-iw,k) = X(iw,k)^+, the density matrix is Hermitian, and polarization, screened interaction and susceptibility at minus the frequency are the complex conjugates with the operators in opposite order.", "quantifier": "every lattice, number of orbitals, interaction, flags, tolerance, number of iterations, distribution over ranks, particle number fixed or not", "why_tests_cant": "an invariant of an unbounded iteration; the code never symmetrizes, so one wrong index or conjugation anywhere in the chain breaks it, and tests use real symmetric models", "anchors": ["python/triqs_tprf/gw_solver.py:GWSolver.solve_iter", "python/triqs_tprf/gw_solver.py:GWSolver.dyson_equation", "c++/triqs_tprf/lattice/gw.cpp:gw_dynamic_sigma", "c++/triqs_tprf/lattice/gw.cpp:fock_sigma", "c++/triqs_tprf/lattice/chi_imtime.cpp:chi0_tr_from_grt_PH"]}
{"id": "C103", "title": "GW results have the symmetries of the Hamiltonian", "statement": "Let a point-group operation map momenta and lattice vectors such that k.r is invariant, combined with any invertible transformation of the orbitals. If dispersion and interaction are invariant under it and the solver starts from invariant functions (or from nothing), then after any number of iterations the Green function, all self-energies, the density matrix, polarization, screened interaction and susceptibility are invariant.", "quantifier": "every lattice, every operation of the lattice (inversion and exchange of axes among them), every orbital transformation, interaction, flags, tolerance, number of iterations, distribution over ranks, particle number fixed or not", "why_tests_cant": "an invariant of an unbounded iteration, for all symmetric models; the code uses no symmetry explicitly, tests use one orbital or check values at single momenta", "anchors": ["python/triqs_tprf/gw_solver.py:GWSolver.solve_iter", "python/triqs_tprf/gw_solver.py:GWSolver.dyson_equation", "c++/triqs_tprf/lattice/gw.cpp:gw_dynamic_sigma", "c++/triqs_tprf/lattice/gw.cpp:fock_sigma", "c++/triqs_tprf/lattice/chi_imtime.cpp:chi0_tr_from_grt_PH", "c++/triqs_tprf/lattice/fourier.hpp:_fourier_k_to_r"]}
{"id": "C104", "title": "Conserved quantities do not respond to uniform fields of finite frequency", "statement": "For every Hermitian dispersion and every operator sum_a x_a c^+_a c_a that commutes with it (the charge always, the spin component along z without spin-orbit coupling, the occupation of a decoupled orbital), lindhard_chi00 at q = 0 and any frequency other than zero gives no response of this operator to any field, and no response of any operator to a field coupled to it. solve_rpa_PH with any interaction keeps this. At zero frequency the total charge response at q = 0 is the sum over all states of beta f (1 - f), the derivative of the particle number with respect to the chemical potential.", "quantifier": "all lattices, numbers of orbitals, dispersions, conserved diagonal operators, temperatures, Matsubara frequencies and real frequencies with any broadening, interactions, distributions over ranks", "why_tests_cant": "a sum rule over all bands and momenta for every Hamiltonian and every choice of eigenvectors; tests compare a few one-band values", "anchors": ["c++/triqs_tprf/lattice/lindhard_chi00.cpp:lindhard_chi00", "c++/triqs_tprf/lattice/rpa.cpp:solve_rpa_PH"]}
{"id": "C105", "title": "The eigenvalues of the Eliashberg equation are real when orbitals are degenerate", "statement": "For a vertex that is Hermitian (the complex conjugate of Gamma_abcd(k, w) is Gamma_dcba(-k, -w)) and a Green function that is the same multiple of the identity at k and -k, every eigenvalue of eliashberg_product is real. Therefore the numbers that solve_eliashberg returns with IRAM, which are real parts, are together with the returned modes solutions of the equation itself, for the product by summation and for the Fourier product with a static vertex. With two orbitals of different energies this fails: a real, static, crossing symmetric vertex has the eigenvalue -i.", "quantifier": "all lattices, numbers of degenerate orbitals, frequency meshes, vertices, Green functions, eigenvectors, starting vectors, distributions over ranks", "why_tests_cant": "the absence of complex eigenvalues for every vertex; the real part is taken unconditionally, and tests only compare the largest eigenvalue of a one-band model", "anchors": ["python/triqs_tprf/eliashberg.py:solve_eliashberg", "python/triqs_tprf/eliashberg.py:implicitly_restarted_arnoldi_method", "c++/triqs_tprf/lattice/eliashberg.cpp:eliashberg_product", "c++/triqs_tprf/lattice/eliashberg.cpp:eliashberg_product_fft_constant"]}
{"id": "C106", "title": "RPA susceptibilities do not depend on the orbital basis and keep exchange and conjugation symmetry", "statement": "For every unitary V: lindhard_chi00 of the Hamiltonian V e(k) V^+ is the Lindhard function of e(k) with its four indices transformed by V, conj(V), V, conj(V), and solve_rpa_PH with the interaction transformed by conj(V), V, conj(V), V gives the transformed susceptibility. If chi0_abcd(w, q) = chi0_cdab(w', q') and U_abcd = U_cdab, the same holds for the result of solve_rpa_PH; if the complex conjugate of chi0_abcd(w, q) is chi0_dcba(w', q') and U satisfies the same relation, so does the result. For RPA on the Lindhard function on Matsubara frequencies this gives chi_abcd(w, q) = chi_cdab(-w, -q) and conj(chi_abcd(w, q)) = chi_dcba(-w, q).", "quantifier": "all lattices, numbers of orbitals, Hamiltonians, unitary matrices, interactions, frequencies, eigenvectors chosen by the eigenvalue routine, distributions over ranks", "why_tests_cant": "covariance holds for a continuum of basis changes and every Hamiltonian; tests use one fixed basis", "anchors": ["c++/triqs_tprf/lattice/lindhard_chi00.cpp:lindhard_chi00", "c++/triqs_tprf/lattice/rpa.cpp:solve_rpa_PH"]}
{"id": "C107", "title": "Stability of RPA", "statement": "The static Lindhard function is positive: the response of every operator sum_ab x_ab c^+_a c_b to the field that couples to it is not negative. For a positive bare susceptibility and an interaction U passed to solve_rpa_PH: (1) if the interaction form of U is nowhere positive, 1 - chi0 U is invertible, the RPA susceptibility is positive and not larger than the bare one for any operator; (2) if it is nowhere negative and the result is positive, the result is not smaller than the bare one; (3) for Hermitian U the result is positive exactly if for every field the interaction energy of the mean field that it causes does not exceed its bare response (the Stoner criterion).", "quantifier": "all lattices, numbers of orbitals, dispersions, temperatures, momenta, Hermitian interactions, operators, distributions over ranks", "why_tests_cant": "inequalities for a continuum of operators and interactions; a test sees single numbers", "anchors": ["c++/triqs_tprf/lattice/lindhard_chi00.cpp:lindhard_chi00", "c++/triqs_tprf/lattice/rpa.cpp:solve_rpa_PH"]}
{"id": "C108", "title": "Rotations of spin and orbitals", "statement": "A tensor on spin orbitals has the form of a charge and a spin part (as quartic_tensor_from_charge_and_spin builds it) exactly if it does not change under any unitary rotation of the spin. The Kanamori tensor does not change for any U, Up, J, Jp. solve_rpa_PH keeps this invariance, and the bare susceptibility of lindhard_chi00 has it whenever the Hamiltonian does not act on the spin, so the RPA susceptibility has it too. The charge and spin tensors of kanamori_charge_and_spin_quartic_interaction_tensors are moreover invariant under real rotations of two or more orbitals exactly if U = Up + J + Jp.", "quantifier": "all numbers of orbitals, strengths, spin rotations, orbital rotations, lattices, temperatures, frequencies, momenta", "why_tests_cant": "continuous groups of rotations; a test can sample a few rotations of a few tensors", "anchors": ["python/triqs_tprf/rpa_tensor.py:kanamori_quartic_tensor", "python/triqs_tprf/rpa_tensor.py:kanamori_charge_and_spin_quartic_interaction_tensors", "python/triqs_tprf/rpa_tensor.py:quartic_tensor_from_charge_and_spin", "c++/triqs_tprf/lattice/rpa.cpp:solve_rpa_PH", "c++/triqs_tprf/lattice/lindhard_chi00.cpp:lindhard_chi00"]}
{"id": "C109", "title": "Hartree-Fock results do not depend on the orbital basis", "statement": "Two HartreeFockSolver objects that describe the same system in two orbital bases (dispersion, interaction tensor and M0 transformed by a unitary matrix) give the same physics: every density matrix in the history returned by solve_iter of one is the transformed one of the other; after equally many iterations mu, the particle number, E_tot and Omega agree and the mean field and density matrix are transformed. A unitary matrix that leaves dispersion, interaction and M0 unchanged leaves every density matrix of the history and the solution unchanged, so a solution never breaks a symmetry the start has. Both runs stop after the same number of iterations.", "quantifier": "all numbers of orbitals and momenta, dispersions, Hermitian interactions, unitary transformations, fillings, mixings, tolerances, lengths of the run", "why_tests_cant": "a continuum of transformations and histories of every length", "anchors": ["python/triqs_tprf/hf_solver.py:HartreeFockSolver.solve_iter", "python/triqs_tprf/hf_solver.py:HartreeFockSolver.density_matrix_step", "python/triqs_tprf/hf_solver.py:HartreeFockSolver.update_total_energy"]}
{"id": "C110", "title": "Susceptibilities on the Matsubara axis", "statement": "The Lindhard function lindhard_chi00 of a Hermitian dispersion at the Matsubara frequency i*nu answers every perturbation with a response whose real part is not negative. This real part does not grow with |nu| and, if any two levels are equal or further apart than the tolerance 1e-10 of the code, is at most the static response. With an interaction that is nowhere positive, solve_rpa_PH never divides by a singular matrix at any of these frequencies, and its result has the same sign.", "quantifier": "all numbers of orbitals and momenta, Hermitian dispersions, chemical potentials, temperatures, momenta, perturbations, interactions, real nu that are zero or at least 1e-10 in modulus, meshes and numbers of MPI ranks", "why_tests_cant": "a continuum of dispersions, interactions, frequencies and perturbations", "anchors": ["c++/triqs_tprf/lattice/lindhard_chi00.cpp:lindhard_chi00", "c++/triqs_tprf/lattice/rpa.cpp:solve_rpa_PH"]}
{"id": "C111", "title": "The zero of energy is arbitrary", "statement": "Adding the same real number c to all levels (e_k + c) and to all chemical potentials handed over (mu, mu0, and the search intervals mu_min, mu_max, mu_bracket where they are given) shifts the chemical potential that is found by c and changes nothing else. HartreeFockSolver.solve_iter and HartreeSolver.solve_iter return the same history, mean field and density matrix, E_tot grows by c times the particle number, Omega stays. GWSolver returns the same Green functions, self-energies, densities, polarization, screened interaction and susceptibility, also at fixed particle number and also with the default search interval. lindhard_chi00 is unchanged.", "quantifier": "all numbers of orbitals and momenta, Hermitian dispersions and interactions, real shifts, fillings, mixings, tolerances, lengths of the run", "why_tests_cant": "a continuum of shifts and runs of every length", "anchors": ["python/triqs_tprf/hf_solver.py:HartreeFockSolver.solve_iter", "python/triqs_tprf/hf_solver.py:HartreeFockSolver.update_chemical_potential", "python/triqs_tprf/gw_solver.py:GWSolver.__init__", "python/triqs_tprf/gw_solver.py:GWSolver.dyson_equation", "c++/triqs_tprf/lattice/lindhard_chi00.cpp:lindhard_chi00"]}
{"id": "C112", "title": "Bethe-Salpeter susceptibilities do not depend on the orbital basis, have the symmetries of the lattice, and are Hermitian", "statement": "With the Green function and the vertex expressed in another orthonormal orbital basis, and with momenta relabelled by a symmetry of the lattice, solve_lattice_bse returns both susceptibilities (with the vertex, and the bubble) transformed in the same way; so do the impurity vertices Gamma and F, and solve_lattice_dbse. If g(-iv) = g(iv)^+ and the vertex has the corresponding symmetry then chi_abcd(k, iw)^* = chi_dcba(k, -iw). If the vertex is unchanged by the exchange of the two particle-hole pairs, chi_abcd(k, iw) = chi_cdab(-k, -iw).", "quantifier": "all lattices, numbers of orbitals, frequency windows, Green functions, vertices, numbers of MPI ranks and thread interleavings", "why_tests_cant": "a continuum of Green functions, vertices and changes of basis; the tests compare single fixed models, mostly with one orbital", "anchors": ["python/triqs_tprf/bse.py:solve_lattice_bse", "python/triqs_tprf/bse.py:solve_lattice_dbse", "python/triqs_tprf/bse.py:impurity_irreducible_vertex_Gamma", "python/triqs_tprf/bse.py:impurity_reducible_vertex_F", "c++/triqs_tprf/lattice/chi_imfreq.cpp:chiq_from_chi0q_and_gamma_PH", "c++/triqs_tprf/lattice/chi_imtime.cpp:chi0_tr_from_grt_PH"]}
{"id": "C113", "title": "The unit of energy is arbitrary", "statement": "If all energies (dispersion, interaction, chemical potential and its bounds, frequencies, temperature) are multiplied by u > 0 and the inverse temperature is divided by u, then the results change by their dimension only: Hartree-Fock returns the same density matrices, history and convergence flag with mean field, chemical potential and energies multiplied by u; the GW solver returns the same density matrices with Green functions divided and self-energies and screened interactions multiplied by u, in the same number of iterations; susceptibilities (Lindhard, RPA, Bethe-Salpeter, dual Bethe-Salpeter) are divided by u; impurity vertices are multiplied by u^3; pairing vertices are multiplied by u and the Eliashberg product, hence its eigenvalues, does not change.", "quantifier": "all u > 0, lattices, numbers of orbitals, Hamiltonians, interactions, temperatures, numbers of MPI ranks and thread interleavings, transforms that carry the temperature, root finders without a preferred unit", "why_tests_cant": "a continuum of units; the tests use one unit per model", "anchors": ["python/triqs_tprf/hf_solver.py:HartreeFockSolver", "python/triqs_tprf/gw_solver.py:GWSolver", "python/triqs_tprf/bse.py:solve_lattice_bse", "c++/triqs_tprf/lattice/lindhard_chi00.cpp:lindhard_chi00", "c++/triqs_tprf/lattice/rpa.cpp:solve_rpa_PH", "c++/triqs_tprf/lattice/eliashberg.cpp:eliashberg_product"]}
{"id": "C114", "title": "Archives, data of block Green functions and temperatures survive a round trip", "statement": "What write_TarGZ_HDFArchive(name, **kw) writes is what read_TarGZ_HDFArchive(name) returns, archives with different names do not affect each other and no other file changes. BlockGf_data contains the data of every block at the position of the block, or raises an error. beta_to_temperature and temperature_to_beta are inverse to each other and fail at zero only.", "quantifier": "all names, keyword arguments and file systems; all lists of blocks with any shapes; all temperatures", "why_tests_cant": "names are arbitrary strings and the file system is a state; the tests write one archive with one name into an empty directory", "anchors": ["python/triqs_tprf/utilities.py:write_TarGZ_HDFArchive", "python/triqs_tprf/utilities.py:read_TarGZ_HDFArchive", "python/triqs_tprf/utilities.py:BlockGf_data", "python/triqs_tprf/utilities.py:beta_to_temperature", "python/triqs_tprf/utilities.py:temperature_to_beta"]}
{"id": "C115", "title": "Orbitals that do not couple to the others do not notice them", "statement": "If a subset of the orbitals has no hopping to the other orbitals and no interaction with them, then GWSolver at a given chemical potential gives for the subset (Green function, self-energy and its Hartree, Fock and dynamic parts, density matrix, polarization, screened interaction, susceptibility) what the calculation with the subset alone gives after as many iterations, there is no Green function or self-energy between the subset and the rest, and the particle numbers of the two parts add up.", "quantifier": "all numbers and positions of orbitals in the subset, dispersions, momentum-dependent interactions, meshes, transforms that act on matrix elements, iteration numbers, tolerances, switches, MPI layouts and schedules", "why_tests_cant": "every index pattern of the loops over orbitals in every step is involved, for any selection of orbitals; a test compares one model", "anchors": ["python/triqs_tprf/gw_solver.py:GWSolver.solve_iter", "c++/triqs_tprf/lattice/gw.cpp", "c++/triqs_tprf/lattice/chi_imtime.cpp", "c++/triqs_tprf/lattice/dynamical_screened_interaction.cpp", "c++/triqs_tprf/lattice/gf.cpp"]}
{"id": "C116", "title": "Directions and sublattices without coupling do not matter", "statement": "If the dispersion and the interaction have a smaller period in momentum space (hopping and interaction connect every q-th cell only), then the GW results on the full momentum mesh are the results on the mesh of the sublattice, repeated periodically in momentum space; in real space they vanish between the sublattices. In particular, with no coupling in one direction, any number of momenta in this direction gives the results for a single one. Chemical potential, particle number and number of iterations are the same, also at fixed density.", "quantifier": "all mesh sizes and divisors of them in three directions, dispersions, interactions, frequency meshes, transforms that give zero for zero data, root finders, tolerances, iteration numbers, switches, MPI layouts and schedules", "why_tests_cant": "two meshes of any sizes are compared at every step; the phases and normalisations of all transforms have to fit together", "anchors": ["python/triqs_tprf/gw_solver.py:GWSolver.solve_iter", "c++/triqs_tprf/lattice/fourier.hpp", "c++/triqs_tprf/fourier/fourier_lattice.cpp", "c++/triqs_tprf/lattice/gw.cpp", "c++/triqs_tprf/lattice/chi_imtime.cpp"]}
{"id": "C117", "title": "Uncoupled orbitals and sublattices in RPA and Bethe-Salpeter calculations", "statement": "A subset of orbitals that the Green function does not connect to the others, with a vertex (or interaction) that has no element between pairs of the subset and other pairs, has the RPA susceptibility, the Bethe-Salpeter susceptibilities (solve_lattice_bse with its bubble, solve_lattice_dbse) and the impurity vertices of a calculation with the subset alone. A Green function with a smaller period in momentum space gives, with a local vertex, the susceptibilities of the sublattice at the momentum modulo the smaller period.", "quantifier": "all numbers of orbitals and subsets in any order, mesh sizes and divisors of them, Green functions, vertices, bare susceptibilities with a non-singular denominator, transforms, MPI layouts and schedules", "why_tests_cant": "relates calculations of different size for arbitrary data; needs the block structure of the inverse in the combined frequency and orbital pair index", "anchors": ["python/triqs_tprf/bse.py:solve_lattice_bse", "python/triqs_tprf/bse.py:impurity_irreducible_vertex_Gamma", "python/triqs_tprf/dbse.py:solve_lattice_dbse", "python/triqs_tprf/dbse.py:impurity_reducible_vertex_F", "c++/triqs_tprf/lattice/rpa.cpp:solve_rpa_PH", "c++/triqs_tprf/lattice/chi_imfreq.cpp", "c++/triqs_tprf/linalg.cpp"]}
{"id": "C118", "title": "GW calculations respect time reversal", "statement": "A GWSolver for the Hamiltonian with the direction of time reversed (e'(k)_ab = e(-k)_ba, V'(q)_abcd = V(-q)_dcba) gives, after any number of iterations, the reversed results: the same chemical potential and density, g'(iw,k)_ab = g(iw,-k)_ba for the Green's functions and all self-energies, and P', W', W'_dyn, chi' at q with the indices in the opposite order the unprimed ones at -q. In particular a Hamiltonian that is its own reversal (no magnetic field) keeps this symmetry in all results, and if it is also Hermitian the density matrix in real space is real and g(-iw,-k) is the conjugate of g(iw,k).", "quantifier": "every lattice, number of orbitals and frequencies, one-body Hamiltonian and interaction whose uniform part does not depend on the order of the two densities, flags, number of ranks and iterations, start", "why_tests_cant": "a broken index order in one of the contractions shows up only for complex Hamiltonians and many orbitals, and for all iterations", "anchors": ["python/triqs_tprf/gw_solver.py:GWSolver", "c++/triqs_tprf/lattice/gw.cpp"]}
{"id": "C119", "title": "Hartree-Fock calculations respect time reversal", "statement": "HartreeFockSolver.solve_iter for the reversed Hamiltonian (e'(k) the conjugate of e(-k), conjugate interaction and start) makes equally many iterations with the conjugate density matrices, and ends with the same mu and energies and the conjugate M and rho_ab, or both raise; the HartreeSolver has even the same history. Hence a Hamiltonian without magnetic field with a real interaction and real start gives only real density matrices and mean fields, and time reversal with spin (a unitary matrix times conjugation) is kept if Hamiltonian and start have it.", "quantifier": "every number of orbitals, set of momenta, Hermitian dispersion and interaction, target density, mixing, tolerance, number of iterations", "why_tests_cant": "the solvers work on packed real vectors; a sign error in the packing or in an index order is invisible for real Hamiltonians", "anchors": ["python/triqs_tprf/hf_solver.py:HartreeFockSolver.solve_iter", "python/triqs_tprf/hf_solver.py:HartreeSolver"]}
{"id": "C120", "title": "Particles and holes can be exchanged in Hartree-Fock", "statement": "Exchange particles and holes in a Hartree-Fock calculation: replace the interaction tensor U_abcd by U_badc, the dispersion e(k) by minus the transpose of e(-k) minus the mean field of the completely filled bands, the start M by the mean field of the filled bands minus its transpose, and the number N of particles by n - N. Then every iteration goes through the density matrix of the holes, 1 - rho^T, the chemical potential is the opposite, and the particle number n minus that of the original calculation. The grand potential changes by n mu minus the average trace of e(k) minus half the trace of the mean field of the filled bands. If the Hamiltonian is its own transform and half of the states are filled, mu is zero, rho equals 1 - rho^T, and every orbital is half filled.", "quantifier": "for all Hermitian dispersions and interaction tensors, involutions k -> -k, fillings, mixings, tolerances, bounds and numbers of iterations; for all eigenvalue routines that diagonalise Hermitian matrices, root searches that return roots, and increasing positive functions with exp(-x) = 1/exp(x); the statement on the grand potential for U_abcd = U_cdab and exp, log with log(1+exp(x)) = x + log(1+exp(-x))", "why_tests_cant": "a test runs a few fillings of a few models; the symmetry relates the unconverged iterations of two different calculations, for every model and filling", "anchors": ["python/triqs_tprf/hf_solver.py:HartreeFockSolver.solve_iter", "python/triqs_tprf/hf_solver.py:HartreeFockSolver.update_total_energy"]}
{"id": "C121", "title": "Linear algebra on stacks of matrices does not depend on the version of numpy", "statement": "np_inv, np_eigh and np_eigvalsh of numpy_compat.py apply the operation to the last two indices of the array, matrix by matrix, with the same shape and values for every version of numpy, and raise if one of the matrices does. The version is compared number by number, so that 1.10 is newer than 1.8.", "quantifier": "every number and length of the leading axes, every matrix size, every version string of numbers", "why_tests_cant": "the tests run with one version of numpy, so the fallback is never executed", "anchors": ["python/triqs_tprf/numpy_compat.py:np_linalg_func", "python/triqs_tprf/numpy_compat.py:np_eigh", "python/triqs_tprf/numpy_compat.py:np_eigvalsh", "python/triqs_tprf/numpy_compat.py:is_numpy_newer_than"]}
{"id": "C122", "title": "Symmetries of the dispersion are symmetries of the Lindhard function", "statement": "lindhard_chi00 of the time-reversed dispersion conj(e(-k)) is that of e(k) at -q with the indices in the opposite order. For holes, with the dispersion -e(-k)^T and the opposite mu, it is that of e(k) at the opposite frequency, broadening and momentum with the indices in the opposite order, so a dispersion that is its own transform has at mu = 0 a susceptibility symmetric under the exchange of the indices in both pairs. Moving the origin of the momenta changes nothing. If the dispersion conserves sum_a x_a c^+_a c_a, the elements abcd with x_a != x_d or x_c != x_b vanish.", "quantifier": "every number of orbitals, Hermitian dispersion, momentum grid, temperature, frequency, broadening and momentum; for particle-hole symmetry, f(-x) = 1 - f(x) and cosh even; the exchange of both index pairs for bands which are degenerate if closer than the tolerance", "why_tests_cant": "the code picks eigenvectors at every momentum; tests compare a few real dispersions, where most of these symmetries are invisible", "anchors": ["c++/triqs_tprf/lattice/lindhard_chi00.cpp"]}
{"id": "C123", "title": "RPA respects time reversal and the exchange of particles and holes", "statement": "solve_rpa_PH on the Lindhard function of the time-reversed dispersion, with the interaction tensor in the opposite index order, gives the RPA susceptibility of the original model at -q with the indices in the opposite order. For the holes (dispersion -e(-k)^T, opposite mu, the same change of the interaction) it is that of the original model at the opposite frequency and momentum. Without magnetic field chi_abcd(q) = chi_dcba(-q), and a model which is its own particle-hole transform at mu = 0 has chi_abcd = chi_badc at every Matsubara frequency and momentum.", "quantifier": "every number of orbitals, Hermitian dispersion, interaction tensor, frequency mesh, momentum grid and number of MPI ranks, also where the matrix of RPA is singular; the last statement for bands which are degenerate if closer than the tolerance", "why_tests_cant": "tests compare single models with reference data; the symmetries relate two calculations with transposed index orders", "anchors": ["c++/triqs_tprf/lattice/rpa.cpp:solve_rpa_PH", "c++/triqs_tprf/lattice/lindhard_chi00.cpp"]}
{"id": "C124", "title": "Hartree-Fock keeps the quantum numbers the Hamiltonian conserves", "statement": "Give every orbital a label (spin, parity, ...). If the dispersion has no elements between orbitals of different labels, the interaction tensor only has elements U_abcd where the labels of a, c are those of b, d in some order, and the start and the stored mean field respect the labels, then the mean field and density matrix that solve_iter of the Hartree-Fock solver returns, and every density matrix of its history, vanish between orbitals of different labels.", "quantifier": "every number of orbitals, labelling with any number of different labels, Hermitian dispersion, interaction tensor, filling, mixing, tolerance and number of iterations", "why_tests_cant": "tests run single models; no test checks that the iteration cannot leave the symmetric subspace from a symmetric start", "anchors": ["python/triqs_tprf/hf_solver.py:HartreeFockSolver.solve_iter"]}
{"id": "C125", "title": "The imaginary-time bubbles are symmetric about beta/2, Hermitian and positive", "statement": "chi0_tau_from_g_tau_PH(g) at beta - tau is the bubble at tau with the two pairs of indices exchanged, it is Hermitian for Hermitian G(tau), and for -G(tau) positive semidefinite no operator sum_ab x_ab c^+_a c_b has a negative response at any tau. chi0_tr_from_grt_PH has the same reflection with r -> -r and equals the impurity bubble at r = 0 and zero elsewhere if G is local. chi0_w0r_from_grt_PH at -r is the one at r with exchanged pairs, and its on-site part is never negative.", "quantifier": "every number of orbitals, time mesh, Green's function with the named property, operator, lattice size, and number of MPI ranks and order of execution", "why_tests_cant": "the function for the impurity has no test against the one for the lattice; tests compare numbers of single Green's functions", "anchors": ["c++/triqs_tprf/chi_from_gg2.cpp:chi0_tau_from_g_tau_PH", "c++/triqs_tprf/lattice/chi_imtime.cpp:chi0_tr_from_grt_PH", "c++/triqs_tprf/lattice/chi_imtime.cpp:chi0_w0r_from_grt_PH"]}
