# Formal model of TPRF (TRIQS/tprf) in Rocq

Source: `/repo` (TRIQS/tprf at the pinned commit). Model: Coq 8.16.1 + mathcomp, in
`rocq/theories`. Every definition cites the file and lines it models.

## 1. Layout

* `rocq/theories/*Model.v`   - definitions mirroring the code, no proofs.
* `rocq/theories/*Spec.v`    - independent specifications (written from docs / API), no proofs.
* `rocq/theories/*Proofs.v`  - lemmas.
* `rocq/theories/*Thms.v`    - the property theorems, each closed by `exact lemma`, with
  `Print Assumptions` and a concrete example next to it.

## 2. Trusted base

* Coq 8.16.1 kernel (`coqc`); no axiom of our own; no kernel check disabled; no functor or module
  type of our own. `Print Assumptions` output per theorem is listed in section 5.
* The reading of the code as text: the correspondence code <-> model is by inspection.
* Numbers: floating-point complex arithmetic is idealised as an arbitrary field
  (`fieldType`), or a `numClosedFieldType` (an algebraically closed field with conjugation and order, e.g. the
  algebraic numbers) where conjugation, order or roots of unity are needed. Rounding, overflow and NaN are
  not modelled. `numpy.testing.assert_*`/`allclose` tolerance checks are idealised as exact tests unless
  the theorem says otherwise.
* External libraries: TRIQS `gf`/`mesh`/operators, nda, MPI, OpenMP, numpy, scipy, HDF5, FFTW are
  modelled by their documented effect at the call site and are not verified:
  - `mpi::all_reduce` sums arrays over ranks; `itertools::chunk_range` is modelled as in the
    library (contiguous chunks, first `size mod n` chunks one longer);
  - `nda::inverse` is the matrix inverse on invertible input (on singular input nothing is claimed);
  - `nda::group_indices_view` is a *view* of contiguous memory: merging two indices into one can only
    keep the memory order of these two, so `idx_group<3,2>` addresses the same column as
    `idx_group<2,3>`. The test-suite (`dynamical_screened_interaction_w.py`, two-orbital case) agrees with this reading. `C10_no_swapped_view`
    shows that no offset and strides realise the swapped order when there are >= 2 orbitals;
  - FFTW forward/backward transforms are the finite sums with the documented sign, scaled by 1/N
    where the code does so;
  - freshly constructed `gf` objects hold zeros.
* Not modelled at all: plotting (`plotting_tools.py`), HDF5 I/O, pybind descriptors (`*_desc.py`),
  logo, MPI transport, LAPACK, SciPy root finders and optimisers (oracles), TRIQS parts called by
  the project (tail fits are oracles).

## 3. Plan per property

| id | what is modelled | how it is proved |
|----|------------------|------------------|
| C01 | chunk_range, per-rank array fill, all_reduce | induction on ranks / mesh: chunks are a partition |
| C02-C05 | grouped matrix view of tensors per channel, product, identity, inverse, scalar_product_PH | reindexing of bigops + matrix laws |
| C06 | solve_local_bse, chiq_from_chi0q_and_gamma_PH | matrix algebra over a field |
| C07 | impurity_reducible_vertex_F, DBSE and BSE routes | noncommutative matrix identity |
| C08 | chiq_sum_nu with tail correction | bigop algebra |
| C09 | both bubble kernels | refutation by a concrete witness, plus agreement at w = 0 |
| C10 | solve_rpa_PH per mesh point | matrix identity + uniqueness |
| C11, C12 | RPA, BSE trace, matrix_rpa | similarity by a permutation matrix; refutation without the symmetry |
| C13-C15 | rpa_tensor functions | block algebra / case analysis on spin |
| C16, C17 | all W overloads | push-through identity |
| C18 | lattice_dyson_* | matrix algebra, conjugate-transpose of inverse |
| C19, C20 | DFT over Z_n x Z_m x Z_l with primitive roots | orthogonality of characters, convolution theorem |
| C21, C22 | both overloads of fock_sigma / hartree_sigma | convolution theorem; refutations; conditional theorems |
| C23 | split/add | ring |
| C24, C25 | eliashberg_product (sum, FFT constant) | bigop linearity; convolution theorem |
| C26 | construct_gamma_*_rpa | singlet refuted against documentation, triplet proved |
| C27 | allclose_by_scalar_multiplication (with exact-zero tolerance) | soundness refuted, completeness proved |
| C28, C29 | symmetries.py completely, with a store for gf.copy() and in-place views | loop invariants give closed forms; sequences of requests by a normal form closed under composition; orbital part refuted for norb >= 4, proved for norb <= 3 |
| C30-C33 | all of OperatorUtils.py on operators as finite maps from normal-ordered monomials to coefficients; multiplication normal orders | left multiplication is shown to satisfy the anticommutation relations, operators are compared through linear functionals on monomials, loops by cell-wise induction |
| C34 | solve_iter as a fuel-free loop over an iteration counter | induction on nitermax |
| C35 | update_* energies | ring; refutation |
| C36 | mat2vec / vec2mat | index bookkeeping |
| C37, C38 | ParameterCollection(s) with an explicit heap | induction over operation lists; refutation for shared default |
| C39, C40 | Timer state machine | induction over call sequences; refutation for exceptions |
| C41 | parser of hr.dat as function from token lines | round trip with a printer; the words of every line and every written integer or decimal, with sign and exponent, are read as their positional value (`WannierTextThms.v`, used by C69-C71 as well) |
| C42 | create_square_lattice | hopping dictionary; refutation for complex t, proof for real t |
| C43 | window slices | list lemmas |
| C44 | specific-w solver | pointwise equality |
| C45 | imtime bubble two paths | exchange of linear maps |
| C46, C47 | freq_conv (C46 also get_magnetic_component: the S_z correlation of the assembled function, and the exchange component for blocks that do not depend on the spin direction) | index bookkeeping |
| C48 | fitdlr symmetrizers | refutation for no >= 4, round trip |
| C49 | fermi branches | field, with exp abstract |
| C50 | Lindhard kernel | algebra |
| C51 | construct_phi_wk | contraction formula, push-through identity |
| C52 | _fourier_impl in both directions with the three-pole tail | orthogonality of roots of unity; slots of the mesh are injective |
| C53 | fit_derivatives | divided differences of monomials against the Vandermonde rows |
| C54 | lattice_dyson_g_fk | resolvent identity: quadratic form of the spectral function is delta times a squared norm |
| C55 | gw_sigma with oracle time transforms and tail fit | linearity and the convolution theorem; counterexample on three momenta for odd interactions |
| C56 | gw_sigma, gw_dynamic_sigma | convolution theorem for three-dimensional finite Fourier transforms, linearity of the time transforms |
| C57 | static g0w_sigma at a mesh momentum | collapse of the orbital sums |
| C58 | eliashberg_g_delta_g_product, eliashberg_product | bigop reindexing; header formula shown to be the same map on the transposed gap |
| C59 | eliashberg_product_fft, eliashberg_product_fft_constant with oracle time transforms | convolution theorem and linearity of the transforms |
| C60 | eliashberg_product | reindexing of the momentum sum |
| C61 | the size checks of eliashberg_product | linear arithmetic; the exact set of accepted meshes is also proved |
| C62 | the slices of both branches | index arithmetic; counterexample for the slow order |
| C63 | get_rpa_tensor on the operators of OperatorModel.v; the Hamiltonian is built from library operators in KanamoriSpec.v | Every term of the Hamiltonian is a signed word, the combination read off by get_rpa_tensor is evaluated on words, sums over orbitals collapse, then all spin and orbital cases. Proved with spin flip J and pair hopping Jp, and for no other strengths; the documented strengths are refuted. |
| C64 | relabel_operators on the operators of OperatorModel.v; a to_list shorter than from_list (IndexError) is not modelled | Substitution lemmas of C33 with one-term substitutions |
| C65 | is_operator_composed_of_only_fundamental_operators, None for the ValueError of unpacking an empty zip | Direct for operators without constant term; refuted for those with one |
| C66 | HfModel: update_mean_field, update_momentum_density_matrix, update_density_matrix; np_eigh and np.exp are parameters with their specification as hypothesis | C66_mean_field_derivative, C66_second_order, C66_mean_field_hermitian, C66_density_matrix, C66_stationary_state |
| C67 | HfModel: update_chemical_potential, with brentq specified by: a returned value is a root, equal signs at both ends raise | Filling of a found chemical potential proved (C67_filling); the existence part is false without bounds: C67_default_interval_refuted; with bounds the fillings between those at the bounds are found within the bounds and others raise (HfBoundsThms: C67_bounds, C67_bounds_raise, C67_default_bounds; C67_bounds_case) |
| C68 | TimerModel: stop, write | False: C68_failed_stop (what happens), C68_failed_stop_refuted, C68_negative_time_refuted |
| C69 | text parsers on strings, decimals in Q (WannierModel) | list reasoning; refutation for the reciprocal vectors |
| C70 | text parser with the eight-character field, Cramer's rule in Q (WannierModel) | field identity; refutations for a single orbital and for longer numbers |
| C71 | text parser on strings (WannierModel) | induction over the bands |
| C72 | from_3nu_PH, from_3nu_PH_bar, from_3nu_PP on Matsubara integers | documented frequencies as a table; refuted for PP |
| C73 | from_3nu with chi0/chi_from_gg2 in PH and PP | algebra with Kronecker deltas; PP refuted for from_3nu_PP |
| C74 | RetimeModel.g0_Tk_les_gtr_from_e_k (eigenvalue solver, exp and Fermi function are parameters with the laws they satisfy) | functional calculus of Hermitian matrices (RetimeThms) |
| C75 | RetimeModel.chi0_Tr_from_g_Tr_PH; the evaluation g(T.index(), -r) is read as the value at the time point T | C75_bubble gives the exact value for every dispersion; C75_documented_partial: minus the documented formula under time reversal; C75_documented_refuted: two k points, +1/3 against -1/3 |
| C76 | GwSolverModel.solve_iter with the self-energies, polarization, screened interaction, Dyson equation and density as parameters | C76_trace and C76_dyson, C76_fixed_point, C76_converged, C76_resume by induction over the iterations; C76_case is a run of five steps |
| C77 | GwSolverModel.dyson_equation, the root finder is an oracle with the guarantee of scipy: a root within xtol + rtol times its size | C77_filling: the chemical potential is within that distance of one with the density asked for; C77_density_partial: the error of the density for a given compressibility; C77_density_refuted: no bound by N_tol; C77_zero_refuted: N_fix=0 is ignored |
| C78 | GwChainModel.bubble_PI_wk, polarization on ImtimeModel | C78_documented: bubble_PI_wk is its documented formula; C78_agree_partial: the polarization is minus that from two positive frequencies on, C78_one_frequency below; C78_agree_refuted: +1 against -1 |
| C79 | GwChainModel.screened_interaction, susceptibiltiy, dynamic_part on RpaModel | C79_susceptibility and C79_spinless, with uniqueness |
| C80 | GwChainModel.get_gw_tensor on OperatorModel | C80_interaction, C80_elements; C80_antisymmetrized_refuted: U n_1 n_2 gives V_1122 = U and V_1221 = 0 |
| C81 | HfResponseModel.HartreeFockResponse, response, bare_response on RpaModel.rpa_point and HfModel.update_mean_field | C81_response, C81_symmetric, C81_free; C81_case: every Kanamori interaction up to a factor meets the hypothesis |
| C82 | HfResponseModel.compute_drho_k_dop, compute_R_kabcd, compute_chi0_kabcd, compute_chi0_abcd | C82_symmetric_fields, C82_antisymmetric_fields_iff, C82_time_reversal_partial, C82_hermitian, C82_gauge; C82_complex, C82_complex_refuted (two-level system 1 + sigma_y), C82_step_size_refuted, C82_chi0_k_refuted |
| C83 | HfResponseModel.HartreeResponse, response_hartree, extract_dens_dens | C83_hartree, C83_diagonal_only, C83_same_bare; C83_case |
| C84 | PowerModel.iteration, power_loop, power_method, power_method_LR, over the complex numbers (no rounding; a division by zero is an exception, as all comparisons with nan fail and the loop ends by raising) | C84_residual_partial (what every result satisfies), C84_bounded_below (the result is an eigenpair within tolerance when no eigenvalue lies below minus the value of the first stage), C84_positive_eigenvector; C84_negative_eigenvector_refuted (always raises), C84_sign_refuted (for every tolerance up to 1/10: positive result for the matrix diag(-1, -10)). Missing: convergence to the largest eigenvalue (false for start vectors without a component along it) |
| C85 | PowerModel.solve_eliashberg, choose_product, matvec, implicitly_restarted_arnoldi_method, with scipy eigs as a parameter; the products of EliashbergModel | C85_iram_modes, C85_symmetrized, C85_power_mode, C85_product_independent, C85_documented_equation, C85_static_products_agree, C85_direct_scales, C85_names; C85_complex_refuted, C85_small_vertex_refuted; C85_documented_equation_case |
| C86 | PowerModel.preprocess_gamma_for_fft (types of constants as an inductive type), semi_random_initial_delta (random numbers as parameters) | C86_lossless, C86_given_constant, C86_start_vector, C86_start_fraction; C86_other_number_refuted, C86_dlr_refuted, C86_imaginary_refuted; C86_lossless_case, C86_start_vector_case |
| C87 | DlrConstraintModel.positivity_constraints, discontinuity_constraints, satisfies, norm_res, triqs_driver, pydlr_driver, eval_dlr_tau; kernels as functions with the properties of the exponential kernel that are used; not the minimizer | C87_discontinuity, C87_jump_triqs, C87_jump_pydlr, C87_residual, C87_block_diagonal, C87_positivity_sum; C87_positivity_triqs_refuted, C87_positivity_pydlr, C87_positivity_pydlr_refuted; C87_case |
| C88 | DlrConstraintModel.density_constraint, density_lhs, mat_vec; HfModel.update_mean_field | C88_density_partial (at most three orbitals), C88_triqs_quantities, C88_pydlr_quantities, C88_solution, C88_hartree_fock; C88_four_orbitals_refuted; C88_case (half-filled atom) |
| C89 | HubbardAtomModel.single_particle_greens_function, hubbard_Z, hubbard_m2, chi_m_static; exp is a parameter with exp 0 = 1, exp (-x) = 1 / exp x and positive real values | C89_lehmann, C89_moment, C89_static against the four states of the atom (energy, weight, annihilates, thermal); C89_case (beta U / 2 with weight 2) |
| C90 | HubbardAtomModel.chi_ph_magnetic and its parts cA ... chi_b2 at all Matsubara frequencies; the Matsubara sums of 1/(U^2/4 - nu^2) (tanh) and of its square are hypotheses | C90_ward and C90_static for exp (beta U / 2) >= 3, C90_ward_refuted below; limits of window sums in MatsubaraSum |
| C91 | HubbardAtomModel.gamma_ph_magnetic, gamma_a0, gamma_b0, gamma_D, chi0_m; hypotheses: the three Matsubara sums (tanh, its derivative, tan) | C91_bethe_salpeter for exp (beta U / 2) >= 3 (lemmas inner_sum, residual, sector, bse); C91_bethe_salpeter_refuted below |
| C92 | G0wModel: g0w_fermi, g0w_bose, W_spec, kernel, g0w_value, g0w_dynamic_sigma (None when a term divides by zero), g0w_static_sigma, g0w_total_sigma; exp positive and increasing on the reals | C92_finite, C92_zero_frequency_refuted, C92_gauge, C92_static, C92_causal (Schur product by eigenvector scaling), C92_matsubara (hypotheses: the Matsubara sums of simple poles); C92_case |
| C93 | ContractionModel.chi_contraction (arrays with shapes, None for the ValueError), with solve_rpa_PH of RpaModel and the spin functions of RpaTensorModel | C93_response, C93_wrong_shape, C93_basis (RPA conjugated by the two-index change of basis), C93_spin, C93_charge, C93_no_mixing, C93_rpa_spin; C93_case, C93_basis_case |
| C94 | HfNewtonModel (fsolve as an arbitrary strategy of questions; each question changes the solver) | C94_newton (when the returned root is the last point evaluated), C94_newton_mu (any root), C94_expectation, C94_last_question_refuted; C94_case |
| C95 | KgridModel (scipy interpolators, numpy round and exp(ix) as parameters with their documented properties) | C95_relative, C95_index, C95_dispersion, C95_components, C95_rel_interpolator, C95_abs_interpolator, C95_fourier_cpp, C95_fourier (the value is chi(-k)), C95_fourier_even (exactly when it is chi(k)), C95_fourier_refuted, C95_numpy_refuted; C95_case |
| C96 | VaspModel (files as lists of numeric rows, np.unique, np.rint with its property, mesh coordinates of KgridModel) | C96_read, C96_mesh, C96_interaction; C96_one_row_refuted, C96_numpy_refuted, C96_missing_refuted, C96_far_face_refuted; C96_case |
| C97 | GfShapeModel (Matsubara meshes by index, C-order reshape of KgridModel, fit of one function a parameter that sees only its nw values) | C97_put, C97_put_error, C97_strip, C97_strip_beta, C97_tensor_matrix, C97_tensor_error, C97_matrix_tensor, C97_matrix_error, C97_round_trip, C97_pade; C97_statistic_refuted, C97_beta_refuted; C97_case, C97_pade_case |
| C98 | GwOutputModel on top of GwSolverModel (attributes that may be missing; __dict__ as a list of names and values; Pade and Fourier transforms parameters) | C98_report, C98_real_freq_error, C98_real_space_error, C98_static, C98_storage; C98_stale_refuted; C98_case, C98_storage_case |
| C99 | ParamTextModel (values as trees, texts as lists of lines, archive as booleans turned to numpy's, attribute lookup with a recursion limit, argsort a parameter with its property) | C99_leaves, C99_lines, C99_sorted, C99_order, C99_cut, C99_archive, C99_vector, C99_sort, C99_sort_error; C99_multiline_refuted, C99_archive_refuted, C99_shadow_refuted, C99_objects_refuted, C99_copy_refuted; C99_case, C99_sort_case |
| C100 | GwFullModel (GwSolverModel with the concrete steps of the chain: density matrix, Hartree, Fock, imaginary-time bubble, screened interaction, GW self-energy, Dyson equation) | C100_rotated (tolerance never met), C100_start, C100_relabelled (permutations, any tolerance); C100_case. The bracket handed to the root search is the same in both; the default bracket is read off the matrix elements of e_k and depends on the basis, as does the entrywise stopping criterion |
| C101 | GwFullModel at nb and 2 nb orbitals | C101_spinless, C101_start, C101_hartree, C101_opposite, C101_half; C101_case, C101_hartree_case. The screened interaction by the push-through identity, also for singular matrices |
| C102 | GwFullModel | C102_hermitian, C102_start; C102_case. The transforms between time and frequency are oracles that map functions with f(-iw) = f(iw)^+ to functions Hermitian at every time and back |
| C103 | GwFullModel | C103_symmetric, C103_start; C103_inversion and C103_exchange show that these are operations of the lattice; C103_case |
| C104 | LindhardModel, RpaModel | C104_lindhard, C104_rpa, C104_charge (both together), C104_static; C104_case. Spectral.v proves the spectral theorem, so that C50_eigensolver_exists shows that the assumed eigenvalue routine exists for every number of orbitals |
| C105 | EliashbergModel, PowerModel | C105_real, C105_returned, C105_returned_fft; C105_two_orbitals (the limit of the claim), C105_case |
| C106 | LindhardModel, RpaModel | C106_lindhard_basis, C106_rpa_basis, C106_basis, C106_rpa_exchange, C106_rpa_conj, C106_symmetric; C106_case |
| C107 | LindhardModel, RpaModel | C107_lindhard, C107_reduced, C107_enhanced, C107_stoner, C107_static (all together); C107_case. Uses the spectral theorem of Spectral.v |
| C108 | RpaTensorModel, RpaModel, LindhardModel | C108_su2, C108_rpa, C108_lindhard, C108_kanamori_spin, C108_orbital, C108_magnetism (all together); C108_case |
| C109 | HfModel | C109_history, C109_result, C109_symmetry, C109_fixed_number (tolerance zero: equally many iterations, or both raise), C109_iterations_refuted; C109_eigh_exists |
| C110 | LindhardModel, RpaModel | C110_positive, C110_decreasing, C110_static, C110_rpa; C110_case (the response z becomes z / (1 + u z)), C110_levels_case |
| C111 | HfModel, GwFullModel, LindhardModel, GwBracketModel (default of mu_bracket) | C111_hartree_fock, C111_energies, C111_packing (both solvers), C111_gw, C111_gw_start, C111_lindhard, C111_bracket_refuted; C111_case, C111_bracket_case |
| C112 | BseModel, ImtimeModel, BubbleModel, FourierModel | C112_bse, C112_vertex, C112_dual (real changes of basis), C112_hermitian, C112_exchange (bubble at all frequencies, full susceptibility at frequency zero), C112_exchange_refuted, C112_dual_refuted; C112_case |
| C113 | HfModel, GwFullModel, GwSolverModel, BseModel, RpaModel, LindhardModel, EliashbergModel | C113_hartree_fock, C113_energies, C113_gw, C113_gw_start, C113_bse, C113_vertex, C113_dual, C113_rpa, C113_screened, C113_pairing_vertex, C113_eliashberg, C113_eliashberg_fft, C113_lindhard (energies not close to the tolerance), C113_lindhard_refuted; C113_case, C113_transforms_case, C113_lindhard_case. The GW run needs invertible Dyson equations at every real chemical potential |
| C114 | UtilitiesModel: names, a file system of HDF5 and tar files, numpy broadcasting in the assignment of the blocks | C114_round_trip (at the part of the name before the first dot followed by .tar.gz), C114_same_name (exactly the names with one such part), C114_other_files, C114_h5_refuted, C114_names_refuted, C114_blocks, C114_blocks_refuted, C114_temperature; C114_case |
| C115 | GwFullModel (the solver with its steps) with two numbers of orbitals; transforms given by their action on the elements, where diagonal elements may be treated differently | GwRel3 (runs related where the inverses exist; runs stopped by a tolerance), DecoupleThms: block matrices commute with a projector, so do their inverses; C115_gw_subset, C115_gw_start, C115_particles; C115_two_levels_case |
| C116 | GwFullModel on two momentum meshes; the roots of unity of the smaller mesh are powers of the ones of the larger | SublatticeProofs (sums over residue classes, transforms of periodic functions), SublatticeThms: C116_gw_sublattice, C116_gw_start, C116_planes; C116_chain_case |
| C117 | BseModel, RpaModel, LinalgModel | DecoupleBseThms (block structure of the particle-hole matrices, C115 and C116 lemmas): C117_rpa, C117_bse, C117_dual, C117_vertex, C117_sublattice; C117_case |
| C118 | GwFullModel (complete solver), oracles for the transforms and the root search with the hypotheses in libraries_ok | simulation of the two runs (GwRel solve_iter_rel), transposition of the pair matrices with exchanged pairs commutes with the screening (GwReversalThms.v) |
| C119 | HfModel; np_eigh and brentq by hypotheses | simulation of the two runs through the packed vectors (norms of packed conjugates agree), functions of conjugate matrices do not depend on the eigenvectors chosen; with C109 for a unitary matrix times conjugation (HfReversalThms.v) |
| C120 | `update_mean_field`, `update_chemical_potential`, `update_density_matrix`, `density_matrix_step`, `solve_iter` and `update_total_energy` of `HfModel.v`; eigh, brentq, exp and log are arguments. | The transform of a dispersion has the opposite eigenvalues and the conjugate eigenvectors, so any matrix function of it is known (`function_hole`). The filling is strictly increasing in mu, so a root of the transformed target is the opposite of the root of the original. Induction on the iterations (`C120_history`, `C120_result`); `C120_step` at a given mu; `C120_potential`; `C120_half` by relating a run to itself. Two runs may stop at different iterations because the convergence test is relative to the norm of the density matrix; they agree as long as both go on. |
| C121 | CompatModel: is_numpy_newer_than (StrictVersion of the standard library of Python on strings), np_linalg_func, np_eigvalsh, np_eigh on arrays with shapes; the functions of numpy are parameters, the stacked ones with their documented effect as hypothesis; data types are not modelled | C121_inverse and C121_singular for every shape; C121_eigvalsh_partial without axes of length one, C121_eigh_partial for three axes; C121_version; refuted otherwise: C121_one_point_refuted, C121_one_orbital_refuted, C121_eigh_refuted, C121_candidate_refuted; C121_case |
| C122 | LindhardModel; the eigenvalue routine by its specification | decompositions of the transformed matrices by those of the original one, functions of a matrix do not depend on the eigenvectors chosen (lemmas of C50); matrices that commute with a matrix commute with its functions (LindhardSymThms.v: C122_reversal, C122_no_field, C122_hole, C122_hole_symmetric, C122_hole_exchange, C122_origin, C122_selection; C122_case, C122_separated_case) |
| C123 | RpaModel and LindhardModel; the inverse of a singular matrix is left as it is | transposition and exchange of pairs turn the RPA equation into the one with the factors in the opposite order, which has the same solution (push-through); with C122 and C106 (RpaReversalThms.v: C123_rpa, C123_reversal, C123_hole, C123_no_field, C123_half; C123_case) |
| C124 | HfModel | a sign for the orbitals of one label is a unitary symmetry of the Hamiltonian, which C109 carries to the solution; taken for every label this excludes all elements between labels (HfConserveThms.v: C124_conserved; C124_case) |
| C125 | ImpBubbleModel (chi0_tau_from_g_tau_PH) and ImtimeModel; beta - tau is taken as a point of the mesh, its rounding is not modelled | the response is the trace of X^+ A X B with A and B positive, nonnegative by the spectral theorem; the trapezoidal weights are symmetric and nonnegative (ImpBubbleThms.v: C125_reflection, C125_hermitian, C125_positive, C125_lattice_reflection, C125_local, C125_static_reflection, C125_static_positive; C125_case, C125_lattice_case) |

## 4. Findings

Where the code does not do what its documentation or its sibling routine says. Each has a theorem with a witness.

* C09: `chi0_n_from_e_k_sigma_w_PH` omits the bosonic frequency in the second propagator (chi_imfreq.cpp 308); it agrees with
  the bubble built from g only at zero bosonic frequency.
* C10: `solve_rpa_PH` pairs the orbital indices in the same order in both factors; with the particle-hole grouping of the
  two-particle algebra the same equation holds only for interactions invariant under exchange inside both pairs.
* C21, C55: the real-space overloads of the Fock self energy convolve over k-q, the momentum-space one correlates over k+q; they
  agree for interactions even in the momentum. The documentation of `gw_sigma` prints W_abcd where W_acdb is
  contracted.
* C22: the two Hartree overloads agree only for interactions that do not depend on the momentum.
* C26: `construct_gamma_singlet_rpa` adds the density ladder, the documentation subtracts it.
* C27: `allclose_by_scalar_multiplication` filters both vectors separately and lets numpy broadcast; orthogonal vectors pass.
* C44: at zero frequency the trapezoidal rule of the specific-w solver differs from the sum.
* C58: header of `eliashberg_product` prints G_ce G_df, computed is G_cf G_de.
* C61: the size check of `eliashberg_product` rejects the smallest sufficient mesh.
* C28: `_symmetrize_orbital` pairs the row-major lists of the upper and of the lower triangle; from four orbitals on the
  pairs are not transposes. With "odd" it also changes the sign of the result every time it is applied (so it turns an
  antisymmetric function into minus itself).
* C29: `_check_orbital_symmetry` has the same pairing; it also counts a vanishing pair as even, so an odd function with one
  such pair is reported as None. `_check_momentum_symmetry` ignores its atol at k = -k.
* C32: `quartic_pauli_symmetrize` changes the array passed in; `symmetrize_quartic_tensor` is not affected because the permutation symmetrization has made a copy before.
* C62: `lose_spin_degree_of_freedom` with `spin_fast=False` keeps the down block, documented is up.
* C63: `kanamori_quartic_tensor` documents Jp as the strength of pair hopping and spin flip; the spin flip has strength J. The
  printed Hamiltonian, with "h.c." inside the sum over ordered pairs, counts every exchange term twice.
* C64: `relabel_operators` does not rename the adjoint of a listed operator.
* C65: `is_operator_composed_of_only_fundamental_operators` raises ValueError for an operator with a constant term.
* C34: `HartreeFockSolver.solve_iter` returns the history of packed densities where the docstring promises the 2D density matrix.
* C35: `update_interaction_energy` is minus the mean interaction energy, so `E_tot` is off by twice that energy; `Omega` is right.
* C67: without mu_min and mu_max the chemical potential is searched in [e.min, e.max]; fillings within 1/(2 n_k) of empty or
  full have no root there and brentq raises. With one momentum that is every filling below 1/2 and above n - 1/2.
* C39: a timer named 'Other' at the outermost level is overwritten by the remainder row of `Timer.write`; its own time is lost
  from the report and the column no longer adds up.
* C40: the decorator `timer` has no try/finally around the method; after an exception its timer stays running.
* C68: `Timer.stop` pops the innermost timer before it compares the names.
* C37: `ParameterCollection.alter`, `copy` and `parameter_scan` raise when a parameter is called self, dict or copy, the scan also
  when a scanned parameter is called p.
* C38: `ParameterCollections()` uses a shared default list; objects made without argument share their contents.
* C41: `parse_hopping_from_wannier90_hr_dat` fails on a file with one orbital and one R-point (np.loadtxt squeezes the array).
* C69: `parse_reciprocal_lattice_vectors_from_wannier90_wout` returns an empty list for a file without the section, the
  parser of the lattice vectors raises IOError there.
* C70: `parse_orbital_positions_from_wannier90_wout` reads the coordinates as text of at most eight characters: the last digit of
  a negative coordinate is lost (-1.000001 is read as -1.00000). A single orbital raises IndexError. The list of tuples
  returned by the lattice-vector parser cannot be passed on (it has no attribute T), although the docstring asks for it.
* C71: a band file with one band and one point raises.
* C42: `create_square_lattice` documents complex t, tp and zeeman; the Hamiltonian is Hermitian exactly when they are real.
* C43: `fixed_fermionic_window_python_wnk` has no size check; a window one larger than the mesh selects a slice of length one,
  which numpy repeats over all frequencies. `impurity_irreducible_vertex_Gamma` documents the reducible vertex F and
  returns the irreducible one.
* C72/C73: `from_3nu_PP` (freq_conv.cpp, `g2(n, np, w - np)`) reads the third frequency omega - nu', while doc/theory/vertex.rst documents
  omega - nu for PP and (nu, omega - nu', omega - nu) for PPx. The result is none of the documented parametrizations unless nu = nu'. chi_from_gg2_PP and
  chi0_from_gg2_PP are consistent with PPx only: for uncorrelated particles chi = chi0 holds there, not with from_3nu_PP.
* C48: fitdlr.py `Symmetrizer.set_x_u` writes the conjugates of the elements listed by `np.triu_indices` to the positions listed by `np.tril_indices`. Both
  lists are row-major, so from four orbitals on they are not each other's transposes and the matrices are not Hermitian. `BlockSymmetrizer.set_x_u` reshapes to
  (nx, no (no - 1) / 2) and the fit splits the vector at nx * no, so a label matrix with equal labels and any off-diagonal label always raises.
* C50: lindhard_chi00.cpp sums `Uk(a,i) Uk+(i,d) Ukq(c,j) Ukq+(j,b)` over (f_k - f_kq) / (w + e_kq - e_k). The bubble that its documentation states first,
  the Fourier transform of - G_da(tau,r) G_bc(-tau,-r), has G_da at k+q and G_bc at k. Both agree only if e(-k) is the transpose of e(k), i.e. for
  time-reversal symmetric dispersions. Without this symmetry (for example one band with e(k) <> e(-k)) the function is the one at inverted momentum.
* C75: chi0_Tr_from_g_Tr_PH has the opposite overall sign of its documentation, and agrees in its indices only with time-reversal symmetry: conj(g(T,-r)(b,c)) is -g(-T,r)(c,b).
* C77: `GWSolver` passes `N_tol` to the root finder as the relative tolerance of the chemical potential, so it does not bound the error
  of the density; `N_fix=0` is treated as not given.
* C78: `bubble_PI_wk` is documented as the polarization and has the opposite sign of `GWSolver.polarization`; both are passed to
  `dynamical_screened_interaction_W`, with the first a repulsion is enhanced instead of screened.
* C80: `get_gw_tensor` is documented as antisymmetrized; it is symmetric under exchange of the densities only.
* C81: `response(op1, op2)` belongs to the transposes of the two matrices; for complex Hermitian operators this is the complex conjugate operator.
* C82: the argument `eps` of `HartreeFockResponse` and `HartreeResponse` is not passed on, the step size is always 1e-9; `compute_chi0_k` reads an attribute
  whose assignment is commented out and always raises; `0.5 * (R_r + R_i.imag)` takes R_i to be imaginary, which holds for time-reversal symmetric bands only.
* C84: `power_method_LR` finds a negative leading eigenvalue by shifting with the (rounded) result of the first stage. An exact eigenvector of a
  negative eigenvalue is mapped to zero by the shift, so that the method divides by zero and raises (C84_negative_eigenvector_refuted). When the first
  stage stops at an eigenvalue that is not the one of largest modulus, the second stage can return a number of the wrong sign: the acceptance test
  |v + v'| <= tol accepts opposite vectors but the value is computed as if they were equal (C84_sign_refuted).
* C85: the eigenvalues of `eigs` are returned as real parts (C85_complex_refuted); `np.allclose(Gamma_pp_dyn_tr.data, 0)` is an absolute test, so a
  weak dynamic vertex is dropped (C85_small_vertex_refuted).
* C86: `type(Gamma_pp_const_k) == float` ignores integers, complex numbers and numpy scalars (C86_other_number_refuted); on a DLR mesh a float or an
  array raises and the documented fit is not done (C86_dlr_refuted); for a purely imaginary Green function the start vector is zero
  (C86_imaginary_refuted).
* C87: fitdlr.py's positivity option does not impose spectral positivity. It bounds the sum over all coefficients by zero. With the TRIQS driver (bound +1) this contradicts the discontinuity constraint, so no fit exists. With pydlr (bound -1) it is implied by it. The docstring also says the option is on by default; it is off.
* C88: from four orbitals on the density constraint leaves the lower triangle of the matrix equation free, because the packing is not Hermitian (C48).
* C90, C91: `hubbard_atom.cpp` computes `B = i U/2 sqrt(|3 - exp(beta U/2)| / (1 + exp(beta U/2)))`. For `exp(beta U/2) < 3` the square of the constant should be positive, and the absolute value gives it the wrong sign. The susceptibility then violates spin conservation and the vertex violates the Bethe-Salpeter equation with it. All tests use `beta U >= 10`. The Matsubara sums used (tanh, its derivative, tan) are hypotheses of the theorems, stated as limits of symmetric windows; they are classical identities of the real exponential but are not proved here and no instance of them is constructed.
* C92: `g0w_dynamic_sigma` evaluates `bose(f' * beta) = 1/(exp(f' beta) - 1)` at every mesh point; a real frequency mesh with a point at 0 (every symmetric MeshReFreq with an odd number of points, such as 101 points on [-5,5]) makes every entry inf or nan (C92_zero_frequency_refuted). The weight of W vanishes there physically, so dropping that term would repair it.
* C94: `solve_newton` keeps the chemical potential of the last point at which `fsolve` evaluated its target, which need not be the returned root (a rejected trial step); the final `density_matrix_step` does not adjust it, so the density can differ from the target. `E_tot` and `Omega` are computed before that step. The convergence flag of `fsolve` is ignored.
* C95: `cluster_mesh_fourier_interpolation` (python and C++) transforms with exp(-ikr), the lattice transforms of the library with exp(+ikr): at mesh momenta it returns chi(-k). Both agree exactly when chi(r) is even. `extend_data_on_boundary` uses `np.float`, removed in numpy 1.24.
* C96: the VASP reader drops files with one row, so a one-orbital calculation with one momentum per file cannot be read; momenta missing in the files give a zero interaction at their mesh point and momenta at +1 are not folded back, both silently; `np.float` and `np.complex` were removed in numpy 1.24; the momenta of the three file sets are not compared.
* C97: `put_gf_on_mesh` checks only that the new mesh is not longer; a mesh of the other statistic or another temperature is filled by index, so the values sit at wrong frequencies without an error. By reading (not modelled): `bubble_setup` uses the undefined name `sigma` on its third statement and `chi0_w0k_tau_bubble` deletes the undefined name `grt`, so both always raise NameError.
* C98: `GWSolver.calc_real_freq` needs `sigma_hartree_k` and `sigma_fock_k` and raises AttributeError unless both terms were computed; after a second `solve_iter(gw=False)` it returns `P`, `W`, `chi`, `W_dyn` of the first call.
* C99: `ParameterCollections.__getattr__` reads `self.objects`; on an instance without `objects` (made by `copy.copy`, `copy.deepcopy`, `pickle.loads`) it calls itself until RecursionError. `next(ps)` always fails because lists have no `__next__` (by reading). Nested values of several lines print with the collection name before every line.
* C101: solve_iter(spinless=True) doubles the polarization in W but not the density in the Hartree self-energy. For an interaction between all spins the Hartree term of the spinless run is half the correct one (C101_half, C101_hartree_case); it is right only when like spins do not interact (C101_opposite), which in turn is not the interaction the doubled polarization stands for. With hartree=True, gw=True and more than an on-site one-orbital U the two are inconsistent. The test of the dimer adds U/2 by hand to the spinful result.
* C105: `Es = Es.real` (`eliashberg.py:333`) drops imaginary parts silently. `C105_two_orbitals` gives two orbitals with levels -2 and 1, a real static crossing symmetric Hermitian vertex and the eigenvalue -i, for which 0 is returned. For degenerate orbitals nothing is lost (`C105_real`).
* C109: `solve_iter` measures convergence by the norm of the packed vector (diagonal and upper triangle); off-diagonal elements count half as much as in the norm of the matrix, so the stopping point depends on the orbital basis.
* C111: the default `mu_bracket` of `GWSolver` is the minimum and maximum of the real parts of all matrix elements of `e_k`, including those between different orbitals, not of the levels. For the dispersion with all elements 1 (levels 0 and 2) it is the point 1, so that every particle number but one raises; shifted by -1 it is the interval from 0 to 1.
* C112: solve_lattice_bse uses the same window of fermionic frequencies for every transferred frequency w, centred at zero, while the bubble is g(n) g(n + w). The susceptibility is therefore truncated differently at w and -w and the exchange symmetry chi_abcd(k, w) = chi_cdab(-k, -w) holds exactly at w = 0 only (`C112_exchange_refuted`).
* C112: solve_lattice_dbse contracts the same triangle vertex L from both sides. It is covariant under real changes of the orbital basis (`C112_dual`) and not under complex ones (`C112_dual_refuted`), unless L is brought to the basis separately on the two sides.
* C113: the tolerance of lindhard_chi00 is an absolute energy (1e-10). A static Lindhard function of levels closer than the tolerance changes when all energies are expressed in another unit (C113_lindhard_refuted). The step 1e-9 of the numerical derivative in hf_response.py is an absolute energy too.
* C114: utilities.py `write_TarGZ_HDFArchive` takes `filename.split('.')[0]`. Names that differ after the first dot collide, a path that begins with a dot is written to `.tar.gz` in the working directory, and an existing `.h5` file with the same stem is deleted. `BlockGf_data` broadcasts blocks of different sizes instead of raising an error.
* C121: the fallbacks of numpy_compat.py (numpy up to and including 1.8.0) differ from the documented behaviour: np_eigvalsh squeezes its output and raises for one point with several orbitals (C121_one_point_refuted) or loses the orbital axis (C121_one_orbital_refuted), np_eigh raises unless the array has three axes (C121_eigh_refuted). The documentation promises the behaviour for numpy >= 1.8.0, but 1.8.0 itself takes the fallback (C121_same_version). With a release candidate of numpy every call raises ValueError in StrictVersion (C121_candidate_refuted).

## 5. Assumptions

`Print Assumptions` at the end of every file with theorems prints, for all theorems except those of FermiThms.v, "Closed under the global context"
(where a section has oracles, they are quantified in the theorem). FermiThms.v (C49) uses the real numbers of the standard library and depends on its axioms
`ClassicalDedekindReals.sig_not_dec`, `ClassicalDedekindReals.sig_forall_dec`, `FunctionalExtensionality.functional_extensionality_dep` and (through Coquelicot's
derivatives) `Classical_Prop.classic`. There are no axioms of this development.

Trusted besides the kernel: that the definitions in the `*Model.v` files follow the cited lines. What they leave out:

* floating point: numbers are elements of an arbitrary numeric (closed) field, of Q for decimals of text files, or reals; comparisons with a tolerance are
  modelled where the result depends on them (near-zero tests, `tol`), rounding is not.
* library code of TRIQS, nda, numpy, scipy, LAPACK: Fourier transforms, eigenvalue solvers, root finders, minimizers, exp and cosh are functions with the
  properties stated in the hypotheses of the theorems (oracles); the operator algebra of TRIQS, its meshes, parameters, TBLattice dispersions and
  numpy's indexing are modelled from their documentation.
* values outside of meshes (tails, interpolation) are oracles or excluded by hypotheses; overloads for DLR meshes that only differ by the mesh are not repeated.
* OpenMP and MPI: the loops are parallel over disjoint elements, a sum over ranks is one sum, unless a property is about the distribution.
* clocks and files: the clock of the timer and the contents of files are inputs.
