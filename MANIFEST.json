{
 "claims": [
  {
   "property": "C01",
   "status": "proved",
   "theorems": [
    "C01_chunks_partition",
    "C01_chunk_sizes_balanced",
    "C01_mpi_map_is_serial",
    "C01_mpi_accumulate_is_serial"
   ],
   "note": ""
  },
  {
   "property": "C02",
   "status": "proved",
   "theorems": [
    "C02_identity_unit",
    "C02_identity_formula"
   ],
   "note": ""
  },
  {
   "property": "C03",
   "status": "proved",
   "theorems": [
    "C03_inverse_two_sided",
    "C03_inverse_involutive",
    "C03_inverse_of_product"
   ],
   "note": ""
  },
  {
   "property": "C04",
   "status": "proved",
   "theorems": [
    "C04_product_formula",
    "C04_product_associative",
    "C04_product_bilinear"
   ],
   "note": ""
  },
  {
   "property": "C05",
   "status": "proved",
   "theorems": [
    "C05_scalar_product"
   ],
   "note": ""
  },
  {
   "property": "C06",
   "status": "proved",
   "theorems": [
    "C06_lattice_bse_solves",
    "C06_local_bse_inverts_lattice_bse",
    "C06_vertex_is_recovered",
    "C06_impurity_route"
   ],
   "note": ""
  },
  {
   "property": "C07",
   "status": "proved",
   "theorems": [
    "C07_dual_bse_is_bse",
    "C07_reciprocal_if_symmetric"
   ],
   "note": "The transposition condition on the triangle vertices is a hypothesis; C07_reciprocal_if_symmetric gives it from the symmetry of bubble and susceptibility."
  },
  {
   "property": "C08",
   "status": "proved",
   "theorems": [
    "C08_zero_vertex_is_bubble",
    "C08_zero_vertex_at_specific_w",
    "C08_zero_vertex_tail_routine",
    "C08_tail_routine"
   ],
   "note": ""
  },
  {
   "property": "C09",
   "status": "partial",
   "theorems": [
    "C09_static_bubble_from_self_energy_partial",
    "C09_bubble_from_self_energy_refuted"
   ],
   "note": "Refuted as stated: chi0_n_from_e_k_sigma_w_PH omits the bosonic frequency in the second propagator (chi_imfreq.cpp 308); the two bubbles differ at every non-zero bosonic frequency. Proved: agreement at zero bosonic frequency."
  },
  {
   "property": "C10",
   "status": "proved",
   "theorems": [
    "C10_rpa_dyson",
    "C10_rpa_zero_interaction",
    "C10_rpa_PH_grouping_if_symmetric",
    "C10_rpa_PH_grouping_refuted",
    "C10_view",
    "C10_no_swapped_view",
    "C10_view_case"
   ],
   "note": ""
  },
  {
   "property": "C11",
   "status": "proved",
   "theorems": [
    "C11_rpa_is_bse_with_constant_vertex"
   ],
   "note": ""
  },
  {
   "property": "C12",
   "status": "proved",
   "theorems": [
    "C12_flattening_round_trip",
    "C12_matrix_rpa_is_tensor_rpa",
    "C12_kanamori_tensors"
   ],
   "note": "For interactions with the pair-exchange symmetry, as stated; the Kanamori tensors are proved to have it and to be reorderings of each other. Any iteration order of python sets."
  },
  {
   "property": "C13",
   "status": "proved",
   "theorems": [
    "C13_spin_charge_decoupling"
   ],
   "note": "Spin as the slow index, the order used by quartic_tensor_from_charge_and_spin."
  },
  {
   "property": "C14",
   "status": "proved",
   "theorems": [
    "C14_split_of_built",
    "C14_built_of_split",
    "C14_built_is_invariant"
   ],
   "note": "Both directions: the second one for every spin-rotation invariant tensor."
  },
  {
   "property": "C15",
   "status": "proved",
   "theorems": [
    "C15_split_of_general",
    "C15_general_of_split",
    "C15_general_is_invariant",
    "C15_rejects_broken_spin"
   ],
   "note": "Both directions, both spin orders, with and without the spin-conservation check; the check rejects tensors that break it."
  },
  {
   "property": "C16",
   "status": "proved",
   "theorems": [
    "C16_W_overloads",
    "C16_mesh_mismatch",
    "C16_W_no_screening"
   ],
   "note": ""
  },
  {
   "property": "C17",
   "status": "proved",
   "theorems": [
    "C17_W_from_susceptibility"
   ],
   "note": ""
  },
  {
   "property": "C18",
   "status": "proved",
   "theorems": [
    "C18_dyson_equation",
    "C18_noninteracting",
    "C18_local_is_average",
    "C18_conjugate_frequency"
   ],
   "note": ""
  },
  {
   "property": "C19",
   "status": "proved",
   "theorems": [
    "C19_lattice_transforms",
    "C19_green_function",
    "C19_bubble"
   ],
   "note": ""
  },
  {
   "property": "C20",
   "status": "proved",
   "theorems": [
    "C20_bubble_real_space_is_momentum_space",
    "C20_sum_over_frequency_and_momentum"
   ],
   "note": ""
  },
  {
   "property": "C21",
   "status": "partial",
   "theorems": [
    "C21_momentum_version",
    "C21_real_space_version",
    "C21_fock_versions_agree_partial",
    "C21_fock_refuted"
   ],
   "note": "Refuted as stated: the real-space version is a convolution over k-q, the momentum version (and its documentation) a correlation over k+q; they differ for any interaction that is not even in the momentum (C21_fock_refuted). Proved for even interactions, and each version is proved equal to its exact formula."
  },
  {
   "property": "C22",
   "status": "partial",
   "theorems": [
    "C22_momentum_version",
    "C22_real_space_version",
    "C22_hartree_versions_agree_partial",
    "C22_hartree_refuted"
   ],
   "note": "Refuted as stated: the momentum version contracts V(q) with rho(k+q), the real-space version V(0) with the local density; they differ for momentum-dependent interactions (C22_hartree_refuted). Proved for momentum-independent interactions, and each version is proved equal to its exact formula."
  },
  {
   "property": "C23",
   "status": "proved",
   "theorems": [
    "C23_split_is_lossless",
    "C23_static_shift"
   ],
   "note": ""
  },
  {
   "property": "C24",
   "status": "proved",
   "theorems": [
    "C24_linear_in_gap",
    "C24_linear_in_vertex",
    "C24_fft_linear_in_gap"
   ],
   "note": "Linearity of the direct sum in gap and vertex, and of the FFT product in the gap for linear time transforms."
  },
  {
   "property": "C25",
   "status": "proved",
   "theorems": [
    "C25_sum_is_fft"
   ],
   "note": "Direct sum against the constant-vertex FFT routine, under the stated evaluation of the time transform at tau = 0."
  },
  {
   "property": "C26",
   "status": "partial",
   "theorems": [
    "C26_triplet_documented",
    "C26_singlet_sign",
    "C26_singlet_partial",
    "C26_singlet_refuted"
   ],
   "note": "Refuted as stated: the singlet vertex has the opposite sign of the density ladder in the documentation. The triplet vertex is proved; the singlet one equals the documented formula exactly where the density ladder vanishes."
  },
  {
   "property": "C27",
   "status": "partial",
   "theorems": [
    "C27_proportional_accepted_partial",
    "C27_accepted_is_proportional_partial",
    "C27_orthogonal_refuted",
    "C27_broadcast_refuted",
    "C27_proportional_refuted",
    "C27_empty_exception"
   ],
   "note": "Refuted as stated: orthogonal vectors are accepted, proportional ones may be rejected, and vectors of numerical zeros raise an exception. Proved both ways for vectors whose vanishing entries agree, respectively without vanishing entries."
  },
  {
   "property": "C28",
   "status": "partial",
   "theorems": [
    "C28_call_succeeds",
    "C28_invalid_call_refused",
    "C28_frequency_symmetric",
    "C28_momentum_symmetric",
    "C28_orbital_symmetric_partial",
    "C28_applied_twice",
    "C28_idempotent_partial",
    "C28_keeps_symmetric_functions",
    "C28_orbital_refuted",
    "C28_idempotent_refuted"
   ],
   "note": "Proved in full: validation, input left unchanged, frequency and momentum symmetry for every request list. Refuted as stated: for four or more orbitals the orbital part is not symmetric (C28_orbital_refuted), and an odd orbital request changes the sign of the result on every application (C28_idempotent_refuted). Restricted theorems: at most three orbitals; even number of odd orbital requests. C28_applied_twice gives the exact law for all requests."
  },
  {
   "property": "C29",
   "status": "partial",
   "theorems": [
    "C29_check_succeeds",
    "C29_frequency_sign_holds",
    "C29_momentum_sign_holds",
    "C29_orbital_sign_holds_partial",
    "C29_none_if_neither",
    "C29_frequency_recognised",
    "C29_momentum_recognised",
    "C29_orbital_recognised_partial",
    "C29_reports_the_enforced_symmetry",
    "C29_orbital_refuted",
    "C29_orbital_odd_refuted"
   ],
   "note": "Frequency and momentum: proved (reported signs hold within the tolerances, exactly symmetric functions are recognised). Orbital part refuted as stated: for four or more orbitals even functions are not recognised (C29_orbital_refuted); an odd function with one vanishing pair is not recognised (C29_orbital_odd_refuted). Restricted theorems for at most three orbitals."
  },
  {
   "property": "C30",
   "status": "proved",
   "theorems": [
    "C30_quadratic_round_trip",
    "C30_operator_terms",
    "C30_operator_hermitian",
    "C30_reads_coefficients"
   ],
   "note": "Any list of distinct modes in any order, any Hermitian matrix, any reflexive tolerance of the Hermiticity check. The TRIQS operator class is modelled from its documentation."
  },
  {
   "property": "C31",
   "status": "proved",
   "theorems": [
    "C31_operator_round_trip",
    "C31_tensor_round_trip",
    "C31_symmetrized_tensor_antisymmetric",
    "C31_tensor_elements"
   ],
   "note": "Both conventions. Also: building the operator of an arbitrary tensor and reading it back antisymmetrizes the tensor."
  },
  {
   "property": "C32",
   "status": "partial",
   "theorems": [
    "C32_permutation",
    "C32_conjugation",
    "C32_pauli_partial",
    "C32_pauli_changes_argument_refuted",
    "C32_combined",
    "C32_combined_fixes"
   ],
   "note": "Refuted as stated: quartic_pauli_symmetrize zeroes its argument in place (C32_pauli_changes_argument_refuted). All other claims proved for every tensor."
  },
  {
   "property": "C33",
   "status": "proved",
   "theorems": [
    "C33_identity",
    "C33_outside_untouched",
    "C33_composition",
    "C33_unitary_homomorphism",
    "C33_quadratic"
   ],
   "note": "For arbitrary, not only unitary, matrices; for unitary ones the transformation is also shown to keep products."
  },
  {
   "property": "C34",
   "status": "proved",
   "theorems": [
    "C34_history",
    "C34_stationary",
    "C34_fixed_point_stops",
    "C34_zero_mixing",
    "C34_self_consistent"
   ],
   "note": "solve_iter's docstring promises the 2D density matrix but the history of packed vectors is returned; the density computed in the last iteration is not part of it. mixing = 0 passes the assertions and never moves (C34_zero_mixing)."
  },
  {
   "property": "C35",
   "status": "partial",
   "theorems": [
    "C35_grand_potential",
    "C35_total_energy_partial",
    "C35_total_energy_refuted"
   ],
   "note": "Refuted as stated: E_tot is the kinetic energy minus the mean interaction energy (C35_total_energy_partial, C35_total_energy_refuted). The grand potential part holds (C35_grand_potential)."
  },
  {
   "property": "C36",
   "status": "proved",
   "theorems": [
    "C36_matrix",
    "C36_vector",
    "C36_hartree_matrix",
    "C36_hartree_vector"
   ],
   "note": ""
  },
  {
   "property": "C37",
   "status": "partial",
   "theorems": [
    "C37_alter_partial",
    "C37_alter_raises_refuted",
    "C37_history_partial",
    "C37_scan_partial",
    "C37_rank_bijective",
    "C37_last_fastest",
    "C37_scan_raises_refuted"
   ],
   "note": "Refuted as stated for parameters called self, dict or copy (and p for parameter_scan), where the methods raise: the exact condition is proved; holds for all others and all histories."
  },
  {
   "property": "C38",
   "status": "partial",
   "theorems": [
    "C38_history_partial",
    "C38_shared_default_refuted"
   ],
   "note": "Refuted as stated: objects made from the default argument share one list. Holds for all histories with at most one such object."
  },
  {
   "property": "C39",
   "status": "partial",
   "theorems": [
    "C39_running",
    "C39_write_keeps_running",
    "C39_total",
    "C39_rows",
    "C39_complete",
    "C39_other",
    "C39_not_negative",
    "C39_adds_up_partial",
    "C39_adds_up_refuted"
   ],
   "note": "Everything but the sum holds for every history of calls. The sum rule is refuted as stated: a user timer named 'Other' at the outermost level is overwritten by the remainder row (C39_adds_up_refuted); without such a timer it holds (C39_adds_up_partial)."
  },
  {
   "property": "C40",
   "status": "partial",
   "theorems": [
    "C40_returning_partial",
    "C40_raising_refuted",
    "C40_enclosing_timer",
    "C40_with_statement"
   ],
   "note": "Refuted as stated: when the method raises, its timer stays running (C40_raising_refuted) and stopping the enclosing timer by name raises RuntimeError (C40_enclosing_timer). Holds when the method returns; the with statement is safe in both cases."
  },
  {
   "property": "C41",
   "status": "partial",
   "theorems": [
    "C41_integers",
    "C41_decimals",
    "C41_whole",
    "C41_words",
    "C41_last_word",
    "C41_text_case",
    "C41_hopping_partial",
    "C41_single_line_refuted"
   ],
   "note": "Refuted as stated: np.loadtxt returns a one-dimensional array for a single line of data, so a file with one orbital and one R-point raises AssertionError. Holds for all others."
  },
  {
   "property": "C42",
   "status": "partial",
   "theorems": [
    "C42_dispersion",
    "C42_raises",
    "C42_hermitian_refuted",
    "C42_hermitian_partial",
    "C42_test_model"
   ],
   "note": "Refuted as stated: the same matrix is used for R and -R, so the Hamiltonian is Hermitian exactly when t, tp and zeeman are real (the docstring allows complex). The dispersion is proved for all parameters."
  },
  {
   "property": "C43",
   "status": "partial",
   "theorems": [
    "C43_window_wnk_partial",
    "C43_twice",
    "C43_too_large_loc",
    "C43_too_large_refuted",
    "C43_accepted",
    "C43_window_loc"
   ],
   "note": "Proved for windows that fit. Refuted for fixed_fermionic_window_python_wnk with nwf one larger than the mesh: it does not raise and repeats the value of the last frequency; the local routine raises."
  },
  {
   "property": "C44",
   "status": "partial",
   "theorems": [
    "C44_specific_w_partial",
    "C44_zero_frequency_difference",
    "C44_zero_frequency_tail_error"
   ],
   "note": "Proved at every non-zero bosonic frequency and on one-point meshes, assuming the repository's and the TRIQS library's time-to-frequency transforms agree. At frequency zero on larger meshes the statement is false of the code: the one-frequency routine asks for a one-point mesh and so integrates with the trapezoidal rule, while the full routine uses the tail-subtracted transform; the exact difference is proved."
  },
  {
   "property": "C45",
   "status": "proved",
   "theorems": [
    "C45_memory_saving_bubble",
    "C45_static_bubble"
   ],
   "note": "Assumes the repository's transform and the transform of the TRIQS library (make_gf_from_fourier) agree pointwise; both are parameters of the model."
  },
  {
   "property": "C46",
   "status": "proved",
   "theorems": [
    "C46_AABB",
    "C46_ABBA",
    "C46_other",
    "C46_crossing_partial",
    "C46_crossing",
    "C46_magnetic",
    "C46_transverse",
    "C46_magnetic_case"
   ],
   "note": "Any evaluation order of the in-place assignment; the mesh is any finite set, values outside are an oracle."
  },
  {
   "property": "C47",
   "status": "proved",
   "theorems": [
    "C47_block_diagonal",
    "C47_rows"
   ],
   "note": "Square blocks on one mesh, one frequency."
  },
  {
   "property": "C48",
   "status": "partial",
   "theorems": [
    "C48_roundtrip",
    "C48_hermitian_partial",
    "C48_unpack_partial",
    "C48_hermitian_refuted",
    "C48_block_diagonal",
    "C48_block_full",
    "C48_block_refuted",
    "C48_block_short"
   ],
   "note": "Refuted as stated: for four or more orbitals Symmetrizer pairs triu_indices with tril_indices in row-major order and packs non-Hermitian matrices (C48_hermitian_refuted); BlockSymmetrizer raises for every label matrix with an off-diagonal label unless all labels differ (C48_block_refuted). Proved: the round trip for all orbital counts, Hermiticity for up to three orbitals, BlockSymmetrizer with diagonal labels or with all labels different."
  },
  {
   "property": "C49",
   "status": "proved",
   "theorems": [
    "C49_fermi",
    "C49_bounds",
    "C49_particle_hole",
    "C49_decreasing",
    "C49_derivative",
    "C49_bose",
    "C49_bose_positive",
    "C49_product"
   ],
   "note": "Over the real numbers of the standard library (axioms listed in DESIGN.md section 5); no rounding."
  },
  {
   "property": "C50",
   "status": "partial",
   "theorems": [
    "C50_eigensolver_exists",
    "C50_gauge",
    "C50_exchange",
    "C50_conj",
    "C50_static_positive",
    "C50_bubble_partial",
    "C50_time_reversal_partial",
    "C50_bubble_refuted"
   ],
   "note": "Refuted as stated: the Lindhard function is the bubble of the dispersion with inverted momentum and transposed orbitals (C50_bubble_partial), hence the bubble only for time-reversal symmetric dispersions (C50_time_reversal_partial); C50_bubble_refuted is a one-band chain where they differ at every non-zero frequency. The Matsubara sum is an abstract linear functional. Proved: independence of the eigenvectors, exchange symmetry, conjugation, static positivity."
  },
  {
   "property": "C51",
   "status": "proved",
   "theorems": [
    "C51_phi_formula",
    "C51_phi_is_W_minus_V"
   ],
   "note": ""
  },
  {
   "property": "C52",
   "status": "proved",
   "theorems": [
    "C52_matsubara_round_trip",
    "C52_guard_is_no_aliasing",
    "C52_guard_time_to_frequency",
    "C52_tail_moments"
   ],
   "note": ""
  },
  {
   "property": "C53",
   "status": "proved",
   "theorems": [
    "C53_derivative_fit_exact"
   ],
   "note": ""
  },
  {
   "property": "C54",
   "status": "proved",
   "theorems": [
    "C54_spectral_function_positive"
   ],
   "note": ""
  },
  {
   "property": "C55",
   "status": "partial",
   "theorems": [
    "C55_static_limit",
    "C55_overloads_agree_partial",
    "C55_overloads_refuted"
   ],
   "note": "Refuted as stated: the dynamic overload convolves over k-q, the static one over k+q (C55_overloads_refuted). Proved for interactions even in the momentum; for all interactions the dynamic overload is proved to be the Fock convolution."
  },
  {
   "property": "C56",
   "status": "proved",
   "theorems": [
    "C56_accepted_calls",
    "C56_dynamic_part",
    "C56_gw_is_convolution"
   ],
   "note": ""
  },
  {
   "property": "C57",
   "status": "proved",
   "theorems": [
    "C57_g0w_static_is_fock"
   ],
   "note": ""
  },
  {
   "property": "C58",
   "status": "proved",
   "theorems": [
    "C58_documented_product"
   ],
   "note": "The header prints G_ce G_df; that is the same map on the transposed gap (second conclusion)."
  },
  {
   "property": "C59",
   "status": "proved",
   "theorems": [
    "C59_fft_product",
    "C59_reduced_product",
    "C59_mesh_mismatch"
   ],
   "note": "Time transforms are oracles with linearity as hypothesis."
  },
  {
   "property": "C60",
   "status": "proved",
   "theorems": [
    "C60_momentum_parity"
   ],
   "note": ""
  },
  {
   "property": "C61",
   "status": "proved",
   "theorems": [
    "C61_accepted_meshes_cover",
    "C61_acceptance"
   ],
   "note": "The check also rejects the smallest sufficient vertex mesh; the exact acceptance condition is proved."
  },
  {
   "property": "C62",
   "status": "partial",
   "theorems": [
    "C62_keeps_up_partial",
    "C62_slow_spin_keeps_down",
    "C62_keeps_up_refuted"
   ],
   "note": "Refuted as stated: with spin as the slow index the down block is returned. Proved for spin as the fast index."
  },
  {
   "property": "C63",
   "status": "partial",
   "theorems": [
    "C63_kanamori_hamiltonian_partial",
    "C63_kanamori_strengths",
    "C63_spin_flip_strength_refuted",
    "C63_documented_hamiltonian",
    "C63_documented_hamiltonian_refuted"
   ],
   "note": "Refuted as stated: the spin flip has strength J, not Jp, and the documented Hamiltonian counts each exchange term twice; proved for the Hamiltonian with spin flip J and pair hopping Jp."
  },
  {
   "property": "C64",
   "status": "proved",
   "theorems": [
    "C64_generators",
    "C64_linear",
    "C64_products",
    "C64_there_and_back",
    "C64_outside_untouched",
    "C64_adjoint_not_renamed"
   ],
   "note": "With only annihilation operators listed, creation operators keep their modes (C64_adjoint_not_renamed)."
  },
  {
   "property": "C65",
   "status": "partial",
   "theorems": [
    "C65_composed_partial",
    "C65_constant_term_refuted"
   ],
   "note": "Refuted as stated: a constant term raises ValueError. Proved for operators without constant term."
  },
  {
   "property": "C66",
   "status": "proved",
   "theorems": [
    "C66_mean_field_derivative",
    "C66_second_order",
    "C66_mean_field_hermitian",
    "C66_density_matrix",
    "C66_stationary_state"
   ],
   "note": "np_eigh, np.exp and brentq enter through the stated specifications."
  },
  {
   "property": "C67",
   "status": "partial",
   "theorems": [
    "C67_bounds",
    "C67_bounds_raise",
    "C67_default_bounds",
    "C67_bounds_case",
    "C67_filling",
    "C67_default_interval_refuted"
   ],
   "note": "Refuted as stated: with the default search interval [e.min, e.max] every filling below 1/(2 n_k) or above n - 1/(2 n_k) makes brentq raise (C67_default_interval_refuted). A chemical potential that is found gives the requested filling (C67_filling)."
  },
  {
   "property": "C68",
   "status": "partial",
   "theorems": [
    "C68_failed_stop",
    "C68_failed_stop_refuted",
    "C68_negative_time_refuted"
   ],
   "note": "Refuted as stated: the innermost timer is popped before the name is compared (C68_failed_stop_refuted), and the next report shows minus the clock reading (C68_negative_time_refuted). C68_failed_stop states exactly what happens."
  },
  {
   "property": "C69",
   "status": "partial",
   "theorems": [
    "C69_lattice_vectors",
    "C69_reciprocal_vectors_partial",
    "C69_missing_section",
    "C69_missing_section_refuted"
   ],
   "note": "Lattice vectors proved. Refuted for the reciprocal vectors: a file without the section gives an empty list, not an exception."
  },
  {
   "property": "C70",
   "status": "partial",
   "theorems": [
    "C70_positions_partial",
    "C70_one_orbital_refuted",
    "C70_truncation_refuted"
   ],
   "note": "Refuted as stated: the field width of eight characters drops the last digit of negative coordinates and of those above ten, and a single orbital raises IndexError. Holds for two or more orbitals with coordinates of up to eight characters."
  },
  {
   "property": "C71",
   "status": "partial",
   "theorems": [
    "C71_bands_partial",
    "C71_single_line_refuted"
   ],
   "note": "Holds for more than one line of data; a file with one band and one point raises."
  },
  {
   "property": "C72",
   "status": "partial",
   "theorems": [
    "C72_PH",
    "C72_PHbar",
    "C72_crossing",
    "C72_PP_refuted",
    "C72_PP_partial"
   ],
   "note": "Refuted as stated for from_3nu_PP: it reads (nu, nu', omega - nu'), which is none of the documented parametrizations and agrees with PP only for nu = nu' (C72_PP_refuted, C72_PP_partial). Proved for the particle-hole channels."
  },
  {
   "property": "C73",
   "status": "partial",
   "theorems": [
    "C73_PH",
    "C73_PP_partial",
    "C73_PP_refuted"
   ],
   "note": "Proved in the particle-hole channel. Refuted in the particle-particle channel with from_3nu_PP (and with the documented PP parametrization); chi_from_gg2_PP needs the crossed parametrization PPx (C73_PP_partial)."
  },
  {
   "property": "C74",
   "status": "proved",
   "theorems": [
    "C74_equal_time",
    "C74_propagator",
    "C74_antihermitian",
    "C74_kms",
    "C74_gauge",
    "C74_occupation",
    "C74_case"
   ],
   "note": "all relations, for every solver"
  },
  {
   "property": "C75",
   "status": "partial",
   "theorems": [
    "C75_bubble",
    "C75_documented_partial",
    "C75_documented_refuted"
   ],
   "note": "Refuted as stated: the code computes minus the documented formula, and with the second function taken at (c,b,r) instead of (b,c,-r); C75_bubble is the exact value, C75_documented_partial covers time-reversal symmetric dispersions, C75_documented_refuted is a two-point example."
  },
  {
   "property": "C76",
   "status": "proved",
   "theorems": [
    "C76_trace",
    "C76_dyson",
    "C76_fixed_point",
    "C76_converged",
    "C76_resume",
    "C76_case"
   ],
   "note": "The contributions to the self-energy are parameters, so the theorem holds for whatever they compute; see C20-C22, C55 for them."
  },
  {
   "property": "C77",
   "status": "partial",
   "theorems": [
    "C77_filling",
    "C77_density_partial",
    "C77_zero_refuted",
    "C77_density_refuted"
   ],
   "note": "Refuted as stated: N_tol is passed as the relative tolerance of the chemical potential, so the error of the density is N_tol times the chemical potential times the compressibility (C77_density_refuted), and N_fix=0 is treated as not given (C77_zero_refuted)."
  },
  {
   "property": "C78",
   "status": "partial",
   "theorems": [
    "C78_documented",
    "C78_agree_partial",
    "C78_one_frequency",
    "C78_agree_refuted",
    "C78_case"
   ],
   "note": "Refuted as stated: the two have opposite signs (C78_agree_refuted); exact relation in C78_agree_partial and C78_one_frequency."
  },
  {
   "property": "C79",
   "status": "proved",
   "theorems": [
    "C79_susceptibility",
    "C79_spinless",
    "C79_case"
   ],
   "note": ""
  },
  {
   "property": "C80",
   "status": "partial",
   "theorems": [
    "C80_interaction",
    "C80_elements",
    "C80_antisymmetrized_refuted"
   ],
   "note": "The Hamiltonian and the exchange symmetry are proved (C80_interaction, C80_elements); the word antisymmetrized of the docstring is refuted (C80_antisymmetrized_refuted)."
  },
  {
   "property": "C81",
   "status": "proved",
   "theorems": [
    "C81_response",
    "C81_symmetric",
    "C81_free",
    "C81_case"
   ],
   "note": ""
  },
  {
   "property": "C82",
   "status": "partial",
   "theorems": [
    "C82_complex",
    "C82_complex_refuted",
    "C82_symmetric_fields",
    "C82_antisymmetric_fields_iff",
    "C82_time_reversal_partial",
    "C82_hermitian",
    "C82_gauge",
    "C82_step_size_refuted",
    "C82_chi0_k_refuted"
   ],
   "note": "Refuted as stated: without time-reversal symmetry the imaginary fields come out wrong (C82_complex_refuted; exact condition C82_antisymmetric_fields_iff), the argument eps is ignored (C82_step_size_refuted), compute_chi0_k always raises (C82_chi0_k_refuted). Real symmetric fields, time-reversal symmetric bands and independence of the eigenvectors are proved."
  },
  {
   "property": "C83",
   "status": "proved",
   "theorems": [
    "C83_hartree",
    "C83_diagonal_only",
    "C83_same_bare",
    "C83_case"
   ],
   "note": ""
  },
  {
   "property": "C84",
   "status": "partial",
   "theorems": [
    "C84_sign_refuted",
    "C84_sign_refuted_case",
    "C84_residual_partial",
    "C84_bounded_below",
    "C84_positive_eigenvector",
    "C84_negative_eigenvector_refuted"
   ],
   "note": "Refuted as stated: a start vector that is an eigenvector of a negative eigenvalue makes the method raise (C84_negative_eigenvector_refuted); for diag(-1, -10) and any tolerance up to 1/10 some start vector gives a positive result (C84_sign_refuted). Proved: what every result satisfies (C84_residual_partial), and that it is an eigenpair within tolerance when the spectrum is bounded below by minus the first-stage value (C84_bounded_below)."
  },
  {
   "property": "C85",
   "status": "partial",
   "theorems": [
    "C85_iram_modes",
    "C85_symmetrized",
    "C85_power_mode",
    "C85_product_independent",
    "C85_names",
    "C85_small_vertex_refuted",
    "C85_documented_equation",
    "C85_static_products_agree",
    "C85_direct_scales",
    "C85_documented_equation_case",
    "C85_complex_refuted"
   ],
   "note": "Refuted as stated: IRAM returns the real part of a complex eigenvalue, with which the equation does not hold (C85_complex_refuted; exact condition in C85_iram_modes); a dynamic vertex with all numbers below the absolute tolerance of np.allclose is dropped and all eigenvalues returned are zero (C85_small_vertex_refuted). The rest is proved."
  },
  {
   "property": "C86",
   "status": "partial",
   "theorems": [
    "C86_lossless",
    "C86_given_constant",
    "C86_other_number_refuted",
    "C86_dlr_refuted",
    "C86_lossless_case",
    "C86_start_vector",
    "C86_start_fraction",
    "C86_imaginary_refuted",
    "C86_start_vector_case"
   ],
   "note": "Refuted as stated: constants of other number types (int, complex, numpy scalars) are ignored (C86_other_number_refuted); on a DLR mesh float and array raise and no fit is done (C86_dlr_refuted); a purely imaginary Green function gives the zero start vector (C86_imaginary_refuted). The rest is proved."
  },
  {
   "property": "C87",
   "status": "partial",
   "theorems": [
    "C87_discontinuity",
    "C87_residual",
    "C87_jump_triqs",
    "C87_jump_pydlr",
    "C87_positivity_sum",
    "C87_positivity_triqs_refuted",
    "C87_positivity_pydlr",
    "C87_block_diagonal",
    "C87_positivity_pydlr_refuted",
    "C87_case"
   ],
   "note": "Refuted as stated: the positivity option only bounds the sum of the coefficients (C87_positivity_sum). With the TRIQS driver it contradicts the discontinuity, so no parameter vector satisfies both (C87_positivity_triqs_refuted); with the pydlr driver it follows from the discontinuity and admits weights of the wrong sign (C87_positivity_pydlr, C87_positivity_pydlr_refuted). The discontinuity part is proved for any number of orbitals."
  },
  {
   "property": "C88",
   "status": "partial",
   "theorems": [
    "C88_density_partial",
    "C88_solution",
    "C88_triqs_quantities",
    "C88_pydlr_quantities",
    "C88_hartree_fock",
    "C88_case",
    "C88_four_orbitals_refuted"
   ],
   "note": "Refuted as stated: from four orbitals on the lower triangle is not constrained and a parameter vector with a wrong lower triangle is admitted (C88_four_orbitals_refuted; consequence of C48_hermitian_refuted). Proved for up to three orbitals."
  },
  {
   "property": "C89",
   "status": "proved",
   "theorems": [
    "C89_lehmann",
    "C89_moment",
    "C89_static",
    "C89_case"
   ],
   "note": ""
  },
  {
   "property": "C90",
   "status": "partial",
   "theorems": [
    "C90_ward",
    "C90_ward_refuted",
    "C90_static"
   ],
   "note": "Refuted as stated: for exp(beta U/2) < 3 (beta U < 2 ln 3) the absolute value in the constant B gives B^2 the wrong sign and the conservation law is violated at every frequency (C90_ward_refuted). Proved for exp(beta U/2) >= 3. The classical Matsubara sums are hypotheses; no instance of them is constructed in Coq."
  },
  {
   "property": "C91",
   "status": "partial",
   "theorems": [
    "C91_bethe_salpeter",
    "C91_bethe_salpeter_refuted"
   ],
   "note": "Refuted as stated: for exp(beta U/2) < 3 the equation fails at one of any two frequencies of different energy (C91_bethe_salpeter_refuted), same cause as C90. Proved for exp(beta U/2) >= 3 at all transfers. The classical Matsubara sums are hypotheses; no instance of them is constructed in Coq. The constant A of the antisymmetric part drops out of this claim: the equation holds for every A."
  },
  {
   "property": "C92",
   "status": "partial",
   "theorems": [
    "C92_finite",
    "C92_zero_frequency_refuted",
    "C92_gauge",
    "C92_static",
    "C92_causal",
    "C92_matsubara",
    "C92_case"
   ],
   "note": "Refuted as stated: when the real frequency mesh contains the point 0 the Bose factor divides by zero and no entry is finite (C92_zero_frequency_refuted). Everything else is proved for meshes without 0. C92_matsubara takes the Matsubara sums of simple poles as hypotheses; no instance of them is constructed in Coq."
  },
  {
   "property": "C93",
   "status": "proved",
   "theorems": [
    "C93_response",
    "C93_wrong_shape",
    "C93_basis",
    "C93_spin",
    "C93_charge",
    "C93_no_mixing",
    "C93_rpa_spin",
    "C93_case",
    "C93_basis_case"
   ],
   "note": ""
  },
  {
   "property": "C94",
   "status": "partial",
   "theorems": [
    "C94_newton",
    "C94_newton_mu",
    "C94_expectation",
    "C94_last_question_refuted",
    "C94_case"
   ],
   "note": "Refuted as stated: mu, E_tot and Omega are those of the last point that fsolve evaluates, and the final step does not adjust mu (C94_last_question_refuted). Proved when that point is the returned root, and at fixed mu for every root. fsolve is an oracle and its convergence flag is not checked by the code."
  },
  {
   "property": "C95",
   "status": "partial",
   "theorems": [
    "C95_relative",
    "C95_index",
    "C95_dispersion",
    "C95_components",
    "C95_rel_interpolator",
    "C95_numpy_refuted",
    "C95_abs_interpolator",
    "C95_fourier_cpp",
    "C95_fourier",
    "C95_fourier_even",
    "C95_case",
    "C95_fourier_refuted"
   ],
   "note": "Refuted as stated: cluster_mesh_fourier_interpolation uses exp(-ikr) while chi_wk_from_chi_wr uses exp(+ikr), so it gives chi(-k) (C95_fourier, C95_fourier_even, C95_fourier_refuted); and get_rel_k_chi_interpolator with extend_boundary raises with numpy >= 1.24, where np.float does not exist (C95_numpy_refuted). The other parts are proved."
  },
  {
   "property": "C96",
   "status": "partial",
   "theorems": [
    "C96_read",
    "C96_one_row_refuted",
    "C96_numpy_refuted",
    "C96_mesh",
    "C96_missing_refuted",
    "C96_far_face_refuted",
    "C96_interaction",
    "C96_case"
   ],
   "note": "Refuted as stated: files with a single row (one orbital, one momentum per file) are dropped (C96_one_row_refuted), a mesh point without data gets zero without an error (C96_missing_refuted), a momentum on the far face of the zone is dropped (C96_far_face_refuted), and np.float / np.complex do not exist from numpy 1.24 on (C96_numpy_refuted). Proved for complete tables without single-row files and momenta within one zone of the mesh. Text parsing is not modelled."
  },
  {
   "property": "C97",
   "status": "partial",
   "theorems": [
    "C97_put",
    "C97_put_error",
    "C97_statistic_refuted",
    "C97_beta_refuted",
    "C97_strip",
    "C97_strip_beta",
    "C97_tensor_matrix",
    "C97_tensor_error",
    "C97_matrix_tensor",
    "C97_matrix_error",
    "C97_round_trip",
    "C97_pade",
    "C97_case",
    "C97_pade_case"
   ],
   "note": "Refuted as stated: put_gf_on_mesh compares lengths only; a mesh of the other statistic or another temperature is accepted and filled by index, so every value of a bosonic function lands at a frequency larger by pi/beta (C97_statistic_refuted) or scaled by the ratio of temperatures (C97_beta_refuted). Proved for equal temperature and statistic. The Pade fit itself is a parameter."
  },
  {
   "property": "C98",
   "status": "partial",
   "theorems": [
    "C98_real_freq_error",
    "C98_real_space_error",
    "C98_report",
    "C98_stale_refuted",
    "C98_static",
    "C98_storage",
    "C98_case",
    "C98_storage_case"
   ],
   "note": "Refuted as stated: a call without GW, Hartree or Fock leaves the corresponding functions of an earlier call in place, so that calc_real_freq returns them beside the new Green's function (C98_stale_refuted, C98_case); without an earlier call computing them calc_real_freq raises AttributeError when no Hartree or no Fock term was computed (C98_real_freq_error), calc_real_space when no call included GW (C98_real_space_error). Proved when the last call has all three contributions and at least one iteration."
  },
  {
   "property": "C99",
   "status": "partial",
   "theorems": [
    "C99_leaves",
    "C99_lines",
    "C99_sorted",
    "C99_order",
    "C99_multiline_refuted",
    "C99_cut",
    "C99_archive",
    "C99_archive_refuted",
    "C99_vector",
    "C99_shadow_refuted",
    "C99_objects_refuted",
    "C99_copy_refuted",
    "C99_sort",
    "C99_sort_error",
    "C99_case",
    "C99_sort_case"
   ],
   "note": "Refuted as stated: a value of several lines in a nested collection gets the collection name before every line (C99_multiline_refuted); a boolean inside a plain dictionary comes back as numpy.bool_ (C99_archive_refuted); a parameter named like a method or objects is not found by ps.name (C99_shadow_refuted, C99_objects_refuted); ParameterCollections.__getattr__ recurses without end on an object whose __init__ has not run, which is what copy and pickle make (C99_copy_refuted). Proved for one-line values, different names and Python booleans directly in collections."
  },
  {
   "property": "C100",
   "status": "proved",
   "theorems": [
    "C100_rotated",
    "C100_start",
    "C100_relabelled",
    "C100_case"
   ],
   "note": "C100_rotated assumes a tolerance that is not met (the stopping criterion is the entrywise maximum and depends on the basis); C100_relabelled has any tolerance. The transforms between time and frequency are oracles acting on matrices componentwise and linearly."
  },
  {
   "property": "C101",
   "status": "proved",
   "theorems": [
    "C101_spinless",
    "C101_start",
    "C101_hartree",
    "C101_opposite",
    "C101_half",
    "C101_case",
    "C101_hartree_case"
   ],
   "note": "The root search is assumed to find the same root for f and 2 f (bisection and interpolation do not see a common factor)."
  },
  {
   "property": "C102",
   "status": "proved",
   "theorems": [
    "C102_hermitian",
    "C102_start",
    "C102_case"
   ],
   "note": "The root search is assumed to work with real numbers."
  },
  {
   "property": "C103",
   "status": "proved",
   "theorems": [
    "C103_symmetric",
    "C103_start",
    "C103_inversion",
    "C103_exchange",
    "C103_case"
   ],
   "note": "Unitary symmetries; antiunitary ones (time reversal) are not covered."
  },
  {
   "property": "C104",
   "status": "proved",
   "theorems": [
    "C104_lindhard",
    "C104_rpa",
    "C104_charge",
    "C104_static",
    "C104_case"
   ],
   "note": "Diagonal operators: for others the transposition recorded at C50 matters."
  },
  {
   "property": "C105",
   "status": "proved",
   "theorems": [
    "C105_real",
    "C105_returned",
    "C105_returned_fft",
    "C105_two_orbitals",
    "C105_case"
   ],
   "note": "The eigenvalue routine is assumed to return exact eigenpairs, as in C85."
  },
  {
   "property": "C106",
   "status": "proved",
   "theorems": [
    "C106_rpa_basis",
    "C106_rpa_exchange",
    "C106_rpa_conj",
    "C106_lindhard_basis",
    "C106_basis",
    "C106_symmetric",
    "C106_case"
   ],
   "note": "Also where RPA has no solution. The exchange symmetry of the Lindhard function uses the separation of bands assumed in C50."
  },
  {
   "property": "C107",
   "status": "proved",
   "theorems": [
    "C107_reduced",
    "C107_enhanced",
    "C107_stoner",
    "C107_lindhard",
    "C107_static",
    "C107_case"
   ],
   "note": "The Fermi function is assumed to decrease on the reals (proved of the code in C49)."
  },
  {
   "property": "C108",
   "status": "proved",
   "theorems": [
    "C108_su2",
    "C108_rpa",
    "C108_lindhard",
    "C108_kanamori_spin",
    "C108_orbital",
    "C108_magnetism",
    "C108_case"
   ],
   "note": "The eigensolver is assumed to diagonalise Hermitian matrices (proved possible in Spectral.v)."
  },
  {
   "property": "C109",
   "status": "partial",
   "theorems": [
    "C109_history",
    "C109_result",
    "C109_symmetry",
    "C109_fixed_number",
    "C109_iterations_refuted",
    "C109_eigh_exists"
   ],
   "note": "Refuted as stated in one part: the convergence test uses the packed vector, which contains every element above the diagonal once, so that its norm depends on the basis and the runs may stop after different numbers of iterations (C109_iterations_refuted). Everything else is proved, including equal numbers of iterations without tolerance."
  },
  {
   "property": "C110",
   "status": "proved",
   "theorems": [
    "C110_positive",
    "C110_decreasing",
    "C110_static",
    "C110_rpa",
    "C110_case",
    "C110_levels_case"
   ],
   "note": "The Fermi function is any function that does not grow on the reals, cosh any function that is real on the reals, the eigensolver any one that returns a decomposition."
  },
  {
   "property": "C111",
   "status": "partial",
   "theorems": [
    "C111_gw",
    "C111_gw_start",
    "C111_lindhard",
    "C111_bracket_refuted",
    "C111_bracket_case",
    "C111_hartree_fock",
    "C111_energies",
    "C111_packing",
    "C111_case"
   ],
   "note": "Refuted as stated in one part: the default mu_bracket of GWSolver is the interval of the real parts of all matrix elements of e_k, which does not follow a shift of the levels; with the same particle number the constructor raises for one zero of energy and not for the other (C111_bracket_refuted). Everything else is proved for a root finder without preferred origin (exact arithmetic, no tolerance relative to the root; the code passes N_tol as such a relative tolerance)."
  },
  {
   "property": "C112",
   "status": "partial",
   "theorems": [
    "C112_bse",
    "C112_vertex",
    "C112_dual",
    "C112_hermitian",
    "C112_exchange",
    "C112_exchange_refuted",
    "C112_dual_refuted",
    "C112_case"
   ],
   "note": "Refuted as stated in two parts. (1) The full susceptibility is not symmetric under exchange at transferred frequencies other than zero: the fermionic window is centred at frequency zero and the bubble contains g(n) g(n + w), so that n and n + w cover different intervals and chi(w) and chi(-w) are truncated differently (C112_exchange_refuted, one orbital, constant vertex); the bubble itself, computed in imaginary time, is symmetric. (2) solve_lattice_dbse attaches the same triangle vertex on both sides, without complex conjugation or exchange of the indices, and is covariant under real changes of basis only (C112_dual_refuted, basis change diag(1, i)). Everything else is proved."
  },
  {
   "property": "C113",
   "status": "partial",
   "theorems": [
    "C113_bse",
    "C113_vertex",
    "C113_dual",
    "C113_rpa",
    "C113_screened",
    "C113_pairing_vertex",
    "C113_eliashberg",
    "C113_eliashberg_fft",
    "C113_transforms_case",
    "C113_lindhard_case",
    "C113_gw",
    "C113_gw_start",
    "C113_lindhard",
    "C113_lindhard_refuted",
    "C113_hartree_fock",
    "C113_energies",
    "C113_case"
   ],
   "note": "Refuted as stated for the Lindhard function: its tolerance 1e-10 for equal energies is absolute, so that two levels closer than it get the derivative of the Fermi function in one unit and the difference quotient in another (C113_lindhard_refuted, one band and two momenta, the unit changed by a factor of two). Everything else is proved; the tolerances of the Hartree-Fock and GW loops compare quantities without a unit and Green functions, so the latter has to be rescaled by the user."
  },
  {
   "property": "C114",
   "status": "partial",
   "theorems": [
    "C114_round_trip",
    "C114_same_name",
    "C114_other_files",
    "C114_h5_refuted",
    "C114_names_refuted",
    "C114_blocks",
    "C114_blocks_refuted",
    "C114_case",
    "C114_temperature"
   ],
   "note": "Refuted as stated in three parts. (1) write_TarGZ_HDFArchive cuts the name at its first dot: run.1.tar.gz and run.2.tar.gz are written to run.tar.gz (C114_names_refuted), ./run.tar.gz to .tar.gz, and a name is read back as written exactly if its only dots are those of .tar.gz (C114_same_name). (2) An existing file with the same stem and the extension .h5 is overwritten and removed (C114_h5_refuted). (3) BlockGf_data broadcasts: a 1 x 1 block after a 2 x 2 block fills four entries without an error (C114_blocks_refuted). Proved: the round trip through the derived name, all other files, blocks of one shape, and temperatures."
  },
  {
   "property": "C115",
   "status": "proved",
   "theorems": [
    "C115_gw_subset",
    "C115_gw_start",
    "C115_particles",
    "C115_two_levels_case"
   ],
   "note": "At a given chemical potential (N_fix unset or zero; with a fixed density the parts share the chemical potential). The inverses of the Dyson and screening equations are assumed to exist in the calculation with all orbitals."
  },
  {
   "property": "C116",
   "status": "proved",
   "theorems": [
    "C116_gw_sublattice",
    "C116_gw_start",
    "C116_planes",
    "C116_chain_case"
   ],
   "note": "For GWSolver on Matsubara meshes."
  },
  {
   "property": "C117",
   "status": "proved",
   "theorems": [
    "C117_rpa",
    "C117_bse",
    "C117_dual",
    "C117_vertex",
    "C117_sublattice",
    "C117_case"
   ],
   "note": "The two-particle Green function between the subset and the others is assumed to be the product of one-particle functions in C117_vertex."
  },
  {
   "property": "C118",
   "status": "proved",
   "theorems": [
    "C118_reversal",
    "C118_start",
    "C118_invariant",
    "C118_real",
    "C118_case"
   ],
   "note": "Transforms and root search are oracles that treat matrix elements alike; unordered V(q=0) is needed by the Hartree term."
  },
  {
   "property": "C119",
   "status": "proved",
   "theorems": [
    "C119_reversal",
    "C119_hartree",
    "C119_real",
    "C119_antiunitary",
    "C119_case",
    "C119_antiunitary_case"
   ],
   "note": "np_eigh returns a spectral decomposition, brentq depends on the values of the function and returns real numbers."
  },
  {
   "property": "C120",
   "status": "proved",
   "theorems": [
    "C120_history",
    "C120_result",
    "C120_step",
    "C120_potential",
    "C120_half",
    "C120_log_case",
    "C120_case"
   ],
   "note": "HfHoleThms: C120_history, C120_result, C120_step, C120_potential, C120_half. The states after the last iteration are compared when both runs take equally many iterations."
  },
  {
   "property": "C121",
   "status": "partial",
   "theorems": [
    "C121_inverse",
    "C121_singular",
    "C121_eigvalsh_partial",
    "C121_eigh_partial",
    "C121_one_point_refuted",
    "C121_one_orbital_refuted",
    "C121_eigh_refuted",
    "C121_version",
    "C121_same_version",
    "C121_candidate_refuted",
    "C121_case"
   ],
   "note": "Refuted as stated: the fallback of np_eigvalsh squeezes the array, so it raises for one point with several orbitals and loses an axis for one orbital; that of np_eigh raises unless there are three axes; version strings of release candidates raise. Holds for np_inv, for np_eigvalsh without axes of length one and for np_eigh of arrays with three axes."
  },
  {
   "property": "C122",
   "status": "proved",
   "theorems": [
    "C122_reversal",
    "C122_no_field",
    "C122_hole",
    "C122_origin",
    "C122_selection",
    "C122_hole_symmetric",
    "C122_hole_exchange",
    "C122_case",
    "C122_separated_case"
   ],
   "note": "The eigenvalue routine returns a spectral decomposition of Hermitian matrices; fermi and cosh only by the two properties used."
  },
  {
   "property": "C123",
   "status": "proved",
   "theorems": [
    "C123_rpa",
    "C123_reversal",
    "C123_hole",
    "C123_no_field",
    "C123_half",
    "C123_case"
   ],
   "note": "The eigenvalue routine returns a spectral decomposition; fermi and cosh by the properties named in the theorems."
  },
  {
   "property": "C124",
   "status": "proved",
   "theorems": [
    "C124_conserved",
    "C124_case"
   ],
   "note": "The eigenvalue routine returns a spectral decomposition; exp is positive and brentq returns real numbers and only calls its function."
  },
  {
   "property": "C125",
   "status": "proved",
   "theorems": [
    "C125_reflection",
    "C125_hermitian",
    "C125_positive",
    "C125_lattice_reflection",
    "C125_local",
    "C125_static_reflection",
    "C125_static_positive",
    "C125_case",
    "C125_lattice_case"
   ],
   "note": "Exact arithmetic; beta - tau is a point of the time mesh."
  }
 ]
}