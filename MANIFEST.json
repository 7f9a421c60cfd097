{
 "claims": [
  {
   "property": "C01",
   "status": "proved",
   "theorems": [
    "C01_from_generator_closed"
   ],
   "note": "Integer matrices of every dimension."
  },
  {
   "property": "C02",
   "status": "proved",
   "theorems": [
    "C02_from_generator_generated"
   ],
   "note": "Both directions: the result is exactly the set of finite products."
  },
  {
   "property": "C03",
   "status": "proved",
   "theorems": [
    "C03_from_generator_total"
   ],
   "note": "The 200-round loop bound is shown never to matter."
  },
  {
   "property": "C04",
   "status": "proved",
   "theorems": [
    "C04_from_generator_inverses",
    "C04_sym_from_generator_group"
   ],
   "note": "Every dimension (determinant theory through mathcomp); also for the object with inversion."
  },
  {
   "property": "C05",
   "status": "partial",
   "theorems": [
    "C05_members",
    "C05_even_perm3",
    "C05_named_groups",
    "C05_mirror_groups_partial",
    "C05_named_groups_refuted"
   ],
   "note": "REFUTED as stated: mirror_xy(True, dim=2) lists two operations twice. All other named groups proved, mirrors/none/inv in every dimension; the members of the cubic, tetrahedral, perm3, mirror3, square and even_perm3 groups are characterised (C05_members, C05_even_perm3)."
  },
  {
   "property": "C06",
   "status": "partial",
   "theorems": [
    "C06_operations_partial",
    "C06_operations_refuted"
   ],
   "note": "REFUTED as stated for even dimension when -1 is listed and inversion=True; proved otherwise."
  },
  {
   "property": "C07",
   "status": "partial",
   "theorems": [
    "C07_eq_sound_partial",
    "C07_eq_complete_partial",
    "C07_eq_refuted"
   ],
   "note": "REFUTED as stated (repeated operations; mirrors stored beside inversion). Soundness and completeness proved for duplicate-free objects that store rotations only."
  },
  {
   "property": "C08",
   "status": "proved",
   "theorems": [
    "C08_neighbor_lookup"
   ],
   "note": "Exact lattice coordinates."
  },
  {
   "property": "C09",
   "status": "partial",
   "theorems": [
    "C09_complete_neighbors_partial",
    "C09_complete_neighbors_refuted"
   ],
   "note": "REFUTED without inversion (neighbors whose first non-zero coordinate is negative are dropped). Proved for groups containing inversion or lists closed under negation."
  },
  {
   "property": "C10",
   "status": "proved",
   "theorems": [
    "C10_r_class_size"
   ],
   "note": ""
  },
  {
   "property": "C11",
   "status": "proved",
   "theorems": [
    "C11_k_weight"
   ],
   "note": "Rational points v/D."
  },
  {
   "property": "C12",
   "status": "proved",
   "theorems": [
    "C12_equivalence_classes",
    "C12_conjugacy_classes"
   ],
   "note": ""
  },
  {
   "property": "C13",
   "status": "proved",
   "theorems": [
    "C13_tensor_projection",
    "C13_rank11"
   ],
   "note": "Every rank (p,q), true and pseudo tensors, any star ring in which the group order is invertible."
  },
  {
   "property": "C14",
   "status": "partial",
   "theorems": [
    "C14_inversion_refuted"
   ],
   "note": "REFUTED: symmetrize ignores the inversion flag."
  },
  {
   "property": "C15",
   "status": "proved",
   "theorems": [
    "C15_realize_symmetric"
   ],
   "note": "unit_cell=False."
  },
  {
   "property": "C16",
   "status": "partial",
   "theorems": [
    "C16_reduce_partial",
    "C16_reduce_refuted"
   ],
   "note": "REFUTED for fine spacing (0.01); proved for lattice points of length up to 10^6."
  },
  {
   "property": "C17",
   "status": "partial",
   "theorems": [
    "C17_check_neighbors_refuted"
   ],
   "note": "REFUTED: every non-empty list raises ValueError."
  },
  {
   "property": "C18",
   "status": "partial",
   "theorems": [
    "C18_find_classes_partial",
    "C18_find_classes_refuted"
   ],
   "note": "REFUTED for symmetries with inversion; proved when the stored operations form the whole group."
  },
  {
   "property": "C19",
   "status": "partial",
   "theorems": [
    "C19_contains_sound_partial",
    "C19_contains_complete_partial",
    "C19_contains_refuted"
   ],
   "note": "REFUTED: perm3(True) in cubic(True) is False. Soundness always, completeness for objects storing rotations only."
  },
  {
   "property": "C20",
   "status": "proved",
   "theorems": [
    "C20_check_iff_homomorphism"
   ],
   "note": "Both directions, every group, dimension and star ring; matrix comparison taken exact."
  },
  {
   "property": "C21",
   "status": "partial",
   "theorems": [
    "C21_sum_partial",
    "C21_sum_defined",
    "C21_multiple",
    "C21_sum_refuted"
   ],
   "note": "REFUTED for complex representations: __add__ assigns into a float array, the imaginary parts are lost. Proved for real ones (any order of the operations of b) and for a*n with integer n."
  },
  {
   "property": "C22",
   "status": "partial",
   "theorems": [
    "C22_generated_representation_partial",
    "C22_returns",
    "C22_from_generator_refuted",
    "C22_object_partial"
   ],
   "note": "REFUTED as stated: generators without identity, duplicate generators, or generated sets that Symmetry.__init__ reduces/doubles. Proved for duplicate-free generator lists containing the identity: exact generated set, homomorphism, extension of generator values, and the call returns for consistent values and fewer than 1000 products."
  },
  {
   "property": "C23",
   "status": "proved",
   "theorems": [
    "C23_match_sym_reorders",
    "C23_match_sym_succeeds_iff"
   ],
   "note": ""
  },
  {
   "property": "C24",
   "status": "partial",
   "theorems": [
    "C24_result_symmetric",
    "C24_symmetric_fixed",
    "C24_linear",
    "C24_idempotent_partial",
    "C24_inv_closed_same_position",
    "C24_symmetrize_refuted"
   ],
   "note": "REFUTED as stated for symmetries with inversion: {1,C2z} with inversion and atoms at 0 and (1/2,0,1/2) and a closed neighbor list give a result that is not inversion symmetric and changes when symmetrised again. Proved: the result transforms with the representation under all operations without inversion, fixed points, linearity (all unconditional); inversion symmetry and idempotence under the hypothesis that inverses of fully listed bond orbits are fully listed (automatic when all atoms share a position)."
  },
  {
   "property": "C25",
   "status": "proved",
   "theorems": [
    "C25_symmetrizer_eq_symmetrize"
   ],
   "note": "Duplicate-free list; the comparison that merges table entries (rounding to 4 digits) is abstracted as any sound comparison."
  },
  {
   "property": "C26",
   "status": "proved",
   "theorems": [
    "C26_hermitian",
    "C26_bsm_hermitian"
   ],
   "note": "fs_f and bsm_f are hermitian for every k when the R=0 matrix is. Uses the stdlib real-number axioms."
  },
  {
   "property": "C27",
   "status": "proved",
   "theorems": [
    "C27_periodic",
    "C27_time_reversal"
   ],
   "note": "Periodicity for integer neighbors and integer G; conjugation for real matrices. Uses the stdlib real-number axioms."
  },
  {
   "property": "C28",
   "status": "proved",
   "theorems": [
    "C28_gradient",
    "C28_hessian",
    "C28_hessian_symmetric",
    "C28_bsm_gradient",
    "C28_bsm_hessian"
   ],
   "note": "Directional derivatives along every direction of real and imaginary part of every entry; also for BandStructureModel with every flag and symmetry. Uses the stdlib real-number axioms."
  },
  {
   "property": "C29",
   "status": "partial",
   "theorems": [
    "C29_convention_partial",
    "C29_defined",
    "C29_plain",
    "C29_inversion",
    "C29_refuted"
   ],
   "note": "REFUTED as stated: with cos_reduced and more than one symmetry operation set_params_complex compensates the -1 of the coefficient functions only once. Proved for cos_reduced=False with every symmetry and for cos_reduced=True with one operation; the trivial symmetry gives the plain series in all four conventions. Uses the stdlib real-number axioms."
  },
  {
   "property": "C30",
   "status": "proved",
   "theorems": [
    "C30_roundtrip",
    "C30_roundtrip_inversion",
    "C30_roundtrip_inversion_exp"
   ],
   "note": "All flag combinations; with inversion in cos form the hermitian parts are returned. Uses the stdlib real-number axioms."
  },
  {
   "property": "C31",
   "status": "partial",
   "theorems": [
    "C31_energies_unique",
    "C31_bsm_shift",
    "C31_bsm_scale",
    "C31_bsm_union_partial",
    "C31_bsm_union_refuted",
    "C31_scale",
    "C31_union",
    "C31_shift_partial",
    "C31_shift_refuted"
   ],
   "note": "REFUTED as stated: AsymTightBindingModel + number with a k-dependent overlap does not shift the energies (only S_0 is used); BandStructureModel.__add__ does not compare symmetries. Proved: BandStructureModel shift and scale, sum for equal symmetries; AsymTightBindingModel scale, sum, shift for constant S. Eigenvalue lists are proved unique up to order. Uses the stdlib real-number axioms."
  },
  {
   "property": "C32",
   "status": "proved",
   "theorems": [
    "C32_permute",
    "C32_congruence",
    "C32_normalize"
   ],
   "note": "permute with any permutation, congruence with any invertible matrix, and normalize for unitary eigenvector matrices and positive eigenvalues of S(0). Uses the stdlib real-number axioms."
  },
  {
   "property": "C33",
   "status": "partial",
   "theorems": [
    "C33_limit_neighbors",
    "C33_limit_neighbors_defined",
    "C33_cleanup",
    "C33_limit_count",
    "C33_add",
    "C33_add_ok_iff",
    "C33_limit_count_zero_refuted",
    "C33_add_duplicate_refuted"
   ],
   "note": "REFUTED as stated in two corners: limit_neighbor_count(0) drops R=0 (C33_limit_count_zero_refuted) and add_neighbors accepts a vector listed twice inside the new list (C33_add_duplicate_refuted). The kept pairs, order and rejection behaviour are proved otherwise."
  },
  {
   "property": "C34",
   "status": "partial",
   "theorems": [
    "C34_supercell_partial",
    "C34_supercell_refuted",
    "C34_supercell_rejects_refuted"
   ],
   "note": "REFUTED as stated: hoppings into cells outside the original neighbor list are dropped (C34_supercell_refuted), and some valid cells fail the determinant assertion (C34_supercell_rejects_refuted). Proved when the stored neighbors cover all hoppings (cells_cover); the model takes A_original = 1."
  },
  {
   "property": "C35",
   "status": "proved",
   "theorems": [
    "C35_roundtrip",
    "C35_save_defined",
    "C35_idempotent"
   ],
   "note": ""
  },
  {
   "property": "C36",
   "status": "partial",
   "theorems": [
    "C36_load_tb",
    "C36_load_hr",
    "C36_bad_line",
    "C36_degeneracy",
    "C36_truncated_hangs_refuted",
    "C36_index_zero_refuted"
   ],
   "note": "Proved for every syntactically valid file, including the extent of the degeneracy list (C36_degeneracy). REFUTED side claims about invalid files: a file ending inside the degeneracy list makes load_hr loop for ever (C36_truncated_hangs_refuted); a band index 0 is written to the last row instead of being rejected (C36_index_zero_refuted)."
  },
  {
   "property": "C37",
   "status": "partial",
   "theorems": [
    "C37_windowed_partial",
    "C37_equal_counts_refuted",
    "C37_last_offset_refuted",
    "C37_hist_partial",
    "C37_hist_equal_counts_refuted"
   ],
   "note": "REFUTED as stated: range(max_offset) never tests the last placement, and with equal band counts nothing is tested, so model_windowed_loss returns inf and model_error_hist raises TypeError. What holds is proved: the best over all placements except the last one."
  },
  {
   "property": "C38",
   "status": "proved",
   "theorems": [
    "C38_history",
    "C38_abort_once",
    "C38_last",
    "C38_last_empty"
   ],
   "note": ""
  },
  {
   "property": "C39",
   "status": "partial",
   "theorems": [
    "C39_residual",
    "C39_terminates",
    "C39_error_criterion_refuted",
    "C39_error_criterion_partial"
   ],
   "note": "Residual invariant and termination within max_i+2 passes proved for every linear operator. REFUTED part: on the error criterion the loop first updates x and then returns, so the returned x is one step further than the x whose residual was tested (C39_error_criterion_refuted); proved instead: the residual before the last update was at most err."
  },
  {
   "property": "C40",
   "status": "partial",
   "theorems": [
    "C40_zero_iff_partial",
    "C40_distinct_partial",
    "C40_repeated_refuted"
   ],
   "note": "REFUTED as stated: np.delete is applied to the local distance array, so partners are reused and a repeated point is matched twice. Proved: distance 0 iff every point of the first cloud occurs in the second; hence the claim when the first cloud has no repeated point."
  },
  {
   "property": "C41",
   "status": "proved",
   "theorems": [
    "C41_blocks",
    "C41_direct_sum_mul",
    "C41_direct_sum_adj",
    "C41_direct_sum_id",
    "C41_eigenpairs",
    "C41_kron2",
    "C41_kron_mul",
    "C41_kron_adj"
   ],
   "note": ""
  },
  {
   "property": "C42",
   "status": "proved",
   "theorems": [
    "C42_consistent",
    "C42_names",
    "C42_x",
    "C42_sym_x"
   ],
   "note": ""
  },
  {
   "property": "C43",
   "status": "partial",
   "theorems": [
    "C43_history_refuted",
    "C43_history_partial"
   ],
   "note": "REFUTED as stated: `global points` in tetragonal_bc_points makes every call with c != 1 rebind the module table, which a later call with c == 1 returns. Proved: calls with c != 1 do not depend on the history."
  },
  {
   "property": "C44",
   "status": "proved",
   "theorems": [
    "C44_fermi_surface"
   ],
   "note": ""
  },
  {
   "property": "C45",
   "status": "partial",
   "theorems": [
    "C45_faces",
    "C45_materials_partial",
    "C45_plot_partial",
    "C45_materials_refuted"
   ],
   "note": "Face numbers proved correct for all meshes by reading the file back. REFUTED part: with more Fermi bands than palette colors the file uses undefined materials; proved equivalent to (bands <= colors)."
  },
  {
   "property": "C46",
   "status": "partial",
   "theorems": [
    "C46_exact_fraction",
    "C46_near_fraction",
    "C46_range",
    "C46_monotone",
    "C46_symmetric",
    "C46_sides_partial",
    "C46_sides_refuted"
   ],
   "note": "Range, monotonicity, symmetry and equality with the exact volume (iterated integral of the indicator) proved. REFUTED part: with a gradient component below EPSILON a cell entirely below the energy is not reported as full; proved with a margin of 1.5e-4 of the gradient norm."
  },
  {
   "property": "C47",
   "status": "proved",
   "theorems": [
    "C47_derivative",
    "C47_nonneg",
    "C47_combined"
   ],
   "note": ""
  },
  {
   "property": "C48",
   "status": "partial",
   "theorems": [
    "C48_tetra_corners_partial",
    "C48_cube_partial",
    "C48_smearing_partial",
    "C48_tetra_volume_partial",
    "C48_tetra_derivative_partial",
    "C48_tetra_range_refuted",
    "C48_tetra_monotone_refuted",
    "C48_sphere_volume",
    "C48_sphere_range",
    "C48_sphere_derivative",
    "C48_sphere_monotone"
   ],
   "note": "Sphere part proved. Tetrahedron: volume equals the exact volume up to 1e-42 for distinct slopes not close to zero; derivative proved away from the switch to the dual problem; the six tetrahedra of a cell (cube_tetra_cut_volume, TetraSmearing.volume) give the fraction of the cell for linear bands (C48_cube_partial, C48_smearing_partial). REFUTED as stated: slightly negative volume for an empty cut, and not monotone/continuous at the switch when slopes are guarded."
  },
  {
   "property": "C49",
   "status": "proved",
   "theorems": [
    "C49_convolve_range",
    "C49_convolve_flat",
    "C49_convolve_bounds",
    "C49_weight",
    "C49_int_df",
    "C49_int_xdf",
    "C49_int_xxdf",
    "C49_int_poly",
    "C49_normalisation",
    "C49_second_moment"
   ],
   "note": "All three closed forms are proved to be antiderivatives-as-integrals of x^n (-f'(x)) (with scipy's spence as an integral), normalisation 1 and second moment pi^2/3 as improper integrals, int_poly and the segment sum of convolve_df equal the exact integral of the piecewise linear curve, with flat extrapolation as improper integral."
  },
  {
   "property": "C50",
   "status": "partial",
   "theorems": [
    "C50_monotone",
    "C50_bounds",
    "C50_extremes",
    "C50_states_density",
    "C50_density",
    "C50_cubes",
    "C50_cubes_range",
    "C50_cubes_density",
    "C50_cubes_sorted",
    "C50_cut_indices",
    "C50_fermi_insulator",
    "C50_no_gap",
    "C50_fermi_metal_partial",
    "C50_fermi_zero_refuted",
    "C50_extra_refuted"
   ],
   "note": "Monotone, bounded, extremes, density as derivative, insulator Fermi energy and band gap proved for every smearing with monotone volumes in [0,1], instantiated for \"cubes\". REFUTED as stated in two corners: \"cubes+\" counts 4/3 states in one band and then decreases; fermi_energy(0) with a flat lowest band returns an energy with one state below. For metals only the Newton exit condition is proved (partial): states_below may jump at band edges."
  },
  {
   "property": "C51",
   "status": "proved",
   "theorems": [
    "C51_conductivity",
    "C51_peltier",
    "C51_seebeck",
    "C51_thermal",
    "C51_kelvin"
   ],
   "note": "Any dimension; np.linalg.inv enters as a two-sided inverse of L0. Each tensor is characterised by an equivalence (it is the only matrix with the response property)."
  },
  {
   "property": "C52",
   "status": "partial",
   "theorems": [
    "C52_partial",
    "C52_one_point_refuted",
    "C52_filter_refuted",
    "C52_zero_temperature",
    "C52_solvable",
    "C52_distinct_partial",
    "C52_repeated"
   ],
   "note": "REFUTED as stated: one point returns a bare array, and filtering by the energy range drops weights (C52_one_point_refuted, C52_filter_refuted). Proved when no point is filtered (C52_partial): exact for every polynomial of degree below N as an improper integral, including that the zeta function coefficients are the true moments of -df/dE. For different points the linear system has exactly one solution (C52_solvable), so it is enough that np.linalg.solve solves regular systems (C52_distinct_partial); for repeated points the solution is never unique (C52_repeated). Weights at beta > 1e16 pick the point at mu (C52_zero_temperature). The points of _integration_points are C160."
  },
  {
   "property": "C53",
   "status": "proved",
   "theorems": [
    "C53_sc",
    "C53_hexagonal",
    "C53_triclinic",
    "C53_triclinic_domain",
    "C53_monoclinic",
    "C53_orthorhombic",
    "C53_tetragonal",
    "C53_rhombohedral",
    "C53_rhombohedral_domain",
    "C53_fcc",
    "C53_bcc",
    "C53_orthorhombic_base",
    "C53_monoclinic_base",
    "C53_orthorhombic_body",
    "C53_orthorhombic_face",
    "C53_tetragonal_body",
    "C53_cubic_volumes"
   ],
   "note": "Lengths, angles, orientation and volume of sc, hexagonal, triclinic, monoclinic, orthorhombic, tetragonal and rhombohedral; the exact domain of triclinic (Gram determinant factorisation) and rhombohedral; the centred constructors (fcc, bcc, base, body, face) generate exactly the centred point sets. Over the reals."
  },
  {
   "property": "C54",
   "status": "partial",
   "theorems": [
    "C54_partial",
    "C54_refuted"
   ],
   "note": "REFUTED as stated: an integer matrix A raises at the in-place product and a left-handed cell becomes NaN (C54_refuted). For right-handed float cells the density is reached by a uniform positive scaling (C54_partial)."
  },
  {
   "property": "C55",
   "status": "partial",
   "theorems": [
    "C55_band_name_partial",
    "C55_band_name_refuted"
   ],
   "note": "REFUTED as stated: negative (out of range) indices return a name. Proved for all non-negative indices."
  },
  {
   "property": "C56",
   "status": "proved",
   "theorems": [
    "C56_energies",
    "C56_unit",
    "C56_same_bands",
    "C56_gradients"
   ],
   "note": "Energies of __call__ are the lowest parabolas in ascending order, bands_grad returns the same energies and the gradients of the neighbors they come from. C56_unit: the energies are those of free electrons in eV to 10^-7."
  },
  {
   "property": "C57",
   "status": "partial",
   "theorems": [
    "C57_bar",
    "C57_perfect_fit_refuted"
   ],
   "note": "Proved whenever some error is positive. REFUTED for a perfect fit: all errors 0 gives 0/0 and round(nan) raises ValueError."
  },
  {
   "property": "C58",
   "status": "proved",
   "theorems": [
    "C58_finite_termination",
    "C58_default_limit"
   ],
   "note": ""
  },
  {
   "property": "C59",
   "status": "partial",
   "theorems": [
    "C59_failed_to_refuted",
    "C59_failed_to_partial"
   ],
   "note": "REFUTED as stated: the label is appended before the checks. Proved: samples and indices are untouched and at most one name is appended."
  },
  {
   "property": "C60",
   "status": "partial",
   "theorems": [
    "C60_tuple_start_refuted",
    "C60_list_start_partial"
   ],
   "note": "REFUTED as stated: a tuple or list of numbers is taken as a list of points and raises TypeError. Proved: a list of points gives the chain of to() calls."
  },
  {
   "property": "C61",
   "status": "partial",
   "theorems": [
    "C61_plot_scale_refuted",
    "C61_plot_shrink_partial"
   ],
   "note": "REFUTED as stated: the code divides by N instead of N-1. Proved: the picture is shrunk by (N-1)/N towards the lower corner."
  },
  {
   "property": "C62",
   "status": "proved",
   "theorems": [
    "C62_corners",
    "C62_linear_band",
    "C62_dvolume"
   ],
   "note": ""
  },
  {
   "property": "C63",
   "status": "proved",
   "theorems": [
    "C63_extrapolation",
    "C63_two_grids"
   ],
   "note": ""
  },
  {
   "property": "C64",
   "status": "partial",
   "theorems": [
    "C64_range_refuted",
    "C64_range_partial"
   ],
   "note": "REFUTED as stated: 4/3 for a peak on a 2x2x2 grid. Proved bounds -1/3 and 4/3."
  },
  {
   "property": "C65",
   "status": "proved",
   "theorems": [
    "C65_on_plane",
    "C65_area"
   ],
   "note": ""
  },
  {
   "property": "C66",
   "status": "partial",
   "theorems": [
    "C66_none_partial",
    "C66_flat_refuted",
    "C66_monotone"
   ],
   "note": "REFUTED as stated: with the default flat extrapolation the term of the upper end has the wrong sign (constant states have derivative 0 but convolve_ddf < 0). Proved without extrapolation, and monotonicity of the convolution proved."
  },
  {
   "property": "C67",
   "status": "partial",
   "theorems": [
    "C67_partial",
    "C67_filled",
    "C67_refuted",
    "C67_total_partial"
   ],
   "note": "REFUTED as stated: for a completely filled band the integral of N stops at the band edge while mu N(mu) uses mu, so the result is too large by mu - hi (C67_filled, witness C67_refuted). Proved (partial) for bands whose upper edge is not below mu and cubic N."
  },
  {
   "property": "C68",
   "status": "proved",
   "theorems": [
    "C68_segment"
   ],
   "note": "The documented quadratic approximation is proved; exactness for constant density included."
  },
  {
   "property": "C69",
   "status": "proved",
   "theorems": [
    "C69_samples"
   ],
   "note": "Proved for e0 < mu < e1; numpy's linspace/logit/expit as real functions."
  },
  {
   "property": "C70",
   "status": "partial",
   "theorems": [
    "C70_value_partial",
    "C70_refuted"
   ],
   "note": "REFUTED as stated: the slice [i:i+2] starts one index too late, so i+1 levels are separated (proved as C70_value_partial), and all bands filled gives nan."
  },
  {
   "property": "C71",
   "status": "proved",
   "theorems": [
    "C71_early_return",
    "C71_affine",
    "C71_needs_injective"
   ],
   "note": "Proved for injective f; C71_needs_injective shows a monotonic function with a plateau for which the early return is no root."
  },
  {
   "property": "C72",
   "status": "partial",
   "theorems": [
    "C72_band_partial",
    "C72_total_partial",
    "C72_gradient_refuted"
   ],
   "note": "REFUTED as stated for weight_by_gradient=True: the weights are divided by the area although they have been divided by the gradient. Proved without weight_by_gradient."
  },
  {
   "property": "C73",
   "status": "proved",
   "theorems": [
    "C73_exact",
    "C73_df_rules",
    "C73_odd",
    "C73_f_constant"
   ],
   "note": "Proved for the coefficients as written in the source, with rigorous bounds of pi from Machin's formula."
  },
  {
   "property": "C74",
   "status": "proved",
   "theorems": [
    "C74_correction",
    "C74_energy"
   ],
   "note": "Proved; the code uses density(mu) for the slope a, which the property makes explicit. C74_energy states the whole result of energy(mu, T) under the hypotheses that make it exact."
  },
  {
   "property": "C75",
   "status": "partial",
   "theorems": [
    "C75_partial",
    "C75_refuted"
   ],
   "note": "REFUTED as stated: R_xyz is minus the cubic coefficient (C75_refuted: free electrons); C75_partial: equal magnitude, opposite sign for all cubic surfaces."
  },
  {
   "property": "C76",
   "status": "proved",
   "theorems": [
    "C76_symmetric",
    "C76_positive",
    "C76_drude",
    "C76_odd_moments_indefinite",
    "C76_rotation"
   ],
   "note": "Symmetry, positivity, covariance and the equality with drude_factor hold; C76_odd_moments_indefinite shows that the parity hypothesis is needed (the first moment is not positive)."
  },
  {
   "property": "C77",
   "status": "partial",
   "theorems": [
    "C77_constant_partial",
    "C77_refuted",
    "C77_points_partial"
   ],
   "note": "REFUTED as stated: a callable tau fails to broadcast for all point counts except 1 and 3 and is applied to the wrong axis for 3 (C77_refuted); C77_constant_partial covers constant tau; C77_points_partial: one point is right, three points exactly when tau is the same at all three."
  },
  {
   "property": "C78",
   "status": "partial",
   "theorems": [
    "C78_partial",
    "C78_refuted"
   ],
   "note": "REFUTED as stated with limit_count (C78_refuted); proved without limit (C78_partial)."
  },
  {
   "property": "C79",
   "status": "partial",
   "theorems": [
    "C79_insulator_refuted",
    "C79_partial",
    "C79_zero_temperature",
    "C79_refuted",
    "C79_mixed_partial"
   ],
   "note": "REFUTED as stated: AttributeError for insulators at T=0, NotImplementedError for insulators at T>0 (C79_insulator_refuted), one value for T=[0,0], ValueError for N=1 (C79_refuted). C79_partial: metals with a positive temperature. C79_mixed_partial: a zero temperature in such a list gets the weights of the sample at the chemical potential."
  },
  {
   "property": "C80",
   "status": "partial",
   "theorems": [
    "C80_partial",
    "C80_refuted"
   ],
   "note": "REFUTED as stated: electrons are added to atomic masses that already contain them, and their number is Z-1 per atom because element_numbers counts from zero (C80_refuted). The exact value, order independence and the failure domain are proved (C80_partial)."
  },
  {
   "property": "C81",
   "status": "proved",
   "theorems": [
    "C81_order"
   ],
   "note": "Proved for every permutation: inverse permutation by scatter, then gather."
  },
  {
   "property": "C82",
   "status": "partial",
   "theorems": [
    "C82_transform_group",
    "C82_transform_object",
    "C82_transform_projective_partial",
    "C82_transform_projective_refuted"
   ],
   "note": "Proved for point groups in every dimension (C82_transform_group, C82_transform_object) and for 3D space groups (C82_transform_projective_partial). REFUTED side claim: transform of a 2D space group raises a ValueError because the embedding of B is hard-wired to 4x4 (C82_transform_projective_refuted)."
  },
  {
   "property": "C83",
   "status": "partial",
   "theorems": [
    "C83_dual",
    "C83_transpose",
    "C83_transpose_refuted"
   ],
   "note": "REFUTED as stated only for the flags: transpose() drops the projective flag (C83_transpose_refuted). Dual, pairing, involution and equality of operation sets are proved (C83_dual, C83_transpose)."
  },
  {
   "property": "C84",
   "status": "partial",
   "theorems": [
    "C84_check_partial",
    "C84_check_refuted"
   ],
   "note": "REFUTED as stated: {1, C2x, C2y, sigma_z} with inversion=True represents a group but check() is False (C84_check_refuted). Proved without inversion flag or when all stored operations are proper (C84_check_partial)."
  },
  {
   "property": "C85",
   "status": "partial",
   "theorems": [
    "C85_point_group_partial",
    "C85_ignore_translation",
    "C85_point_group_refuted"
   ],
   "note": "REFUTED as stated: with a centring translation point_group() keeps the same rotation twice, len is 2 instead of 1 (C85_point_group_refuted). Proved for space groups whose rotations are distinct (C85_point_group_partial)."
  },
  {
   "property": "C86",
   "status": "partial",
   "theorems": [
    "C86_strict_point_group_partial",
    "C86_strict_point_group_refuted"
   ],
   "note": "REFUTED as stated: the result for P-1 is not normalised and differs from point_group(), and a non-projective input raises an AssertionError (C86_strict_point_group_refuted). The operation set is proved (C86_strict_point_group_partial)."
  },
  {
   "property": "C87",
   "status": "partial",
   "theorems": [
    "C87_subgroup_partial",
    "C87_subgroup_inversion_partial",
    "C87_subgroup_refuted"
   ],
   "note": "REFUTED as stated: with the inversion flag a mirror is lost, and a class function on the cubic group raises an AssertionError (C87_subgroup_refuted). Proved for objects without the inversion flag (C87_subgroup_partial)."
  },
  {
   "property": "C88",
   "status": "partial",
   "theorems": [
    "C88_projective_inversion_refuted"
   ],
   "note": "REFUTED as stated: inversion=True together with projective=True adds no affine operation (C88_projective_inversion_refuted)."
  },
  {
   "property": "C89",
   "status": "proved",
   "theorems": [
    "C89_copy"
   ],
   "note": ""
  },
  {
   "property": "C90",
   "status": "partial",
   "theorems": [
    "C90_div_partial",
    "C90_div_refuted"
   ],
   "note": "REFUTED as stated: C4/C2 and T/D2 raise a ValueError although the subgroup is normal, T/C3 returns a group although C3 is not normal, and two operands with inversion raise an AssertionError (C90_div_refuted). Proved: without inversion flags the division ends, and what it returns is a complement of h in g (C90_div_partial)."
  },
  {
   "property": "C91",
   "status": "partial",
   "theorems": [
    "C91_symmetrize_invariant_partial",
    "C91_symmetrize_plain_partial",
    "C91_symmetrize_fixes",
    "C91_symmetrize_open_raises",
    "C91_inversion_only_refuted",
    "C91_mirrored_refuted"
   ],
   "note": "REFUTED as stated in two corner cases: a representation of the inversion group alone is returned unchanged although the parities are violated (C91_inversion_only_refuted), and without the inversion flag a neighbor found mirrored is read as if it were not (C91_mirrored_refuted). Proved for at least two operations: with inversion flag (C91_symmetrize_invariant_partial, C91_symmetrize_fixes, C91_symmetrize_open_raises) and without it for lists closed without mirroring (C91_symmetrize_plain_partial)."
  },
  {
   "property": "C92",
   "status": "partial",
   "theorems": [
    "C92_symmetrizer_equal_partial",
    "C92_symmetrizer_needs",
    "C92_no_mirror_refuted"
   ],
   "note": "REFUTED as stated: the preparation fails with an IndexError for a list in which no neighbor is found mirrored, without the zero neighbor, and always without the inversion flag (C92_no_mirror_refuted, C92_symmetrizer_needs). Proved: otherwise both functions agree for every group, list and matrices (C92_symmetrizer_equal_partial; 1/2 must exist in the ring)."
  },
  {
   "property": "C93",
   "status": "proved",
   "theorems": [
    "C93_symmetrize2_invariant",
    "C93_symmetrize2_fixes"
   ],
   "note": "Every group, point and matrix; the tolerance of the comparison S k = k is taken as exact equality."
  },
  {
   "property": "C94",
   "status": "partial",
   "theorems": [
    "C94_orbit",
    "C94_covariant_partial",
    "C94_inversion_refuted",
    "C94_default_refuted"
   ],
   "note": "REFUTED as stated: with the inversion flag the parities are missing at -S k (C94_inversion_refuted) and the default argument uses U^+ M U instead of U M U^+ (C94_default_refuted). Proved: the points (C94_orbit) and, without inversion and with inverse=True, the matrices (C94_covariant_partial)."
  },
  {
   "property": "C95",
   "status": "partial",
   "theorems": [
    "C95_permute_representation",
    "C95_repeated_refuted"
   ],
   "note": "REFUTED as stated: an order with a repeated index is accepted and gives matrices that are not unitary (C95_repeated_refuted). Proved for permutations (C95_permute_representation)."
  },
  {
   "property": "C96",
   "status": "partial",
   "theorems": [
    "C96_product_refuted",
    "C96_product_never_returns"
   ],
   "note": "REFUTED as stated: the product never returns (C96_product_never_returns, C96_product_refuted); it raises for every pair of arguments."
  },
  {
   "property": "C97",
   "status": "partial",
   "theorems": [
    "C97_check_symmetry_point_partial",
    "C97_dimension_raises",
    "C97_accepts_asymmetric_refuted"
   ],
   "note": "REFUTED as stated: an operator that is not symmetric is accepted (C97_accepts_asymmetric_refuted) and every group in another dimension than three raises (C97_dimension_raises). Proved: the answer is exactly the symmetry at the probe point (C97_check_symmetry_point_partial)."
  },
  {
   "property": "C98",
   "status": "proved",
   "theorems": [
    "C98_vector_representations",
    "C98_one_dim",
    "C98_d3"
   ],
   "note": "Complete enumeration of the 24 operations inside the proof; the square root of three and 1/2 are elements of the ring, so rounding is not modelled."
  },
  {
   "property": "C99",
   "status": "proved",
   "theorems": [
    "C99_hessian",
    "C99_chain_rule",
    "C99_hall_rotation",
    "C99_hall_coefficients"
   ],
   "note": "Proved for every orthogonal matrix, reflections change the sign of the tensor."
  },
  {
   "property": "C100",
   "status": "proved",
   "theorems": [
    "C100_geigh",
    "C100_eigh_grad",
    "C100_geigh_grad",
    "C100_bands_grad",
    "C100_asym_bands_grad"
   ],
   "note": "Proved for every continuous energy branch through the eigenvalue. If the code takes the shortcut for S = 1 (test with a tolerance) the theorem asks that S is exactly 1 and its derivative exactly 0 at that point."
  },
  {
   "property": "C101",
   "status": "proved",
   "theorems": [
    "C101_bands_grad_hess",
    "C101_eigh_grad_hess",
    "C101_perturbation_sum",
    "C101_symmetric"
   ],
   "note": "Proved: symmetry, the first derivative and the limit of the second order quotient; perturbation sum also with a constant overlap."
  },
  {
   "property": "C102",
   "status": "proved",
   "theorems": [
    "C102_gradient_sum",
    "C102_sums"
   ],
   "note": "Proved for every solver that diagonalises every hermitian matrix."
  },
  {
   "property": "C103",
   "status": "partial",
   "theorems": [
    "C103_degenerate_refuted"
   ],
   "note": "REFUTED as stated: for the two crossing bands of H(x) = [[2 x^2, x], [x, 0]] at x = 0 none of the returned Hessians is the second order term of the branch; the gradients are right (C103_degenerate_refuted). The sum over the bands is right (C102)."
  },
  {
   "property": "C104",
   "status": "partial",
   "theorems": [
    "C104_constant_overlap",
    "C104_overlap_refuted",
    "C104_degenerate_refuted"
   ],
   "note": "REFUTED as stated: the derivative of S is ignored; for H = 1, S = 2 + cos(2 pi k) at k = 1/4 the gradient is 0 instead of pi/2 (C104_overlap_refuted). Proved for an overlap that does not depend on k (C104_constant_overlap). At a point with equal energies the division by 10^-40 leaves Hessians of the size 10^40 (C104_degenerate_refuted)."
  },
  {
   "property": "C105",
   "status": "partial",
   "theorems": [
    "C105_single",
    "C105_single_hess",
    "C105_single_fails",
    "C105_single_refuted"
   ],
   "note": "REFUTED as stated: geigh_grad of a single pair with S <> 1 raises IndexError (C105_single_refuted); eigh_grad_hess of a single matrix fails exactly if two eigenvalues are closer than epsilon (C105_single_fails). When there is a result it is the one of the batch (C105_single, C105_single_hess)."
  },
  {
   "property": "C106",
   "status": "partial",
   "theorems": [
    "C106_constructor",
    "C106_symmetrizer_trivial",
    "C106_inversion_refuted"
   ],
   "note": "REFUTED as stated: with inversion the constructor reads self.params before it is assigned (AttributeError, C106_inversion_refuted); without inversion the symmetrizer of more than one matrix always raises. C106_constructor: exactly the representations with at most one matrix and no inversion give a model; there normalize changes nothing (C106_symmetrizer_trivial)."
  },
  {
   "property": "C107",
   "status": "proved",
   "theorems": [
    "C107_gradient",
    "C107_hessian",
    "C107_hermitian",
    "C107_gamma",
    "C107_periodic",
    "C107_bands_grad",
    "C107_bands_grad_hess"
   ],
   "note": "Proved."
  },
  {
   "property": "C108",
   "status": "proved",
   "theorems": [
    "C108_set_from_complex",
    "C108_same_as_asym"
   ],
   "note": "Proved, for every list (H_0 enters with its hermitian part)."
  },
  {
   "property": "C109",
   "status": "partial",
   "theorems": [
    "C109_raises",
    "C109_two",
    "C109_roundtrip_refuted"
   ],
   "note": "REFUTED as stated: with three or more neighbors params_complex always raises (C109_raises); with two it returns the conjugate transpose of the hopping and half the matrix at k = 0 (C109_two, C109_roundtrip_refuted)."
  },
  {
   "property": "C110",
   "status": "partial",
   "theorems": [
    "C110_one_sample",
    "C110_contracts",
    "C110_exact_refuted"
   ],
   "note": "REFUTED as stated: the normalisation is applied twice, the bands move by the fraction 1/S of the way, S >= 1 the sum of the squared coefficients (1/3 in C110_exact_refuted). Proved: eigenvectors are kept and the fraction is lr w s/S^2 (C110_one_sample), so the distance to the reference never grows (C110_contracts)."
  },
  {
   "property": "C111",
   "status": "partial",
   "theorems": [
    "C111_gradient",
    "C111_descent",
    "C111_sample_weights_refuted"
   ],
   "note": "REFUTED as stated for the reported loss: it leaves out the sample weights that the step uses; with unequal weights a step from the best fit increases it for every learning rate (C111_sample_weights_refuted). Proved: the step is -1/4 of the gradient of the loss that contains the weights and the normalisation (C111_gradient); for equal weights and coefficients of equal size the reported loss decreases to first order (C111_descent). Eigensolver as a parameter; simple bands. Uses the stdlib real-number axioms."
  },
  {
   "property": "C112",
   "status": "partial",
   "theorems": [
    "C112_pinv_step",
    "C112_exact",
    "C112_band_weights_refuted"
   ],
   "note": "REFUTED as stated for band weights that are not all equal: with the weights 1 and 4 the loss grows in one iteration (C112_band_weights_refuted). Proved: eigenvectors are kept and band j at sample b moves by lr times the normalised weights times the distance (C112_pinv_step), exact for equal weights (C112_exact). pinv enters as a left inverse. Uses the stdlib real-number axioms."
  },
  {
   "property": "C113",
   "status": "partial",
   "theorems": [
    "C113_pinv_step",
    "C113_one_sample",
    "C113_contracts",
    "C113_overlap_refuted",
    "C113_mask_and_origin"
   ],
   "note": "REFUTED as stated with overlap: the step is not normalised with S, an energy 0 with the reference 1 becomes 16 for S = 1/4 (C113_overlap_refuted). Proved for S = 1: C113_pinv_step, C113_one_sample, C113_contracts. use_lstsq_stepsize is not modelled; train_S=True raises an UnboundLocalError in the source. Uses the stdlib real-number axioms."
  },
  {
   "property": "C114",
   "status": "proved",
   "theorems": [
    "C114_linearised",
    "C114_operator",
    "C114_right_side",
    "C114_symmetric",
    "C114_gauss_newton"
   ],
   "note": "Eigenvectors and eigenvalues at the current parameters, preconditioner and the solution of the linear system are parameters; C114_linearised: to first order the bands are the expectation values used; C114_gauss_newton: minimum over all parameter arrays. Symmetrizer and keep_zeros are not modelled. Uses the stdlib real-number axioms."
  },
  {
   "property": "C115",
   "status": "partial",
   "theorems": [
    "C115_energies",
    "C115_normal_form",
    "C115_inversion_refuted",
    "C115_small_refuted"
   ],
   "note": "REFUTED as stated: with exponentials and inversion the other matrices are made hermitian, -2 sin x becomes 0 (C115_inversion_refuted); entries up to 10^-14 are set to 0 on one side of the diagonal only, which halves the splitting (C115_small_refuted). Proved otherwise for every k (C115_energies), and the normal form always (C115_normal_form). Uses the stdlib real-number axioms."
  },
  {
   "property": "C116",
   "status": "partial",
   "theorems": [
    "C116_zeros_in_loop",
    "C116_k0_in_loop",
    "C116_f0_in_loop",
    "C116_keep_zeros_refuted",
    "C116_k0_refuted"
   ],
   "note": "REFUTED as stated: optimize starts with normalize, which rotates the zeros away (C116_keep_zeros_refuted); train_k0=False without cos_reduced changes H(0) (C116_k0_refuted). Proved for the loop: zeros stay, params[0] stays and with cos_reduced H(0) stays, for every number of iterations (C116_zeros_in_loop, C116_k0_in_loop, C116_f0_in_loop). Uses the stdlib real-number axioms."
  },
  {
   "property": "C117",
   "status": "partial",
   "theorems": [
    "C117_gamma",
    "C117_window",
    "C117_count_refuted",
    "C117_plain_refuted",
    "C117_asym_refuted"
   ],
   "note": "REFUTED as stated: without cos_reduced and for AsymTightBindingModel the random matrices shift the bands at k = 0 (C117_plain_refuted, C117_asym_refuted); band_offset > add_bands gives more bands than asked for (C117_count_refuted). Proved with cos_reduced (C117_gamma), and position and order of the reference in the continued list (C117_window). Uses the stdlib real-number axioms."
  },
  {
   "property": "C118",
   "status": "partial",
   "theorems": [
    "C118_symmetries",
    "C118_translation_refuted",
    "C118_empty_refuted"
   ],
   "note": "Contragredience, length and closure proved for every group with the identity first. REFUTED in two details: with translations the returned 4\u00d74 matrices carry the translation in the last row (C118_translation_refuted), and a file without symmetries raises AssertionError (C118_empty_refuted)."
  },
  {
   "property": "C119",
   "status": "partial",
   "theorems": [
    "C119_k_points",
    "C119_range_refuted"
   ],
   "note": "Coordinates, phases and unit proved; REFUTED for the range: k is not reduced to [0, 1[ (C119_range_refuted)."
  },
  {
   "property": "C120",
   "status": "proved",
   "theorems": [
    "C120_energies",
    "C120_projections"
   ],
   "note": ""
  },
  {
   "property": "C121",
   "status": "partial",
   "theorems": [
    "C121_from_disk_partial",
    "C121_from_disk_refuted"
   ],
   "note": "REFUTED as stated: the positions (bohr) are divided by the lattice already converted to angstrom, so crystal coordinates come back multiplied by 1/0.529, and Hartree energies are taken as Rydberg, so cutoff and temperature come back halved (C121_from_disk_refuted). C121_from_disk_partial gives the exact result for every crystal."
  },
  {
   "property": "C122",
   "status": "partial",
   "theorems": [
    "C122_wavefunctions_partial",
    "C122_spinor_refuted"
   ],
   "note": "Proved for npol = 1. REFUTED for spinors: the file holds all plane waves of the first component before those of the second, reshape(nbnd, igwx, npol) reads them as alternating (C122_spinor_refuted). The file is modelled as 4-byte words with the record markers of Fortran."
  },
  {
   "property": "C123",
   "status": "partial",
   "theorems": [
    "C123_shift",
    "C123_density_refuted"
   ],
   "note": "REFUTED as stated for every file: the record markers before the density are not skipped and only the real part is kept, so entry j+1 is the imaginary part of coefficient j, and G is returned in cartesian coordinates (C123_shift, C123_density_refuted)."
  },
  {
   "property": "C124",
   "status": "proved",
   "theorems": [
    "C124_bandx",
    "C124_truncated"
   ],
   "note": ""
  },
  {
   "property": "C125",
   "status": "proved",
   "theorems": [
    "C125_breaks"
   ],
   "note": ""
  },
  {
   "property": "C126",
   "status": "partial",
   "theorems": [
    "C126_one_atom_partial",
    "C126_order_refuted"
   ],
   "note": "Proved for one atom in the cell; REFUTED for two or more: `if self.types` raises ValueError as soon as one orbital is listed (C126_order_refuted)."
  },
  {
   "property": "C127",
   "status": "proved",
   "theorems": [
    "C127_crystal",
    "C127_missing",
    "C127_wannier",
    "C127_k_points",
    "C127_k_grid"
   ],
   "note": ""
  },
  {
   "property": "C128",
   "status": "partial",
   "theorems": [
    "C128_grid_partial",
    "C128_order_refuted",
    "C128_infer"
   ],
   "note": "Points, number and inferred size proved; REFUTED for the order: np.meshgrid exchanges the first two axes, for every g \u2265 2 (C128_order_refuted)."
  },
  {
   "property": "C129",
   "status": "proved",
   "theorems": [
    "C129_orbitals"
   ],
   "note": ""
  },
  {
   "property": "C130",
   "status": "partial",
   "theorems": [
    "C130_sphere",
    "C130_reduction_refuted"
   ],
   "note": "REFUTED as stated in one detail: the points are exactly right (C130_sphere), but the step meant to make the basis more orthogonal multiplies by round(R) instead of its inverse: for the square lattice given by [[1,1],[0,1]] the off-diagonal entry grows to 8."
  },
  {
   "property": "C131",
   "status": "proved",
   "theorems": [
    "C131_transform",
    "C131_gradient",
    "C131_hessian",
    "C131_energies",
    "C131_crystal",
    "C131_unit"
   ],
   "note": ""
  },
  {
   "property": "C132",
   "status": "partial",
   "theorems": [
    "C132_free_electrons",
    "C132_hessian_refuted",
    "C132_hessian"
   ],
   "note": "REFUTED as stated in one detail: the energies converge to k\u00b2 (C132_free_electrons), the second derivative at k = 0 is 4 for odd and 0 for even neighbor counts (C132_hessian), never near 2 (nor 1, as the comment above the function says). bands_per_direction > 1 (supercell folding) is not covered."
  },
  {
   "property": "C133",
   "status": "partial",
   "theorems": [
    "C133_append",
    "C133_s_and_p",
    "C133_d3_iff",
    "C133_d3_refuted",
    "C133_d2"
   ],
   "note": "REFUTED as stated in one detail: append, s, p (any integer group) and d2 are proved; append_d3 divides the operation by its determinant, which is right exactly for the operations that permute the axes evenly (C133_d3_iff); a quarter turn about z maps xy to \u2212xy but the stored matrix says +xy (C133_d3_refuted), contrary to the docstring."
  },
  {
   "property": "C134",
   "status": "partial",
   "theorems": [
    "C134_d3_with_inversion",
    "C134_s_and_p_with_inversion_partial",
    "C134_without_inversion",
    "C134_s_with_inversion_iff",
    "C134_p_with_inversion_wrong",
    "C134_s_and_p_with_inversion_refuted"
   ],
   "note": "REFUTED as stated in one detail: without inversion all three are proved, with inversion append_diamond_d3 is proved; append_diamond_s and append_diamond_p have the parities of the two blocks interchanged and are right only if no listed operation exchanges the sites (C134_s_with_inversion_iff, C134_p_with_inversion_wrong); the cubic group refutes both (C134_s_and_p_with_inversion_refuted)."
  },
  {
   "property": "C135",
   "status": "partial",
   "theorems": [
    "C135_formula_partial",
    "C135_hermitian",
    "C135_identity_partial",
    "C135_identity_parity_refuted",
    "C135_identity_phase_refuted"
   ],
   "note": "REFUTED as stated in one detail: hermiticity is proved in general and the formula of the comment for even blocks; the loop over odd blocks ignores the argument inversion and never advances its offset, so the identity changes signs (C135_identity_parity_refuted); the phase of the comment itself is not 1 for the identity and two positions (C135_identity_phase_refuted)."
  },
  {
   "property": "C136",
   "status": "proved",
   "theorems": [
    "C136_cubic",
    "C136_paths"
   ],
   "note": ""
  },
  {
   "property": "C137",
   "status": "proved",
   "theorems": [
    "C137_tetragonal"
   ],
   "note": ""
  },
  {
   "property": "C138",
   "status": "proved",
   "theorems": [
    "C138_trigonal"
   ],
   "note": ""
  },
  {
   "property": "C139",
   "status": "partial",
   "theorems": [
    "C139_hexagonal",
    "C139_documented_refuted"
   ],
   "note": "REFUTED as stated: with r the distance of neighboring reciprocal lattice points, as documented, K (and H) are outside of the zone for every hexagonal lattice in every orientation (C139_documented_refuted). The table is right for r = 1/a and h = 1/c of hexagonal(a, c), where the distance is 2/sqrt(3) times r (C139_hexagonal)."
  },
  {
   "property": "C140",
   "status": "partial",
   "theorems": [
    "C140_ascending",
    "C140_descending_refuted",
    "C140_single",
    "C140_high",
    "C140_batch_refuted"
   ],
   "note": "REFUTED as stated in two details: (1) C140_batch_refuted: the distribution of samples is compared with the previous temperature instead of the one it was made for, so it is never renewed along temperatures in steps of less than 5%; in 4% steps up to 1000 K the equation for the last temperature has no solution below 1/2 although the exact value is 0; (2) C140_descending_refuted: temperatures sorted in descending order end in an UnboundLocalError. Proved: ascending temperatures give one value each and no exception (C140_ascending); a single temperature solves the equation for the interpolated states up to 2 n exp(-60) (C140_single, with the integral as an independent specification); from T_lin on the equation is solved on equidistant samples without any error (C140_high)."
  },
  {
   "property": "C141",
   "status": "partial",
   "theorems": [
    "C141_values",
    "C141_derivative",
    "C141_zero_refuted"
   ],
   "note": "REFUTED as stated in one detail: if no temperature is positive (e.g. [0]) np.min of an empty array raises ValueError instead of returning 0 (C141_zero_refuted). Proved: the central differences for every list with a positive temperature (C141_values) and the limit to the derivative (C141_derivative)."
  },
  {
   "property": "C142",
   "status": "partial",
   "theorems": [
    "C142_zero",
    "C142_value",
    "C142_filled_refuted",
    "C142_interior"
   ],
   "note": "REFUTED as stated in one detail: convolve_ddf adds the last sample with the wrong sign, so a completely filled cell has a negative density instead of 0 (C142_filled_refuted). Proved: the value at T = 0 (C142_zero), the exact value at T > 0 including the error term (C142_value), and that the error is at most 2 exp(-30)/(k_B T) times the states if the band structure ends 30 k_B T above mu (C142_interior)."
  },
  {
   "property": "C143",
   "status": "partial",
   "theorems": [
    "C143_cyclic",
    "C143_o2",
    "C143_o2_inversion",
    "C143_o2_inversion_refuted",
    "C143_lattice"
   ],
   "note": "REFUTED as stated in one detail: the docstring of o2 says that the inversion is included, which holds exactly for even counts (C143_o2_inversion, C143_o2_inversion_refuted). Proved: groups, orders and action of cyclic and o2 for all counts (C143_cyclic, C143_o2) and the crystallographic restriction of the docstring for o2 (C143_lattice)."
  },
  {
   "property": "C144",
   "status": "partial",
   "theorems": [
    "C144_dihedral",
    "C144_limit_refuted"
   ],
   "note": "REFUTED as stated in one detail: counts from 100 on raise the group size error of from_generator (C144_limit_refuted), although cyclic has no limit. Proved: order, group and action for all counts below 100 (C144_dihedral)."
  },
  {
   "property": "C145",
   "status": "partial",
   "theorems": [
    "C145_icosahedral",
    "C145_alignment_refuted"
   ],
   "note": "REFUTED as stated in one detail: the vertex of the upper ring lies towards the y-axis, no vertex lies over the x-axis (C145_alignment_refuted). Proved: orders 60 and 120, group, rotations, invariance and transitivity on the 12 vertices (C145_icosahedral)."
  },
  {
   "property": "C146",
   "status": "partial",
   "theorems": [
    "C146_set",
    "C146_parameters",
    "C146_first",
    "C146_sliders",
    "C146_again_refuted",
    "C146_imag_refuted",
    "C146_labels_refuted"
   ],
   "note": "REFUTED as stated: setting a parameter a second time gives v + (1 - fac) * old instead of v, for example 5/2 instead of 2 for the hopping of an s band on the square lattice (C146_again_refuted); for entries that may only be imaginary the factor is real and a real value gives 0 (C146_imag_refuted); atoms with the same name have equal labels, so that free parameters are missing in the dictionary (C146_labels_refuted). The module cannot be imported because of 'from typing import tuple'; it is modelled as if that were repaired. Proved: the exact update rule and the symmetry of the result (C146_set), the correctness of every tuple (C146_parameters), that the first call sets the value (C146_first) and the rule of the sliders (C146_sliders). Complex parameters are covered by C146_set only for real differences. That every independent entry has a tuple when the labels are distinct is not proved."
  },
  {
   "property": "C147",
   "status": "partial",
   "theorems": [
    "C147_bloch",
    "C147_attributes_refuted",
    "C147_hermitian",
    "C147_time_reversal",
    "C147_time_reversal_refuted",
    "C147_cubic",
    "C147_pd_refuted",
    "C147_eg_refuted",
    "C147_d2_refuted"
   ],
   "note": "REFUTED as stated: the constructor does not accept 24 of the attributes that f reads, so f always raises AttributeError, and fcc() calls the constructor without arguments (C147_attributes_refuted). For objects that got the attributes by other means: time reversal fails for x_d1_111 because of a missing 1j (C147_time_reversal_refuted); the p-d block is not cubic since x_xy is used for (y, yz) and others (C147_pd_refuted); the e_g energies differ at k = 0 (C147_eg_refuted); (d2, d2) is not symmetric in x and y (C147_d2_refuted). Proved: Hermitian (C147_hermitian), time reversal without x_d1_111 (C147_time_reversal), all 48 cubic operations on the s, p and t2g blocks and on s-p, s-t2g (C147_cubic), and all of these entries as Bloch sums over the neighbor shells (C147_bloch)."
  },
  {
   "property": "C148",
   "status": "proved",
   "theorems": [
    "C148_mean",
    "C148_symmetric"
   ],
   "note": "Proved over integer coordinates in units of 1/M, so for all rational samples; tolerances are exact comparisons. C148_mean gives points, coverage and means, C148_symmetric the invariance for a group."
  },
  {
   "property": "C149",
   "status": "partial",
   "theorems": [
    "C149_periodic",
    "C149_plain",
    "C149_symmetric",
    "C149_unwrapped_refuted",
    "C149_single_refuted"
   ],
   "note": "REFUTED as stated in one detail: without a symmetry the samples are not wrapped to the unit cell, so samples 0, 1/4, 1/2, 3/4 give a function that raises at k = -0.4 (C149_unwrapped_refuted), and an axis with one point makes every call raise (C149_single_refuted). Proved for samples in [-0.5, 0.5[ and at least two points per axis: C149_periodic, C149_symmetric, C149_plain. The interpolator of scipy is a parameter with the listed properties interp_spec, and floor_spec shows that they can be met; the default grid is not modelled."
  },
  {
   "property": "C150",
   "status": "partial",
   "theorems": [
    "C150_orbits",
    "C150_defined",
    "C150_distinct",
    "C150_covariant_partial",
    "C150_parity_refuted"
   ],
   "note": "REFUTED as stated in one detail: apply changes the signs of the leading rows and columns for every odd block, also for operations without inversion, so with a p orbital the matrix at the image has the wrong sign between s and p (C150_parity_refuted, a mirror with s and p_y). Proved: order, coverage, uniqueness and source of every returned entry for any apply and any group (C150_orbits, C150_distinct); the covariance if all blocks are even and at one position (C150_covariant_partial). Missing: covariance for odd blocks under a corrected apply and for blocks at several positions."
  },
  {
   "property": "C151",
   "status": "partial",
   "theorems": [
    "C151_transform_partial",
    "C151_symmetric_refuted",
    "C151_other",
    "C151_self",
    "C151_alias_refuted"
   ],
   "note": "REFUTED as stated in two details: transform multiplies the neighbors but not the operations of the symmetry, so f'(k) = f(A^T k) fails for A that does not commute with them (C151_symmetric_refuted, exchange of x and y with a stretch along x), and arithmetic on a model shares the array of neighbors, so m2 = m * c; m2.transform(A) changes m (C151_alias_refuted). Proved: the values, gradients and Hessians if A commutes with the operations (C151_transform_partial), the effect on the model itself and on models with another array (C151_self, C151_other)."
  },
  {
   "property": "C152",
   "status": "partial",
   "theorems": [
    "C152_formula",
    "C152_exchange",
    "C152_same",
    "C152_grads",
    "C152_gauge",
    "C152_degenerate_refuted"
   ],
   "note": "REFUTED as stated in one detail: at degenerate bands v and g depend on the basis chosen by the solver (C152_degenerate_refuted). Proved: the formula, the exchange of the points, g = 0 at equal points, v as the derivative of a simple band (C152_grads), independence of v and |g|^2 of the eigenvectors if the bands are simple (C152_gauge)."
  },
  {
   "property": "C153",
   "status": "partial",
   "theorems": [
    "C153_raises",
    "C153_supercell_refuted"
   ],
   "note": "REFUTED as stated: np.linalg.inv and np.round return float64 arrays, so the assertion that the bounding box has the type int64 always fails; every call raises (C153_raises, C153_supercell_refuted)."
  },
  {
   "property": "C154",
   "status": "proved",
   "theorems": [
    "C154_nearest",
    "C154_sample",
    "C154_image",
    "C154_short"
   ],
   "note": "Coordinates are rational. KDTree.query is a parameter with a specification, which a linear search satisfies. With fewer rows than samples a point far from all samples raises IndexError (C154_short)."
  },
  {
   "property": "C155",
   "status": "partial",
   "theorems": [
    "C155_sum",
    "C155_shift",
    "C155_monotone",
    "C155_limit",
    "C155_continuous_partial",
    "C155_continuous_refuted"
   ],
   "note": "REFUTED as stated in one detail: with a band at mu the value at T = 0 counts it fully, while the limit T -> 0 counts one half (C155_continuous_refuted). Proved: the sum, the shift, the monotony, the limit in general (C155_limit), continuity if no band is at mu (C155_continuous_partial)."
  },
  {
   "property": "C156",
   "status": "partial",
   "theorems": [
    "C156_assigned",
    "C156_exact_partial",
    "C156_ordered_partial",
    "C156_degenerate_refuted",
    "C156_ordered_refuted",
    "C156_dropped_refuted",
    "C156_gamma"
   ],
   "note": "REFUTED as stated in one detail: a degenerate energy of the data is assigned to one subspace, which may be smaller, so its other copies are lost (C156_degenerate_refuted; data 0, 1, 1 and three bands give 0, 1, -0.01), with use_repr_order as well (C156_ordered_refuted), and an energy with a degeneracy above dim is dropped (C156_dropped_refuted). Proved: the assignment (C156_assigned), the exact spectrum if the sizes of the subspaces match the degeneracies (C156_exact_partial, C156_ordered_partial), the matrix at k = 0 (C156_gamma). Energies are integers in units of 1e-5, the rounding of the code."
  },
  {
   "property": "C157",
   "status": "proved",
   "theorems": [
    "C157_partition",
    "C157_commutes",
    "C157_complete"
   ],
   "note": ""
  },
  {
   "property": "C158",
   "status": "partial",
   "theorems": [
    "C158_python_partial",
    "C158_python_refuted",
    "C158_python_exp_refuted",
    "C158_json_partial",
    "C158_json_symmetry_refuted",
    "C158_dimension_refuted",
    "C158_names",
    "C158_formats_refuted"
   ],
   "note": "REFUTED as stated in several cases. Proved: python format for normalized models with cos_reduced or with a single operation; JSON for normalized models without rotations (all storage conventions, all flags of load, with the entrywise rounding of 1e-14, exact when no part is that small); which names can be saved. Refuted: python format with rotations and cos_reduced=False (f(0) = 4 becomes 2), python format with exp and inversion and matrices that are not hermitian, JSON with rotations (the symmetry is not saved), JSON in dimensions other than 3 (load uses Symmetry.none() of dimension 3, f raises ValueError), the format wannier90 (NotImplementedError in save, ValueError in load)."
  },
  {
   "property": "C159",
   "status": "partial",
   "theorems": [
    "C159_json_partial",
    "C159_overlap_refuted",
    "C159_python"
   ],
   "note": "REFUTED as stated in one detail: the overlap S is not saved, so the generalized eigenvalues change when S is not the identity (witness: energy 1/2 becomes 1). The series H itself, the Hamiltonian and, for S = 1, the energies are proved to be kept."
  },
  {
   "property": "C160",
   "status": "partial",
   "theorems": [
    "C160_two_refuted",
    "C160_points_partial",
    "C160_gauss_partial",
    "C160_positive_partial",
    "C160_two_partial",
    "C160_errors",
    "C160_rule_partial"
   ],
   "note": "REFUTED as stated in one detail: for T_min < T_max most conditions are set at the mean temperature, so the rule is not exact up to degree 2 N - 1 at T_max (C160_two_refuted, N = 3, T_min = T_max / 2, degree 4). Proved for T_min = T_max: the points are the zeros of the orthogonal polynomial, N real different ascending numbers (C160_points_partial), exactness for degree < 2 N (C160_gauss_partial), positive weights (C160_positive_partial); for two temperatures exactness for degree < N + N//2 - 1 at T_max and < 2 N - N//2 + 1 at the mean temperature, if the zeros are real (C160_two_partial); the AssertionErrors (C160_errors). qr and np.roots are parameters with a specification of the call, np.linalg.solve is only assumed to solve the systems that have exactly one solution (C160_rule_partial). Missing: real zeros for two temperatures. KIntegral adds 1e-20 to k_B T in the weights only and uses the chemical potential instead of the Fermi energy."
  },
  {
   "property": "C161",
   "status": "partial",
   "theorems": [
    "C161_path_partial",
    "C161_names_refuted",
    "C161_failed_refuted"
   ],
   "note": "REFUTED as stated in one detail: the default name of a point given by coordinates contains blanks, so the line has at least ten words (C161_names_refuted), and after a call of to() that raised the names are shifted (C161_failed_refuted). Proved: one line per call with the names and the crystal coordinates of both ends, for all paths from calls that do not raise and all lattices (C161_path_partial). Printing of numbers is not modelled."
  },
  {
   "property": "C162",
   "status": "partial",
   "theorems": [
    "C162_card_partial",
    "C162_scale_refuted"
   ],
   "note": "REFUTED as stated: all coordinates are multiplied by 2, which is right only if alat = 2 a; with the length of the first lattice vector as alat (pw.x with ibrav = 0) every point except the center is wrong for all three cubic lattices (C162_scale_refuted). Proved: one line per sample, and the line means the point exactly if alat = 2 a or the point is the center (C162_card_partial). The meaning of alat is taken from the documentation of pw.x."
  },
  {
   "property": "C163",
   "status": "proved",
   "theorems": [
    "C163_valence",
    "C163_order",
    "C163_parts",
    "C163_cutoff"
   ],
   "note": ""
  },
  {
   "property": "C164",
   "status": "partial",
   "theorems": [
    "C164_curve",
    "C164_density_refuted",
    "C164_empty",
    "C164_zero"
   ],
   "note": "REFUTED as stated in one detail: the density is convolved from its own samples, which are 0 at the ends of the bands by the strict comparisons of states_density; with N = 2 and one band all densities are 0 while the states rise from below 0.1 to above 0.9, at every temperature (C164_density_refuted). Everything else is proved in exact arithmetic (C164_curve, C164_zero, C164_empty)."
  },
  {
   "property": "C165",
   "status": "proved",
   "theorems": [
    "C165_integral",
    "C165_zero"
   ],
   "note": "Proved in exact arithmetic for given values of chemical_potential at the three temperatures (C165_integral, C165_zero); two equal samples, which the code turns into nan, do not occur for mu inside the range."
  },
  {
   "property": "C166",
   "status": "partial",
   "theorems": [
    "C166_checkpoints_partial",
    "C166_bands_refuted",
    "C166_all_refuted",
    "C166_duplicate_refuted",
    "C166_coefficients",
    "C166_no_model"
   ],
   "note": "REFUTED as stated in three details: with additional bands and two or more reference bands l.959 assigns a matrix of the wrong size and always raises a ValueError (C166_bands_refuted); if all neighbors are used from the beginning, the loop is left at once, only the start file is written and the result is the best restart without a fit (C166_all_refuted); an equivalent neighbor later in the list raises a ValueError after some files are written, although among the first ones it is accepted (C166_duplicate_refuted). The rest is proved for every result of the numerical steps, which are parameters (C166_checkpoints_partial, C166_coefficients); without a restart of finite loss the assertion fails (C166_no_model)."
  }
 ]
}