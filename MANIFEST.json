{
 "claims": [
  {
   "property": "C01",
   "status": "proved",
   "theorems": [
    "C01_wave_matching",
    "C01_raises_on_resonance"
   ],
   "note": "over any field; both the success and the LinAlgError branch"
  },
  {
   "property": "C02",
   "status": "proved",
   "theorems": [
    "C02_identity_neutral"
   ],
   "note": ""
  },
  {
   "property": "C03",
   "status": "proved",
   "theorems": [
    "C03_associative"
   ],
   "note": ""
  },
  {
   "property": "C04",
   "status": "proved",
   "theorems": [
    "C04_any_flux_conserved",
    "C04_unitary",
    "C04_passive",
    "C04_unitary_is_power_conservation"
   ],
   "note": ""
  },
  {
   "property": "C05",
   "status": "proved",
   "theorems": [
    "C05_reversed_stack",
    "C05_reciprocity",
    "C05_transposed_stack"
   ],
   "note": ""
  },
  {
   "property": "C06",
   "status": "proved",
   "theorems": [
    "C06_continuity_at_both_faces",
    "C06_raises_on_resonance"
   ],
   "note": "success branch exact; the LinAlgError branch is a resonance"
  },
  {
   "property": "C07",
   "status": "proved",
   "theorems": [
    "C07_zero_thickness",
    "C07_vacuum"
   ],
   "note": ""
  },
  {
   "property": "C08",
   "status": "proved",
   "theorems": [
    "C08_cut_layer"
   ],
   "note": ""
  },
  {
   "property": "C09",
   "status": "proved",
   "theorems": [
    "C09_eigensolver_independent",
    "C09_any_square_roots"
   ],
   "note": "numpy.linalg.eig is an oracle with contract `diagonalises`"
  },
  {
   "property": "C10",
   "status": "proved",
   "theorems": [
    "C10_incidence",
    "C10_emergence"
   ],
   "note": ""
  },
  {
   "property": "C11",
   "status": "proved",
   "theorems": [
    "C11_transparent"
   ],
   "note": ""
  },
  {
   "property": "C12",
   "status": "partial",
   "theorems": [
    "C12_modes_iff_real_partial",
    "C12_real_forward_partial",
    "C12_absorbing_grows_partial",
    "C12_real_reflectance_partial",
    "C12_complex_reflectance_partial",
    "C12_passive_substrate_refuted"
   ],
   "note": "Half spaces are exactly right (modes, forward choice, Fresnel reflectance) when ur*er is real; the conjugated square root makes absorbing outer media grow and can reflect more than it receives (refuted by er = -3-4i)."
  },
  {
   "property": "C13",
   "status": "proved",
   "theorems": [
    "C13_modes_solve_maxwell",
    "C13_wave_equation",
    "C13_passive_modes_do_not_grow",
    "C13_vacuum_is_free_space"
   ],
   "note": ""
  },
  {
   "property": "C14",
   "status": "partial",
   "theorems": [
    "C14_dispersion",
    "C14_branch",
    "C14_real_epsilon",
    "C14_defined",
    "C14_complex_kp_refuted"
   ],
   "note": "holds for every real in-plane wavevector; refuted for the complex one compute_kplanar returns for an absorbing incidence medium"
  },
  {
   "property": "C15",
   "status": "partial",
   "theorems": [
    "C15_unit_transverse",
    "C15_defined",
    "C15_zero_order",
    "C15_normal_limit_refuted",
    "C15_sliver_refuted"
   ],
   "note": "unit transverse wave proved outside the sliver 0<|k_parallel|<1e-8; continuity of the TE/TM frame at normal incidence and transversality inside the sliver are refuted"
  },
  {
   "property": "C16",
   "status": "proved",
   "theorems": [
    "C16_energy_conservation"
   ],
   "note": "every history of calls that returns; numpy.linalg.eig is an oracle satisfying the eigenvalue equation, Bessel J1 any real function; analytical layers included; in-plane wavevector real and 0 or at least 1e-8"
  },
  {
   "property": "C17",
   "status": "proved",
   "theorems": [
    "C17_nonnegative"
   ],
   "note": "at the level of poynting_fluxes, for arbitrary output amplitudes"
  },
  {
   "property": "C18",
   "status": "proved",
   "theorems": [
    "C18_scale",
    "C18_phase"
   ],
   "note": "at the level of incident and poynting_fluxes"
  },
  {
   "property": "C19",
   "status": "proved",
   "theorems": [
    "C19_multilayer",
    "C19_fresnel",
    "C19_airy"
   ],
   "note": "solver functions and the whole Multilayer pipeline"
  },
  {
   "property": "C20",
   "status": "proved",
   "theorems": [
    "C20_uniform_picture",
    "C20_either_route"
   ],
   "note": "whenever both routes return; eig oracle"
  },
  {
   "property": "C21",
   "status": "proved",
   "theorems": [
    "C21_dispatch",
    "C21_defined"
   ],
   "note": ""
  },
  {
   "property": "C22",
   "status": "proved",
   "theorems": [
    "C22_entries",
    "C22_when_defined",
    "C22_empty_picture"
   ],
   "note": ""
  },
  {
   "property": "C23",
   "status": "proved",
   "theorems": [
    "C23_hermitian",
    "C23_linear",
    "C23_ones",
    "C23_passive"
   ],
   "note": ""
  },
  {
   "property": "C24",
   "status": "partial",
   "theorems": [
    "C24_one_dimensional_partial",
    "C24_transposed_partial",
    "C24_axes_refuted"
   ],
   "note": "rectangular lattices and rectangular islands; proved for expansions with one order along x or y; with as many orders along x as along y the matrix is the one of the structure with x and y exchanged, so the claim is refuted (witness with 3x3 orders)"
  },
  {
   "property": "C25",
   "status": "partial",
   "theorems": [
    "C25_rectangles",
    "C25_any_islands",
    "C25_unique_coefficient",
    "C25_overlap_refuted"
   ],
   "note": "disjoint rectangles with the program's transforms, disjoint islands of any shape with exact transforms; refuted for overlapping islands"
  },
  {
   "property": "C26",
   "status": "proved",
   "theorems": [
    "C26_rectangle",
    "C26_filling_fraction"
   ],
   "note": "exact off the small-argument branch, within 1e-18 of the filling fraction on it"
  },
  {
   "property": "C27",
   "status": "proved",
   "theorems": [
    "C27_duality",
    "C27_defined_off_collinear",
    "C27_unique",
    "C27_area"
   ],
   "note": ""
  },
  {
   "property": "C28",
   "status": "proved",
   "theorems": [
    "C28_complete",
    "C28_centred_and_symmetric",
    "C28_even_rejected",
    "C28_every_expansion"
   ],
   "note": ""
  },
  {
   "property": "C29",
   "status": "proved",
   "theorems": [
    "C29_minkowski",
    "C29_outcome"
   ],
   "note": "operands of different sizes raise ValueError, so every sum that is returned is consistent"
  },
  {
   "property": "C30",
   "status": "proved",
   "theorems": [
    "C30_entries",
    "C30_defined",
    "C30_positions",
    "C30_inside",
    "C30_disjoint",
    "C30_vectors",
    "C30_extended"
   ],
   "note": "all sizes and both modes; buffers, strides and the loop are modelled; C30_extended gives the entries of extended_solve"
  },
  {
   "property": "C31",
   "status": "proved",
   "theorems": [
    "C31_stacking",
    "C31_identity",
    "C31_device"
   ],
   "note": "arbitrary field; C31_device over C"
  },
  {
   "property": "C32",
   "status": "proved",
   "theorems": [
    "C32_partial_stacks",
    "C32_errors"
   ],
   "note": ""
  },
  {
   "property": "C33",
   "status": "proved",
   "theorems": [
    "C33_unique_gap_waves",
    "C33_outside_response",
    "C33_defined"
   ],
   "note": ""
  },
  {
   "property": "C34",
   "status": "partial",
   "theorems": [
    "C34_located",
    "C34_void_refuted"
   ],
   "note": "proved with outer media; refuted for void=True (infinite offset in the first layer)"
  },
  {
   "property": "C35",
   "status": "partial",
   "theorems": [
    "C35_continuous_inside",
    "C35_emergence_interface",
    "C35_emergence_into_vacuum",
    "C35_emergence_refuted"
   ],
   "note": "proved at every interface but the last; the last one characterised, refuted for an emergence medium other than vacuum"
  },
  {
   "property": "C36",
   "status": "partial",
   "theorems": [
    "C36_half_of_the_source",
    "C36_same_source_refuted",
    "C36_full_source"
   ],
   "note": "refuted: the default source of field maps is half of the one used for fluxes, in every device"
  },
  {
   "property": "C37",
   "status": "proved",
   "theorems": [
    "C37_uniform",
    "C37_structured",
    "C37_additive",
    "C37_flux_component"
   ],
   "note": "uniform and structured layers, and the component used by the flux formula"
  },
  {
   "property": "C38",
   "status": "proved",
   "theorems": [
    "C38_any_order",
    "C38_solve_is_a_function",
    "C38_no_memory"
   ],
   "note": "the order of iteration over the set of layers is arbitrary in the model"
  },
  {
   "property": "C39",
   "status": "partial",
   "theorems": [
    "C39_current_source_refuted",
    "C39_polarisation_only"
   ],
   "note": "refuted: after set_source without solve the fluxes are stale (witness R=0 instead of 9/25); proved: a polarisation-only change needs no new solve"
  },
  {
   "property": "C40",
   "status": "partial",
   "theorems": [
    "C40_mask_followed",
    "C40_void_no_fields",
    "C40_void_no_fluxes",
    "C40_void_refuted"
   ],
   "note": "proved with outer media; refuted for void=True, where neither fields nor fluxes can be computed"
  },
  {
   "property": "C41",
   "status": "partial",
   "theorems": [
    "C41_depth_is_the_sum",
    "C41_positions",
    "C41_void_refuted"
   ],
   "note": "proved with outer media; refuted with void=True (zmax misses the last layer)"
  },
  {
   "property": "C42",
   "status": "partial",
   "theorems": [
    "C42_running_products",
    "C42_defined",
    "C42_round_trip_partial",
    "C42_round_trip_refuted"
   ],
   "note": "running products equal the explicit sum; the round trip returns N^2 times the field, so exact reproduction is refuted"
  },
  {
   "property": "C43",
   "status": "partial",
   "theorems": [
    "C43_grid_partial",
    "C43_grid_refuted"
   ],
   "note": "idft2 uses the step (max-min)/n, not the step of the grid: refuted, and the grid it does use is characterised"
  },
  {
   "property": "C44",
   "status": "partial",
   "theorems": [
    "C44_round_trip",
    "C44_blocks_back",
    "C44_halves",
    "C44_split_square_partial",
    "C44_split_refuted"
   ],
   "note": "Round trips proved; split proved for square arrays, refuted for a 2x4 array (its rows are cut as if the number of rows were the number of columns)."
  },
  {
   "property": "C45",
   "status": "partial",
   "theorems": [
    "C45_wave_matching",
    "C45_error",
    "C45_associative",
    "C45_same_operation",
    "C45_neutral",
    "C45_identity_refuted"
   ],
   "note": "wave matching, failure condition, associativity, agreement with redheffer_product and neutrality of the identity matrix proved; the library's scattering_identity (an antidiagonal array) is refuted as neutral element"
  },
  {
   "property": "C46",
   "status": "proved",
   "theorems": [
    "C46_meaning",
    "C46_product",
    "C46_defined",
    "C46_neutral"
   ],
   "note": "arbitrary field and size"
  },
  {
   "property": "C47",
   "status": "proved",
   "theorems": [
    "C47_inverse",
    "C47_defined",
    "C47_equal_media",
    "C47_interface_defined"
   ],
   "note": "every lattice, complex permittivities; an interface between lossless dielectrics is also shown to be always defined"
  },
  {
   "property": "C48",
   "status": "proved",
   "theorems": [
    "C48_slices",
    "C48_defined",
    "C48_exponential"
   ],
   "note": "for any expm with expm((s+t)A) = expm(sA) expm(tA), in particular the power series; definedness characterised"
  },
  {
   "property": "C49",
   "status": "proved",
   "theorems": [
    "C49_same"
   ],
   "note": "for the standard order list, which coords_from_index always produces"
  },
  {
   "property": "C50",
   "status": "partial",
   "theorems": [
    "C50_window_partial",
    "C50_exactly",
    "C50_rectangular_refuted"
   ],
   "note": "proved for as many orders in both directions or a single one along the second, and for no other numbers of orders (iff); refuted otherwise: (3,5) gives a 3x1 window"
  },
  {
   "property": "C51",
   "status": "partial",
   "theorems": [
    "C51_difference_partial",
    "C51_indices",
    "C51_centre",
    "C51_error_refuted",
    "C51_wrong_refuted"
   ],
   "note": "proved for as many orders in both directions or a single one along the second; refuted otherwise: IndexError for (5,3), wrong coefficients for (3,5)"
  },
  {
   "property": "C52",
   "status": "partial",
   "theorems": [
    "C52_currents_partial",
    "C52_normal_partial",
    "C52_angle_refuted"
   ],
   "note": "energy balance of currents at all angles and R+T=1 at normal incidence proved; compute_fluxes ignores its kp argument, so a lossless interface at an angle gets A<>0: refuted"
  },
  {
   "property": "C53",
   "status": "proved",
   "theorems": [
    "C53_bloch",
    "C53_det"
   ],
   "note": "arbitrary field and size"
  },
  {
   "property": "C54",
   "status": "partial",
   "theorems": [
    "C54_kept_partial",
    "C54_circle_refuted",
    "C54_far_refuted"
   ],
   "note": "False of the code: it filters on the real part in [1-1e-10, 1); what it keeps is characterised exactly."
  },
  {
   "property": "C55",
   "status": "partial",
   "theorems": [
    "C55_product",
    "C55_defined",
    "C55_order_unique",
    "C55_zero_refuted"
   ],
   "note": "Proved for repeats of at least one, over any field; refuted for a repeat of 0, which is treated as 1."
  },
  {
   "property": "C56",
   "status": "partial",
   "theorems": [
    "C56_redrawn_partial",
    "C56_tiled_partial",
    "C56_uniform_refuted",
    "C56_row_refuted"
   ],
   "note": "Proved for pictures with at least two values, one of them the background, on fresh drawings with one pixel row per value, for every length; refuted for uniform pictures and for pictures in one row."
  },
  {
   "property": "C57",
   "status": "partial",
   "theorems": [
    "C57_last_wins",
    "C57_defined",
    "C57_listed_partial",
    "C57_rectangle_described",
    "C57_disc_described",
    "C57_parallelogram_refuted",
    "C57_ellipse_refuted"
   ],
   "note": "Last shape wins proved for all sequences (parallelograms need horizontal pixel rows; ellipses are rotated ellipses); description refuted for parallelograms, transforms refuted for ellipses."
  },
  {
   "property": "C58",
   "status": "proved",
   "theorems": [
    "C58_defined",
    "C58_points",
    "C58_inside",
    "C58_symmetric",
    "C58_zero_mean",
    "C58_distinct"
   ],
   "note": "All integer shapes, including negative ones (empty grid) and zero (error)."
  },
  {
   "property": "C59",
   "status": "proved",
   "theorems": [
    "C59_rotation",
    "C59_fields",
    "C59_normal"
   ],
   "note": ""
  },
  {
   "property": "C60",
   "status": "proved",
   "theorems": [
    "C60_lowest",
    "C60_defined",
    "C60_modulus",
    "C60_profile"
   ],
   "note": "H is as coded, E/sqrt(er); see C74. genlaguerre is an oracle with L_0 = 1."
  },
  {
   "property": "C61",
   "status": "proved",
   "theorems": [
    "C61_there",
    "C61_back"
   ],
   "note": ""
  },
  {
   "property": "C62",
   "status": "proved",
   "theorems": [
    "C62_points",
    "C62_accepted"
   ],
   "note": ""
  },
  {
   "property": "C63",
   "status": "partial",
   "theorems": [
    "C63_inside",
    "C63_shape",
    "C63_negative_refuted"
   ],
   "note": "Proved for positive strides; refuted for negative strides."
  },
  {
   "property": "C64",
   "status": "partial",
   "theorems": [
    "C64_scaled_partial",
    "C64_defined",
    "C64_normalised_refuted"
   ],
   "note": "Refuted: amplitudes are multiplied by the number of samples per side of a cell (divides by NS once instead of twice). C64_scaled_partial gives the exact result for every supercell, order list and Bloch vector of the zone; C64_defined says when it returns. Grids without endpoint, x along columns."
  },
  {
   "property": "C65",
   "status": "proved",
   "theorems": [
    "C65_rotation"
   ],
   "note": ""
  },
  {
   "property": "C66",
   "status": "proved",
   "theorems": [
    "C66_passive_devices"
   ],
   "note": "every history of calls building uniform or pixmap layers of non-negative depth"
  },
  {
   "property": "C67",
   "status": "proved",
   "theorems": [
    "C67_source_wavevector"
   ],
   "note": ""
  },
  {
   "property": "C68",
   "status": "proved",
   "theorems": [
    "C68_reciprocity"
   ],
   "note": "Proved for devices made of pixmap, uniform and analytical slabs (lossy or not) of the crystal's lattice or of either of the two lattices it is the sum of (extended layers), any outer media, any incidence."
  },
  {
   "property": "C69",
   "status": "partial",
   "theorems": [
    "C69_divergence_refuted"
   ],
   "note": "refuted: the in-plane factor has the opposite sign convention of the z dependence, so Ez has the wrong sign"
  },
  {
   "property": "C70",
   "status": "proved",
   "theorems": [
    "C70_homogeneous",
    "C70_defined",
    "C70_exponential"
   ],
   "note": "square windows and windows with a single order along the second axis; expm oracle with its functional-calculus contract, proved of the power series"
  },
  {
   "property": "C72",
   "status": "proved",
   "theorems": [
    "C72_uniform"
   ],
   "note": "eig and J1 are arbitrary (unused by uniform layers)"
  },
  {
   "property": "C73",
   "status": "partial",
   "theorems": [
    "C73_inverse_refuted"
   ],
   "note": "refuted: IC is the constant 1.0 (extension.py:112)"
  },
  {
   "property": "C71",
   "status": "partial",
   "theorems": [
    "C71_disc_partial",
    "C71_corners",
    "C71_rectangle_refuted"
   ],
   "note": "Discs proved; refuted for rectangles: the centre and the size are passed as two corners."
  },
  {
   "property": "C75",
   "status": "partial",
   "theorems": [
    "C75_centred_partial",
    "C75_moved_refuted"
   ],
   "note": "Proved at height 0 or without tilt, refuted otherwise: the shear is relative to the x axis of the drawing."
  },
  {
   "property": "C76",
   "status": "partial",
   "theorems": [
    "C76_distinct_partial",
    "C76_last_row",
    "C76_twice_refuted"
   ],
   "note": "np.linspace includes both ends: refuted for the last row and column, proved without them."
  },
  {
   "property": "C74",
   "status": "partial",
   "theorems": [
    "C74_vacuum_partial",
    "C74_medium_refuted"
   ],
   "note": "True exactly for er = 1; refuted otherwise."
  },
  {
   "property": "C77",
   "status": "partial",
   "theorems": [
    "C77_vacuum_partial",
    "C77_medium_refuted",
    "C77_only_vacuum_refuted"
   ],
   "note": "True for er = 1; refuted for every other er, since k lacks the factor sqrt(er)."
  },
  {
   "property": "C78",
   "status": "proved",
   "theorems": [
    "C78_charge",
    "C78_dark"
   ],
   "note": "All charges in Z; p natural."
  },
  {
   "property": "C79",
   "status": "proved",
   "theorems": [
    "C79_structured"
   ],
   "note": "Any slab formulation; the permittivity matrix of the sum is characterised entry by entry (acts_on_own) independently of the joining code. eig is an oracle returning eigenpairs."
  },
  {
   "property": "C80",
   "status": "proved",
   "theorems": [
    "C80_lossless",
    "C80_passive"
   ],
   "note": "Extended layers included; analytical islands only in the lossless case, as for C16 and C66."
  },
  {
   "property": "C81",
   "status": "partial",
   "theorems": [
    "C81_normal_partial",
    "C81_currents",
    "C81_angle_refuted"
   ],
   "note": "Proved at normal incidence for every project and at any angle for the currents; refuted at an angle (compute_fluxes ignores kp). The module cannot be run as it stands: its import of incident and compute_fluxes from khepri/tools.py fails; the model takes the functions of khepri/tmat/tools.py."
  },
  {
   "property": "C82",
   "status": "proved",
   "theorems": [
    "C82_rows"
   ],
   "note": "compute_spectrum as in khepri/ez.py:78-157."
  },
  {
   "property": "C83",
   "status": "partial",
   "theorems": [
    "C83_disc_partial",
    "C83_layer_partial",
    "C83_tiny_refuted"
   ],
   "note": "Exact, with the integral taken in polar coordinates about the centre and jv(1,.) given by Bessel's integral; refuted only for nonzero wavevectors with both components below 1e-8, which the code takes for zero."
  },
  {
   "property": "C84",
   "status": "proved",
   "theorems": [
    "C84_fresnel"
   ],
   "note": "All media, orders, polarisations and both sides; denominators proved nonzero."
  },
  {
   "property": "C85",
   "status": "proved",
   "theorems": [
    "C85_film",
    "C85_defined"
   ],
   "note": "Airy's formulas for every order; for p waves unless c + d' = 0 (surface wave on a single face), where the matrix exists but the textbook form divides by zero."
  },
  {
   "property": "C86",
   "status": "proved",
   "theorems": [
    "C86_lossless",
    "C86_passive",
    "C86_ends"
   ],
   "note": "All depths of all devices with real outer media whose fields are retained and whose growing exponentials are not clipped; the maps' amplitude is half the fluxes' for the default source (C36), hence the factor |x|^2."
  },
  {
   "property": "C87",
   "status": "partial",
   "theorems": [
    "C87_mean_partial",
    "C87_imaginary_partial",
    "C87_real_refuted"
   ],
   "note": "Refuted: the maps return the solver's magnetic field H/i, so the real part is the reactive one (zero for a plane wave in vacuum); proved for the imaginary part, as an exact average over every sufficiently fine grid."
  },
  {
   "property": "C88",
   "status": "proved",
   "theorems": [
    "C88_depths",
    "C88_defined"
   ],
   "note": "Without depths it raises IndexError."
  },
  {
   "property": "C89",
   "status": "proved",
   "theorems": [
    "C89_same_film",
    "C89_defined"
   ],
   "note": "The hypotheses on the T-matrix side (no anomaly, no vanishing sum of indices) are conditions under which its matrices are invertible; C89_defined shows they hold for every lossless film with one order."
  },
  {
   "property": "C90",
   "status": "proved",
   "theorems": [
    "C90_uniform",
    "C90_structured"
   ],
   "note": "Both functions, all results and errors."
  },
  {
   "property": "C91",
   "status": "proved",
   "theorems": [
    "C91_layers",
    "C91_energy",
    "C91_defined"
   ],
   "note": "Energy conservation follows from C16 through the calls that make_woodpile issues."
  },
  {
   "property": "C92",
   "status": "partial",
   "theorems": [
    "C92_defined",
    "C92_range",
    "C92_refinement",
    "C92_coordinates_partial",
    "C92_slanted_refuted"
   ],
   "note": "Definedness, range and refinement are proved for all lattices; the coordinates are right on upright lattices (partial) and refuted on slanted ones."
  },
  {
   "property": "C93",
   "status": "partial",
   "theorems": [
    "C93_layer_partial",
    "C93_delay_partial",
    "C93_rectangular_refuted",
    "C93_mask"
   ],
   "note": "Proved for lattices with vectors of equal length or one order along the second axis (C93_layer_partial, C93_delay_partial); refuted on a rectangular lattice with 3x3 orders (C93_rectangular_refuted). Missing from the partial theorems: the other lattices, where the claim is false."
  },
  {
   "property": "C94",
   "status": "partial",
   "theorems": [
    "C94_reshaped_partial",
    "C94_vector_refuted"
   ],
   "note": "C94_reshaped_partial covers square windows and the array form; C94_vector_refuted shows the vector form gives other values on a 3x3 square lattice."
  },
  {
   "property": "C95",
   "status": "partial",
   "theorems": [
    "C95_series_partial",
    "C95_parity",
    "C95_bloch_refuted",
    "C95_inverse"
   ],
   "note": "C95_series_partial gives the exact value returned (series / N^2 times the phase on the other grid); C95_parity the error; C95_bloch_refuted a case where the Bloch wave is not returned."
  },
  {
   "property": "C96",
   "status": "proved",
   "theorems": [
    "C96_accepted",
    "C96_three_fields",
    "C96_value"
   ],
   "note": "Python's float() and int() on strings are parameters of the model."
  },
  {
   "property": "C97",
   "status": "proved",
   "theorems": [
    "C97_coords"
   ],
   "note": "Real arithmetic in place of floats."
  },
  {
   "property": "C98",
   "status": "partial",
   "theorems": [
    "C98_scale_partial",
    "C98_source_refuted"
   ],
   "note": "Partial: proved with both scales on the same side of the thresholds 1e-8 of the incident polarisation and of the disc transform; C98_source_refuted gives a device where te = 1 becomes the other polarisation when the unit of length is halved."
  },
  {
   "property": "C99",
   "status": "partial",
   "theorems": [
    "C99_pictures",
    "C99_islands",
    "C99_device_partial"
   ],
   "note": "Only asks of the eigenvalue routine that it returns eigenvectors, and a basis of them when there is one. Calls covered: uniform, pictured and analytical layers, devices with masks, sources and solves; not add_layer with a layer built outside and not extended layers. C99_device_partial: with a square window, islands must move by the vector of exchanged coordinates, because their table is read with exchanged axes (C24); islands in other windows are not covered."
  },
  {
   "property": "C100",
   "status": "proved",
   "theorems": [
    "C100_oblique",
    "C100_normal"
   ],
   "note": "Only asks of the eigenvalue routine that it returns eigenvectors, and a basis of them when there is one. Calls covered: uniform, pictured and analytical layers, devices with masks, sources and solves; not add_layer with a layer built outside and not extended layers. Away from the normal a reflection changes the sign of TE; near the normal the two amplitudes are components along x and y and turn as a vector. Rectangles have sides along the axes, so they are excluded."
  },
  {
   "property": "C101",
   "status": "proved",
   "theorems": [
    "C101_exchanged",
    "C101_reversed"
   ],
   "note": "Only asks of the eigenvalue routine that it returns eigenvectors, and a basis of them when there is one. Calls covered: uniform, pictured and analytical layers, devices with masks, sources and solves; not add_layer with a layer built outside and not extended layers. Reversal with islands in a square window is not claimed: their table is read with exchanged axes (C24)."
  },
  {
   "property": "C102",
   "status": "proved",
   "theorems": [
    "C102_oblique",
    "C102_normal",
    "C102_degenerate"
   ],
   "note": "Only asks of the eigenvalue routine that it returns eigenvectors, and a basis of them when there is one. Calls covered: uniform, pictured and analytical layers, devices with masks, sources and solves; not add_layer with a layer built outside and not extended layers. Islands must be discs or uniform shapes; for the degeneracy each disc is centred on the diagonal."
  },
  {
   "property": "C103",
   "status": "proved",
   "theorems": [
    "C103_pairs",
    "C103_no_power",
    "C103_opposite"
   ],
   "note": "The matrix exponential is assumed to be the sum of its series. The eigenvalue solver itself is not modelled: the theorems speak of every eigenpair of the pencil given to it."
  },
  {
   "property": "C104",
   "status": "proved",
   "theorems": [
    "C104_transmission",
    "C104_reflection",
    "C104_specular"
   ],
   "note": "The matrix exponential is assumed to be the sum of its series."
  },
  {
   "property": "C105",
   "status": "partial",
   "theorems": [
    "C105_even_window_refuted"
   ],
   "note": "Refuted: with 2 x 2 orders, a layer of air has a factor at k whose inverse is not a factor at -k, because the window of an even number of orders is not symmetric about the order 0. True for odd windows (C103)."
  },
  {
   "property": "C106",
   "status": "proved",
   "theorems": [
    "C106_start",
    "C106_repeat",
    "C106_fold"
   ],
   "note": "Factor 0 (a cell that lets nothing through) is excluded; C103 shows that lossless cells and odd windows have none."
  },
  {
   "property": "C107",
   "status": "proved",
   "theorems": [
    "C107_currents",
    "C107_fluxes",
    "C107_bloch",
    "C107_layer_defined",
    "C107_joined",
    "C107_closed"
   ],
   "note": "Rectangles in rectangular cells (the drawn map is integrated exactly); fluxes at normal incidence since compute_fluxes ignores the angle (C52, C81); currents at any angle."
  },
  {
   "property": "C108",
   "status": "proved",
   "theorems": [
    "C108_eigenvalues",
    "C108_lossless",
    "C108_absorbing",
    "C108_opposite"
   ],
   "note": "Moduli: all orders propagate in the incident medium, whose permittivity is real. Absorbing layers: rectangles in rectangular cells, as in C107. Opposite wavevectors: odd number of orders along x, no order grazing in the emergence medium."
  },
  {
   "property": "C109",
   "status": "partial",
   "theorems": [
    "C109_shapes",
    "C109_table",
    "C109_sizes",
    "C109_refuted",
    "C109_full",
    "C109_one_order_partial"
   ],
   "note": "False of the code: C109_refuted; C109_full says it for all sizes. The table is right for one order in a cell of area 1 (C109_one_order_partial)."
  },
  {
   "property": "C110",
   "status": "proved",
   "theorems": [
    "C110_matrix",
    "C110_fluxes",
    "C110_bloch",
    "C110_period"
   ],
   "note": "Islands are rectangles and discs (the shapes of the project files). Windows that fit: as many orders along both axes, or one along the second (the others are cut wrongly, C50)."
  },
  {
   "property": "C111",
   "status": "proved",
   "theorems": [
    "C111_fields",
    "C111_power"
   ],
   "note": "power: real permittivity, waves that propagate. Added after a wrong model (the other axis at normal incidence) passed all theorems."
  },
  {
   "property": "C112",
   "status": "proved",
   "theorems": [
    "C112_matrix"
   ],
   "note": "The limits are hypotheses (nameable, turnable, recipes_turned). Rectangles reversed along an axis are left out because fexpz switches to a truncated series below 1/100."
  },
  {
   "property": "C113",
   "status": "proved",
   "theorems": [
    "C113_unchanged",
    "C113_fluxes"
   ],
   "note": "Same limits as C112. The fluxes use the wavevector 0 whatever the incidence (C52)."
  },
  {
   "property": "C114",
   "status": "proved",
   "theorems": [
    "C114_symmetric",
    "C114_polarisation"
   ],
   "note": "Same limits as C112."
  },
  {
   "property": "C115",
   "status": "partial",
   "theorems": [
    "C115_units_partial",
    "C115_absorbing_refuted"
   ],
   "note": "Proved where both units are on the same side of the fixed thresholds of the code (direction of a wavevector: 2.2e-16 on its square; discs: 1e-8; propagating orders: 2.2e-16). Refuted without: an incident medium that absorbs very little has fluxes in one unit and none (division by zero) in another."
  },
  {
   "property": "C116",
   "status": "proved",
   "theorems": [
    "C116_profile",
    "C116_fluxes"
   ],
   "note": "Extended layers are not covered. Both devices must be solved without an exception: a thin slice may in principle resonate between the gaps although the whole does not."
  },
  {
   "property": "C117",
   "status": "proved",
   "theorems": [
    "C117_profile",
    "C117_closed"
   ],
   "note": "pile_at and closed_at are the matrices computed by stack_s from scattering_matrix_islands; expm is a parameter with the contract is_expm (limit of the partial sums of the series)."
  },
  {
   "property": "C118",
   "status": "proved",
   "theorems": [
    "C118_upside",
    "C118_bloch",
    "C118_symmetric"
   ],
   "note": "Open piles (the matrix before the last interface, which lies between equal media). The sign of the p waves is that of the polarisation vectors of matrix_v."
  },
  {
   "property": "C119",
   "status": "proved",
   "theorems": [
    "C119_reversed",
    "C119_symmetric",
    "C119_bloch"
   ],
   "note": "Proved. The S-matrix of solve with the pile reversed and the outer media exchanged is the flip of the original; examples are films between different and between equal media."
  },
  {
   "property": "C120",
   "status": "proved",
   "theorems": [
    "C120_turned",
    "C120_symmetric"
   ],
   "note": "Proved from the reciprocity of devices (C68) and the turning of devices (C119). Layers of the turned device are those of the crystal's own expansion; the solves are assumed to succeed."
  },
  {
   "property": "C121",
   "status": "proved",
   "theorems": [
    "C121_turned"
   ],
   "note": "Proved from C104 and C118 for equal outer media, windows with an odd number of orders and layers of non-negative depth; the three matrices are assumed to be computed."
  }
 ]
}