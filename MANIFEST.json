{
 "claims": [
  {
   "property": "C01",
   "status": "proved",
   "theorems": [
    "C01_duality",
    "C01_area",
    "C01_available"
   ],
   "note": "exact arithmetic"
  },
  {
   "property": "C02",
   "status": "proved",
   "theorems": [
    "C02_one_dim"
   ],
   "note": "exact arithmetic; argsort is any function returning a sorting permutation"
  },
  {
   "property": "C03",
   "status": "proved",
   "theorems": [
    "C03_parallelogrammic"
   ],
   "note": "exact arithmetic; argsort is any function returning a sorting permutation"
  },
  {
   "property": "C04",
   "status": "proved",
   "theorems": [
    "C04_circular",
    "C04_any_lattice",
    "C04_isolated"
   ],
   "note": "exact arithmetic; argsort is any function returning a sorting permutation"
  },
  {
   "property": "C05",
   "status": "proved",
   "theorems": [
    "C05_shells"
   ],
   "note": "exact arithmetic; argsort is any function returning a sorting permutation"
  },
  {
   "property": "C06",
   "status": "partial",
   "theorems": [
    "C06_true_length_refuted",
    "C06_hexagonal_refuted",
    "C06_equal_rows_partial"
   ],
   "note": "false of the code: the sort key uses u[0] for both indices and the rows instead of the columns of the reciprocal matrix; proved: counterexamples (flat rectangular and hexagonal lattices), and the claim within the candidate box for symmetric reciprocal matrices with rows of equal length"
  },
  {
   "property": "C07",
   "status": "partial",
   "theorems": [
    "C07_zeroth_refuted",
    "C07_isolated_partial"
   ],
   "note": "false of the code: for L1=(1,0), L2=(2,1) a request for two orders returns none; proved: counterexample, and the claim for lattices whose zeroth order is isolated in the sort key"
  },
  {
   "property": "C08",
   "status": "partial",
   "theorems": [
    "C08_request_refuted",
    "C08_one_more_partial"
   ],
   "note": "false of the code: fewer orders than requested are always returned; proved: counterexample, and that asking for one more returns exactly the shells"
  },
  {
   "property": "C09",
   "status": "proved",
   "theorems": [
    "C09_lookup"
   ],
   "note": ""
  },
  {
   "property": "C10",
   "status": "proved",
   "theorems": [
    "C10_indexing"
   ],
   "note": "exact arithmetic; argsort is any function returning a sorting permutation"
  },
  {
   "property": "C11",
   "status": "proved",
   "theorems": [
    "C11_incident"
   ],
   "note": ""
  },
  {
   "property": "C12",
   "status": "proved",
   "theorems": [
    "C12_rejections",
    "C12_layer"
   ],
   "note": "exact arithmetic; argsort is any function returning a sorting permutation"
  },
  {
   "property": "C13",
   "status": "proved",
   "theorems": [
    "C13_uniform"
   ],
   "note": "exact arithmetic; argsort is any function returning a sorting permutation"
  },
  {
   "property": "C14",
   "status": "proved",
   "theorems": [
    "C14_get_layer"
   ],
   "note": ""
  },
  {
   "property": "C15",
   "status": "proved",
   "theorems": [
    "C15_cache_transparent",
    "C15_numbers"
   ],
   "note": "exact arithmetic; the eigensolver is any function with A V = V diag(w); stacks whose copies stand below patterned originals (the others raise, C19)"
  },
  {
   "property": "C16",
   "status": "proved",
   "theorems": [
    "C16_reset_all",
    "C16_reset_S",
    "C16_no_reset"
   ],
   "note": "exact arithmetic; the eigensolver is any function with A V = V diag(w)"
  },
  {
   "property": "C17",
   "status": "partial",
   "theorems": [
    "C17_shared_refuted",
    "C17_isolated_partial"
   ],
   "note": "false of the code for simulations sharing Layer objects: solve() stores its results in the layers; proved: the claim for simulations on disjoint layers, any interleaving, and what the shared case answers"
  },
  {
   "property": "C18",
   "status": "partial",
   "theorems": [
    "C18_dict_refuted",
    "C18_complex_refuted",
    "C18_transmission_partial"
   ],
   "note": "false of the code: dict.copy() is shallow, so both dictionaries hold T and later lookups fail; proved: that the transmitted dictionary is right and return_dict=False changes nothing"
  },
  {
   "property": "C19",
   "status": "partial",
   "theorems": [
    "C19_uniform_refuted",
    "C19_above_refuted",
    "C19_copies_partial",
    "C19_one_copy_partial"
   ],
   "note": "false of the code: a copy of a uniform layer, or a copy above its original, raises AttributeError; proved: the claim for copies below patterned originals"
  },
  {
   "property": "C20",
   "status": "proved",
   "theorems": [
    "C20_smatrix_solves",
    "C20_smatrix_raises"
   ],
   "note": "exact arithmetic; the eigensolver is any function with A V = V diag(w)"
  },
  {
   "property": "C21",
   "status": "proved",
   "theorems": [
    "C21_interior_amplitudes",
    "C21_interior_available"
   ],
   "note": "exact arithmetic; the eigensolver is any function with A V = V diag(w)"
  },
  {
   "property": "C22",
   "status": "proved",
   "theorems": [
    "C22_continuity"
   ],
   "note": "exact arithmetic; the eigensolver is any function with A V = V diag(w)"
  },
  {
   "property": "C23",
   "status": "proved",
   "theorems": [
    "C23_maxwell"
   ],
   "note": "exact arithmetic; the eigensolver is any function with A V = V diag(w); all formulations and layer kinds except patterned tensors, which are C52"
  },
  {
   "property": "C24",
   "status": "proved",
   "theorems": [
    "C24_split"
   ],
   "note": "exact arithmetic; the eigensolver is any function with A V = V diag(w)"
  },
  {
   "property": "C25",
   "status": "proved",
   "theorems": [
    "C25_substrate_thickness"
   ],
   "note": "exact arithmetic; the eigensolver is any function with A V = V diag(w)"
  },
  {
   "property": "C26",
   "status": "proved",
   "theorems": [
    "C26_constant_pattern"
   ],
   "note": "exact arithmetic; the eigensolver is any function with A V = V diag(w); every formulation"
  },
  {
   "property": "C27",
   "status": "proved",
   "theorems": [
    "C27_poynting_parts",
    "C27_flux_conserved"
   ],
   "note": "exact arithmetic; the eigensolver is any function with A V = V diag(w); conservation for 'original' and mono-periodic 'tangent'"
  },
  {
   "property": "C28",
   "status": "proved",
   "theorems": [
    "C28_energy"
   ],
   "note": "exact arithmetic; the eigensolver is any function with A V = V diag(w); 'original' and mono-periodic 'tangent' formulations, isotropic and Hermitian tensor layers"
  },
  {
   "property": "C29",
   "status": "proved",
   "theorems": [
    "C29_nonneg",
    "C29_at_most_one"
   ],
   "note": "exact arithmetic; the eigensolver is any function with A V = V diag(w)"
  },
  {
   "property": "C30",
   "status": "proved",
   "theorems": [
    "C30_planewave"
   ],
   "note": "exact arithmetic"
  },
  {
   "property": "C31",
   "status": "proved",
   "theorems": [
    "C31_complex_orders",
    "C31_available"
   ],
   "note": "exact arithmetic; the eigensolver is any function with A V = V diag(w)"
  },
  {
   "property": "C32",
   "status": "proved",
   "theorems": [
    "C32_inverse",
    "C32_mean"
   ],
   "note": "fft2/ifft2 are their defining sums"
  },
  {
   "property": "C33",
   "status": "proved",
   "theorems": [
    "C33_entries",
    "C33_linear",
    "C33_constant",
    "C33_hermitian"
   ],
   "note": ""
  },
  {
   "property": "C34",
   "status": "proved",
   "theorems": [
    "C34_synthesis"
   ],
   "note": ""
  },
  {
   "property": "C35",
   "status": "proved",
   "theorems": [
    "C35_get_epsilon",
    "C35_mean"
   ],
   "note": ""
  },
  {
   "property": "C36",
   "status": "proved",
   "theorems": [
    "C36_pointwise",
    "C36_operator",
    "C36_jones"
   ],
   "note": "rank one as zero determinant; the operator bound needs harmonics distinct on the grid; exact arithmetic"
  },
  {
   "property": "C37",
   "status": "partial",
   "theorems": [
    "C37_refuted",
    "C37_exchanged_partial"
   ],
   "note": "false of the code: the inverse rule is applied to the component along the field instead of across it; proved: what is built, a counterexample, and that exchanging the components gives the mono-periodic operator up to the machine-epsilon factor"
  },
  {
   "property": "C38",
   "status": "partial",
   "theorems": [
    "C38_type_refuted",
    "C38_default_partial"
   ],
   "note": "false of the code: the layer ignores the type argument and always uses its tangent_field_type; proved: everything else (defaults, supplied fields, uniform layers)"
  },
  {
   "property": "C39",
   "status": "proved",
   "theorems": [
    "C39_block_roundtrip",
    "C39_inverse",
    "C39_nonsquare_refuted"
   ],
   "note": "claim proved for square blocks of equal size; for non-square blocks get_block cuts wrongly, refuted separately"
  },
  {
   "property": "C40",
   "status": "partial",
   "theorems": [
    "C40_classify_partial",
    "C40_shapes_partial",
    "C40_small_grid_refuted"
   ],
   "note": "false of the code for grids whose shape looks like a tensor (3 by 3); proved: for every other grid size"
  },
  {
   "property": "C41",
   "status": "proved",
   "theorems": [
    "C41_shape_mask"
   ],
   "note": "shapely is a contract: polygon, its bounds and within decide a point set"
  },
  {
   "property": "C42",
   "status": "proved",
   "theorems": [
    "C42_geometry_mask"
   ],
   "note": "shapely is a contract: polygon, its bounds and within decide a point set"
  },
  {
   "property": "C43",
   "status": "proved",
   "theorems": [
    "C43_matching"
   ],
   "note": ""
  },
  {
   "property": "C44",
   "status": "proved",
   "theorems": [
    "C44_terminates",
    "C44_no_over_refinement"
   ],
   "note": ""
  },
  {
   "property": "C45",
   "status": "proved",
   "theorems": [
    "C45_parloop"
   ],
   "note": "joblib is a contract: Parallel returns the results in the order of the calls"
  },
  {
   "property": "C46",
   "status": "proved",
   "theorems": [
    "C46_project",
    "C46_multi_project"
   ],
   "note": "exact arithmetic"
  },
  {
   "property": "C47",
   "status": "proved",
   "theorems": [
    "C47_simp",
    "C47_simp_complex",
    "C47_multi_simp"
   ],
   "note": "exact arithmetic"
  },
  {
   "property": "C48",
   "status": "partial",
   "theorems": [
    "C48_stop_refuted",
    "C48_value_partial"
   ],
   "note": "false of the code: the evaluation that triggers the stop keeps its value but not its point, so the point of the evaluation before is returned (AttributeError if there is none); proved: for every trace, and that the value returned is below the stop value"
  },
  {
   "property": "C49",
   "status": "proved",
   "theorems": [
    "C49_backend",
    "C49_unknown"
   ],
   "note": "the autograd library is assumed installed; importlib.reload is its documented behaviour"
  },
  {
   "property": "C50",
   "status": "partial",
   "theorems": [
    "C50_settings_partial",
    "C50_device_refuted",
    "C50_log_refuted"
   ],
   "note": "false of the code: set_backend does not clear the GPU device, and every reload sets the log level back to WARNING; proved: the precision and handler claims, use_gpu at the time of the call, log level kept by calls that do not reload"
  },
  {
   "property": "C51",
   "status": "partial",
   "theorems": [
    "C51_identity",
    "C51_linear",
    "C51_shift",
    "C51_weights_partial",
    "C51_constant_refuted"
   ],
   "note": "identity at radius 0, linearity, cyclic shifts proved; false of the code: every constant image is multiplied by a factor greater than one"
  },
  {
   "property": "C52",
   "status": "partial",
   "theorems": [
    "C52_aniso_refuted",
    "C52_rotated_partial"
   ],
   "note": "false of the code: the tensor is applied with x and y exchanged (rotated by 90 degrees); proved: what is computed is Maxwell for the rotated tensor, and a family of counterexamples"
  },
  {
   "property": "C53",
   "status": "proved",
   "theorems": [
    "C53_eigensolver_efficiencies",
    "C53_eigensolver_fields"
   ],
   "note": "exact arithmetic; the eigensolver is any function with A V = V diag(w)"
  },
  {
   "property": "C54",
   "status": "proved",
   "theorems": [
    "C54_fresnel"
   ],
   "note": "exact arithmetic"
  },
  {
   "property": "C55",
   "status": "partial",
   "theorems": [
    "C55_names_refuted",
    "C31_available"
   ],
   "note": "false of the code: _get_complex_orders looks the layers up by the literal names 'Superstrate' and 'Substrate'"
  },
  {
   "property": "C56",
   "status": "proved",
   "theorems": [
    "C56_field_flux"
   ],
   "note": "exact arithmetic; the eigensolver is any function with A V = V diag(w)"
  },
  {
   "property": "C57",
   "status": "partial",
   "theorems": [
    "C57_superstrate_refuted",
    "C57_reset_partial"
   ],
   "note": "false of the code: the constructor takes the index of the superstrate and reset() does not recompute it; proved: counterexample, and the claim when the superstrate's permittivity is unchanged"
  },
  {
   "property": "C58",
   "status": "partial",
   "theorems": [
    "C58_levels",
    "C58_default_args_refuted"
   ],
   "note": "false of the code for the default args=None, which raises TypeError; proved: the claim for explicit args"
  },
  {
   "property": "C59",
   "status": "proved",
   "theorems": [
    "C59_shapes_1D",
    "C59_stripe",
    "C59_grid_1D"
   ],
   "note": "exact arithmetic"
  },
  {
   "property": "C60",
   "status": "partial",
   "theorems": [
    "C60_cell_refuted",
    "C60_periodic_refuted",
    "C60_points_partial"
   ],
   "note": "false of the code: linspace(0,1,N) includes both ends of the period"
  },
  {
   "property": "C61",
   "status": "partial",
   "theorems": [
    "C61_environment",
    "C61_gpu_zero_refuted"
   ],
   "note": "false of the code: any value of NANNOS_GPU, also 0, asks for the GPU; proved: the backend part and what the device is"
  },
  {
   "property": "C62",
   "status": "proved",
   "theorems": [
    "C62_gradients"
   ],
   "note": ""
  },
  {
   "property": "C63",
   "status": "partial",
   "theorems": [
    "C63_mirror_partial",
    "C63_displaced_refuted"
   ],
   "note": "false of the code: the image is displaced by one pixel (odd sizes) or half a pixel (even sizes); proved: the exact displacement"
  },
  {
   "property": "C64",
   "status": "proved",
   "theorems": [
    "C64_direction",
    "C64_normalised",
    "C64_constant"
   ],
   "note": "exact arithmetic"
  },
  {
   "property": "C65",
   "status": "proved",
   "theorems": [
    "C65_modulus"
   ],
   "note": "exact arithmetic"
  },
  {
   "property": "C66",
   "status": "proved",
   "theorems": [
    "C66_sorted"
   ],
   "note": ""
  },
  {
   "property": "C67",
   "status": "partial",
   "theorems": [
    "C67_last_partial",
    "C67_negative_refuted"
   ],
   "note": "false of the code: every negative index but -1 makes the S matrix of an empty range, UnboundLocalError; proved: the claim for -1"
  },
  {
   "property": "C68",
   "status": "partial",
   "theorems": [
    "C68_height_partial",
    "C68_value_partial",
    "C68_inverse_rule_refuted",
    "C68_tensor_refuted"
   ],
   "note": "proved for homogeneous layers and patterned layers of formulation='original'; false of the code for the other formulations and tensor patterns, where the stress uses another displacement than the layer's modes"
  },
  {
   "property": "C69",
   "status": "proved",
   "theorems": [
    "C69_transverse",
    "C69_defined"
   ],
   "note": "superstrate of positive permittivity; exact arithmetic"
  },
  {
   "property": "C70",
   "status": "partial",
   "theorems": [
    "C70_arguments",
    "C70_components",
    "C70_vectors",
    "C70_too_small",
    "C70_homogeneous_refuted",
    "C70_tensor_refuted"
   ],
   "note": "proved for a given shape and for the default shape of isotropic patterns (C70_components, C70_vectors, C70_too_small, C70_arguments); false of the code for the default shape of homogeneous layers (IndexError) and of tensor patterns (a 3 x 3 grid); the values are the periodic part of the field, without the Bloch phase; numpy backend"
  },
  {
   "property": "C71",
   "status": "proved",
   "theorems": [
    "C71_power_average"
   ],
   "note": "exact arithmetic"
  },
  {
   "property": "C72",
   "status": "partial",
   "theorems": [
    "C72_rows_partial",
    "C72_vector_refuted"
   ],
   "note": "false of the code for vectors: reshaped to a column, IndexError as soon as nh >= 2; proved for matrices"
  },
  {
   "property": "C73",
   "status": "proved",
   "theorems": [
    "C73_flux_in_layer",
    "C73_flux_down",
    "C73_no_gain",
    "C73_bounds"
   ],
   "note": "exact arithmetic; the eigensolver is any function with A V = V diag(w); 'original' and mono-periodic 'tangent' formulations, superstrate of positive permittivity"
  },
  {
   "property": "C74",
   "status": "proved",
   "theorems": [
    "C74_translation",
    "C74_translation_fields"
   ],
   "note": "exact arithmetic; the eigensolver is any function with A V = V diag(w); tensor patterns with formulation='original' only; both runs must end without exception"
  },
  {
   "property": "C75",
   "status": "proved",
   "theorems": [
    "C75_rotation",
    "C75_rotation_fields"
   ],
   "note": "exact arithmetic; the eigensolver is any function with A V = V diag(w); both runs must end without exception"
  },
  {
   "property": "C76",
   "status": "proved",
   "theorems": [
    "C76_scale",
    "C76_scale_fields"
   ],
   "note": "exact arithmetic; the eigensolver is any function with A V = V diag(w); tensor patterns with formulation='original' only; both runs must end without exception"
  },
  {
   "property": "C77",
   "status": "proved",
   "theorems": [
    "C77_mirror_x",
    "C77_mirror_x_fields",
    "C77_mirror_y",
    "C77_mirror_y_fields",
    "C77_symmetric_x",
    "C77_symmetric_y"
   ],
   "note": "exact arithmetic; the eigensolver is any function with A V = V diag(w); tensor patterns with formulation='original' only; both runs must end without exception"
  },
  {
   "property": "C78",
   "status": "proved",
   "theorems": [
    "C78_inversion",
    "C78_inversion_fields",
    "C78_symmetric"
   ],
   "note": "exact arithmetic; the eigensolver is any function with A V = V diag(w); tensor patterns with formulation='original' only; both runs must end without exception"
  },
  {
   "property": "C79",
   "status": "proved",
   "theorems": [
    "C79_exchange",
    "C79_exchange_fields"
   ],
   "note": "exact arithmetic; the eigensolver is any function with A V = V diag(w); tensor patterns with formulation='original' only; both runs must end without exception"
  },
  {
   "property": "C80",
   "status": "proved",
   "theorems": [
    "C80_reorder",
    "C80_reorder_fields"
   ],
   "note": "exact arithmetic; the eigensolver is any function with A V = V diag(w); tensor patterns with formulation='original' only; both runs must end without exception"
  },
  {
   "property": "C81",
   "status": "proved",
   "theorems": [
    "C81_reflection"
   ],
   "note": "exact arithmetic; the eigensolver is any function with A V = V diag(w); 'original' and mono-periodic 'tangent' formulations; the four runs must end without exception"
  },
  {
   "property": "C82",
   "status": "proved",
   "theorems": [
    "C82_transmission"
   ],
   "note": "exact arithmetic; the eigensolver is any function with A V = V diag(w); 'original' and mono-periodic 'tangent' formulations; the four runs must end without exception"
  },
  {
   "property": "C83",
   "status": "proved",
   "theorems": [
    "C83_orders",
    "C83_energy",
    "C83_no_gain"
   ],
   "note": "exact arithmetic; the eigensolver is any function with A V = V diag(w); no harmonics supplied by the user, basis invertible and, for circular truncation, every nonzero order longer than the tolerance of the cut (Lattice_Proofs3.generates), 'original' and mono-periodic 'tangent' formulations"
  },
  {
   "property": "C84",
   "status": "proved",
   "theorems": [
    "C84_only_numerical"
   ],
   "note": "exact arithmetic; the eigensolver is any function with A V = V diag(w); the tangent field of a 2D formulation is an oracle that may fail; uniform tensors excluded, patterned tensors only with 'original'"
  },
  {
   "property": "C85",
   "status": "proved",
   "theorems": [
    "C85_reproducible",
    "C85_same_verdict"
   ],
   "note": "exact arithmetic; the eigensolver is any function with A V = V diag(w); outer layers uniform; the eigensolver is only required to return eigenvectors"
  },
  {
   "property": "C86",
   "status": "proved",
   "theorems": [
    "C86_reflection",
    "C86_transmission"
   ],
   "note": "exact arithmetic; the eigensolver is any function with A V = V diag(w); no harmonics supplied by the user, basis invertible and, for circular truncation, every nonzero order longer than the tolerance of the cut (Lattice_Proofs3.generates), 'original' and mono-periodic 'tangent' formulations"
  },
  {
   "property": "C87",
   "status": "proved",
   "theorems": [
    "C87_layer",
    "C87_absorption"
   ],
   "note": "exact arithmetic; the eigensolver is any function with A V = V diag(w); formulation='original', isotropic layers, orders distinguished by the grid; integral is the Riemann integral of the standard library"
  },
  {
   "property": "C88",
   "status": "proved",
   "theorems": [
    "C88_grating"
   ],
   "note": "exact arithmetic; the eigensolver is any function with A V = V diag(w); no harmonics supplied by the user, lattice that generates its orders, outer layers of real permittivity"
  },
  {
   "property": "C89",
   "status": "proved",
   "theorems": [
    "C89_multilayer",
    "C89_quarter_wave"
   ],
   "note": "exact arithmetic; the eigensolver is any function with A V = V diag(w); superstrate of real positive permittivity, the run must end without exception"
  },
  {
   "property": "C90",
   "status": "proved",
   "theorems": [
    "C90_homogeneous",
    "C90_patterned"
   ],
   "note": "exact arithmetic; the eigensolver is any function with A V = V diag(w); no harmonics supplied by the user, lattice that generates its orders; superstrate of real positive permittivity for the values"
  },
  {
   "property": "C91",
   "status": "proved",
   "theorems": [
    "C91_not_asked",
    "C91_asked"
   ],
   "note": "exact arithmetic; the eigensolver is any function with A V = V diag(w); isotropic patterned layers for the second half; the tangent field is an oracle per formulation and pattern"
  },
  {
   "property": "C92",
   "status": "partial",
   "theorems": [
    "C92_grid_refuted",
    "C92_accepts_partial"
   ],
   "note": "false of the code: grids of 100 x 100 or 64 x 32 points, for instance, are refused with ValueError; proved: exactly which sizes are accepted. autograd backend, numpy >= 1.24 (arrays of different shapes cannot be stacked)"
  },
  {
   "property": "C93",
   "status": "proved",
   "theorems": [
    "C93_modulus",
    "C93_attained",
    "C93_direction",
    "C93_lines"
   ],
   "note": "exact arithmetic; the eigensolver is any function with A V = V diag(w); scipy's minimiser is a function from objectives to points, required to return a minimiser when there is one (C93_direction, C93_lines); maxiter=1 and tol are not modelled"
  },
  {
   "property": "C94",
   "status": "partial",
   "theorems": [
    "C94_grid_refuted",
    "C94_field_partial"
   ],
   "note": "false of the code: no efficiencies on grids of 100 x 100 or 64 x 32 points, for instance, with the default tangent field; proved: the operator of a layer exists exactly when its tangent field does, which is on every grid for type 'fft' and on the accepted sizes for type 'opt'. autograd backend, numpy >= 1.24"
  },
  {
   "property": "C95",
   "status": "partial",
   "theorems": [
    "C95_hermitian_refuted",
    "C95_commute_partial",
    "C95_constant_partial",
    "C95_energy_partial"
   ],
   "note": "false of the code for general tangent fields (the counterexample supplies the field, as Layer(tangent_field=...) does); proved: exact criterion for isotropic patterns, constant fields, and R + T = 1 when the operators are Hermitian. exact arithmetic; the eigensolver is any function with A V = V diag(w)"
  },
  {
   "property": "C96",
   "status": "partial",
   "theorems": [
    "C96_callback",
    "C96_nlopt_callback",
    "C96_answer",
    "C96_nlopt_levels",
    "C96_again",
    "C96_fallback",
    "C96_method_refuted"
   ],
   "note": "false of the code for the refusal of unknown methods; everything else proved. The objective is total and the callback a pure observer; an optimizer run is any sequence of evaluations with a final answer"
  },
  {
   "property": "C97",
   "status": "proved",
   "theorems": [
    "C97_quadratic",
    "C97_natural",
    "C97_half_turn",
    "C97_fields",
    "C97_simulation"
   ],
   "note": "exact arithmetic; the eigensolver is any function with A V = V diag(w); the same eigensolver answers the same matrices alike in both runs (it is a function)"
  },
  {
   "property": "C98",
   "status": "proved",
   "theorems": [
    "C98_supercell",
    "C98_toeplitz",
    "C98_simulation"
   ],
   "note": "exact arithmetic; the eigensolver is any function with A V = V diag(w); tensor patterns only in formulations without a vector field; vector fields must be repeated with the pattern (hypothesis form_tiled); C98_simulation: two-dimensional lattices with supplied harmonics, and an argsort that does not change when all keys are multiplied by k"
  },
  {
   "property": "C99",
   "status": "partial",
   "theorems": [
    "C99_accepted_refuted",
    "C99_square_partial"
   ],
   "note": "false of the code: the largest index along either axis is compared with the number of points along both, so 1 x 4 cells of an accepted 8 x 8 cell are refused with ValueError; proved: k x k cells are accepted exactly when one cell is (for an argsort that does not change when all keys are multiplied by k)"
  }
 ]
}