import json
C=[]
def c(prop,status,theorems,note=""):
    C.append(dict(property=prop,status=status,theorems=theorems.split(),note=note))
exact="exact arithmetic; the eigensolver is any function with A V = V diag(w)"
srt="exact arithmetic; argsort is any function returning a sorting permutation"
c("C01","proved","C01_duality C01_area C01_available","exact arithmetic")
c("C02","proved","C02_one_dim",srt)
c("C03","proved","C03_parallelogrammic",srt)
c("C04","proved","C04_circular C04_any_lattice C04_isolated",srt)
c("C05","proved","C05_shells",srt)
c("C06","partial","C06_true_length_refuted C06_hexagonal_refuted C06_equal_rows_partial","false of the code: the sort key uses u[0] for both indices and the rows instead of the columns of the reciprocal matrix; proved: counterexamples (flat rectangular and hexagonal lattices), and the claim within the candidate box for symmetric reciprocal matrices with rows of equal length")
c("C07","partial","C07_zeroth_refuted C07_isolated_partial","false of the code: for L1=(1,0), L2=(2,1) a request for two orders returns none; proved: counterexample, and the claim for lattices whose zeroth order is isolated in the sort key")
c("C08","partial","C08_request_refuted C08_one_more_partial","false of the code: fewer orders than requested are always returned; proved: counterexample, and that asking for one more returns exactly the shells")
c("C09","proved","C09_lookup","")
c("C10","proved","C10_indexing",srt)
c("C11","proved","C11_incident","")
c("C12","proved","C12_rejections C12_layer",srt)
c("C13","proved","C13_uniform",srt)
c("C14","proved","C14_get_layer","")
c("C15","proved","C15_cache_transparent C15_numbers",exact+"; stacks whose copies stand below patterned originals (the others raise, C19)")
c("C16","proved","C16_reset_all C16_reset_S C16_no_reset",exact)
c("C17","partial","C17_shared_refuted C17_isolated_partial","false of the code for simulations sharing Layer objects: solve() stores its results in the layers; proved: the claim for simulations on disjoint layers, any interleaving, and what the shared case answers")
c("C18","partial","C18_dict_refuted C18_complex_refuted C18_transmission_partial","false of the code: dict.copy() is shallow, so both dictionaries hold T and later lookups fail; proved: that the transmitted dictionary is right and return_dict=False changes nothing")
c("C19","partial","C19_uniform_refuted C19_above_refuted C19_copies_partial C19_one_copy_partial","false of the code: a copy of a uniform layer, or a copy above its original, raises AttributeError; proved: the claim for copies below patterned originals")
c("C20","proved","C20_smatrix_solves C20_smatrix_raises",exact)
c("C21","proved","C21_interior_amplitudes C21_interior_available",exact)
c("C22","proved","C22_continuity",exact)
c("C23","proved","C23_maxwell",exact+"; all formulations and layer kinds except patterned tensors, which are C52")
c("C24","proved","C24_split",exact)
c("C25","proved","C25_substrate_thickness",exact)
c("C26","proved","C26_constant_pattern",exact+"; every formulation")
c("C27","proved","C27_poynting_parts C27_flux_conserved",exact+"; conservation for 'original' and mono-periodic 'tangent'")
c("C28","proved","C28_energy",exact+"; 'original' and mono-periodic 'tangent' formulations, isotropic and Hermitian tensor layers")
c("C29","proved","C29_nonneg C29_at_most_one",exact)
c("C30","proved","C30_planewave","exact arithmetic")
c("C31","proved","C31_complex_orders C31_available",exact)
c("C32","proved","C32_inverse C32_mean","fft2/ifft2 are their defining sums")
c("C33","proved","C33_entries C33_linear C33_constant C33_hermitian","")
c("C34","proved","C34_synthesis","")
c("C35","proved","C35_get_epsilon C35_mean","")
c("C52","partial","C52_aniso_refuted C52_rotated_partial","false of the code: the tensor is applied with x and y exchanged (rotated by 90 degrees); proved: what is computed is Maxwell for the rotated tensor, and a family of counterexamples")
c("C53","proved","C53_eigensolver_efficiencies C53_eigensolver_fields",exact)
c("C54","proved","C54_fresnel","exact arithmetic")
c("C55","partial","C55_names_refuted C31_available","false of the code: _get_complex_orders looks the layers up by the literal names 'Superstrate' and 'Substrate'")
c("C56","proved","C56_field_flux",exact)
c("C57","partial","C57_superstrate_refuted C57_reset_partial","false of the code: the constructor takes the index of the superstrate and reset() does not recompute it; proved: counterexample, and the claim when the superstrate's permittivity is unchanged")
c("C41","proved","C41_shape_mask","shapely is a contract: polygon, its bounds and within decide a point set")
c("C42","proved","C42_geometry_mask","shapely is a contract: polygon, its bounds and within decide a point set")
c("C43","proved","C43_matching","")
c("C44","proved","C44_terminates C44_no_over_refinement","")
c("C45","proved","C45_parloop","joblib is a contract: Parallel returns the results in the order of the calls")
c("C46","proved","C46_project C46_multi_project","exact arithmetic")
c("C47","proved","C47_simp C47_simp_complex C47_multi_simp","exact arithmetic")
c("C48","partial","C48_stop_refuted C48_value_partial","false of the code: the evaluation that triggers the stop keeps its value but not its point, so the point of the evaluation before is returned (AttributeError if there is none); proved: for every trace, and that the value returned is below the stop value")
c("C49","proved","C49_backend C49_unknown","the autograd library is assumed installed; importlib.reload is its documented behaviour")
c("C50","partial","C50_settings_partial C50_device_refuted C50_log_refuted","false of the code: set_backend does not clear the GPU device, and every reload sets the log level back to WARNING; proved: the precision and handler claims, use_gpu at the time of the call, log level kept by calls that do not reload")
c("C58","partial","C58_levels C58_default_args_refuted","false of the code for the default args=None, which raises TypeError; proved: the claim for explicit args")
c("C59","proved","C59_shapes_1D C59_stripe C59_grid_1D","exact arithmetic")
c("C60","partial","C60_cell_refuted C60_periodic_refuted C60_points_partial","false of the code: linspace(0,1,N) includes both ends of the period")
c("C61","partial","C61_environment C61_gpu_zero_refuted","false of the code: any value of NANNOS_GPU, also 0, asks for the GPU; proved: the backend part and what the device is")
c("C62","proved","C62_gradients","")
c("C38","partial","C38_type_refuted C38_default_partial","false of the code: the layer ignores the type argument and always uses its tangent_field_type; proved: everything else (defaults, supplied fields, uniform layers)")
c("C39","proved","C39_block_roundtrip C39_inverse C39_nonsquare_refuted","claim proved for square blocks of equal size; for non-square blocks get_block cuts wrongly, refuted separately")
c("C40","partial","C40_classify_partial C40_shapes_partial C40_small_grid_refuted","false of the code for grids whose shape looks like a tensor (3 by 3); proved: for every other grid size")
c("C51","partial","C51_identity C51_linear C51_shift C51_weights_partial C51_constant_refuted","identity at radius 0, linearity, cyclic shifts proved; false of the code: every constant image is multiplied by a factor greater than one")
c("C63","partial","C63_mirror_partial C63_displaced_refuted","false of the code: the image is displaced by one pixel (odd sizes) or half a pixel (even sizes); proved: the exact displacement")
c("C36","proved","C36_pointwise C36_operator C36_jones","rank one as zero determinant; the operator bound needs harmonics distinct on the grid; exact arithmetic")
c("C37","partial","C37_refuted C37_exchanged_partial","false of the code: the inverse rule is applied to the component along the field instead of across it; proved: what is built, a counterexample, and that exchanging the components gives the mono-periodic operator up to the machine-epsilon factor")
c("C64","proved","C64_direction C64_normalised C64_constant","exact arithmetic")
c("C65","proved","C65_modulus","exact arithmetic")
c("C66","proved","C66_sorted","")
c("C67","partial","C67_last_partial C67_negative_refuted","false of the code: every negative index but -1 makes the S matrix of an empty range, UnboundLocalError; proved: the claim for -1")
c("C68","partial","C68_height_partial C68_value_partial C68_inverse_rule_refuted C68_tensor_refuted","proved for homogeneous layers and patterned layers of formulation='original'; false of the code for the other formulations and tensor patterns, where the stress uses another displacement than the layer's modes")
c("C69","proved","C69_transverse C69_defined","superstrate of positive permittivity; exact arithmetic")
c("C70","partial","C70_arguments C70_components C70_vectors C70_too_small C70_homogeneous_refuted C70_tensor_refuted","proved for a given shape and for the default shape of isotropic patterns (C70_components, C70_vectors, C70_too_small, C70_arguments); false of the code for the default shape of homogeneous layers (IndexError) and of tensor patterns (a 3 x 3 grid); the values are the periodic part of the field, without the Bloch phase; numpy backend")
c("C71","proved","C71_power_average","exact arithmetic")
c("C72","partial","C72_rows_partial C72_vector_refuted","false of the code for vectors: reshaped to a column, IndexError as soon as nh >= 2; proved for matrices")
c("C73","proved","C73_flux_in_layer C73_flux_down C73_no_gain C73_bounds",exact+"; 'original' and mono-periodic 'tangent' formulations, superstrate of positive permittivity")
tens="; tensor patterns with formulation='original' only; both runs must end without exception"
c("C74","proved","C74_translation C74_translation_fields",exact+tens)
c("C75","proved","C75_rotation C75_rotation_fields",exact+"; both runs must end without exception")
c("C76","proved","C76_scale C76_scale_fields",exact+tens)
c("C77","proved","C77_mirror_x C77_mirror_x_fields C77_mirror_y C77_mirror_y_fields C77_symmetric_x C77_symmetric_y",exact+tens)
c("C78","proved","C78_inversion C78_inversion_fields C78_symmetric",exact+tens)
c("C79","proved","C79_exchange C79_exchange_fields",exact+tens)
c("C80","proved","C80_reorder C80_reorder_fields",exact+tens)
c("C81","proved","C81_reflection",exact+"; 'original' and mono-periodic 'tangent' formulations; the four runs must end without exception")
c("C82","proved","C82_transmission",exact+"; 'original' and mono-periodic 'tangent' formulations; the four runs must end without exception")
lg="; no harmonics supplied by the user, basis invertible and, for circular truncation, every nonzero order longer than the tolerance of the cut (Lattice_Proofs3.generates), 'original' and mono-periodic 'tangent' formulations"
c("C83","proved","C83_orders C83_energy C83_no_gain",exact+lg)
c("C84","proved","C84_only_numerical",exact+"; the tangent field of a 2D formulation is an oracle that may fail; uniform tensors excluded, patterned tensors only with 'original'")
c("C85","proved","C85_reproducible C85_same_verdict",exact+"; outer layers uniform; the eigensolver is only required to return eigenvectors")
c("C86","proved","C86_reflection C86_transmission",exact+lg)
c("C87","proved","C87_layer C87_absorption",exact+"; formulation='original', isotropic layers, orders distinguished by the grid; integral is the Riemann integral of the standard library")
c("C88","proved","C88_grating",exact+"; no harmonics supplied by the user, lattice that generates its orders, outer layers of real permittivity")
c("C89","proved","C89_multilayer C89_quarter_wave",exact+"; superstrate of real positive permittivity, the run must end without exception")
c("C90","proved","C90_homogeneous C90_patterned",exact+"; no harmonics supplied by the user, lattice that generates its orders; superstrate of real positive permittivity for the values")
c("C91","proved","C91_not_asked C91_asked",exact+"; isotropic patterned layers for the second half; the tangent field is an oracle per formulation and pattern")
c("C92","partial","C92_grid_refuted C92_accepts_partial","false of the code: grids of 100 x 100 or 64 x 32 points, for instance, are refused with ValueError; proved: exactly which sizes are accepted. autograd backend, numpy >= 1.24 (arrays of different shapes cannot be stacked)")
c("C93","proved","C93_modulus C93_attained C93_direction C93_lines",exact+"; scipy's minimiser is a function from objectives to points, required to return a minimiser when there is one (C93_direction, C93_lines); maxiter=1 and tol are not modelled")
c("C94","partial","C94_grid_refuted C94_field_partial","false of the code: no efficiencies on grids of 100 x 100 or 64 x 32 points, for instance, with the default tangent field; proved: the operator of a layer exists exactly when its tangent field does, which is on every grid for type 'fft' and on the accepted sizes for type 'opt'. autograd backend, numpy >= 1.24")
c("C95","partial","C95_hermitian_refuted C95_commute_partial C95_constant_partial C95_energy_partial","false of the code for general tangent fields (the counterexample supplies the field, as Layer(tangent_field=...) does); proved: exact criterion for isotropic patterns, constant fields, and R + T = 1 when the operators are Hermitian. "+exact)
c("C96","partial","C96_callback C96_nlopt_callback C96_answer C96_nlopt_levels C96_again C96_fallback C96_method_refuted","false of the code for the refusal of unknown methods; everything else proved. The objective is total and the callback a pure observer; an optimizer run is any sequence of evaluations with a final answer")
c("C97","proved","C97_quadratic C97_natural C97_half_turn C97_fields C97_simulation",exact+"; the same eigensolver answers the same matrices alike in both runs (it is a function)")
c("C98","proved","C98_supercell C98_toeplitz C98_simulation",exact+"; tensor patterns only in formulations without a vector field; vector fields must be repeated with the pattern (hypothesis form_tiled); C98_simulation: two-dimensional lattices with supplied harmonics, and an argsort that does not change when all keys are multiplied by k")
c("C99","partial","C99_accepted_refuted C99_square_partial","false of the code: the largest index along either axis is compared with the number of points along both, so 1 x 4 cells of an accepted 8 x 8 cell are refused with ValueError; proved: k x k cells are accepted exactly when one cell is (for an argsort that does not change when all keys are multiplied by k)")
C.sort(key=lambda x:int(x["property"][1:]))
json.dump(dict(claims=C),open("/verif/MANIFEST.json","w"),indent=1)
