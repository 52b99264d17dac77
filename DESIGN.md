# DESIGN

A model of benvial/nannos (source in /repo, read as text, never run) in Coq 8.16.1, with theorems for
the properties of `properties.jsonl`.  Everything is in `rocq/theories`; `rocq/_CoqProject` lists the files.

## 1. How the model is organised

Two layers, because the code has two kinds of content.

* **Plain lists, `Z`, Coq's `R`** for what is bookkeeping: lattices and truncations (`Lattice_Model`),
  constructors and lookups (`Init_Model`), dictionaries (`Dict_Model`), the state of simulations and layers
  (`State_Model`), the optimizer loop and `parloop` (`Optimize_Model`), the sampler (`Sampler_Model`),
  rasterisation (`Geometry_Model`), package state (`Backend_Model`), classification by shape (`Classify_Model`).
* **mathcomp matrices over `R[i]`** for what is numerical: transforms and Toeplitz matrices (`Fourier_Model`),
  layer matrices, modes, S matrices, amplitudes, fields, fluxes (`Sim_Model`), what `Simulation.__init__` feeds
  into them (`Setup_Model`), complex orders (`Orders_Model`), block helpers (`Block_Model`), smoothing
  (`Filter_Model`), tangent and Jones fields (`Tangent_Model`, `Opt_Model`), the stress of a run (`Stress_Model`), fields on
  a grid (`Grid_Model`).  `Cplx`, `RStruct` and `Cderiv` connect Coq's
  reals, mathcomp's structures and the derivatives of the standard library.

The two layers meet in `State_Instance`/`State_Instance2`: the state machine has the numerical functions as
section variables, the instance plugs in those of `Sim_Model`, and `C15_numbers` says that the answers of the
machine are the values of the stateless functions.  They also meet in `E2E_Model.simulate`, which runs the
constructor's model (`Init_Model`, with the lattice choosing the harmonics) and feeds what it builds to
`Setup_Model.run_efficiencies`; C83 to C86, C88, C90, C91 and C94 are about it.  There the tangent field of a 2D formulation is an
oracle from patterns to a pair of arrays or an exception; that it is computed with other harmonics
(`harmonics_tan`, simulation.py:657-658) is not tracked.

For each topic: `X_Model` (definitions, each citing the lines it follows), `X_Spec` (what the theorems say,
not using the model's helpers), `X_Proofs` (lemmas), `Props_X` (the theorems of the manifest, each with
`Print Assumptions`, and a concrete case meeting its hypotheses).

Symmetries (C74 to C80) compare two runs.  One theorem (`Symm_Proofs` to `Symm_Proofs8`) covers them all: a
bijection of the grid, a bijection of the harmonics, a phase per order, an orthogonal map of the transverse
vectors and a scale; `Symm_Proofs9` to `Symm_Proofs11` are its instances.

Reciprocity (C81, C82) compares four runs.  `Recip_Proofs` to `Recip_Proofs6` build the bilinear form of two
solutions with opposite wavevectors and show that it has the same value in all layers; `Recip_Proofs7` and
`Recip_Proofs8` read it in the superstrate and the substrate.  The hypothesis of symmetric tensors is necessary
in physics (Faraday rotators are not reciprocal); the 2D inverse rules are not covered, their matrices are not
symmetric under transposition with reversal of the orders.

Absorption (C87) integrates the derivative of the power flow in a layer (`Absorb_Proofs`, with the standard
library's Riemann integral) and evaluates the loss term on the grid with Parseval's identity (`Absorb_Proofs2`).

Homogeneous multilayers (C89) are compared with the method of admittances (`Multilayer_Spec`, textbook formulas):
`Multilayer_Proofs` reads the scattering matrix as a transfer relation layer by layer, `Multilayer_Proofs2` splits
it into the two polarisations.

The tangent field of type "opt" (C92, C93) minimises a quadratic function of the amplitudes.  The minimiser is a
function from objectives to points, required to return a minimiser whenever one exists; the code stops Newton-CG
after one iteration (tangent.py:72, 188-196), and C93_attained says that the minimum exists and lies along the
steepest descent from the starting point, which is where the first inner iteration of that method searches.

Conventions: python exceptions are values (`Base.res`, `Base.exn`); a method that raises returns the state it
leaves behind; a division by zero or a nan is `Err NaN` and never a default value; python's negative indices,
empty ranges, `dict` order and shallow copies are modelled as they are.

## 2. Properties

"partial" is also used for properties that are false of the code: then a `_refuted` theorem gives a witness or
a whole class of counterexamples, and the `_partial` theorems say what does hold.

| id | property | status | theorems (file) | scope, or what is false |
|---|---|---|---|---|
| C01 | Reciprocal basis is dual to the lattice basis | proved | `C01_duality`, `C01_area`, `C01_available` (Props_Lattice) | exact arithmetic |
| C02 | 1D truncation returns exactly the centred run of orders | proved | `C02_one_dim` (Props_Lattice) | exact arithmetic; argsort is any function returning a sorting permutation |
| C03 | Parallelogrammic truncation returns exactly a centred odd square | proved | `C03_parallelogrammic` (Props_Lattice) | exact arithmetic; argsort is any function returning a sorting permutation |
| C04 | Circular truncation is a well formed set of orders | proved | `C04_circular`, `C04_any_lattice`, `C04_isolated` (Props_Lattice) | exact arithmetic; argsort is any function returning a sorting permutation |
| C05 | Circular truncation keeps complete shells, nearest first | proved | `C05_shells` (Props_Lattice) | exact arithmetic; argsort is any function returning a sorting permutation |
| C06 | Circular truncation orders harmonics by their true wavevector length | partial | `C06_true_length_refuted`, `C06_hexagonal_refuted`, `C06_equal_rows_partial` (Props_Lattice) | false of the code: the sort key uses u[0] for both indices and the rows instead of the columns of the reciprocal matrix; proved: counterexamples (flat rectangular and hexagonal lattices), and the claim within the candidate box for symmetric reciprocal matrices with rows of equal length |
| C07 | Every non degenerate lattice yields the zeroth order | partial | `C07_zeroth_refuted`, `C07_isolated_partial` (Props_Lattice) | false of the code: for L1=(1,0), L2=(2,1) a request for two orders returns none; proved: counterexample, and the claim for lattices whose zeroth order is isolated in the sort key |
| C08 | A request that exactly fills a shell is honoured | partial | `C08_request_refuted`, `C08_one_more_partial` (Props_Lattice) | false of the code: fewer orders than requested are always returned; proved: counterexample, and that asking for one more returns exactly the shells |
| C09 | Order lookup inverts the harmonics table | proved | `C09_lookup` (Props_Init) |  |
| C10 | The discretization check makes Fourier indexing safe | proved | `C10_indexing` (Props_Init) | exact arithmetic; argsort is any function returning a sorting permutation |
| C11 | The incident wave feeds exactly the zeroth order | proved | `C11_incident` (Props_Init) |  |
| C12 | Constructor rejections are exactly the documented ones | proved | `C12_rejections`, `C12_layer` (Props_Init) | exact arithmetic; argsort is any function returning a sorting permutation |
| C13 | Stacks of uniform layers use a single diffraction order | proved | `C13_uniform` (Props_Init) | exact arithmetic; argsort is any function returning a sorting permutation |
| C14 | Layer lookup by name, index and object agree | proved | `C14_get_layer` (Props_Init) |  |
| C15 | S-matrix caching is transparent | proved | `C15_cache_transparent`, `C15_numbers` (Props_State) | exact arithmetic; the eigensolver is any function with A V = V diag(w); stacks whose copies stand below patterned originals (the others raise, C19) |
| C16 | reset() discards every cached result | proved | `C16_reset_all`, `C16_reset_S`, `C16_no_reset` (Props_State) | exact arithmetic; the eigensolver is any function with A V = V diag(w) |
| C17 | Simulations do not interfere with each other | partial | `C17_shared_refuted`, `C17_isolated_partial` (Props_State) | false of the code for simulations sharing Layer objects: solve() stores its results in the layers; proved: the claim for simulations on disjoint layers, any interleaving, and what the shared case answers |
| C18 | diffraction_efficiencies(return_dict=True) returns R and T per order and leaves the simulation intact | partial | `C18_dict_refuted`, `C18_complex_refuted`, `C18_transmission_partial` (Props_State) | false of the code: dict.copy() is shallow, so both dictionaries hold T and later lookups fail; proved: that the transmitted dictionary is right and return_dict=False changes nothing |
| C19 | A copied layer behaves as its original | partial | `C19_uniform_refuted`, `C19_above_refuted`, `C19_copies_partial`, `C19_one_copy_partial` (Props_State) | false of the code: a copy of a uniform layer, or a copy above its original, raises AttributeError; proved: the claim for copies below patterned originals |
| C20 | The S-matrix solves the multilayer boundary problem | proved | `C20_smatrix_solves`, `C20_smatrix_raises` (Props_Scattering) | exact arithmetic; the eigensolver is any function with A V = V diag(w) |
| C21 | Interior amplitudes agree with the global solution | proved | `C21_interior_amplitudes`, `C21_interior_available` (Props_Scattering) | exact arithmetic; the eigensolver is any function with A V = V diag(w) |
| C22 | Tangential fields are continuous across every interface | proved | `C22_continuity` (Props_Scattering) | exact arithmetic; the eigensolver is any function with A V = V diag(w) |
| C23 | Fields satisfy Maxwell's equations in every layer | proved | `C23_maxwell` (Props_Scattering) | exact arithmetic; the eigensolver is any function with A V = V diag(w); all formulations and layer kinds except patterned tensors, which are C52 |
| C24 | Splitting a layer or inserting an empty one changes nothing | proved | `C24_split` (Props_Scattering) | exact arithmetic; the eigensolver is any function with A V = V diag(w) |
| C25 | Substrate thickness is irrelevant | proved | `C25_substrate_thickness` (Props_Scattering) | exact arithmetic; the eigensolver is any function with A V = V diag(w) |
| C26 | A patterned layer with constant permittivity is a uniform layer | proved | `C26_constant_pattern` (Props_Scattering) | exact arithmetic; the eigensolver is any function with A V = V diag(w); every formulation |
| C27 | Power flow splits consistently and is conserved in lossless layers | proved | `C27_poynting_parts`, `C27_flux_conserved` (Props_Energy) | exact arithmetic; the eigensolver is any function with A V = V diag(w); conservation for 'original' and mono-periodic 'tangent' |
| C28 | Energy conservation R+T=1 for lossless structures | proved | `C28_energy` (Props_Energy) | exact arithmetic; the eigensolver is any function with A V = V diag(w); 'original' and mono-periodic 'tangent' formulations, isotropic and Hermitian tensor layers |
| C29 | Efficiencies are non negative and vanish for evanescent orders | proved | `C29_nonneg`, `C29_at_most_one` (Props_Energy) | exact arithmetic; the eigensolver is any function with A V = V diag(w) |
| C30 | PlaneWave is a unit transverse wave carrying flux cos(theta) | proved | `C30_planewave` (Props_Energy) | exact arithmetic |
| C31 | Complex amplitudes and efficiencies agree | proved | `C31_complex_orders`, `C31_available` (Props_Energy) | exact arithmetic; the eigensolver is any function with A V = V diag(w) |
| C32 | Forward and inverse Fourier transforms are mutually inverse | proved | `C32_inverse`, `C32_mean` (Props_Fourier) | fft2/ifft2 are their defining sums |
| C33 | Convolution matrices are faithful | proved | `C33_entries`, `C33_linear`, `C33_constant`, `C33_hermitian` (Props_Fourier) |  |
| C34 | Real-space fields are the Fourier sums of the amplitudes | proved | `C34_synthesis` (Props_Fourier) |  |
| C35 | get_epsilon returns the truncated Fourier series of the permittivity | proved | `C35_get_epsilon`, `C35_mean` (Props_Fourier) |  |
| C36 | The tangent-field projection is a rank-one Hermitian contraction | proved | `C36_pointwise`, `C36_operator`, `C36_jones` (Props_Tangent) | rank one as zero determinant; the operator bound needs harmonics distinct on the grid; exact arithmetic |
| C37 | 1D and 2D tangent formulations agree on a y-invariant pattern | partial | `C37_refuted`, `C37_exchanged_partial` (Props_Tangent) | false of the code: the inverse rule is applied to the component along the field instead of across it; proved: what is built, a counterexample, and that exchanging the components gives the mono-periodic operator up to the machine-epsilon factor |
| C38 | Layer.get_tangent_field honours its arguments | partial | `C38_type_refuted`, `C38_default_partial` (Props_Helpers) | false of the code: the layer ignores the type argument and always uses its tangent_field_type; proved: everything else (defaults, supplied fields, uniform layers) |
| C39 | Block helpers are mutually consistent | proved | `C39_block_roundtrip`, `C39_inverse`, `C39_nonsquare_refuted` (Props_Helpers) | claim proved for square blocks of equal size; for non-square blocks get_block cuts wrongly, refuted separately |
| C40 | Uniform / anisotropic classification by shape | partial | `C40_classify_partial`, `C40_shapes_partial`, `C40_small_grid_refuted` (Props_Helpers) | false of the code for grids whose shape looks like a tensor (3 by 3); proved: for every other grid size |
| C41 | shape_mask agrees with pointwise inclusion | proved | `C41_shape_mask` (Props_Geometry) | shapely is a contract: polygon, its bounds and within decide a point set |
| C42 | Geometry masks are evaluated at the lattice grid points | proved | `C42_geometry_mask` (Props_Geometry) | shapely is a contract: polygon, its bounds and within decide a point set |
| C43 | The adaptive sampler returns matching abscissae and values | proved | `C43_matching` (Props_Sampler) |  |
| C44 | The adaptive sampler terminates and never over-refines | proved | `C44_terminates`, `C44_no_over_refinement` (Props_Sampler) |  |
| C45 | parloop preserves order and is schedule independent | proved | `C45_parloop` (Props_Optimize) | joblib is a contract: Parallel returns the results in the order of the calls |
| C46 | Threshold projection maps densities to densities | proved | `C46_project`, `C46_multi_project` (Props_Optimize) | exact arithmetic |
| C47 | Material interpolation hits the given permittivities | proved | `C47_simp`, `C47_simp_complex`, `C47_multi_simp` (Props_Optimize) | exact arithmetic |
| C48 | Stopping by stop value returns a matching point and value | partial | `C48_stop_refuted`, `C48_value_partial` (Props_Optimize) | false of the code: the evaluation that triggers the stop keeps its value but not its point, so the point of the evaluation before is returned (AttributeError if there is none); proved: for every trace, and that the value returned is below the stop value |
| C49 | The active backend is the last one successfully selected | proved | `C49_backend`, `C49_unknown` (Props_Backend) | the autograd library is assumed installed; importlib.reload is its documented behaviour |
| C50 | Device, precision and log settings are independent of the backend switch | partial | `C50_settings_partial`, `C50_device_refuted`, `C50_log_refuted` (Props_Backend) | false of the code: set_backend does not clear the GPU device, and every reload sets the log level back to WARNING; proved: the precision and handler claims, use_gpu at the time of the call, log level kept by calls that do not reload |
| C51 | apply_filter is a linear shift-equivariant smoothing | partial | `C51_identity`, `C51_linear`, `C51_shift`, `C51_weights_partial`, `C51_constant_refuted` (Props_Filter) | identity at radius 0, linearity, cyclic shifts proved; false of the code: every constant image is multiplied by a factor greater than one |
| C52 | Patterned anisotropic layers are simulated with the tensor that was given | partial | `C52_aniso_refuted`, `C52_rotated_partial` (Props_Optics) | false of the code: the tensor is applied with x and y exchanged (rotated by 90 degrees); proved: what is computed is Maxwell for the rotated tensor, and a family of counterexamples |
| C53 | Results do not depend on the eigenvector basis chosen by the eigensolver | proved | `C53_eigensolver_efficiencies`, `C53_eigensolver_fields` (Props_Scattering) | exact arithmetic; the eigensolver is any function with A V = V diag(w) |
| C54 | A single interface reproduces Fresnel's formulas | proved | `C54_fresnel` (Props_Optics) | exact arithmetic |
| C55 | Complex amplitudes are available whatever the outer layers are called | partial | `C55_names_refuted`, `C31_available` (Props_Energy) | false of the code: _get_complex_orders looks the layers up by the literal names 'Superstrate' and 'Substrate' |
| C56 | Reflected, transmitted and absorbed power agree with the fields | proved | `C56_field_flux` (Props_Energy) | exact arithmetic; the eigensolver is any function with A V = V diag(w) |
| C57 | After reset() a simulation is as good as new | partial | `C57_superstrate_refuted`, `C57_reset_partial` (Props_State) | false of the code: the constructor takes the index of the superstrate and reset() does not recompute it; proved: counterexample, and the claim when the superstrate's permittivity is unchanged |
| C58 | minimize() threads its levels | partial | `C58_levels`, `C58_default_args_refuted` (Props_Optimize) | false of the code for the default args=None, which raises TypeError; proved: the claim for explicit args |
| C59 | Mono-periodic lattices refuse 2D shapes; stripe is the slab |x-c|<=w/2 | proved | `C59_shapes_1D`, `C59_stripe`, `C59_grid_1D` (Props_Geometry) | exact arithmetic |
| C60 | The grid samples the unit cell once | partial | `C60_cell_refuted`, `C60_periodic_refuted`, `C60_points_partial` (Props_Geometry) | false of the code: linspace(0,1,N) includes both ends of the period |
| C61 | Environment variables choose the initial backend and device | partial | `C61_environment`, `C61_gpu_zero_refuted` (Props_Backend) | false of the code: any value of NANNOS_GPU, also 0, asks for the GPU; proved: the backend part and what the device is |
| C62 | grad is available exactly with autograd and torch | proved | `C62_gradients` (Props_Backend) |  |
| C63 | Smoothing keeps features where they are | partial | `C63_mirror_partial`, `C63_displaced_refuted` (Props_Filter) | false of the code: the image is displaced by one pixel (odd sizes) or half a pixel (even sizes); proved: the exact displacement |
| C64 | The tangent field of a pattern invariant in one direction lies along it | proved | `C64_direction`, `C64_normalised`, `C64_constant` (Props_Tangent) | exact arithmetic |
| C65 | Tangent fields exist and have modulus at most one | proved | `C65_modulus` (Props_Tangent) | exact arithmetic |
| C66 | Sorting the harmonics only reorders them | proved | `C66_sorted` (Props_Lattice) |  |
| C67 | A negative layer index means the layer counted from the end | partial | `C67_last_partial`, `C67_negative_refuted` (Props_State) | false of the code: every negative index but -1 makes the S matrix of an empty range, UnboundLocalError; proved: the claim for -1 |
| C68 | The stress is the same at every height of a lossless layer | partial | `C68_height_partial`, `C68_value_partial`, `C68_inverse_rule_refuted`, `C68_tensor_refuted` (Props_Stress) | proved for homogeneous layers and patterned layers of formulation='original'; false of the code for the other formulations and tensor patterns, where the stress uses another displacement than the layer's modes |
| C69 | The transverse stress is the transverse momentum carried by the power | proved | `C69_transverse`, `C69_defined` (Props_Stress) | superstrate of positive permittivity; exact arithmetic |
| C70 | get_field_grid samples the Fourier series of the fields | partial | `C70_arguments`, `C70_components`, `C70_vectors`, `C70_too_small`, `C70_homogeneous_refuted`, `C70_tensor_refuted` (Props_Grid) | proved for a given shape and for the default shape of isotropic patterns (C70_components, C70_vectors, C70_too_small, C70_arguments); false of the code for the default shape of homogeneous layers (IndexError) and of tensor patterns (a 3 x 3 grid); the values are the periodic part of the field, without the Bloch phase; numpy backend |
| C71 | The real-space power flow is the power of the orders | proved | `C71_power_average` (Props_Grid) | exact arithmetic |
| C72 | get_ifft_amplitudes transforms a vector of amplitudes as one position | partial | `C72_rows_partial`, `C72_vector_refuted` (Props_Grid) | false of the code for vectors: reshaped to a column, IndexError as soon as nh >= 2; proved for matrices |
| C73 | A structure without gain never returns more power than it receives | proved | `C73_flux_in_layer`, `C73_flux_down`, `C73_no_gain`, `C73_bounds` (Props_Passive) | exact arithmetic; the eigensolver is any function with A V = V diag(w); 'original' and mono-periodic 'tangent' formulations, superstrate of positive permittivity |
| C74 | Displacing the whole structure changes no efficiency | proved | `C74_translation`, `C74_translation_fields` (Props_Symm) | exact arithmetic; the eigensolver is any function with A V = V diag(w); tensor patterns with formulation='original' only; both runs must end without exception |
| C75 | Results do not depend on the orientation of the axes | proved | `C75_rotation`, `C75_rotation_fields` (Props_Symm) | exact arithmetic; the eigensolver is any function with A V = V diag(w); both runs must end without exception |
| C76 | Only the ratio of lengths to the wavelength matters | proved | `C76_scale`, `C76_scale_fields` (Props_Symm) | exact arithmetic; the eigensolver is any function with A V = V diag(w); tensor patterns with formulation='original' only; both runs must end without exception |
| C77 | The mirror image of a structure diffracts like the mirror image of the light | proved | `C77_mirror_x`, `C77_mirror_x_fields`, `C77_mirror_y`, `C77_mirror_y_fields`, `C77_symmetric_x`, `C77_symmetric_y` (Props_Symm) | exact arithmetic; the eigensolver is any function with A V = V diag(w); tensor patterns with formulation='original' only; both runs must end without exception |
| C78 | Half a turn about z exchanges orders (m,n) and (-m,-n) | proved | `C78_inversion`, `C78_inversion_fields`, `C78_symmetric` (Props_Symm) | exact arithmetic; the eigensolver is any function with A V = V diag(w); tensor patterns with formulation='original' only; both runs must end without exception |
| C79 | x and y are treated alike | proved | `C79_exchange`, `C79_exchange_fields` (Props_Symm) | exact arithmetic; the eigensolver is any function with A V = V diag(w); tensor patterns with formulation='original' only; both runs must end without exception |
| C80 | The order in which the harmonics are listed does not matter | proved | `C80_reorder`, `C80_reorder_fields` (Props_Symm) | exact arithmetic; the eigensolver is any function with A V = V diag(w); tensor patterns with formulation='original' only; both runs must end without exception |
| C81 | Specular reflection is the same when light retraces its path | proved | `C81_reflection` (Props_Recip) | exact arithmetic; the eigensolver is any function with A V = V diag(w); 'original' and mono-periodic 'tangent' formulations; the four runs must end without exception |
| C82 | The zeroth order is transmitted equally from above and from below | proved | `C82_transmission` (Props_Recip) | exact arithmetic; the eigensolver is any function with A V = V diag(w); 'original' and mono-periodic 'tangent' formulations; the four runs must end without exception |
| C83 | A simulation the constructor accepts lists its orders and conserves energy | proved | `C83_orders`, `C83_energy`, `C83_no_gain` (Props_E2E) | exact arithmetic; the eigensolver is any function with A V = V diag(w); no harmonics supplied by the user, basis invertible and, for circular truncation, every nonzero order longer than the tolerance of the cut (Lattice_Proofs3.generates), 'original' and mono-periodic 'tangent' formulations |
| C84 | Once constructed, a simulation can only fail numerically | proved | `C84_only_numerical` (Props_E2E) | exact arithmetic; the eigensolver is any function with A V = V diag(w); the tangent field of a 2D formulation is an oracle that may fail; uniform tensors excluded, patterned tensors only with 'original' |
| C85 | Results do not depend on the sorting routine or on the eigensolver | proved | `C85_reproducible`, `C85_same_verdict` (Props_E2E) | exact arithmetic; the eigensolver is any function with A V = V diag(w); outer layers uniform; the eigensolver is only required to return eigenvectors |
| C86 | Reciprocity holds from the constructor on | proved | `C86_reflection`, `C86_transmission` (Props_E2E) | exact arithmetic; the eigensolver is any function with A V = V diag(w); no harmonics supplied by the user, basis invertible and, for circular truncation, every nonzero order longer than the tolerance of the cut (Lattice_Proofs3.generates), 'original' and mono-periodic 'tangent' formulations |
| C87 | The power absorbed is the loss of the computed fields | proved | `C87_layer`, `C87_absorption` (Props_Absorb) | exact arithmetic; the eigensolver is any function with A V = V diag(w); formulation='original', isotropic layers, orders distinguished by the grid; integral is the Riemann integral of the standard library |
| C88 | Only the orders allowed by the grating equation carry power | proved | `C88_grating` (Props_E2E2) | exact arithmetic; the eigensolver is any function with A V = V diag(w); no harmonics supplied by the user, lattice that generates its orders, outer layers of real permittivity |
| C89 | Homogeneous multilayers obey the method of admittances | proved | `C89_multilayer`, `C89_quarter_wave` (Props_Optics2) | exact arithmetic; the eigensolver is any function with A V = V diag(w); superstrate of real positive permittivity, the run must end without exception |
| C90 | Simulations of homogeneous layers return one order with the textbook efficiencies; patterned ones return the lattice's orders | proved | `C90_homogeneous`, `C90_patterned` (Props_E2E3) | exact arithmetic; the eigensolver is any function with A V = V diag(w); no harmonics supplied by the user, lattice that generates its orders; superstrate of real positive permittivity for the values |
| C91 | Which formulations need a tangent field | proved | `C91_not_asked`, `C91_asked` (Props_E2E3) | exact arithmetic; the eigensolver is any function with A V = V diag(w); isotropic patterned layers for the second half; the tangent field is an oracle per formulation and pattern |
| C92 | The default tangent field ('opt') can be computed on every grid | partial | `C92_grid_refuted`, `C92_accepts_partial` (Props_Opt) | false of the code: grids of 100 x 100 or 64 x 32 points, for instance, are refused with ValueError; proved: exactly which sizes are accepted. autograd backend, numpy >= 1.24 (arrays of different shapes cannot be stacked) |
| C93 | The default tangent field is perpendicular to the truncated Fourier series of the smoothed gradient of the pattern | proved | `C93_modulus`, `C93_attained`, `C93_direction`, `C93_lines` (Props_Opt) | exact arithmetic; the eigensolver is any function with A V = V diag(w); scipy's minimiser is a function from objectives to points, required to return a minimiser when there is one (C93_direction, C93_lines); maxiter=1 and tol are not modelled |
| C94 | The vector formulations work on every discretization of the lattice | partial | `C94_grid_refuted`, `C94_field_partial` (Props_E2E4) | false of the code: no efficiencies on grids of 100 x 100 or 64 x 32 points, for instance, with the default tangent field; proved: the operator of a layer exists exactly when its tangent field does, which is on every grid for type 'fft' and on the accepted sizes for type 'opt'. autograd backend, numpy >= 1.24 |
| C95 | Lossless patterns have a Hermitian permittivity operator in every formulation | partial | `C95_hermitian_refuted`, `C95_commute_partial`, `C95_constant_partial`, `C95_energy_partial` (Props_Herm) | false of the code for general tangent fields (the counterexample supplies the field, as Layer(tangent_field=...) does); proved: exact criterion for isotropic patterns, constant fields, and R + T = 1 when the operators are Hermitian. exact arithmetic; the eigensolver is any function with A V = V diag(w) |
| C96 | TopologyOptimizer reports every evaluation and refuses unknown methods | partial | `C96_callback`, `C96_nlopt_callback`, `C96_answer`, `C96_nlopt_levels`, `C96_again`, `C96_fallback`, `C96_method_refuted` (Props_Topopt) | false of the code for the refusal of unknown methods; everything else proved. The objective is total and the callback a pure observer; an optimizer run is any sequence of evaluations with a final answer |
| C97 | The efficiencies are quadratic in the polarization; natural light | proved | `C97_quadratic`, `C97_natural`, `C97_half_turn`, `C97_fields`, `C97_simulation` (Props_Polar) | exact arithmetic; the eigensolver is any function with A V = V diag(w); the same eigensolver answers the same matrices alike in both runs (it is a function) |
| C98 | A supercell computed with the same wavevectors gives the same results | proved | `C98_supercell`, `C98_toeplitz`, `C98_simulation` (Props_Super) | exact arithmetic; the eigensolver is any function with A V = V diag(w); tensor patterns only in formulations without a vector field; vector fields must be repeated with the pattern (hypothesis form_tiled); C98_simulation: two-dimensional lattices with supplied harmonics, and an argsort that does not change when all keys are multiplied by k |
| C99 | A supercell of an accepted cell is accepted | partial | `C99_accepted_refuted`, `C99_square_partial` (Props_Super2) | false of the code: the largest index along either axis is compared with the number of points along both, so 1 x 4 cells of an accepted 8 x 8 cell are refused with ValueError; proved: k x k cells are accepted exactly when one cell is (for an argsort that does not change when all keys are multiplied by k) |

## 3. Trusted base

* Coq's kernel.  No kernel check is switched off; there are no axioms, parameters or open proofs of our own.
* What `Print Assumptions` lists, for each theorem of the `Props_*` files (regenerate with
  `python3 tools/assumptions.py`):

- `ClassicalDedekindReals.sig_forall_dec`, `ClassicalDedekindReals.sig_not_dec`, `ClassicalEpsilon.constructive_indefinite_description`, `Classical_Prop.classic`, `FunctionalExtensionality.functional_extensionality_dep`:
  C15_cache_transparent, C15_numbers, C16_no_reset, C16_reset_S, C16_reset_all, C17_isolated_partial, C17_shared_refuted, C19_above_refuted, C19_copies_partial, C19_one_copy_partial, C19_uniform_refuted, C20_smatrix_raises, C20_smatrix_solves, C21_interior_amplitudes, C21_interior_available, C22_continuity, C23_maxwell, C24_split, C25_substrate_thickness, C26_constant_pattern, C27_flux_conserved, C27_poynting_parts, C28_energy, C29_at_most_one, C29_nonneg, C31_available, C31_complex_orders, C32_inverse, C32_mean, C33_constant, C33_entries, C33_hermitian, C33_linear, C34_synthesis, C35_get_epsilon, C35_mean, C36_jones, C36_operator, C36_pointwise, C37_exchanged_partial, C37_refuted, C47_multi_simp, C47_simp_complex, C51_constant_refuted, C51_identity, C51_linear, C51_shift, C51_weights_partial, C52_aniso_refuted, C52_rotated_partial, C53_eigensolver_efficiencies, C53_eigensolver_fields, C54_fresnel, C55_names_refuted, C56_field_flux, C57_reset_partial, C57_superstrate_refuted, C63_displaced_refuted, C63_mirror_partial, C64_constant, C64_direction, C64_normalised, C65_modulus, C67_last_partial, C67_negative_refuted, C68_height_partial, C68_inverse_rule_refuted, C68_tensor_refuted, C68_value_partial, C69_defined, C69_transverse, C70_arguments, C70_components, C70_homogeneous_refuted, C70_tensor_refuted, C70_too_small, C70_vectors, C71_power_average, C72_rows_partial, C72_vector_refuted, C73_bounds, C73_flux_down, C73_flux_in_layer, C73_no_gain, C74_translation, C74_translation_fields, C75_rotation, C75_rotation_fields, C76_scale, C76_scale_fields, C77_mirror_x, C77_mirror_x_fields, C77_mirror_y, C77_mirror_y_fields, C77_symmetric_x, C77_symmetric_y, C78_inversion, C78_inversion_fields, C78_symmetric, C79_exchange, C79_exchange_fields, C80_reorder, C80_reorder_fields, C81_reflection, C82_transmission, C83_energy, C83_no_gain, C83_orders, C84_only_numerical, C85_reproducible, C85_same_verdict, C86_reflection, C86_transmission, C87_absorption, C87_layer, C88_grating, C89_multilayer, C89_quarter_wave, C90_homogeneous, C90_patterned, C91_asked, C91_not_asked, C94_field_partial, C94_grid_refuted, C95_commute_partial, C95_constant_partial, C95_energy_partial, C95_hermitian_refuted, C97_fields, C97_half_turn, C97_natural, C97_quadratic, C97_simulation, C98_simulation, C98_supercell, C98_toeplitz
- nothing ("Closed under the global context"):
  C14_get_layer, C18_complex_refuted, C18_dict_refuted, C18_transmission_partial, C38_default_partial, C38_type_refuted, C39_block_roundtrip, C39_inverse, C39_nonsquare_refuted, C40_classify_partial, C40_shapes_partial, C40_small_grid_refuted, C45_parloop, C49_backend, C49_unknown, C50_device_refuted, C50_log_refuted, C50_settings_partial, C61_environment, C61_gpu_zero_refuted, C62_gradients, C96_fallback
- `ClassicalDedekindReals.sig_forall_dec`, `ClassicalDedekindReals.sig_not_dec`, `FunctionalExtensionality.functional_extensionality_dep`:
  C01_area, C01_available, C01_duality, C02_one_dim, C03_parallelogrammic, C04_any_lattice, C04_circular, C04_isolated, C05_shells, C06_equal_rows_partial, C06_hexagonal_refuted, C06_true_length_refuted, C07_isolated_partial, C07_zeroth_refuted, C08_one_more_partial, C08_request_refuted, C09_lookup, C10_indexing, C11_incident, C12_rejections, C13_uniform, C30_planewave, C43_matching, C44_no_over_refinement, C44_terminates, C66_sorted, C99_accepted_refuted, C99_square_partial
- `ClassicalDedekindReals.sig_forall_dec`, `FunctionalExtensionality.functional_extensionality_dep`:
  C12_layer, C41_shape_mask, C42_geometry_mask, C48_stop_refuted, C48_value_partial, C58_default_args_refuted, C58_levels, C59_grid_1D, C59_shapes_1D, C59_stripe, C60_cell_refuted, C60_periodic_refuted, C60_points_partial, C96_again, C96_answer, C96_callback, C96_method_refuted, C96_nlopt_callback, C96_nlopt_levels
- `ClassicalDedekindReals.sig_forall_dec`, `ClassicalDedekindReals.sig_not_dec`, `FunctionalExtensionality.functional_extensionality_dep`, `classic`, `constructive_indefinite_description`:
  C92_accepts_partial, C92_grid_refuted, C93_attained, C93_direction, C93_lines, C93_modulus
- `ClassicalDedekindReals.sig_forall_dec`, `ClassicalDedekindReals.sig_not_dec`, `Classical_Prop.classic`, `FunctionalExtensionality.functional_extensionality_dep`:
  C46_multi_project, C46_project, C47_simp

  These are the axioms of Coq's standard library for classical real numbers (`sig_forall_dec`, `sig_not_dec`,
  `functional_extensionality_dep`), excluded middle (`classic`) and indefinite description
  (`constructive_indefinite_description`, which gives `R` the decidable structures mathcomp needs).
* The reading of /repo: that each definition does what the cited lines do.  The definitions follow the code
  statement by statement where the property depends on it; the simplifications are listed next.

## 4. What the numerical model idealises

* **Floating point is exact arithmetic** over R and C.  No theorem says anything about rounding.
* `linalg.solve`/`inv` are exact, and raise `LinAlgError` on a singular matrix.
* `linalg.eig` is a function about which only `A V = V diag(w)` is assumed, and where a theorem needs
  completeness, that `V` is invertible; C53 proves that the choice does not matter.
* `fft2`/`ifft2` are their defining sums.  `argsort` is any function that returns a sorting permutation
  (ties in any order).  The complex square root is the principal one.
* machine epsilon (in `helpers.norm`) is the number 2^-52.
* `trapz`, `linspace`, `gradient`, `fftshift`, `fftfreq` are their documented formulas.

## 5. What is modelled, by file

| file | modelled | not modelled |
|---|---|---|
| `lattice.py` | `Lattice.__init__`, `matrix`, `area`, `reciprocal`, `get_harmonics`, the three truncations, `unit_grid`, `grid`, `transform`, `no1d`, the shape methods, `stripe`, `Layer()` factory through `Layer.__init__` | `__repr__`; the warning texts |
| `layers.py` | `Layer.__init__`, `copy`, `is_uniform` and the other shape tests, `solve_eigenproblem`, `solve_uniform`, `get_tangent_field`, `get_jones_field`, `_get_layer` | `plot`, `__repr__`, setting of unrelated attributes, the torch branch of the eigenproblem |
| `excitation.py` | `PlaneWave` completely | |
| `simulation.py` | `__init__`, `get_layer`, `solve`, `reset`, `get_S_matrix`, `get_z_poynting_flux`, `get_field_fourier`, `get_ifft`, `get_ifft_amplitudes`, `get_field_grid`, `get_Efield_grid`, `get_Hfield_grid`, `diffraction_efficiencies`, `_get_complex_orders`, `get_z_stress_tensor_integral`, `get_order_index`, `get_order`, `_get_toeplitz_matrix`, `build_matrix`, `get_epsilon`, `_get_amplitudes`, `_solve_int`, `_solve_ext`, `_get_nu_hat_inv`, `_get_Peps`, all module functions | `plot_structure`, timers and log messages; `_get_Peps(direct=True)`, which is never called; mu: layers have mu = 1 (a scalar mu in the uniform case of `Sim_Model`) |
| `formulations/fft.py` | both transforms | the backend switch inside |
| `formulations/tangent.py` | the `fft` algorithm, the `opt` algorithm with autograd (`Opt_Model`, C92 to C94; an arbitrary function in C38 and C95), `_normalize*`, the dispatcher | the iterations of scipy's minimiser in `opt`, its jax variant, filters other than the default radius 4 |
| `formulations/jones.py` | all; `arctan2` is an arbitrary function | |
| `utils/helpers.py` | `norm`, `block`, `get_block`, `block2list`, `blockmatmul`, `inv2by2block`, `is_scalar`, `is_anisotropic`, `is_uniform`, `_apply_filter` | `next_power_of_2`, `set_index`'s jax branch, `filter_jax` |
| `geometry.py` | `shape_mask`, `geometry_mask`, `set_index_2d` | shapely itself: a record of operations whose contract (a rectangle contained in / disjoint from the point set, affine images) is a hypothesis of C41, C42 |
| `optimize.py` | `simp`, `multi_simp`, `project`, `multi_project`, `StopFun`, `TopologyOptimizer` with its scipy and nlopt branches, counter and callback (`Topopt_Model`, C96) | the optimizers themselves: a run is any sequence of evaluations; gradients; printing; callbacks and objectives that raise |
| `sample.py` | `adaptive_sampler` completely | |
| `parallel.py` | `parloop` | joblib: tasks complete in any order |
| `__init__.py`, `log.py` | `set_backend`, `use_gpu`, `use_32_bit`, `get_backend`, `get_device`, `set_log_level`, import and reload of the package, environment variables, `grad` | the array libraries; `importlib.reload` is its documented behaviour (a module already being reloaded is not reloaded again); autograd is installed |
| `plot.py`, `utils/jupyter.py`, `utils/time.py`, `constants.py` | | display only |

Further simplifications, stated where they are made:

* Patterned tensor layers with a tangent or Jones formulation are modelled for square grids only
  (`Sim_Model.recut`): the code reshapes the pointwise inverse in a way that only makes sense there.
* A simulation's parameters in the state model (`P`) are those of its construction: no method changes them.
* Layer objects are shared by address; attributes a user could set by hand, other than thickness and
  permittivity, are not in the model.

## 6. Testing the theorems

`seeded/LOG.jsonl` records deliberate errors put into the model in a scratch copy, with the theorems that
stopped being provable.  Where an error was noticed only by an internal lemma, the theorem was strengthened or
a new one added (C14 negative indices, C66).

## 7. Building

`cd rocq && coq_makefile -f _CoqProject -o Makefile && make -j4` (about six minutes on four cores).
