{"id": "C01", "title": "Reciprocal basis is dual to the lattice basis", "statement": "For a Lattice built from two linearly independent basis vectors L1, L2, the columns K1, K2 of lattice.reciprocal satisfy Ki.Lj = 2*pi if i=j and 0 otherwise, and lattice.area times the area spanned by (K1,K2) is 4*pi^2.", "quantifier": "all pairs of linearly independent real basis vectors", "why_tests_cant": "a test checks one matrix against literals; the claim is an identity over all real bases", "anchors": ["nannos/lattice.py:Lattice.reciprocal", "nannos/lattice.py:Lattice.matrix", "nannos/lattice.py:Lattice.area"]}
{"id": "C02", "title": "1D truncation returns exactly the centred run of orders", "statement": "For a mono-periodic lattice and every integer nh, get_harmonics(nh) returns, without repetition, exactly the orders (k,0) with |k| <= trunc((nh-1)/2) (just (0,0) when nh<=2), the reported count equals the number of columns, and the count never exceeds nh when nh>=1.", "quantifier": "all integers nh", "why_tests_cant": "needs every nh, including even, zero and negative ones", "anchors": ["nannos/lattice.py:_one_dim_truncation", "nannos/lattice.py:Lattice._get_harmonics"]}
{"id": "C03", "title": "Parallelogrammic truncation returns exactly a centred odd square", "statement": "For truncation='parallelogrammic' and nh>=1, get_harmonics returns, without repetition and whatever the tie-breaking of argsort, exactly the orders (a,b) with |a|,|b| <= M where 2M+1 is the largest odd integer whose square is <= nh; the reported count is (2M+1)^2, equals the number of columns and is <= nh.", "quantifier": "all nh>=1, all lattices, every sorting permutation argsort may return", "why_tests_cant": "argsort is not stable: the result must be right for every permutation consistent with the keys, and for all nh", "anchors": ["nannos/lattice.py:_parallelogramic_truncation"]}
{"id": "C04", "title": "Circular truncation is a well formed set of orders", "statement": "For a bi-periodic lattice with circular truncation in which every order but the zeroth has a metric above the tolerance used to separate shells, and every nh>=2, get_harmonics returns distinct orders, contains the zeroth order, is closed under negation, its reported count equals the number of columns, and 1 <= count < nh.", "quantifier": "all lattices with an isolated zeroth order, all nh>=2, every sorting permutation argsort may return", "why_tests_cant": "ties among orders of one shell are broken by an unstable sort, and the shell cut walks backwards through arbitrary data", "anchors": ["nannos/lattice.py:_circular_truncation"]}
{"id": "C05", "title": "Circular truncation keeps complete shells, nearest first", "statement": "With circular truncation, every candidate order whose metric is not larger (up to the tolerance) than that of a returned order is returned too: shells are never split, and no skipped order is closer than a kept one.", "quantifier": "all lattices, all nh>=1, every sorting permutation", "why_tests_cant": "a property of all tie patterns of the sort", "anchors": ["nannos/lattice.py:_circular_truncation"]}
{"id": "C06", "title": "Circular truncation orders harmonics by their true wavevector length", "statement": "With circular truncation the returned harmonics are those with the smallest |a*K1+b*K2|: no skipped order has a strictly shorter reciprocal vector than a kept one.", "quantifier": "all lattices, all nh", "why_tests_cant": "depends on lattice shape; square-lattice tests pass while rectangular or oblique lattices may not", "anchors": ["nannos/lattice.py:_circular_truncation", "nannos/simulation.py:Simulation.__init__"]}
{"id": "C07", "title": "Every non degenerate lattice yields the zeroth order", "statement": "For every pair of linearly independent basis vectors and nh>=2, the circular truncation returns at least one harmonic, and (0,0) is among them.", "quantifier": "all linearly independent bases, all nh>=2", "why_tests_cant": "fails only for some lattice shapes, which example-based tests do not visit", "anchors": ["nannos/lattice.py:_circular_truncation", "nannos/simulation.py:Simulation.__init__"]}
{"id": "C08", "title": "A request that exactly fills a shell is honoured", "statement": "If nh orders form a union of complete shells of the circular truncation, asking for nh harmonics returns nh harmonics.", "quantifier": "all lattices, all shell-filling nh", "why_tests_cant": "an off-by-one visible only when nh hits a shell boundary", "anchors": ["nannos/lattice.py:_circular_truncation"]}
{"id": "C09", "title": "Order lookup inverts the harmonics table", "statement": "For a Simulation whose harmonics are distinct, get_order_index(h) returns the position j with harmonics[:,j]==h for every retained order h, raises KeyError for every other order, accepts a bare int k as (k,0) on mono-periodic lattices only, and get_order(A,h) is A at that position.", "quantifier": "all harmonic tables, all orders", "why_tests_cant": "a nested dictionary built by a loop over an arbitrary table", "anchors": ["nannos/simulation.py:Simulation.__init__", "nannos/simulation.py:Simulation.get_order_index", "nannos/simulation.py:Simulation.get_order"]}
{"id": "C10", "title": "The discretization check makes Fourier indexing safe", "statement": "If Simulation construction succeeds with a generated (negation-closed) harmonic set, every difference of two retained orders indexes the Fourier table of an array of the lattice's discretization without IndexError, and only equal orders share the zero-frequency entry.", "quantifier": "all lattices, nh and discretizations accepted by the constructor", "why_tests_cant": "ranges over all pairs of orders and all discretizations", "anchors": ["nannos/simulation.py:Simulation.__init__", "nannos/simulation.py:Simulation._get_toeplitz_matrix"]}
{"id": "C11", "title": "The incident wave feeds exactly the zeroth order", "statement": "After construction, the incident amplitude vector has the excitation's two amplitudes at the positions of the (0,0) order in the two halves and zero everywhere else, and no wave enters from the substrate.", "quantifier": "all harmonic tables containing (0,0), all excitations", "why_tests_cant": "position of (0,0) after an unstable sort is arbitrary", "anchors": ["nannos/simulation.py:Simulation.__init__"]}
{"id": "C12", "title": "Constructor rejections are exactly the documented ones", "statement": "Simulation(...) raises ValueError for duplicate layer names, AssertionError for differing lattices, ValueError for an unknown formulation, for 'jones'/'pol' on a mono-periodic lattice, and for a discretization not exceeding twice the largest harmonic; Layer(...) raises ValueError for negative thickness and NotImplementedError for a permeability different from one; otherwise construction succeeds.", "quantifier": "all layer lists, names, formulations, lattices, thicknesses", "why_tests_cant": "the order and completeness of the checks over all combinations", "anchors": ["nannos/simulation.py:Simulation.__init__", "nannos/layers.py:Layer.__init__", "nannos/utils/helpers.py:unique", "nannos/lattice.py:Lattice.__init__"]}
{"id": "C13", "title": "Stacks of uniform layers use a single diffraction order", "statement": "If all layers are uniform the simulation uses exactly one harmonic, (0,0), whatever nh was requested (generated harmonics, isolated zeroth order when circular).", "quantifier": "all nh, all truncations", "why_tests_cant": "depends on the interplay of nh override and each truncation", "anchors": ["nannos/simulation.py:Simulation.__init__", "nannos/lattice.py:Lattice._get_harmonics"]}
{"id": "C14", "title": "Layer lookup by name, index and object agree", "statement": "get_layer(name) returns the unique layer with that name and its index, get_layer(i) for -n<=i<n returns layers[i] (counted from the end when negative) and i unchanged, get_layer(layer object) is lookup by its name, an unknown name or a bad id type raises ValueError, an out of range index raises IndexError.", "quantifier": "all stacks with distinct names, all ids", "why_tests_cant": "all stacks and all ids", "anchors": ["nannos/layers.py:_get_layer", "nannos/simulation.py:Simulation.get_layer"]}
{"id": "C15", "title": "S-matrix caching is transparent", "statement": "For every sequence of get_S_matrix(indices), diffraction_efficiencies, amplitude and field queries on a Simulation whose layers are not modified, each answer equals the one a freshly built Simulation gives to that single call: the cache of partial S-matrices never changes a result.", "quantifier": "all histories of calls, all index pairs, all stacks", "why_tests_cant": "needs every interleaving of cached partial products", "anchors": ["nannos/simulation.py:Simulation.get_S_matrix", "nannos/simulation.py:Simulation.solve", "nannos/simulation.py:Simulation._solve_ext", "nannos/simulation.py:Simulation._solve_int"]}
{"id": "C16", "title": "reset() discards every cached result", "statement": "After modifying layer thicknesses or permittivities, reset() (or reset('all')) followed by any query gives the answer of a simulation with the same incident wave and wavevectors newly solved on the modified layers; reset('S') suffices for thickness changes; without reset get_S_matrix and diffraction_efficiencies return the old results.", "quantifier": "all histories, all modifications", "why_tests_cant": "stale cache states are history dependent", "anchors": ["nannos/simulation.py:Simulation.reset", "nannos/simulation.py:Simulation.get_S_matrix", "nannos/layers.py:Layer.reset"]}
{"id": "C17", "title": "Simulations do not interfere with each other", "statement": "Queries on one Simulation never change the answers of another Simulation.", "quantifier": "all pairs of simulations, including ones sharing Layer objects, all interleavings of calls", "why_tests_cant": "interference needs a specific interleaving on shared mutable layers", "anchors": ["nannos/simulation.py:Simulation.solve", "nannos/simulation.py:Simulation.build_matrix", "nannos/simulation.py:Simulation.get_z_poynting_flux", "nannos/layers.py:Layer.solve_eigenproblem"]}
{"id": "C18", "title": "diffraction_efficiencies(return_dict=True) returns R and T per order and leaves the simulation intact", "statement": "With orders=True, return_dict=True the two returned dictionaries map every order to its reflected, respectively transmitted efficiency, and later order lookups are unaffected.", "quantifier": "all harmonic tables, all efficiency vectors, all later calls", "why_tests_cant": "aliasing of nested dictionaries", "anchors": ["nannos/simulation.py:Simulation.diffraction_efficiencies", "nannos/simulation.py:Simulation.get_order_index"]}
{"id": "C19", "title": "A copied layer behaves as its original", "statement": "A stack in which a layer and later copies of it (possibly with other thicknesses) appear gives the same results as the stack with independently constructed equal layers; copies may be made of any layer.", "quantifier": "all stacks, any position and number of copies, uniform and patterned originals", "why_tests_cant": "depends on the position of original and copies and on layer kind", "anchors": ["nannos/layers.py:Layer.copy", "nannos/layers.py:Layer.solve_eigenproblem", "nannos/simulation.py:Simulation.build_matrix"]}
{"id": "C20", "title": "The S-matrix solves the multilayer boundary problem", "statement": "If get_S_matrix returns S, then modal amplitudes in all layers satisfy continuity of the tangential fields at every interface if and only if outgoing amplitudes are S times incoming ones, and for any incoming amplitudes there is exactly one such set of amplitudes. It raises LinAlgError only if some partial stack's boundary problem is degenerate.", "quantifier": "all numbers of layers, all numbers of harmonics, all eigenmodes, thicknesses, incoming amplitudes", "why_tests_cant": "a linear algebra identity over stacks of any depth and matrices of any size", "anchors": ["nannos/simulation.py:Simulation.get_S_matrix", "nannos/simulation.py:_build_Imatrix", "nannos/simulation.py:_build_Mmatrix", "nannos/simulation.py:phasor"]}
{"id": "C21", "title": "Interior amplitudes agree with the global solution", "statement": "The amplitudes computed for an interior layer from the two partial S-matrices are those of the unique global solution for the same incident wave; they are consistent with the outer reflected and transmitted amplitudes.", "quantifier": "all stacks, all interior layers", "why_tests_cant": "composition of partial S-matrices at every split point", "anchors": ["nannos/simulation.py:Simulation._solve_int", "nannos/simulation.py:Simulation._solve_ext", "nannos/simulation.py:Simulation._get_amplitudes"]}
{"id": "C22", "title": "Tangential fields are continuous across every interface", "statement": "get_field_fourier(i, z=thickness_i) and get_field_fourier(i+1, z=0) have equal Ex, Ey, Hx, Hy components for every pair of adjacent layers.", "quantifier": "all stacks, all interfaces, all incident waves", "why_tests_cant": "all depths and sizes", "anchors": ["nannos/simulation.py:Simulation.get_field_fourier", "nannos/simulation.py:_translate_amplitudes"]}
{"id": "C23", "title": "Fields satisfy Maxwell's equations in every layer", "statement": "As functions of z, the six Fourier components returned by get_field_fourier satisfy the truncated curl equations (and hence div H = 0) with the permittivity matrix of the layer.", "quantifier": "all layers (uniform or patterned, any formulation), all z, all amplitudes", "why_tests_cant": "an identity of functions of a real variable", "anchors": ["nannos/simulation.py:Simulation.get_field_fourier", "nannos/simulation.py:Simulation.build_matrix", "nannos/simulation.py:_build_Kmatrix", "nannos/layers.py:Layer.solve_uniform", "nannos/layers.py:Layer.solve_eigenproblem"]}
{"id": "C24", "title": "Splitting a layer or inserting an empty one changes nothing", "statement": "Replacing an interior layer of thickness t1+t2 by two adjacent layers of the same material of thicknesses t1 and t2 (in particular with t1=0) leaves the diffraction efficiencies unchanged: same numbers, or both computations raise.", "quantifier": "all stacks, all positions, all thicknesses", "why_tests_cant": "relational property over stacks of any depth", "anchors": ["nannos/simulation.py:Simulation.get_S_matrix", "nannos/simulation.py:phasor"]}
{"id": "C25", "title": "Substrate thickness is irrelevant", "statement": "The thickness given to the last layer does not influence reflected and transmitted efficiencies.", "quantifier": "all stacks, all thicknesses", "why_tests_cant": "relational property over all stacks", "anchors": ["nannos/simulation.py:Simulation.get_S_matrix", "nannos/simulation.py:Simulation._solve_ext"]}
{"id": "C26", "title": "A patterned layer with constant permittivity is a uniform layer", "statement": "If a permittivity array is constant, the eigenproblem built for it ('original' formulation) is that of the uniform layer: same squared propagation constants for each order, same coupling operators.", "quantifier": "all constants, all harmonic sets accepted by the constructor, all wavevectors", "why_tests_cant": "equality of two code paths for all sizes", "anchors": ["nannos/simulation.py:Simulation.build_matrix", "nannos/layers.py:Layer.solve_uniform", "nannos/simulation.py:Simulation._get_toeplitz_matrix"]}
{"id": "C27", "title": "Power flow splits consistently and is conserved in lossless layers", "statement": "For each order the forward and backward parts of the z Poynting flux sum to Re(E x H*)_z of the total field; in a lossless layer (real permittivity, 'original' formulation) the total flux does not depend on z.", "quantifier": "all layers, amplitudes, z", "why_tests_cant": "identity over all mode mixtures including evanescent pairs", "anchors": ["nannos/simulation.py:Simulation.get_z_poynting_flux", "nannos/simulation.py:_translate_amplitudes"]}
{"id": "C28", "title": "Energy conservation R+T=1 for lossless structures", "statement": "For every stack of lossless layers between lossless uniform half spaces with a propagating incident wave, diffraction_efficiencies() returns R+T=1 ('original' formulation), whatever the truncation.", "quantifier": "all lossless stacks, harmonic counts, wavelengths and incidence angles", "why_tests_cant": "tests sample a few configurations with tolerance 0.1", "anchors": ["nannos/simulation.py:Simulation.diffraction_efficiencies", "nannos/simulation.py:Simulation.get_z_poynting_flux", "nannos/simulation.py:Simulation.get_S_matrix", "nannos/excitation.py:PlaneWave"]}
{"id": "C29", "title": "Efficiencies are non negative and vanish for evanescent orders", "statement": "With lossless uniform half spaces every reflected and transmitted order efficiency is >= 0 and is 0 for evanescent orders; for lossless stacks 0 <= R,T <= 1.", "quantifier": "all stacks, orders, incidences", "why_tests_cant": "sign property of every order for every structure", "anchors": ["nannos/simulation.py:Simulation.get_z_poynting_flux", "nannos/simulation.py:Simulation.diffraction_efficiencies"]}
{"id": "C30", "title": "PlaneWave is a unit transverse wave carrying flux cos(theta)", "statement": "For all wavelengths and angles, the amplitude vector has unit length and is orthogonal to the wavevector, the wavevector has length 2*pi/wavelength, and the modal amplitudes reproduce the requested electric field and carry z-flux cos(theta).", "quantifier": "all wavelengths>0, theta not grazing, all phi, psi", "why_tests_cant": "trigonometric identity for all angles", "anchors": ["nannos/excitation.py:PlaneWave"]}
{"id": "C31", "title": "Complex amplitudes and efficiencies agree", "statement": "diffraction_efficiencies(complex=True, orders=True) returns amplitudes whose squared moduli summed over components are the real efficiencies of each order, for lossless half spaces, when the first and last layers are called 'Superstrate' and 'Substrate'.", "quantifier": "all stacks, orders, layer names", "why_tests_cant": "tested at 1e-8 on a few cases; must hold for all orders and any naming", "anchors": ["nannos/simulation.py:Simulation._get_complex_orders", "nannos/simulation.py:Simulation.diffraction_efficiencies"]}
{"id": "C32", "title": "Forward and inverse Fourier transforms are mutually inverse", "statement": "inverse_fourier_transform(fourier_transform(u)) == u and conversely, for every array and shape; the transform is linear and its zero entry is the mean.", "quantifier": "all complex arrays of all shapes", "why_tests_cant": "all sizes", "anchors": ["nannos/formulations/fft.py:fourier_transform", "nannos/formulations/fft.py:inverse_fourier_transform"]}
{"id": "C33", "title": "Convolution matrices are faithful", "statement": "The Toeplitz matrix of a permittivity is linear in it, c times identity for a constant c, Hermitian for real permittivity, and its entry (i,j) is the Fourier coefficient at harmonics[i]-harmonics[j].", "quantifier": "all arrays, all harmonic sets", "why_tests_cant": "all sizes and sets", "anchors": ["nannos/simulation.py:Simulation._get_toeplitz_matrix"]}
{"id": "C34", "title": "Real-space fields are the Fourier sums of the amplitudes", "statement": "get_ifft / get_ifft_amplitudes return at grid point (x,y) the sum over retained orders of amplitude times exp(2*pi*i*(h1*x/Nx+h2*y/Ny)), for every grid shape that can be indexed by the orders.", "quantifier": "all amplitudes, orders, shapes", "why_tests_cant": "accumulation over arbitrary orders with wrapped indices", "anchors": ["nannos/simulation.py:Simulation.get_ifft", "nannos/simulation.py:Simulation.get_ifft_amplitudes"]}
{"id": "C35", "title": "get_epsilon returns the truncated Fourier series of the permittivity", "statement": "For a patterned layer get_epsilon returns the Fourier series of the permittivity restricted to the retained orders, in particular with the same mean; for a uniform layer it returns the permittivity.", "quantifier": "all arrays, all harmonic sets", "why_tests_cant": "all arrays and sets", "anchors": ["nannos/simulation.py:Simulation.get_epsilon"]}
{"id": "C36", "title": "The tangent-field projection is a rank-one Hermitian contraction", "statement": "In the 'tangent', 'jones' and 'pol' formulations the pointwise projection built from the vector field is Hermitian, rank one, positive and of trace at most one, and the Jones field has modulus at most one, whatever the field.", "quantifier": "all vector fields, all grid points", "why_tests_cant": "all fields including zeros", "anchors": ["nannos/simulation.py:Simulation._get_Peps", "nannos/formulations/jones.py:get_jones_field", "nannos/utils/helpers.py:norm", "nannos/formulations/tangent.py:_normalize_vec"]}
{"id": "C37", "title": "1D and 2D tangent formulations agree on a y-invariant pattern", "statement": "For a pattern that does not depend on y and the tangent field along y, the bi-periodic 'tangent' formulation builds the same permittivity operator as the mono-periodic one.", "quantifier": "all y-invariant patterns", "why_tests_cant": "consistency of two code paths for all patterns", "anchors": ["nannos/simulation.py:Simulation.build_matrix", "nannos/simulation.py:Simulation._get_Peps"]}
{"id": "C38", "title": "Layer.get_tangent_field honours its arguments", "statement": "The 'type' argument selects the tangent field algorithm, defaulting to the layer's tangent_field_type; a user supplied field is returned unchanged and a uniform layer gives None.", "quantifier": "all layers, all argument values", "why_tests_cant": "decision table over all arguments", "anchors": ["nannos/layers.py:Layer.get_tangent_field", "nannos/formulations/tangent.py:get_tangent_field"]}
{"id": "C39", "title": "Block helpers are mutually consistent", "statement": "get_block(block(a),i,j,n) == a[i][j]; block2list inverts block; inv2by2block(T,N) is the pointwise 2x2 inverse of T (product with blockmatmul is the pointwise identity) whenever all pointwise determinants are non zero.", "quantifier": "all sizes, all entries", "why_tests_cant": "all sizes", "anchors": ["nannos/utils/helpers.py:block", "nannos/utils/helpers.py:get_block", "nannos/utils/helpers.py:block2list", "nannos/utils/helpers.py:inv2by2block", "nannos/utils/helpers.py:blockmatmul"]}
{"id": "C40", "title": "Uniform / anisotropic classification by shape", "statement": "A scalar or 3x3 tensor permittivity is uniform, a 2D grid or a 3x3 tensor of grids is patterned, for every discretization.", "quantifier": "all array shapes", "why_tests_cant": "all shapes, including small grids", "anchors": ["nannos/utils/helpers.py:is_uniform", "nannos/utils/helpers.py:is_anisotropic", "nannos/utils/helpers.py:is_scalar", "nannos/layers.py:Layer.is_uniform"]}
{"id": "C41", "title": "shape_mask agrees with pointwise inclusion", "statement": "For every grid and shape, the mask is True at every grid point interior to the shape and False at every grid point outside the (closed) shape, whatever the initial content of the mask argument; the recursion terminates.", "quantifier": "all grid sizes, all shapes whose containment and intersection predicates are sound", "why_tests_cant": "recursive subdivision over all sizes and shapes", "anchors": ["nannos/geometry.py:shape_mask", "nannos/geometry.py:set_index_2d"]}
{"id": "C42", "title": "Geometry masks are evaluated at the lattice grid points", "statement": "mask[i,j] of geometry_mask(geom) tells whether lattice.grid[:,i,j] lies in geom, for every lattice basis and discretization.", "quantifier": "all bases, discretizations, geometries", "why_tests_cant": "affine change of coordinates for all bases", "anchors": ["nannos/geometry.py:geometry_mask", "nannos/lattice.py:Lattice.grid", "nannos/lattice.py:Lattice.transform"]}
{"id": "C43", "title": "The adaptive sampler returns matching abscissae and values", "statement": "For strictly increasing initial points and any function, adaptive_sampler returns strictly increasing x containing all initial points, within their range, and y with y[k]=f(x[k]) for every k, for scalar and multi-output functions.", "quantifier": "all functions, initial grids and thresholds", "why_tests_cant": "alignment of two arrays through unique/return_index over any number of refinement rounds", "anchors": ["nannos/sample.py:adaptive_sampler"]}
{"id": "C44", "title": "The adaptive sampler terminates and never over-refines", "statement": "For max_x_rel>0 the refinement loop ends for every function, and never creates a gap smaller than half of max_x_rel times the range (or the smallest initial gap).", "quantifier": "all functions, grids, thresholds", "why_tests_cant": "termination for arbitrary functions", "anchors": ["nannos/sample.py:adaptive_sampler"]}
{"id": "C45", "title": "parloop preserves order and is schedule independent", "statement": "A @parloop function applied to a sequence returns the list of results in input order, equal to the sequential map, for every number of jobs and every completion order, passing extra arguments through unchanged.", "quantifier": "all inputs, all schedules", "why_tests_cant": "depends on completion order", "anchors": ["nannos/parallel.py:parloop", "nannos/sample.py:adaptive_sampler"]}
{"id": "C46", "title": "Threshold projection maps densities to densities", "statement": "project(x,beta,thres) maps [0,1] into [0,1], fixes 0 and 1 and is strictly increasing in x for beta>0 and 0<=thres<=1; multi_project with Nthres>=2 has the same properties.", "quantifier": "all beta>0, thres in [0,1], x, Nthres>=2", "why_tests_cant": "real analysis over a continuum", "anchors": ["nannos/optimize.py:project", "nannos/optimize.py:multi_project"]}
{"id": "C47", "title": "Material interpolation hits the given permittivities", "statement": "simp(0)=eps_min, simp(1)=eps_max, monotone in between; multi_simp at the k-th of n equally spaced densities returns the k-th permittivity for every n>=1 and p>=1.", "quantifier": "all permittivity lists, all p", "why_tests_cant": "needs invertibility of a generalized Vandermonde matrix of any size", "anchors": ["nannos/optimize.py:simp", "nannos/optimize.py:multi_simp"]}
{"id": "C48", "title": "Stopping by stop value returns a matching point and value", "statement": "When the optimizer stops because the objective fell below stopval, the returned (xopt, fopt) satisfy fopt = fun(xopt) and fopt < stopval.", "quantifier": "all objectives, stop values, evaluation sequences chosen by the optimizer", "why_tests_cant": "depends on which evaluation triggers the stop", "anchors": ["nannos/optimize.py:StopFun.fun", "nannos/optimize.py:TopologyOptimizer.minimize"]}
{"id": "C49", "title": "The active backend is the last one successfully selected", "statement": "After any sequence of set_backend, use_gpu and use_32_bit calls, get_backend() and BACKEND name the last valid backend requested (numpy if its library is missing), an unknown name raises ValueError and leaves the backend unchanged.", "quantifier": "all call histories, all installed library combinations", "why_tests_cant": "module globals, reloads and fallbacks over any history", "anchors": ["nannos/__init__.py:set_backend", "nannos/__init__.py:get_backend", "nannos/__init__.py:_reload_package"]}
{"id": "C50", "title": "Device, precision and log settings are independent of the backend switch", "statement": "use_32_bit persists across backend changes; the GPU device is reported only while a GPU capable backend is active; the user's log level survives backend changes; exactly one log handler is installed.", "quantifier": "all call histories", "why_tests_cant": "history dependent global state", "anchors": ["nannos/__init__.py:use_gpu", "nannos/__init__.py:use_32_bit", "nannos/__init__.py:get_device", "nannos/log.py:set_log_level"]}
{"id": "C51", "title": "apply_filter is a linear shift-equivariant smoothing", "statement": "apply_filter with radius 0 is the identity; otherwise it is linear, commutes with cyclic shifts and leaves constant images unchanged.", "quantifier": "all images, sizes and radii", "why_tests_cant": "all sizes", "anchors": ["nannos/utils/helpers.py:_apply_filter"]}
{"id": "C52", "title": "Patterned anisotropic layers are simulated with the tensor that was given", "statement": "For a layer whose permittivity is a (3,3,Nx,Ny) array with decoupled z direction, the fields returned by get_field_fourier ('original' formulation) satisfy the truncated Maxwell equations with D = eps E for that tensor.", "quantifier": "all tensor patterns, stacks and incident waves", "why_tests_cant": "isotropic and x/y symmetric test cases cannot see an exchange of the transverse components", "anchors": ["nannos/simulation.py:Simulation.build_matrix", "nannos/simulation.py:Simulation._get_toeplitz_matrix"]}
{"id": "C53", "title": "Results do not depend on the eigenvector basis chosen by the eigensolver", "statement": "If two eigensolvers both return eigenpairs (A V = V diag(w)), with any order, scaling, or mixing inside degenerate eigenspaces, and both runs succeed, diffraction efficiencies and get_field_fourier are the same.", "quantifier": "all eigensolvers satisfying the contract, all stacks with a uniform substrate, all layers and z", "why_tests_cant": "backends return different bases for degenerate modes; no finite set of comparisons covers them", "anchors": ["nannos/layers.py:Layer.solve_eigenproblem", "nannos/simulation.py:Simulation.solve", "nannos/simulation.py:Simulation.get_S_matrix", "nannos/simulation.py:Simulation.get_field_fourier"]}
{"id": "C54", "title": "A single interface reproduces Fresnel's formulas", "statement": "For two uniform media and one harmonic with phi=0, diffraction_efficiencies() succeeds and R = sin(psi)^2 |r_TE|^2 + cos(psi)^2 |r_TM|^2 with Fresnel's r_TE, r_TM, including total internal reflection and negative permittivity.", "quantifier": "all lossless media, angles theta, polarisations psi, wavelengths", "why_tests_cant": "a continuum of parameters, including the region beyond the critical angle", "anchors": ["nannos/simulation.py:Simulation.diffraction_efficiencies", "nannos/simulation.py:Simulation.get_S_matrix", "nannos/layers.py:Layer.solve_uniform", "nannos/excitation.py:PlaneWave"]}
{"id": "C55", "title": "Complex amplitudes are available whatever the outer layers are called", "statement": "diffraction_efficiencies(complex=True) succeeds for every stack for which diffraction_efficiencies() does, independently of the names of the layers.", "quantifier": "all layer names", "why_tests_cant": "tests use the default names", "anchors": ["nannos/simulation.py:Simulation._get_complex_orders", "nannos/layers.py:_get_layer"]}
{"id": "C56", "title": "Reflected, transmitted and absorbed power agree with the fields", "statement": "The z Poynting flux of the fields returned by get_field_fourier is (1-R) times the incident flux cos(theta)/n0 everywhere in the superstrate and T times it everywhere in the substrate, whatever lossy or lossless layers lie between.", "quantifier": "all stacks between lossless half spaces, all incident waves, all z", "why_tests_cant": "relates two independent code paths over all structures", "anchors": ["nannos/simulation.py:Simulation.get_field_fourier", "nannos/simulation.py:Simulation.diffraction_efficiencies", "nannos/simulation.py:Simulation.get_z_poynting_flux"]}
{"id": "C57", "title": "After reset() a simulation is as good as new", "statement": "After any modification of its layers, reset() makes a Simulation answer like one newly constructed from the modified layers.", "quantifier": "all histories, all modifications including the superstrate's permittivity", "why_tests_cant": "needs a modification of data that only the constructor reads", "anchors": ["nannos/simulation.py:Simulation.reset", "nannos/simulation.py:Simulation.__init__"]}
{"id": "C58", "title": "minimize() threads its levels", "statement": "TopologyOptimizer.minimize() runs the projection levels in increasing order, each with 2**i substituted for the first argument of the objective and starting from the optimum of the level before, also when args is left at its default.", "quantifier": "all optimizers, objectives and numbers of levels", "why_tests_cant": "any number of levels and any optimizer", "anchors": ["nannos/optimize.py:TopologyOptimizer.minimize"]}
{"id": "C59", "title": "Mono-periodic lattices refuse 2D shapes; stripe is the slab |x-c|<=w/2", "statement": "On a 1D lattice every shape method other than stripe raises ValueError; the mask of stripe(center,width) contains exactly the grid points with |x-center|<=width/2.", "quantifier": "all lattices, centres and widths", "why_tests_cant": "real parameters", "anchors": ["nannos/lattice.py:Lattice.stripe", "nannos/lattice.py:Lattice.circle", "nannos/lattice.py:Lattice.grid"]}
{"id": "C60", "title": "The grid samples the unit cell once", "statement": "No two different points of Lattice.grid are equal modulo the lattice, so that the discrete Fourier transform of a mask samples one period.", "quantifier": "all discretizations", "why_tests_cant": "all discretizations", "anchors": ["nannos/lattice.py:Lattice.unit_grid", "nannos/lattice.py:Lattice.grid"]}
{"id": "C61", "title": "Environment variables choose the initial backend and device", "statement": "On import the backend is the one named by NANNOS_BACKEND when it is installed (numpy otherwise), and the GPU is asked for when NANNOS_GPU holds a true value.", "quantifier": "all environments and installations", "why_tests_cant": "needs re-importing the package in every environment", "anchors": ["nannos/__init__.py:set_backend", "nannos/__init__.py:use_gpu"]}
{"id": "C62", "title": "grad is available exactly with autograd and torch", "statement": "After any sequence of set_backend, use_gpu, use_32_bit and set_log_level calls the grad seen by the package and its submodules is a gradient for the autograd and torch backends and raises NotImplementedError for the others.", "quantifier": "all call histories", "why_tests_cant": "history dependent global state", "anchors": ["nannos/__init__.py:_grad", "nannos/__init__.py:set_backend"]}
{"id": "C63", "title": "Smoothing keeps features where they are", "statement": "apply_filter with a non-zero radius smooths symmetrically: filtering the mirror image gives the mirror of the filtered image, and a single bright pixel stays the brightest one.", "quantifier": "all images, sizes and radii", "why_tests_cant": "half a pixel or one pixel of displacement depends on the parity of every size", "anchors": ["nannos/utils/helpers.py:_apply_filter"]}
{"id": "C64", "title": "The tangent field of a pattern invariant in one direction lies along it", "statement": "For a pattern that does not depend on y (x) the 'fft' tangent field is along y (x); with normalisation the points of negligible norm are given the direction x.", "quantifier": "all patterns and grid sizes", "why_tests_cant": "all patterns; the field is computed through tiling, smoothing and Fourier transforms", "anchors": ["nannos/formulations/tangent.py:_get_tangent_field_fft"]}
{"id": "C65", "title": "Tangent fields exist and have modulus at most one", "statement": "The 'fft' tangent field is defined (no division by zero) for every pattern and its modulus is at most one at every grid point, normalised or not.", "quantifier": "all patterns and grid sizes", "why_tests_cant": "all patterns including constant ones", "anchors": ["nannos/formulations/tangent.py:_get_tangent_field_fft", "nannos/formulations/tangent.py:_normalize_vec"]}
{"id": "C66", "title": "Sorting the harmonics only reorders them", "statement": "Lattice.get_harmonics(nh, sort=True) returns the same orders and count as sort=False (and raises when that raises), listed by ascending first index.", "quantifier": "all lattices, truncations and numbers of harmonics, every argsort", "why_tests_cant": "all truncations; depends on the order in which argsort leaves ties", "anchors": ["nannos/lattice.py:Lattice.get_harmonics"]}
{"id": "C67", "title": "A negative layer index means the layer counted from the end", "statement": "Amplitudes, Fourier fields and stresses asked for layer -k are those of layer n-k, for every index that get_layer accepts.", "quantifier": "all stacks, all indices, all positions", "why_tests_cant": "all stacks and indices", "anchors": ["nannos/simulation.py:Simulation._get_amplitudes", "nannos/simulation.py:Simulation._solve_int", "nannos/layers.py:_get_layer"]}
{"id": "C68", "title": "The stress is the same at every height of a lossless layer", "statement": "In a lossless layer get_z_stress_tensor_integral returns the Maxwell stress, whose zz component (whole stress if homogeneous) does not depend on z.", "quantifier": "all stacks, layers, orders, wavelengths, angles, heights", "why_tests_cant": "all lossless layers and heights; an identity of the whole modal field", "anchors": ["nannos/simulation.py:Simulation.get_z_stress_tensor_integral"]}
{"id": "C69", "title": "The transverse stress is the transverse momentum carried by the power", "statement": "The xz and yz stresses are minus the sum over orders of the order's transverse wavevector times its flux, divided by the frequency; the stress is defined whenever the fields are.", "quantifier": "all stacks, layers, formulations, heights", "why_tests_cant": "all stacks and heights; links two observables computed by different code paths", "anchors": ["nannos/simulation.py:Simulation.get_z_stress_tensor_integral", "nannos/simulation.py:Simulation.get_field_fourier"]}
{"id": "C70", "title": "get_field_grid samples the Fourier series of the fields", "statement": "get_field_grid returns, for each field, component and height asked for, the Fourier series of get_field_fourier at the points of the grid (given shape, else the layer's); bad field or component is ValueError, a grid too small for the harmonics IndexError.", "quantifier": "all stacks, layers, heights, shapes, fields and components", "why_tests_cant": "all shapes, layers and argument combinations", "anchors": ["nannos/simulation.py:Simulation.get_field_grid", "nannos/simulation.py:Simulation.get_Efield_grid", "nannos/simulation.py:Simulation.get_Hfield_grid", "nannos/simulation.py:Simulation.get_ifft_amplitudes"]}
{"id": "C71", "title": "The real-space power flow is the power of the orders", "statement": "On a grid that resolves the harmonics the mean of Re(E x conj H)_z over get_field_grid's arrays is the total flux of get_field_fourier, and mean |E_c|^2, |H_c|^2 are the sums over the orders.", "quantifier": "all stacks, layers, heights, resolving grids", "why_tests_cant": "all grids and stacks; a relation between two representations", "anchors": ["nannos/simulation.py:Simulation.get_field_grid", "nannos/simulation.py:Simulation.get_field_fourier"]}
{"id": "C72", "title": "get_ifft_amplitudes transforms a vector of amplitudes as one position", "statement": "get_ifft_amplitudes of a vector of nh amplitudes is the Fourier series of that vector, and of a matrix the series of each row.", "quantifier": "all numbers of harmonics, amplitudes and grids", "why_tests_cant": "all sizes; the vector case is not exercised by any test", "anchors": ["nannos/simulation.py:Simulation.get_ifft_amplitudes"]}
{"id": "C73", "title": "A structure without gain never returns more power than it receives", "statement": "If no layer has gain (Im(conj E . eps E) >= 0, thickness >= 0), the flux of get_field_fourier never increases going down the stack and diffraction_efficiencies() gives R+T <= 1, each efficiency at most 1 over a lossless substrate ('original' formulation and 'tangent' on 1D lattices).", "quantifier": "all stacks of absorbing or lossless layers, scalar or tensor, all truncations, wavelengths, angles", "why_tests_cant": "tests sample lossless structures; an inequality over all absorbing stacks and truncations", "anchors": ["nannos/simulation.py:Simulation.diffraction_efficiencies", "nannos/simulation.py:Simulation.get_field_fourier", "nannos/simulation.py:Simulation.get_S_matrix"]}
{"id": "C74", "title": "Displacing the whole structure changes no efficiency", "statement": "If every pattern (and tangent field) of a second simulation is that of the first rolled by (a,b) samples, both give the same diffraction efficiencies, and the Fourier fields of order (m,n) differ by the factor exp(-2 i pi (m a/Nx + n b/Ny)) only; whatever eigensolver each uses.", "quantifier": "all stacks, grids, displacements, harmonics, formulations, lattices, plane waves, heights", "why_tests_cant": "a relation between two runs for all structures and displacements", "anchors": ["nannos/simulation.py:Simulation.diffraction_efficiencies", "nannos/simulation.py:Simulation.get_field_fourier", "nannos/simulation.py:Simulation.build_matrix"]}
{"id": "C75", "title": "Results do not depend on the orientation of the axes", "statement": "If reciprocal lattice, tensor patterns and azimuth of the plane wave are turned by the same angle (formulation='original'), the efficiencies are the same and the field vectors of each order are turned by that angle.", "quantifier": "all stacks, lattices, angles, harmonics, plane waves, heights", "why_tests_cant": "a relation between two runs for all structures and angles", "anchors": ["nannos/simulation.py:Simulation.diffraction_efficiencies", "nannos/simulation.py:Simulation.get_field_fourier", "nannos/excitation.py:PlaneWave"]}
{"id": "C76", "title": "Only the ratio of lengths to the wavelength matters", "statement": "If all lengths (lattice, thicknesses, wavelength) are multiplied by s > 0, the efficiencies are the same and the fields at height s z are those at height z.", "quantifier": "all stacks, scales, formulations, lattices, plane waves, heights", "why_tests_cant": "a relation between two runs for all structures and scales", "anchors": ["nannos/simulation.py:Simulation.diffraction_efficiencies", "nannos/simulation.py:Simulation.get_field_fourier", "nannos/excitation.py:PlaneWave"]}
{"id": "C77", "title": "The mirror image of a structure diffracts like the mirror image of the light", "statement": "On a rectangular lattice, mirroring all patterns in x (in y) and the incident wave exchanges the efficiencies of orders (m,n) and (-m,n) ((m,-n)) and mirrors the fields; so a symmetric structure lit in the symmetry plane with s or p polarisation gives equal efficiencies to both orders.", "quantifier": "all stacks, rectangular lattices, mirrors, harmonics, formulations, plane waves, heights", "why_tests_cant": "a relation between two runs, and between orders of one run, for all structures", "anchors": ["nannos/simulation.py:Simulation.diffraction_efficiencies", "nannos/simulation.py:Simulation.get_field_fourier", "nannos/excitation.py:PlaneWave"]}
{"id": "C78", "title": "Half a turn about z exchanges orders (m,n) and (-m,-n)", "statement": "On any lattice, inverting all patterns in a point and turning the incident wave by pi exchanges the efficiencies of (m,n) and (-m,-n) and turns the fields; so a centrosymmetric structure at normal incidence gives both orders equal efficiencies for every polarisation.", "quantifier": "all stacks, lattices, centres, harmonics, formulations, plane waves, heights", "why_tests_cant": "a relation between two runs, and between orders of one run, for all structures", "anchors": ["nannos/simulation.py:Simulation.diffraction_efficiencies", "nannos/simulation.py:Simulation.get_field_fourier", "nannos/excitation.py:PlaneWave"]}
{"id": "C79", "title": "x and y are treated alike", "statement": "Exchanging the two axes everywhere (patterns transposed, reciprocal vectors, tensors and the wave mirrored in x = y) exchanges the efficiencies of (m,n) and (n,m) and the field components, for every formulation but 'tangent' on 1D lattices.", "quantifier": "all stacks, lattices, harmonics, formulations, plane waves, heights", "why_tests_cant": "a relation between two runs for all structures", "anchors": ["nannos/simulation.py:Simulation.diffraction_efficiencies", "nannos/simulation.py:Simulation.get_field_fourier", "nannos/simulation.py:Simulation.build_matrix"]}
{"id": "C80", "title": "The order in which the harmonics are listed does not matter", "statement": "Two runs with the same set of harmonics listed differently give the same efficiencies and fields for each order.", "quantifier": "all stacks, sets of harmonics and orderings, formulations, plane waves, heights", "why_tests_cant": "all permutations of the harmonics, which argsort is free to choose", "anchors": ["nannos/simulation.py:Simulation.diffraction_efficiencies", "nannos/simulation.py:Simulation.get_field_fourier", "nannos/lattice.py:Lattice.get_harmonics"]}
{"id": "C81", "title": "Specular reflection is the same when light retraces its path", "statement": "For reciprocal media (symmetric permittivity tensors, absorbing or not) the zeroth-order reflectance of unpolarised light, that is the sum of R[0,0] over two crossed polarisations, is the same for the directions (theta, phi) and (theta, phi + pi), whatever the asymmetry of the pattern.", "quantifier": "all stacks of reciprocal layers, lattices, harmonics closed under negation, angles, polarisations", "why_tests_cant": "a relation between four runs for all structures; no pattern symmetry makes it visible", "anchors": ["nannos/simulation.py:Simulation.diffraction_efficiencies", "nannos/simulation.py:Simulation.get_S_matrix", "nannos/simulation.py:Simulation.build_matrix", "nannos/excitation.py:PlaneWave"]}
{"id": "C82", "title": "The zeroth order is transmitted equally from above and from below", "statement": "For reciprocal media the zeroth-order transmittance of unpolarised light equals that of the stack listed upside down, lit from the former substrate along the reversed refracted direction.", "quantifier": "all stacks of reciprocal layers between two lossless media, lattices, harmonics closed under negation, angles, polarisations", "why_tests_cant": "a relation between four runs of two simulations for all structures", "anchors": ["nannos/simulation.py:Simulation.diffraction_efficiencies", "nannos/simulation.py:Simulation.get_S_matrix", "nannos/simulation.py:Simulation.build_matrix", "nannos/excitation.py:PlaneWave"]}
{"id": "C83", "title": "A simulation the constructor accepts lists its orders and conserves energy", "statement": "From the constructor's arguments to diffraction_efficiencies(orders=True), with the harmonics the lattice chooses: the table has one line per order, contains (0,0) and the opposite of each order it contains; for lossless media R and T lie in [0,1] order by order and add up to 1; for media without gain they add up to at most 1.", "quantifier": "all lattices that generate their orders, layers, requested numbers of harmonics, incidences, sorting routines and eigensolvers meeting their contracts", "why_tests_cant": "joins the constructor (names, lattices, effective nh, truncation) to the numerics for all inputs", "anchors": ["nannos/simulation.py:Simulation.__init__", "nannos/simulation.py:Simulation.diffraction_efficiencies", "nannos/lattice.py:Lattice.get_harmonics", "nannos/layers.py:Layer.is_uniform"]}
{"id": "C84", "title": "Once constructed, a simulation can only fail numerically", "statement": "When Simulation(...) succeeds on a lattice whose discretisation is that of the patterns, a uniform first layer and at least one more layer, diffraction_efficiencies can only raise LinAlgError, produce nan, or pass on the exception of the tangent field: no IndexError, ValueError, AttributeError or NotImplementedError.", "quantifier": "all layers, lattices, nh, incidences, formulations", "why_tests_cant": "an exhaustive statement about exceptions over all accepted constructions", "anchors": ["nannos/simulation.py:Simulation.__init__", "nannos/simulation.py:Simulation.diffraction_efficiencies", "nannos/lattice.py:Lattice.get_harmonics", "nannos/layers.py:Layer.is_uniform"]}
{"id": "C85", "title": "Results do not depend on the sorting routine or on the eigensolver", "statement": "Two runs that differ only in how argsort breaks ties between orders of equal length and in which eigenvectors eig returns give the same (order, R, T) lines up to their order, and the constructor accepts or refuses alike.", "quantifier": "all sorting routines and eigensolvers meeting their contracts, all inputs", "why_tests_cant": "backends differ in exactly these respects; tests run on one at a time", "anchors": ["nannos/simulation.py:Simulation.__init__", "nannos/simulation.py:Simulation.diffraction_efficiencies", "nannos/lattice.py:Lattice.get_harmonics", "nannos/layers.py:Layer.is_uniform"]}
{"id": "C86", "title": "Reciprocity holds from the constructor on", "statement": "With the harmonics chosen by the lattice, so without assuming that they are closed under negation, the zeroth-order reflectance of unpolarised light is the same along the reversed direction and the zeroth-order transmittance is the same for the stack listed upside down.", "quantifier": "all stacks of reciprocal layers, lattices that generate their orders, nh, angles, polarisations", "why_tests_cant": "relation between four runs of one or two simulations", "anchors": ["nannos/simulation.py:Simulation.__init__", "nannos/simulation.py:Simulation.diffraction_efficiencies", "nannos/lattice.py:Lattice.get_harmonics", "nannos/layers.py:Layer.is_uniform", "nannos/excitation.py:PlaneWave"]}
{"id": "C87", "title": "The power absorbed is the loss of the computed fields", "statement": "Between two heights of a layer the power flow decreases by the integral of omega Im(eps) |E|^2 of the fields the simulation returns, averaged over the points of the grid; summed over the layers between the outer two this is (1 - R - T) times the incident flux.", "quantifier": "all stacks of isotropic layers, homogeneous or patterned, passive or active, between two lossless media, all incidences and harmonics the grid resolves", "why_tests_cant": "relates an integral over the continuous fields inside all layers to the efficiencies", "anchors": ["nannos/simulation.py:Simulation.diffraction_efficiencies", "nannos/simulation.py:Simulation.get_field_fourier", "nannos/simulation.py:Simulation.build_matrix", "nannos/simulation.py:Simulation._get_toeplitz_matrix"]}
{"id": "C88", "title": "Only the orders allowed by the grating equation carry power", "statement": "In the table of a simulation an order whose transverse wavevector, determined by its phase advance along the basis vectors given to Lattice and by the direction of incidence, is too long for the superstrate (substrate) has R = 0 (T = 0), and no entry is negative.", "quantifier": "all lattices that generate their orders, layers between lossless outer media, formulations, nh, incidences, sorting routines, eigensolvers", "why_tests_cant": "joins lattice, incidence and mode solver for all inputs; stated with the user's basis vectors, not the reciprocal lattice", "anchors": ["nannos/simulation.py:Simulation.__init__", "nannos/simulation.py:Simulation.diffraction_efficiencies", "nannos/lattice.py:Lattice.get_harmonics", "nannos/layers.py:Layer.is_uniform", "nannos/lattice.py:Lattice.reciprocal"]}
{"id": "C89", "title": "Homogeneous multilayers obey the method of admittances", "statement": "For a stack of homogeneous layers, absorbing or not, the zeroth-order R and T are those of the characteristic-matrix method of thin-film optics (TE weighted by sin^2 psi, TM by cos^2 psi), every other order is 0, and the textbook denominators do not vanish; in particular a quarter-wave film of index sqrt(n) on a substrate of index n does not reflect at normal incidence.", "quantifier": "all numbers of layers, complex permittivities, thicknesses, angles, azimuths, polarisations, lattices, harmonics, formulations, eigensolvers", "why_tests_cant": "an identity with an independent closed-form method for all stacks; tests compare with Fresnel or with single films at chosen parameters", "anchors": ["nannos/simulation.py:Simulation.get_S_matrix", "nannos/simulation.py:Simulation.diffraction_efficiencies", "nannos/layers.py:Layer.solve_uniform", "nannos/excitation.py:PlaneWave"]}
{"id": "C90", "title": "Simulations of homogeneous layers return one order with the textbook efficiencies; patterned ones return the lattice's orders", "statement": "diffraction_efficiencies(orders=True) of a simulation whose layers are all homogeneous has exactly one line, (0,0), with R and T of the method of admittances, whatever nh and the formulation; as soon as one layer is patterned the lines are those of lattice.get_harmonics(nh, sort=True), in that order.", "quantifier": "all lattices that generate their orders, layers, nh, formulations, incidences", "why_tests_cant": "quantifies over all stacks; joins the reduction of nh in the constructor to the computed numbers", "anchors": ["nannos/simulation.py:Simulation.__init__", "nannos/simulation.py:Simulation.diffraction_efficiencies", "nannos/lattice.py:Lattice.get_harmonics", "nannos/layers.py:Layer.is_uniform"]}
{"id": "C91", "title": "Which formulations need a tangent field", "statement": "'original', and 'tangent' on a mono-periodic lattice, give the same result (value or exception) whatever the tangent-field routine does; every other accepted formulation asks for it for each patterned layer, so that no efficiencies are returned when it raises.", "quantifier": "all layers, lattices, nh, incidences, tangent-field routines", "why_tests_cant": "quantifies over all tangent-field routines, including those that raise", "anchors": ["nannos/simulation.py:Simulation.__init__", "nannos/simulation.py:Simulation.diffraction_efficiencies", "nannos/lattice.py:Lattice.get_harmonics", "nannos/layers.py:Layer.is_uniform", "nannos/simulation.py:Simulation.build_matrix", "nannos/layers.py:Layer.get_tangent_field"]}
{"id": "C92", "title": "The default tangent field ('opt') can be computed on every grid", "statement": "get_tangent_field(grid, harmonics, type='opt') returns a field for every nonzero pattern with at least two points per axis whose harmonics are valid indices. False of the code: it raises ValueError unless the grid is square with at most 64 points a side or both sizes are multiples of 64.", "quantifier": "all grid sizes, patterns, harmonics, solvers", "why_tests_cant": "characterises all sizes; the tests use powers of two", "anchors": ["nannos/formulations/tangent.py:_get_tangent_field_min", "nannos/formulations/tangent.py:get_tangent_field"]}
{"id": "C93", "title": "The default tangent field is perpendicular to the truncated Fourier series of the smoothed gradient of the pattern", "statement": "get_tangent_field(type='opt') has modulus at most 1 everywhere, whatever the solver returns. The mean square error it minimises has a minimum, which lies along the steepest descent from the starting point. With a solver that returns a minimiser, on square grids of at most 64 points, the field at each pixel is a positive multiple of (Py,-Px), where (Px,Py) is the gradient of the modulus of the pattern, smoothed by apply_filter(4) and truncated to the harmonics: the same factor everywhere if normalize=False, unit vectors up to the guard of the norm if normalize=True, and (1,0) where that norm is at most 1e-6. Patterns that do not depend on one coordinate have fields along it, on every grid accepted, up to that last exception.", "quantifier": "all patterns, grids, sets of harmonics closed under negation and distinguished by the grid, solvers", "why_tests_cant": "identifies the result of a numerical minimisation with a closed form, for all patterns", "anchors": ["nannos/formulations/tangent.py:_get_tangent_field_min", "nannos/formulations/tangent.py:get_tangent_field"]}
{"id": "C94", "title": "The vector formulations work on every discretization of the lattice", "statement": "With default layers, a simulation with formulation 'jones', 'pol' or (two-dimensional) 'tangent' that the constructor accepts returns efficiencies on every grid on which 'original' and the inverse rule do. False of the code: with one patterned layer it never does unless the grid is square with at most 64 points a side or both sizes are multiples of 64. The missing piece is only the tangent field: the operator exists whenever the field does, the field of type 'fft' exists on every grid, the default one on those sizes.", "quantifier": "all grid sizes, layers, lattices, nh, incidences, harmonics, solvers", "why_tests_cant": "quantifies over all simulations and sizes; the tests use powers of two", "anchors": ["nannos/formulations/tangent.py:_get_tangent_field_min", "nannos/formulations/tangent.py:get_tangent_field", "nannos/simulation.py:Simulation.build_matrix", "nannos/layers.py:Layer.get_tangent_field"]}
{"id": "C95", "title": "Lossless patterns have a Hermitian permittivity operator in every formulation", "statement": "For a real permittivity pattern the matrix Peps of the layer is Hermitian, which makes power flow constant through the layer, whatever the formulation and the tangent field. False of the code: Peps = E - (E - N) Pi is a product in which the projector Pi stands on one side only, and is Hermitian exactly when Pi commutes with E - N; a real field of unit vectors on a pattern of permittivities 1 and 2 gives a counterexample. It is Hermitian for constant fields, and R + T = 1 whenever all operators of the stack are Hermitian.", "quantifier": "all real patterns, tangent fields, harmonics, stacks, wavelengths, incidences", "why_tests_cant": "a universal statement about operators; tests look at R + T within tolerances large enough to hide the defect", "anchors": ["nannos/simulation.py:Simulation._get_Peps", "nannos/simulation.py:Simulation.build_matrix", "nannos/layers.py:Layer.get_tangent_field"]}
{"id": "C96", "title": "TopologyOptimizer reports every evaluation and refuses unknown methods", "statement": "Every evaluation of the objective by minimize() increments current_iteration and is reported exactly once to the callback, in order and with its value and arguments, including the one that reaches the stop value; the answer depends neither on the callback nor on the counter, and a second minimize() gives the same answer and the same calls. With nlopt the pair returned is nlopt's answer at the last level; without nlopt installed 'nlopt' means 'scipy'. Any other method is refused by the constructor: false of the code, which accepts every string and fails in the first level with AttributeError.", "quantifier": "all objectives, optimizers (as sequences of evaluations), levels, stop values, callbacks or none, previous states of the counter", "why_tests_cant": "quantifies over all optimizer runs and histories of the object", "anchors": ["nannos/optimize.py:TopologyOptimizer.__init__", "nannos/optimize.py:TopologyOptimizer.minimize", "nannos/optimize.py:StopFun.fun"]}
{"id": "C97", "title": "The efficiencies are quadratic in the polarization; natural light", "statement": "For a given structure and direction of incidence: if the efficiencies can be computed for one polarization angle psi they can for all; every efficiency, of every order, reflected or transmitted, is cos^2(psi) times its value at psi = 0 plus sin^2(psi) times its value at 90 degrees plus sin(psi)cos(psi) times a number that does not depend on psi; so the sum over two perpendicular polarizations (natural light) does not depend on which two, and half a turn changes nothing. The fields are the superposition cos(psi) F(0) + sin(psi) F(90), in every layer and at every height.", "quantifier": "all structures (absorbing, anisotropic, any formulation and tangent field), lattices, orders, eigensolvers, directions and angles psi", "why_tests_cant": "quantifies over all structures and all angles; the tests use psi = 0 and 90 degrees", "anchors": ["nannos/excitation.py:PlaneWave", "nannos/simulation.py:Simulation.diffraction_efficiencies", "nannos/simulation.py:Simulation.get_field_fourier"]}
{"id": "C98", "title": "A supercell computed with the same wavevectors gives the same results", "statement": "Take p x q copies of the unit cell as one cell (basis vectors p L1 and q L2, the arrays of the layers repeated p x q times) and the orders (p m, q n) for the orders (m, n). The efficiencies of corresponding orders and the Fourier amplitudes of the fields at every height are equal, and where one computation fails the other fails with the same exception. For k x k cells and harmonics given to the lattice, Simulation(...).diffraction_efficiencies(orders=True) returns the list of the single cell with every order (m, n) renamed (k m, k n).", "quantifier": "all cells, grid sizes, numbers of copies, patterns (absorbing; anisotropic without a vector field), orders in or out of range, excitations, eigensolvers; vector fields that are repeated with the pattern", "why_tests_cant": "quantifies over all patterns and all numbers of copies; no test computes a supercell", "anchors": ["nannos/lattice.py:Lattice.reciprocal", "nannos/simulation.py:Simulation._get_toeplitz_matrix", "nannos/simulation.py:Simulation.diffraction_efficiencies", "nannos/simulation.py:Simulation.get_field_fourier"]}
{"id": "C99", "title": "A supercell of an accepted cell is accepted", "statement": "Let Simulation(...) accept a structure on a two-dimensional lattice with supplied harmonics. Then it accepts p x q cells of it taken as one, with basis vectors, discretization and harmonics multiplied by p along the first axis and by q along the second: the sampling density and the wavevectors are the same.", "quantifier": "all cells, p and q, discretizations, harmonics, layers and formulations", "why_tests_cant": "quantifies over all numbers of cells; no test uses different numbers of points along the two axes with such orders", "anchors": ["nannos/simulation.py:Simulation.__init__", "nannos/lattice.py:Lattice.get_harmonics"]}
