# DESIGN

A model of benvial/nannos (source in /repo, read as text, never run) in Coq 8.16.1, with theorems for
the properties of `properties.jsonl`.  Everything is in `rocq/theories`; `rocq/_CoqProject` lists the files.

## 1. How the model is organised

Two layers, because the code has two kinds of content.

* **Plain lists, `Z`, Coq's `R`** for what is bookkeeping: lattices and truncations (`Lattice_Model`),
  constructors and lookups (`Init_Model`), dictionaries (`Dict_Model`), the state of simulations and layers
  (`State_Model`), the optimizer loop and `parloop` (`Optimize_Model`), the sampler (`Sampler_Model`),
  rasterisation (`Geometry_Model`), package state (`Backend_Model`), classification by shape (`Classify_Model`).
* **mathcomp matrices over `R[i]`** for what is numerical: transforms and Toeplitz matrices (`Fourier_Model`),
  layer matrices, modes, S matrices, amplitudes, fields, fluxes (`Sim_Model`), what `Simulation.__init__` feeds
  into them (`Setup_Model`), complex orders (`Orders_Model`), block helpers (`Block_Model`), smoothing
  (`Filter_Model`), tangent and Jones fields (`Tangent_Model`, `Opt_Model`), the stress of a run (`Stress_Model`), fields on
  a grid (`Grid_Model`).  `Cplx`, `RStruct` and `Cderiv` connect Coq's
  reals, mathcomp's structures and the derivatives of the standard library.

The two layers meet in `State_Instance`/`State_Instance2`: the state machine has the numerical functions as
section variables, the instance plugs in those of `Sim_Model`, and `C15_numbers` says that the answers of the
machine are the values of the stateless functions.  They also meet in `E2E_Model.simulate`, which runs the
constructor's model (`Init_Model`, with the lattice choosing the harmonics) and feeds what it builds to
`Setup_Model.run_efficiencies`; C83 to C86, C88, C90, C91 and C94 are about it.  There the tangent field of a 2D formulation is an
oracle from patterns to a pair of arrays or an exception; that it is computed with other harmonics
(`harmonics_tan`, simulation.py:657-658) is not tracked.

For each topic: `X_Model` (definitions, each citing the lines it follows), `X_Spec` (what the theorems say,
not using the model's helpers), `X_Proofs` (lemmas), `Props_X` (the theorems of the manifest, each with
`Print Assumptions`, and a concrete case meeting its hypotheses).

Symmetries (C74 to C80) compare two runs.  One theorem (`Symm_Proofs` to `Symm_Proofs8`) covers them all: a
bijection of the grid, a bijection of the harmonics, a phase per order, an orthogonal map of the transverse
vectors and a scale; `Symm_Proofs9` to `Symm_Proofs11` are its instances.

Reciprocity (C81, C82) compares four runs.  `Recip_Proofs` to `Recip_Proofs6` build the bilinear form of two
solutions with opposite wavevectors and show that it has the same value in all layers; `Recip_Proofs7` and
`Recip_Proofs8` read it in the superstrate and the substrate.  The hypothesis of symmetric tensors is necessary
in physics (Faraday rotators are not reciprocal); the 2D inverse rules are not covered, their matrices are not
symmetric under transposition with reversal of the orders.

Absorption (C87) integrates the derivative of the power flow in a layer (`Absorb_Proofs`, with the standard
library's Riemann integral) and evaluates the loss term on the grid with Parseval's identity (`Absorb_Proofs2`).

Homogeneous multilayers (C89) are compared with the method of admittances (`Multilayer_Spec`, textbook formulas):
`Multilayer_Proofs` reads the scattering matrix as a transfer relation layer by layer, `Multilayer_Proofs2` splits
it into the two polarisations.

The tangent field of type "opt" (C92, C93) minimises a quadratic function of the amplitudes.  The minimiser is a
function from objectives to points, required to return a minimiser whenever one exists; the code stops Newton-CG
after one iteration (tangent.py:72, 188-196), and C93_attained says that the minimum exists and lies along the
steepest descent from the starting point, which is where the first inner iteration of that method searches.

Conventions: python exceptions are values (`Base.res`, `Base.exn`); a method that raises returns the state it
leaves behind; a division by zero or a nan is `Err NaN` and never a default value; python's negative indices,
empty ranges, `dict` order and shallow copies are modelled as they are.

## 2. Properties

"partial" is also used for properties that are false of the code: then a `_refuted` theorem gives a witness or
a whole class of counterexamples, and the `_partial` theorems say what does hold.

@@PROPERTIES@@

## 3. Trusted base

* Coq's kernel.  No kernel check is switched off; there are no axioms, parameters or open proofs of our own.
* What `Print Assumptions` lists, for each theorem of the `Props_*` files (regenerate with
  `python3 tools/assumptions.py`):

@@ASSUMPTIONS@@

  These are the axioms of Coq's standard library for classical real numbers (`sig_forall_dec`, `sig_not_dec`,
  `functional_extensionality_dep`), excluded middle (`classic`) and indefinite description
  (`constructive_indefinite_description`, which gives `R` the decidable structures mathcomp needs).
* The reading of /repo: that each definition does what the cited lines do.  The definitions follow the code
  statement by statement where the property depends on it; the simplifications are listed next.

## 4. What the numerical model idealises

* **Floating point is exact arithmetic** over R and C.  No theorem says anything about rounding.
* `linalg.solve`/`inv` are exact, and raise `LinAlgError` on a singular matrix.
* `linalg.eig` is a function about which only `A V = V diag(w)` is assumed, and where a theorem needs
  completeness, that `V` is invertible; C53 proves that the choice does not matter.
* `fft2`/`ifft2` are their defining sums.  `argsort` is any function that returns a sorting permutation
  (ties in any order).  The complex square root is the principal one.
* machine epsilon (in `helpers.norm`) is the number 2^-52.
* `trapz`, `linspace`, `gradient`, `fftshift`, `fftfreq` are their documented formulas.

## 5. What is modelled, by file

| file | modelled | not modelled |
|---|---|---|
| `lattice.py` | `Lattice.__init__`, `matrix`, `area`, `reciprocal`, `get_harmonics`, the three truncations, `unit_grid`, `grid`, `transform`, `no1d`, the shape methods, `stripe`, `Layer()` factory through `Layer.__init__` | `__repr__`; the warning texts |
| `layers.py` | `Layer.__init__`, `copy`, `is_uniform` and the other shape tests, `solve_eigenproblem`, `solve_uniform`, `get_tangent_field`, `get_jones_field`, `_get_layer` | `plot`, `__repr__`, setting of unrelated attributes, the torch branch of the eigenproblem |
| `excitation.py` | `PlaneWave` completely | |
| `simulation.py` | `__init__`, `get_layer`, `solve`, `reset`, `get_S_matrix`, `get_z_poynting_flux`, `get_field_fourier`, `get_ifft`, `get_ifft_amplitudes`, `get_field_grid`, `get_Efield_grid`, `get_Hfield_grid`, `diffraction_efficiencies`, `_get_complex_orders`, `get_z_stress_tensor_integral`, `get_order_index`, `get_order`, `_get_toeplitz_matrix`, `build_matrix`, `get_epsilon`, `_get_amplitudes`, `_solve_int`, `_solve_ext`, `_get_nu_hat_inv`, `_get_Peps`, all module functions | `plot_structure`, timers and log messages; `_get_Peps(direct=True)`, which is never called; mu: layers have mu = 1 (a scalar mu in the uniform case of `Sim_Model`) |
| `formulations/fft.py` | both transforms | the backend switch inside |
| `formulations/tangent.py` | the `fft` algorithm, the `opt` algorithm with autograd (`Opt_Model`, C92 to C94; an arbitrary function in C38 and C95), `_normalize*`, the dispatcher | the iterations of scipy's minimiser in `opt`, its jax variant, filters other than the default radius 4 |
| `formulations/jones.py` | all; `arctan2` is an arbitrary function | |
| `utils/helpers.py` | `norm`, `block`, `get_block`, `block2list`, `blockmatmul`, `inv2by2block`, `is_scalar`, `is_anisotropic`, `is_uniform`, `_apply_filter` | `next_power_of_2`, `set_index`'s jax branch, `filter_jax` |
| `geometry.py` | `shape_mask`, `geometry_mask`, `set_index_2d` | shapely itself: a record of operations whose contract (a rectangle contained in / disjoint from the point set, affine images) is a hypothesis of C41, C42 |
| `optimize.py` | `simp`, `multi_simp`, `project`, `multi_project`, `StopFun`, `TopologyOptimizer` with its scipy and nlopt branches, counter and callback (`Topopt_Model`, C96) | the optimizers themselves: a run is any sequence of evaluations; gradients; printing; callbacks and objectives that raise |
| `sample.py` | `adaptive_sampler` completely | |
| `parallel.py` | `parloop` | joblib: tasks complete in any order |
| `__init__.py`, `log.py` | `set_backend`, `use_gpu`, `use_32_bit`, `get_backend`, `get_device`, `set_log_level`, import and reload of the package, environment variables, `grad` | the array libraries; `importlib.reload` is its documented behaviour (a module already being reloaded is not reloaded again); autograd is installed |
| `plot.py`, `utils/jupyter.py`, `utils/time.py`, `constants.py` | | display only |

Further simplifications, stated where they are made:

* Patterned tensor layers with a tangent or Jones formulation are modelled for square grids only
  (`Sim_Model.recut`): the code reshapes the pointwise inverse in a way that only makes sense there.
* A simulation's parameters in the state model (`P`) are those of its construction: no method changes them.
* Layer objects are shared by address; attributes a user could set by hand, other than thickness and
  permittivity, are not in the model.

## 6. Testing the theorems

`seeded/LOG.jsonl` records deliberate errors put into the model in a scratch copy, with the theorems that
stopped being provable.  Where an error was noticed only by an internal lemma, the theorem was strengthened or
a new one added (C14 negative indices, C66).

## 7. Building

`cd rocq && coq_makefile -f _CoqProject -o Makefile && make -j4` (about six minutes on four cores).
