# Formal model of Khepri in Rocq (Coq 8.16.1)

## What is modelled

Khepri is a rigorous coupled wave analysis (RCWA) solver.  Two kinds of code carry its meaning:

* **numerical linear algebra over complex numbers** (`alternative.py`, `fields.py`, `layer.py`,
  `crystal.py`, `tmat/*`, `eigentricks.py`).  Modelled with MathComp matrices.  Whatever only needs
  field operations is modelled over an arbitrary `fieldType`; whatever needs `exp`, `sqrt`, conjugation
  or moduli is modelled over the concrete complex numbers `C = R * R` of Coquelicot/Stdlib, equipped in
  `CField.v` with MathComp's field structure.
* **index, list and state bookkeeping** (`tools.py`, `misc.py`, `expansion.py`, `extension.py`, `draw.py`,
  the `Crystal` life cycle, `ez.py`).  Modelled as plain Gallina functions over `nat`, `Z`, lists, records.

Python exceptions are values: every function that can raise returns `res A = Ok a | Err e`.

### Simplifications that hold everywhere

* Arithmetic is exact: floats become real/complex numbers.  Rounding, overflow, signed zeros, NaN propagation
  are not modelled.  Where numpy would divide by zero and go on with inf/nan the model stops with
  `Err NonFinite`.
* `numpy.linalg.solve/inv` raise `LinAlgError` exactly when the matrix is singular (in exact arithmetic).
* `numpy.linalg.eig`, `scipy.linalg.expm`, Bessel functions and `genlaguerre` are oracles: function parameters
  whose contract is a hypothesis of the theorems that need it.  `SpecEig.eigen_equation` is the contract of eig
  (the returned pairs satisfy the eigenvalue equation; nothing on their order or normalisation); the contract of
  expm is `expm((s+t)A) = expm(sA) expm(tA)` or the functional calculus, and is shown to hold of the power series.
* The order in which Python iterates over a `set` is arbitrary (the `solve` step is a relation, not a function).
* Logging, printing, plotting, the raylib GUI and numba/threads are not modelled (numba `prange` loops are
  modelled by their sequential meaning; see C42/C43).
* A length that is a type index in the model (the number of orders) is a run-time property in Python; the
  shape errors numpy would raise are modelled where the library can reach them (for instance C29, C50, C63).

Each definition of a `Model*.v` file carries a comment with the file and lines it models and the simplifications
particular to it.

## Trusted base

1. **Coq's kernel** (8.16.1), its conversion, universe and guard checks.  No check is switched off, no
   `Admitted`, no axiom, parameter or section-less variable is added; no functor or module type is defined; no
   plugin beyond those of Coq, MathComp and Coquelicot is loaded.
2. **What `Print Assumptions` lists**, for every theorem below.  All of it is the standard library's:
   * `sfd` = `ClassicalDedekindReals.sig_forall_dec`, `snd` = `ClassicalDedekindReals.sig_not_dec` (the reals),
   * `fe` = `FunctionalExtensionality.functional_extensionality_dep`,
   * `cl` = `Classical_Prop.classic`,
   * `eps` = `ClassicalEpsilon.constructive_indefinite_description` (reals as a MathComp structure).
   The last two arrive with Coquelicot's and MathComp's use of the reals; no axiom of another library is used.
3. **The model and the statements**: that the definitions of `Model*.v` say what the cited lines of Python do
   under the simplifications listed, and that the definitions of `Spec*.v` and the theorem statements of
   `Prop*.v` say what `properties.jsonl` says.  The seeded errors in `seeded/LOG.jsonl` test this: each one is an
   edit of a model definition after which some theorem should stop being provable.  There, `theorems_failed` lists
   the theorems that depend on a lemma whose proof no longer goes through in the edited copy (the proof is replaced
   by a marker axiom in that scratch copy, and the marker is looked for in `Print Assumptions`): it says that the
   proof as written notices the edit, not that the statement was shown to be false of the edited model.
4. **The oracles' contracts** as above, about LAPACK and SciPy.

## Layout of the development

* `Base.v`, `CField.v`, `CFun.v`, `RField.v`, `Blk.v`, `ZmodTac.v`: results, R and C as MathComp fields, complex
  exponential and square root, blocks, tactics.
* `Model*.v`: definitions only, each citing the lines of `/repo` it models.
* `Spec*.v`: the vocabulary of the statements, independent of the model's helpers.
* `Prop*.v`: the property theorems, closed by `exact` or a line of application, each followed by
  `Print Assumptions`, and the examples that meet their hypotheses.
* everything else: proofs.

## Plan per property

| id | modelled as | proof |
|----|-------------|-------|
| C01-C05 | `redheffer_product` on 2x2 blocks of `'M[F]_n`, any field F, `solve` partial | block algebra, Sylvester determinant identity for definedness; relation-based spec |
| C06-C11 | `build_scatmat`, `scattering_reflection`, `scattering_transmission` | relational field-continuity spec, uniqueness; corollaries |
| C12 | same, concrete C | refutation by explicit epsilon; partial for real epsilon |
| C13,C14 | principal complex square root, `kz` branches | sign analysis over R |
| C15,C18 | `incident` | norm identities; refutation of continuity |
| C16,C17,C66 | whole pipeline up to `poynting_flux_end` | conserved Hermitian flux through each layer, stacked with C04; modal orthogonality for structured layers |
| C19 | 1x1 pipeline | closed forms |
| C20-C24 | DFT, `convolution_matrix` with numpy index semantics | roots of unity, index arithmetic |
| C25,C26 | `combine_fourier_masks`, `fexpz`, rectangle | integrals with Coquelicot, remainder bound |
| C27-C29,C65 | `reciproc`, index lists, Minkowski sum | field algebra, induction |
| C30,C31 | flat buffer with strided writes | arithmetic injectivity, permutation to block diagonal |
| C32-C37 | `stack_layers`, `translate_mode_amplitudes`, `locate_layer`, `_fourier_fields` | induction on the layer list, relational spec |
| C38-C41 | `Crystal` as a state machine over API calls | invariants over histories |
| C42-C44,C58,C62-C64 | lists/functions | induction |
| C45-C49 | `multS`, `matrix_s`, `matrix_u/v`, `matrix_a`, doubling | block algebra; expm oracle |
| C50-C52 | index functions, fluxes | arithmetic; refutations |
| C53,C54 | `scattering_splitlr`, `scattering_det`, `band_structure` | Schur complement |
| C55 | nested stackings | structural induction, associativity |
| C56,C57 | `Drawing` | invariants of the run-length loop |
| C59-C61,C67 | closed formulas over R | trigonometry |
| C68 | as C05 | symmetric form |
| C69 | `fields_coords_xy` in a uniform region | derivatives of the maps, explicit oblique wave as witness |
| C70 | `scattering_matrix`, T-matrix API | functional calculus of expm, C46-C48 |
| C71,C82,C81 | `load_layers`, `compute_spectrum` | lists of conditions; flux balance of the T-matrix layers stacked |
| C72,C73,C79,C80 | `ExtendedLayer` | entry-by-entry description of the joined matrix; C16/C66 lifted to histories with extended layers |
| C74,C77,C78 | beams | derivatives, powers of e^{i phi} |
| C75,C76 | `Drawing.parallelogram`, pixel grid | inequalities over R |
| C83 | `transform_disc` | integral in polar coordinates with Bessel's integral for J1 |
| C84,C85 | `scattering_interface`, `scattering_matrix_islands` on uniform media | 4x4 mode matching per order; functional calculus of expm |
| C86 | `fourier_fields` at every depth against `poynting_flux_end` | the modal solution inside each layer obeys dv/dz = A v with A conserving the Hermitian flux |
| C87,C88 | `poynting_vector`, `fields_volume` | derivatives of the maps; averages over the cell by orthogonality of the orders |
| C89 | crystal API and T-matrix API on a film at normal incidence | both equal the Fresnel/Airy solution |
| C90,C91 | `make_woodpile`, layer functions | unfolding over the state machine; C16/C66 applied to the device |
| C92 | `Drawing.canvas(shape)` | bilinear interpolation bounds; witness on a slanted lattice |
| C93 | `scattering_air_tmp`, `restrict_radius_mask` | order numbering; C70 for vacuum |
| C94,C95 | `fourier2direct2`, `fourier2real_fft` | finite exponential sums, padding and shifts of the DFT |
| C96,C97 | `str2linspace_args`, `coords` | induction on strings; arithmetic |
| C98 | crystal pipeline with a unit of length | every stage is homogeneous, up to the threshold on wavevectors |
| C99 | displaced pictures and islands | phases of the Fourier tables are a diagonal similarity of every layer |
| C100 | crystals with turned lattice, discs and source | the in-plane components of all fields are turned by an orthogonal matrix that passes through the whole pipeline |
| C101 | exchanged or reversed basis vectors | the orders are permuted; the solution of a permuted device is permuted |
| C102 | mirrored devices | C100 composed with C101; degeneracy by applying it to a device that is its own image |
| C103,C105 | eigenproblem of T-matrix cells | forms kept by the exponential of the layer operator (energy, Lorentz) turn right eigenvectors into left ones; witness for 2 x 2 orders |
| C106 | periods of T-matrix crystals | the matrix of a nested stacking is its chain of layers, and without incoming waves no gap holds waves; linear relations; discrete Fourier sum over the N-th roots |
| C107 | absorbing T-matrix piles | the Toeplitz forms are integrals of the drawn map times a squared modulus, so their imaginary parts have its sign; the flux decreases along the layer; with all orders propagating a kernel vector would carry no power |
| C108 | determinant and eigenvalues of scattering matrices | the powers of a matrix that does not increase a weighted norm are bounded, so its determinant is in the unit disc; the weights are those of the currents; the opposite wavevector gives the transpose up to diagonal weights and a permutation (C104) |
| C109 | islands given as pictures | unfolding; coefficients of a constant picture; 3 x 3 orders as the witness |
| C110 | displaced islands in the T-matrix API | a change of basis of the orders, the same on both sides, goes through matrix_s, multS, the doublings and stack_s; the phases go through the tables by differences of orders |
| C111 | incident waves of the T-matrix API | unfolding of the quarters of Vi on the single excited order |
| C112 | turned, reflected and renamed piles in the T-matrix API | the fields turn by a constant matrix P and the waves by W; U' P = W U, A' P = P A, V' W = P V, and a change of basis with different forward and backward parts goes through matrix_s, multS, the doublings and stack_s |
| C113 | what turning leaves unchanged | from C112, with W orthogonal and block diagonal; the sums over orders are reindexed |
| C114 | symmetric piles of the T-matrix API | C112 with the pile its own image |
| C115 | unit of length in the T-matrix API | kz and A scale as 1/s, U and V are unchanged, the exponential sees A d; equality of whole computations, errors included |
| C116 | devices as profiles in depth | a slab is a relation between the tangential fields on its faces, additive in the depth; piles of equal profile are compared slab by slab |
| C117 | T-matrix piles as profiles in depth | the transfer matrix of a layer is U exp(-d A) V with A a function of the contents; products telescope since V U = 1; unrolled piles of equal profile are compared slab by slab |
| C118 | T-matrix piles turned upside down | in the mirror (E, H) becomes (E, -H), which changes the sign of A and exchanges the columns of V; hence the transfer matrix of the reversed pile is the inverse up to the exchange |
| C119 | devices turned upside down | the S-matrix of a plain layer equals its own flip, flip reverses the order of a Redheffer product, and the half-space of the incidence side is the flip of that of the emergence side; with C116 only the profile of the pile matters |
| C120 | way back through the turned device | C68 for the two illuminations of the device, and C119 to read the backward transmission of the second as the forward transmission of the turned device |
| C121 | way back through the turned T-matrix pile | between equal media the last interface is the identity; then C104 for the two wavevectors and C118; the signs of the mirror cancel those of the polarisation vectors |
| C104 | T-matrix devices for k and -k | the Lorentz form of the waves of a medium is diagonal in the orders |

## Functions modelled

Generated from the citations in the comments of `Model*.v`.

| function | lines | definitions |
|---|---|---|
| `alternative.py` `redheffer_product` | 19-30 | `redheffer_product` |
| `alternative.py` `scattering_reflection` | 32-56 | `reflection_core`, `divcols`, `Qref`, `half_kz`, `scattering_reflection` |
| `alternative.py` `scattering_transmission` | 59-82 | `transmission_core`, `scattering_transmission` |
| `alternative.py` `free_space_eigenmodes` | 84-99 | `kz_branch`, `free_space_eigenmodes` |
| `alternative.py` `incident` | 101-128 | `pol_frame`, `pol_vector`, `incident` |
| `alternative.py` `solve_uniform_layer` | 130-156 | `uniform_P`, `uniform_Q`, `solve_uniform_layer` |
| `alternative.py` `solve_structured_layer` | 158-178 | `structured_P`, `structured_Q`, `solve_structured_layer` |
| `alternative.py` `build_scatmat` | 181-195 | `build_core`, `propagator`, `build_scatmat` |
| `alternative.py` `scattering_uniform_layer` | 197-206 | `with_eigenspace`, `scattering_uniform_layer` |
| `alternative.py` `scattering_structured_layer` | 208-218 | `scattering_structured_layer` |
| `alternative.py` `scattering_identity` | 220-232 | `scattering_identity`, `dense` |
| `alternative.py` `poynting_fluxes` | 235-245 | `flux_kzi` |
| `beams.py` `rotation_matrix` | 6-47 | `rotation_y`, `rotation_z`, `rotation_p`, `rotation_matrix` |
| `beams.py` `shifted_rotated_fields` | 50-100 | `shifted_rotated_fields` |
| `beams.py` `_paraxial_laguerre_gaussian_field_fn` | 104-133 | `laguerre_ex` |
| `beams.py` `_paraxial_gaussian_field_fn` | 135-160 | `gaussian_ex` |
| `beams.py` `amplitudes_from_fields` | 164-191 | `unphased`, `split2`, `swap01`, `cell` |
| `beams.py` `gen_bzi_grid` | 193-207 | `gen_bzi_grid` |
| `constants.py` `fn2ev` | 10-11 | `fn2ev` |
| `constants.py` `ev2fn` | 12-13 | `ev2fn` |
| `crystal.py` `Crystal.__init__` | 42-81 | `crystal`, `lattice_arg`, `mk_crystal` |
| `crystal.py` `Crystal.from_expansion` | 84-95 | `from_expansion` |
| `crystal.py` `Crystal.add_pixmap_or_uniform` | 104-112 | `all_equal` |
| `crystal.py` `Crystal.add_layer` | 125-129 | `add_obj`, `add_layer_extended` |
| `crystal.py` `Crystal.set_device` | 131-164 | `obj_enable`, `global_stacking`, `enable_fields`, `device_mask`, `add_default`, `set_device` |
| `crystal.py` `Crystal.depth` | 167-171 | `crystal_depth` |
| `crystal.py` `Crystal.solve` | 180-206 | `solution`, `solve_all`, `cumsum_from`, `stack_positions`, `crystal_solve` |
| `crystal.py` `Crystal.locate_layer` | 208-232 | `locate_layer` |
| `crystal.py` `Crystal._fourier_fields` | 234-279 | `fourier_fields_at` |
| `crystal.py` `Crystal.get_source_as_field_vectors` | 281-295 | `source_fields` |
| `crystal.py` `Crystal.fields_coords_xy` | 297-333 | `fields_coords_xy`, `fields_farfield` |
| `crystal.py` `Crystal.fields_volume` | 335-343 | `fields_volume` |
| `crystal.py` `Crystal.set_source` | 345-360 | `source`, `set_source`, `source_kzi` |
| `crystal.py` `Crystal.poynting_flux_end` | 363-396 | `poynting_flux_orders` |
| `crystal.py` `Crystal.zmax` | 399-400 | `zmax` |
| `crystal.py` `Multilayer.__init__` | 405-406 | `multilayer` |
| `draw.py` `Drawing.__init__` | 21-38 | `drawing`, `mk_drawing`, `dX`, `pixels` |
| `draw.py` `Drawing.disc` | 41-44 | `draw_disc` |
| `draw.py` `Drawing.rectangle` | 46-55 | `draw_rectangle` |
| `draw.py` `Drawing.ellipse` | 57-67 | `draw_ellipse` |
| `draw.py` `Drawing.parallelogram` | 69-86 | `all_below`, `draw_parallelogram` |
| `draw.py` `Drawing.canvas` | 90-106 | `picture`, `canvas_shape` |
| `draw.py` `Drawing.islands` | 108-109 | `islands` |
| `draw.py` `Drawing.from_numpy` | 142-185 | `scan`, `scan_step`, `scan_all`, `draw_interval`, `from_numpy` |
| `eigentricks.py` `scattering_splitlr` | 5-22 | `scattering_splitlr` |
| `eigentricks.py` `scattering_det` | 24-28 | `scattering_det` |
| `eigentricks.py` `scattering_eigenvalues` | 29-40 | `scattering_eigenvalues` |
| `eigentricks.py` `on_shell` | 42-43 | `on_shell` |
| `eigentricks.py` `band_structure` | 47-55 | `band_structure` |
| `expansion.py` `generate_expansion_indices` | 4-16 | `generate_expansion_indices` |
| `expansion.py` `kz_from_kplanar` | 19-26 | `kz_from_kplanar` |
| `expansion.py` `Expansion.__init__` | 30-41 | `gvecs`, `expansion`, `mk_expansion`, `unit_lattice` |
| `expansion.py` `Expansion._compute_k_vector` | 43-50 | `e_size`, `krows` |
| `expansion.py` `Expansion.rotate` | 52-53 | `rotate` |
| `expansion.py` `Expansion.__add__` | 55-73 | `add_expansion` |
| `expansion.py` `Expansion.g_vectors_expanded` | 86-92 | `g_vectors_expanded` |
| `extension.py` `_joint_subspace` | 10-51 | `off_view`, `off_sub`, `moves`, `joint_loop`, `joint_subspace1` |
| `extension.py` `joint_subspace` | 54-63 | `joint_subspace` |
| `extension.py` `ExtendedLayer.__init__` | 67-80 | `extended`, `operand` |
| `extension.py` `ExtendedLayer.solve` | 82-112 | `diag_of`, `extended_solve` |
| `extension.py` `extended_freespace` | 114-126 | `extended_freespace` |
| `ez.py` `json_linspace` | 41-42 | `json_linspace` |
| `ez.py` `load_layers` | 52-76 | `island`, `island_params`, `layer_conf` |
| `ez.py` `compute_spectrum` | 78-164 | `gather_s`, `repeats`, `stack_s`, `layer_matrix`, `spectrum_point`, `ranges` |
| `factory.py` `make_woodpile` | 3-24 | `make_woodpile` |
| `fields.py` `translate_mode_amplitudes` | 18-27 | `translate_mode_amplitudes` |
| `fields.py` `compute_z_propagator` | 29-31 | `compute_z_propagator` |
| `fields.py` `fourier2real_fft` | 33-44 | `ifft2`, `fourier2real_fft` |
| `fields.py` `layer_eigenbasis_matrix` | 46-51 | `layer_eigenbasis_matrix` |
| `fields.py` `fourier_fields_from_mode_amplitudes` | 53-62 | `big_phasor`, `fourier_fields_from_mode_amplitudes` |
| `fields.py` `longitudinal_fields` | 68-76 | `cross_z` |
| `fourier.py` `fexpz` | 7-20 | `fexpz` |
| `fourier.py` `transform` | 23-25 | `item_shape`, `island_shape`, `shape`, `transform` |
| `fourier.py` `transform_rectangle` | 28-39 | `transform_rectangle` |
| `fourier.py` `transform_disc` | 42-58 | `transform_disc` |
| `fourier.py` `transform_pixmap` | 65-68 | `transform_pixmap` |
| `fourier.py` `dft` | 75-91 | `dft_inner` |
| `fourier.py` `slow_dft` | 94-104 | `slow_dft` |
| `fourier.py` `idft2` | 107-134 | `running` |
| `fourier.py` `idft` | 136-142 | `idft`, `idft` |
| `fourier.py` `combine_fourier_masks` | 145-159 | `mask_trsf` |
| `layer.py` `stack_layers` | 35-60 | `stack_left`, `stack_right`, `stack_layers` |
| `layer.py` `Layer.__init__` | 64-74 | `layer` |
| `layer.py` `Layer.pixmap_or_uniform` | 77-92 | `all_equal` |
| `layer.py` `Layer.pixmap` | 96-110 | `layer_pixmap` |
| `layer.py` `Layer.uniform` | 113-119 | `layer_pixmap` |
| `layer.py` `Layer.analytical` | 122-129 | `layer_pixmap` |
| `layer.py` `Layer.half_infinite` | 132-143 | `layer_pixmap` |
| `layer.py` `Layer.solve` | 145-194 | `one_over`, `analytical_matrix`, `layer_solve` |
| `misc.py` `str2linspace_args` | 4-10 | `str2linspace_args` |
| `misc.py` `block_split` | 12-18 | `block_split` |
| `misc.py` `split` | 20-26 | `split` |
| `misc.py` `coords` | 28-32 | `coords` |
| `misc.py` `strided_convolution` | 36-44 | `windows`, `window_address`, `strided_convolution` |
| `misc.py` `poynting_vector` | 53-55 | `poynting_vector` |
| `tmat/fields.py` `fourier2direct2` | 3-16 | `transposed_items`, `items`, `fourier2direct2` |
| `tmat/lattice.py` `gvectors` | 32-38 | `gvectors` |
| `tmat/lattice.py` `CartesianLattice.__init__` | 41-58 | `lattice` |
| `tmat/lattice.py` `CartesianLattice.nx` | 61-62 | `quarter` |
| `tmat/lattice.py` `CartesianLattice.ny` | 65-66 | `quarter` |
| `tmat/lattice.py` `CartesianLattice.gx` | 69-74 | `window` |
| `tmat/lattice.py` `CartesianLattice.gx` | 77-79 | `window` |
| `tmat/lattice.py` `CartesianLattice.gy` | 81-86 | `window` |
| `tmat/lattice.py` `CartesianLattice.gy` | 88-90 | `window` |
| `tmat/lattice.py` `CartesianLattice.kp_angle` | 107-111 | `kp_angle` |
| `tmat/lattice.py` `CartesianLattice.mugi` | 125-126 | `window_mu` |
| `tmat/lattice.py` `CartesianLattice.muge` | 128-129 | `window_mu` |
| `tmat/lattice.py` `CartesianLattice.U` | 131-139 | `lattice_U` |
| `tmat/lattice.py` `CartesianLattice.Vi` | 141-149 | `lattice_U` |
| `tmat/lattice.py` `CartesianLattice.Ve` | 151-159 | `lattice_U` |
| `tmat/lattice.py` `CartesianLattice.bz_path` | 161-178 | `main_k_points`, `segment`, `trajectory`, `bz_path` |
| `tmat/lattice.py` `CartesianLattice.g_vectors` | 180-184 | `lattice_g_vectors` |
| `tmat/matrices.py` `matrix_u` | 9-41 | `quad`, `matrix_u` |
| `tmat/matrices.py` `matrix_v` | 43-73 | `quad`, `matrix_v` |
| `tmat/matrices.py` `matrix_a_old` | 77-121 | `order_g`, `matrix_a_old` |
| `tmat/matrices.py` `matrix_a` | 124-166 | `quad`, `order_lookups`, `ieo`, `matrix_a` |
| `tmat/matrices.py` `matrix_s` | 168-177 | `pp`, `matrix_s` |
| `tmat/matrices.py` `multS` | 194-212 | `pp`, `multS` |
| `tmat/scattering.py` `LayerMatrix.__init__` | 10-11 | `operand` |
| `tmat/scattering.py` `LayerMatrix.numpy` | 13-14 | `operand` |
| `tmat/scattering.py` `LayerMatrix.copy` | 16-17 | `operand` |
| `tmat/scattering.py` `LayerMatrix.__matmul__` | 19-23 | `operand` |
| `tmat/scattering.py` `scattering_matrix` | 25-51 | `sliced_layer` |
| `tmat/scattering.py` `scattering_matrix_islands` | 54-81 | `island_shape`, `scattering_matrix_islands`, `island_table`, `scattering_matrix_pictures`, `doublings` |
| `tmat/scattering.py` `scattering_air_tmp` | 84-92 | `w_flat_rows`, `scattering_air_tmp` |
| `tmat/scattering.py` `scattering_identity` | 123-129 | `tmat_identity` |
| `tmat/scattering.py` `scattering_interface` | 130-134 | `scattering_interface`, `interface` |
| `tmat/tools.py` `grid_center` | 16-23 | `grid_center` |
| `tmat/tools.py` `grid_size` | 26-36 | `grid_size` |
| `tmat/tools.py` `compute_kz` | 38-46 | `compute_kz` |
| `tmat/tools.py` `compute_eta` | 48-57 | `udir`, `compute_eta` |
| `tmat/tools.py` `compute_mu` | 60-69 | `compute_mu` |
| `tmat/tools.py` `coords_from_index` | 71-73 | `coords_from_index` |
| `tmat/tools.py` `epsilon_g` | 75-84 | `add_tables`, `broadcast`, `island_table` |
| `tmat/tools.py` `incident` | 86-98 | `tmat_incident` |
| `tmat/tools.py` `compute_currents` | 100-120 | `compute_currents` |
| `tmat/tools.py` `compute_fluxes` | 122-143 | `compute_fluxes` |
| `tools.py` `compute_kplanar` | 17-21 | `compute_kplanar` |
| `tools.py` `rotation_matrix` | 23-24 | `rotate2` |
| `tools.py` `block2dense` | 26-30 | `block2dense`, `dense` |
| `tools.py` `convolution_matrix` | 33-35 | `fft2`, `fftshift`, `convolution_matrix` |
| `tools.py` `convolution_matrix_fourier` | 38-56 | `conv_entry_at`, `convolution_matrix_fourier` |
| `tools.py` `unitcellarea` | 60-62 | `unitcellarea` |
| `tools.py` `reciproc` | 64-69 | `reciproc` |

## Functions with no definition of their own

| function | lines | reason |
|---|---|---|
| `__init__.py` `load` | 13-15 | pickle input/output |
| `__init__.py` `save` | 17-19 | pickle input/output |
| `crystal.py` `Crystal.add_layer_uniform` | 97-103 | modelled by `step_uniform` of the state machine (`SpecDevice.step`, `add_obj`) |
| `crystal.py` `Crystal.add_layer_pixmap` | 113-117 | modelled by `step_pixmap` of the state machine |
| `crystal.py` `Crystal.add_layer_analytical` | 119-123 | modelled by `step_analytical` of the state machine |
| `crystal.py` `Crystal.source_defined` | 173-174 | one-line flag, inlined where it is read (`c_source`) |
| `crystal.py` `Crystal.solved` | 177-178 | one-line flag, inlined where it is read (`c_solution`) |
| `draw.py` `uniform` | 17-18 | a constant function |
| `draw.py` `Drawing.plot` | 111-140 | plotting |
| `expansion.py` `Expansion.g_vectors` | 76-84 | accessor, `e_g`; its `mul` branch, which nothing calls, is not modelled |
| `expansion.py` `Expansion.k_vectors` | 95-97 | call of `_compute_k_vector`, `krows` |
| `expansion.py` `Expansion.plot` | 99-124 | plotting |
| `ez.py` `Material.__init__` | 30-31 | record of a number |
| `ez.py` `Material.load_state_dict` | 33-35 | reads a number or a table file; file input |
| `ez.py` `Material.epsilon` | 38-39 | accessor, `look` in `p_materials` |
| `ez.py` `load_materials` | 44-50 | reading of the JSON file into `p_materials` |
| `ez.py` `cuboid_data` | 174-192 | plotting |
| `ez.py` `data_for_cylinder_along_z` | 194-206 | plotting |
| `ez.py` `plotCubeAt` | 208-223 | plotting |
| `ez.py` `plot_layer` | 225-257 | plotting |
| `ez.py` `view_structure` | 261-272 | plotting |
| `fields.py` `isnumber` | 64-65 | run-time type test; the model distinguishes the two cases by `inl`/`inr` |
| `fourier.py` `transform_uniform` | 61-62 | zeros, the `Uniform` case of `transform` |
| `gui.py` `float_input_box` | 30-68 | GUI |
| `gui.py` `categ_input_box` | 70-78 | GUI |
| `gui.py` `draw_inspector` | 82-118 | GUI |
| `misc.py` `quiver` | 45-50 | plotting |
| `misc.py` `ensure_array` | 59-60 | type conversion |
| `tmat/lattice.py` `CartesianLattice.eta_normal` | 92-98 | unused |
| `tmat/lattice.py` `CartesianLattice.eta` | 100-104 | call of `compute_eta`, inlined in `lattice_U` |
| `tmat/lattice.py` `CartesianLattice.kzi` | 113-117 | call of `compute_kz`, inlined |
| `tmat/lattice.py` `CartesianLattice.kze` | 119-123 | call of `compute_kz`, inlined |
| `tmat/lattice.py` `CartesianLattice.G_vectors` | 185-188 | accessor, unused |
| `tmat/lattice.py` `CartesianLattice.restrict_radius_mask` | 212-214 | unused |
| `tmat/matrices.py` `polar_transform` | 214-218 | calls `matrix_u` without its required `dtype`: TypeError on every call |
| `tmat/scattering.py` `scattering_matrix_npy` | 96-121 | calls `lattice.kp`, which the class does not define: AttributeError on every call |
| `tmat/tools.py` `nanometers` | 12-14 | unit constant |

The folders `examples/`, `test/` and everything outside `khepri/` are not modelled.

## Findings

False statements are proved false of the model (`_refuted`), with a witness; what holds instead is in the `_partial`
theorems beside it.

* C12: absorbing outer media get the growing wave; a half space can reflect more than it receives.
* C15, C18: the TE/TM frame jumps near normal incidence; below |k| = 1e-8 the wave is not transverse.
* C24: with a rectangular lattice or island and as many orders along x as along y, analytical layers are those of the
  structure with x and y exchanged.
* C34, C40, C41: `void=True` devices cannot compute fields or fluxes, and `zmax` misses the last layer.
* C35: fields jump at the last interface unless the emergence medium is vacuum.
* C36: the default source of the field maps has half the amplitude of the one of the fluxes.
* C39: `poynting_flux_end` after `set_source` without `solve` returns fluxes of the old solution.
* C42, C43, C76: `idft2` and `Drawing` grids; `idft(dft)` multiplies by the number of samples.
* C45: the T-matrix `scattering_identity` is not neutral.
* C50, C51: T-matrix windows are wrong for unequal numbers of orders.
* C52, C81: `compute_fluxes` ignores its `kp`, so the balance of lossless layers fails at an angle.
* C54-C57, C63, C64, C71, C73-C77: see the notes in `MANIFEST.json`.
* C69: the maps are not divergence free at oblique incidence; Ez has the wrong sign.
* `ez.py` cannot be imported as it stands: `from .tools import incident, compute_fluxes` names functions that
  `khepri/tools.py` does not define.  The model takes those of `khepri/tmat/tools.py`.
* C87: the real part of the maps' Poynting vector, with the phases of the code, is the reactive one; see the note.
* C92: on slanted lattices `canvas(shape)` stretches the cell over its bounding box.
* C93: the air delay numbers the orders row by row, the matrices column by column.
* C94: `fourier2direct2` with a vector of amplitudes permutes the orders.
* C95: `fourier2real_fft` divides by N^2, raises when orders and points differ in parity, ignores the second
  resolution, and takes the Bloch phase on another grid with the axes exchanged.
* Read but not modelled: `scattering_matrix_npy` reads `lattice.kp`, which the class does not define;
  `polar_transform` calls `matrix_u` without its `dtype`; `quiver` swaps its two components.
* C98: the in-plane wavevector is compared with 1e-8 in the caller's unit of length, so that near that value the same
  illumination written in another unit is the other polarisation.
* C99, C101: pictures and islands disagree on the axes of the cell, so that a device which mixes them is not the
  displaced (or reversed) device after all its layers have been displaced (or reversed).
* C105: a T-matrix window with an even number of orders is not symmetric about the order 0: the Bloch factors at -k are
  not the inverses of those at k.
* C109: an island of shape "pixmap" puts the mean of its picture at the corner of the table of coefficients instead of
  its middle, multiplied by the number of pixels over the area of the cell.

## Print Assumptions of each theorem

337 theorems.  Closed means "Closed under the global context".

| theorem | file | assumptions |
|---|---|---|
| `C01_raises_on_resonance` | PropRedheffer.v | closed |
| `C01_wave_matching` | PropRedheffer.v | closed |
| `C02_identity_neutral` | PropRedheffer.v | closed |
| `C03_associative` | PropRedheffer.v | closed |
| `C04_any_flux_conserved` | PropRedheffer.v | closed |
| `C04_passive` | PropRedheffer.v | sfd fe cl eps |
| `C04_unitary` | PropRedheffer.v | sfd fe cl eps |
| `C04_unitary_is_power_conservation` | PropRedheffer.v | sfd fe cl eps |
| `C05_reciprocity` | PropRedheffer.v | closed |
| `C05_reversed_stack` | PropRedheffer.v | closed |
| `C05_transposed_stack` | PropRedheffer.v | closed |
| `C06_continuity_at_both_faces` | PropLayer.v | sfd snd fe cl eps |
| `C06_raises_on_resonance` | PropLayer.v | sfd snd fe cl eps |
| `C07_vacuum` | PropLayer.v | sfd snd fe cl eps |
| `C07_zero_thickness` | PropLayer.v | sfd snd fe cl eps |
| `C08_cut_layer` | PropLayer.v | sfd snd fe cl eps |
| `C09_any_square_roots` | PropLayer.v | sfd snd fe cl eps |
| `C09_eigensolver_independent` | PropLayer.v | sfd snd fe cl eps |
| `C10_emergence` | PropLayer.v | sfd snd fe cl eps |
| `C10_incidence` | PropLayer.v | sfd snd fe cl eps |
| `C11_transparent` | PropLayer.v | sfd snd fe cl eps |
| `C12_absorbing_grows_partial` | PropHalf.v | sfd snd fe cl eps |
| `C12_complex_reflectance_partial` | PropHalf.v | sfd snd fe cl eps |
| `C12_modes_iff_real_partial` | PropHalf.v | sfd snd fe cl eps |
| `C12_passive_substrate_refuted` | PropHalf.v | sfd snd fe cl eps |
| `C12_real_forward_partial` | PropHalf.v | sfd snd fe cl eps |
| `C12_real_reflectance_partial` | PropHalf.v | sfd snd fe cl eps |
| `C13_modes_solve_maxwell` | PropLayer.v | sfd snd fe cl eps |
| `C13_passive_modes_do_not_grow` | PropLayer.v | sfd snd fe cl eps |
| `C13_vacuum_is_free_space` | PropLayer.v | sfd snd fe cl eps |
| `C13_wave_equation` | PropLayer.v | sfd snd fe cl eps |
| `C14_branch` | PropExpansion.v | sfd snd fe cl eps |
| `C14_complex_kp_refuted` | PropExpansion.v | sfd snd fe cl eps |
| `C14_defined` | PropExpansion.v | sfd snd fe cl eps |
| `C14_dispersion` | PropExpansion.v | sfd snd fe cl eps |
| `C14_real_epsilon` | PropExpansion.v | sfd snd fe cl eps |
| `C15_defined` | PropFlux.v | sfd snd fe cl eps |
| `C15_normal_limit_refuted` | PropFlux.v | sfd snd fe cl eps |
| `C15_sliver_refuted` | PropFlux.v | sfd snd fe cl eps |
| `C15_unit_transverse` | PropFlux.v | sfd snd fe cl eps |
| `C15_zero_order` | PropFlux.v | sfd snd fe |
| `C16_energy_conservation` | PropDevice.v | sfd snd fe cl eps |
| `C17_nonnegative` | PropFlux.v | sfd snd fe cl eps |
| `C18_phase` | PropFlux.v | sfd snd fe cl eps |
| `C18_scale` | PropFlux.v | sfd snd fe cl eps |
| `C19_airy` | PropLayer.v | sfd snd fe cl eps |
| `C19_fresnel` | PropLayer.v | sfd snd fe cl eps |
| `C19_multilayer` | PropDevice.v | sfd snd fe cl eps |
| `C20_either_route` | PropFourier.v | sfd snd fe cl eps |
| `C20_uniform_picture` | PropFourier.v | sfd snd fe cl eps |
| `C21_defined` | PropFourier.v | sfd fe |
| `C21_dispatch` | PropFourier.v | sfd fe |
| `C22_empty_picture` | PropFourier.v | sfd snd fe cl eps |
| `C22_entries` | PropFourier.v | sfd snd fe cl eps |
| `C22_when_defined` | PropFourier.v | sfd snd fe cl eps |
| `C23_hermitian` | PropFourier.v | sfd snd fe cl eps |
| `C23_linear` | PropFourier.v | sfd snd fe cl eps |
| `C23_ones` | PropFourier.v | sfd snd fe cl eps |
| `C23_passive` | PropFourier.v | sfd snd fe cl eps |
| `C24_axes_refuted` | PropIslands.v | sfd snd fe cl eps |
| `C24_one_dimensional_partial` | PropIslands.v | sfd snd fe cl eps |
| `C24_transposed_partial` | PropIslands.v | sfd snd fe cl eps |
| `C25_any_islands` | PropIslands.v | sfd snd fe cl eps |
| `C25_overlap_refuted` | PropIslands.v | sfd snd fe cl eps |
| `C25_rectangles` | PropIslands.v | sfd snd fe cl eps |
| `C25_unique_coefficient` | PropIslands.v | sfd snd fe cl eps |
| `C26_filling_fraction` | PropIslands.v | sfd snd fe cl eps |
| `C26_rectangle` | PropIslands.v | sfd snd fe cl eps |
| `C27_area` | PropExpansion.v | sfd snd fe |
| `C27_defined_off_collinear` | PropExpansion.v | sfd snd fe |
| `C27_duality` | PropExpansion.v | sfd snd fe |
| `C27_unique` | PropExpansion.v | sfd snd fe |
| `C28_centred_and_symmetric` | PropExpansion.v | closed |
| `C28_complete` | PropExpansion.v | closed |
| `C28_even_rejected` | PropExpansion.v | closed |
| `C28_every_expansion` | PropExpansion.v | sfd snd fe |
| `C29_minkowski` | PropExpansion.v | sfd snd fe |
| `C29_outcome` | PropExpansion.v | sfd snd fe |
| `C30_defined` | PropExtension.v | closed |
| `C30_disjoint` | PropExtension.v | closed |
| `C30_entries` | PropExtension.v | closed |
| `C30_extended` | PropExtension.v | sfd snd fe cl eps |
| `C30_inside` | PropExtension.v | closed |
| `C30_positions` | PropExtension.v | closed |
| `C30_vectors` | PropExtension.v | sfd snd fe |
| `C31_device` | PropExtension.v | sfd fe cl eps |
| `C31_identity` | PropExtension.v | closed |
| `C31_stacking` | PropExtension.v | closed |
| `C32_errors` | PropFields.v | sfd fe cl eps |
| `C32_partial_stacks` | PropFields.v | sfd fe cl eps |
| `C33_defined` | PropFields.v | sfd fe cl eps |
| `C33_outside_response` | PropFields.v | sfd fe cl eps |
| `C33_unique_gap_waves` | PropFields.v | sfd fe cl eps |
| `C34_located` | PropFields.v | sfd snd fe cl eps |
| `C34_void_refuted` | PropFields.v | sfd snd fe cl eps |
| `C35_continuous_inside` | PropFields.v | sfd snd fe cl eps |
| `C35_emergence_interface` | PropFields.v | sfd snd fe cl eps |
| `C35_emergence_into_vacuum` | PropFields.v | sfd snd fe cl eps |
| `C35_emergence_refuted` | PropFields.v | sfd snd fe cl eps |
| `C36_full_source` | PropFields.v | sfd snd fe cl eps |
| `C36_half_of_the_source` | PropFields.v | sfd snd fe cl eps |
| `C36_same_source_refuted` | PropFields.v | sfd snd fe cl eps |
| `C37_additive` | PropFields.v | sfd fe cl eps |
| `C37_flux_component` | PropFields.v | sfd snd fe cl eps |
| `C37_structured` | PropFields.v | sfd snd fe cl eps |
| `C37_uniform` | PropFields.v | sfd snd fe cl eps |
| `C38_any_order` | PropDevice.v | sfd snd fe cl eps |
| `C38_no_memory` | PropDevice.v | sfd snd fe cl eps |
| `C38_solve_is_a_function` | PropDevice.v | sfd snd fe cl eps |
| `C39_current_source_refuted` | PropDevice.v | sfd snd fe cl eps |
| `C39_polarisation_only` | PropDevice.v | sfd snd fe cl eps |
| `C40_mask_followed` | PropFields.v | sfd snd fe cl eps |
| `C40_void_no_fields` | PropFields.v | sfd snd fe cl eps |
| `C40_void_no_fluxes` | PropFields.v | sfd snd fe cl eps |
| `C40_void_refuted` | PropFields.v | sfd snd fe cl eps |
| `C41_depth_is_the_sum` | PropDevice.v | sfd fe cl eps |
| `C41_positions` | PropDevice.v | sfd snd fe cl eps |
| `C41_void_refuted` | PropDevice.v | sfd snd fe cl eps |
| `C42_defined` | PropIslands.v | sfd snd fe cl eps |
| `C42_round_trip_partial` | PropIslands.v | sfd snd fe cl eps |
| `C42_round_trip_refuted` | PropIslands.v | sfd snd fe cl eps |
| `C42_running_products` | PropIslands.v | sfd snd fe cl eps |
| `C43_grid_partial` | PropIslands.v | sfd snd fe cl eps |
| `C43_grid_refuted` | PropIslands.v | sfd snd fe cl eps |
| `C44_blocks_back` | PropMisc.v | closed |
| `C44_halves` | PropMisc.v | closed |
| `C44_round_trip` | PropMisc.v | closed |
| `C44_split_refuted` | PropMisc.v | closed |
| `C44_split_square_partial` | PropMisc.v | closed |
| `C45_associative` | PropTmat.v | closed |
| `C45_error` | PropTmat.v | closed |
| `C45_identity_refuted` | PropTmat.v | closed |
| `C45_neutral` | PropTmat.v | closed |
| `C45_same_operation` | PropTmat.v | closed |
| `C45_wave_matching` | PropTmat.v | closed |
| `C46_defined` | PropTmat.v | closed |
| `C46_meaning` | PropTmat.v | closed |
| `C46_neutral` | PropTmat.v | closed |
| `C46_product` | PropTmat.v | closed |
| `C47_defined` | PropTmat.v | sfd snd fe cl eps |
| `C47_equal_media` | PropTmat.v | sfd snd fe cl eps |
| `C47_interface_defined` | PropTmat.v | sfd snd fe cl eps |
| `C47_inverse` | PropTmat.v | sfd snd fe cl eps |
| `C48_defined` | PropTmat.v | closed |
| `C48_exponential` | PropTmat.v | sfd snd fe cl eps |
| `C48_slices` | PropTmat.v | closed |
| `C49_same` | PropTmat.v | sfd snd fe cl eps |
| `C50_exactly` | PropTmat.v | sfd snd fe |
| `C50_rectangular_refuted` | PropTmat.v | sfd snd fe |
| `C50_window_partial` | PropTmat.v | sfd snd fe |
| `C51_centre` | PropTmat.v | sfd snd fe cl eps |
| `C51_difference_partial` | PropTmat.v | sfd snd fe cl eps |
| `C51_error_refuted` | PropTmat.v | sfd snd fe |
| `C51_indices` | PropTmat.v | closed |
| `C51_wrong_refuted` | PropTmat.v | sfd snd fe cl eps |
| `C52_angle_refuted` | PropTmat.v | sfd snd fe cl eps |
| `C52_currents_partial` | PropTmat.v | sfd snd fe cl eps |
| `C52_normal_partial` | PropTmat.v | sfd snd fe cl eps |
| `C53_bloch` | PropTmat.v | closed |
| `C53_det` | PropTmat.v | closed |
| `C54_circle_refuted` | PropMisc.v | sfd snd fe |
| `C54_far_refuted` | PropMisc.v | sfd snd fe |
| `C54_kept_partial` | PropMisc.v | sfd fe |
| `C55_defined` | PropEz.v | closed |
| `C55_order_unique` | PropEz.v | closed |
| `C55_product` | PropEz.v | closed |
| `C55_zero_refuted` | PropEz.v | closed |
| `C56_redrawn_partial` | PropDraw.v | sfd fe |
| `C56_row_refuted` | PropDraw.v | sfd fe |
| `C56_tiled_partial` | PropDraw.v | sfd fe |
| `C56_uniform_refuted` | PropDraw.v | sfd fe |
| `C57_defined` | PropDraw.v | sfd snd fe cl |
| `C57_disc_described` | PropDraw.v | sfd snd fe |
| `C57_ellipse_refuted` | PropDraw.v | sfd snd fe cl eps |
| `C57_last_wins` | PropDraw.v | sfd snd fe cl |
| `C57_listed_partial` | PropDraw.v | sfd snd fe cl |
| `C57_parallelogram_refuted` | PropDraw.v | sfd snd fe cl |
| `C57_rectangle_described` | PropDraw.v | sfd snd fe |
| `C58_defined` | PropBeams.v | sfd snd fe |
| `C58_distinct` | PropBeams.v | sfd snd fe |
| `C58_inside` | PropBeams.v | sfd snd fe |
| `C58_points` | PropBeams.v | sfd snd fe |
| `C58_symmetric` | PropBeams.v | sfd snd fe |
| `C58_zero_mean` | PropBeams.v | sfd snd fe cl eps |
| `C59_fields` | PropBeams.v | sfd snd fe cl eps |
| `C59_normal` | PropBeams.v | sfd snd fe cl eps |
| `C59_rotation` | PropBeams.v | sfd snd fe cl eps |
| `C60_defined` | PropBeams.v | sfd snd fe cl eps |
| `C60_lowest` | PropBeams.v | sfd snd fe cl eps |
| `C60_modulus` | PropBeams.v | sfd snd fe cl eps |
| `C60_profile` | PropBeams.v | sfd snd fe cl eps |
| `C61_back` | PropMisc.v | sfd fe |
| `C61_there` | PropMisc.v | sfd fe |
| `C62_accepted` | PropMisc.v | sfd snd fe |
| `C62_points` | PropMisc.v | sfd snd fe |
| `C63_inside` | PropMisc.v | closed |
| `C63_negative_refuted` | PropMisc.v | closed |
| `C63_shape` | PropMisc.v | closed |
| `C64_defined` | PropBeams.v | sfd snd fe cl eps |
| `C64_normalised_refuted` | PropBeams.v | sfd snd fe cl eps |
| `C64_scaled_partial` | PropBeams.v | sfd snd fe cl eps |
| `C65_rotation` | PropExpansion.v | sfd snd fe |
| `C66_passive_devices` | PropDevice.v | sfd snd fe cl eps |
| `C67_source_wavevector` | PropExpansion.v | sfd snd fe cl eps |
| `C68_reciprocity` | PropReciprocity.v | sfd snd fe cl eps |
| `C69_divergence_refuted` | PropFields.v | sfd snd fe cl eps |
| `C70_defined` | PropTmat.v | sfd snd fe cl eps |
| `C70_exponential` | PropTmat.v | sfd snd fe cl eps |
| `C70_homogeneous` | PropTmat.v | sfd snd fe cl eps |
| `C71_corners` | PropEz.v | sfd |
| `C71_disc_partial` | PropEz.v | sfd |
| `C71_rectangle_refuted` | PropEz.v | sfd snd fe cl eps |
| `C72_uniform` | PropExtension.v | sfd snd fe cl eps |
| `C73_inverse_refuted` | PropExtension.v | sfd snd fe cl eps |
| `C74_medium_refuted` | PropBeams.v | sfd snd fe cl eps |
| `C74_vacuum_partial` | PropBeams.v | sfd snd fe cl eps |
| `C75_centred_partial` | PropDraw.v | sfd snd fe |
| `C75_moved_refuted` | PropDraw.v | sfd snd fe cl |
| `C76_distinct_partial` | PropDraw.v | sfd fe |
| `C76_last_row` | PropDraw.v | sfd fe |
| `C76_twice_refuted` | PropDraw.v | sfd fe |
| `C77_medium_refuted` | PropBeams.v | sfd snd fe cl eps |
| `C77_only_vacuum_refuted` | PropBeams.v | sfd snd fe cl eps |
| `C77_vacuum_partial` | PropBeams.v | sfd snd fe cl eps |
| `C78_charge` | PropBeams.v | sfd snd fe cl eps |
| `C78_dark` | PropBeams.v | sfd snd fe cl eps |
| `C79_structured` | PropTwisted.v | sfd snd fe cl eps |
| `C80_lossless` | PropTwisted.v | sfd snd fe cl eps |
| `C80_passive` | PropTwisted.v | sfd snd fe cl eps |
| `C81_angle_refuted` | PropSpectrum.v | sfd snd fe cl eps |
| `C81_currents` | PropSpectrum.v | sfd snd fe cl eps |
| `C81_normal_partial` | PropSpectrum.v | sfd snd fe cl eps |
| `C82_rows` | PropSpectrum.v | sfd snd fe cl eps |
| `C83_disc_partial` | PropDisc.v | sfd snd fe cl eps |
| `C83_layer_partial` | PropDisc.v | sfd snd fe cl eps |
| `C83_tiny_refuted` | PropDisc.v | sfd snd fe cl eps |
| `C84_fresnel` | PropFresnel.v | sfd snd fe cl eps |
| `C85_defined` | PropFresnel.v | sfd snd fe cl eps |
| `C85_film` | PropFresnel.v | sfd snd fe cl eps |
| `C86_ends` | PropPlane.v | sfd snd fe cl eps |
| `C86_lossless` | PropPlane.v | sfd snd fe cl eps |
| `C86_passive` | PropPlane.v | sfd snd fe cl eps |
| `C87_imaginary_partial` | PropCell.v | sfd snd fe cl eps |
| `C87_mean_partial` | PropCell.v | sfd snd fe cl eps |
| `C87_real_refuted` | PropCell.v | sfd snd fe cl eps |
| `C88_defined` | PropCell.v | sfd snd fe cl eps |
| `C88_depths` | PropCell.v | sfd snd fe cl eps |
| `C89_defined` | PropApis.v | sfd snd fe cl eps |
| `C89_same_film` | PropApis.v | sfd snd fe cl eps |
| `C90_structured` | PropRest.v | sfd snd fe cl eps |
| `C90_uniform` | PropRest.v | sfd snd fe cl eps |
| `C91_defined` | PropRest.v | sfd snd fe cl eps |
| `C91_energy` | PropRest.v | sfd snd fe cl eps |
| `C91_layers` | PropRest.v | sfd snd fe cl eps |
| `C92_coordinates_partial` | PropRest.v | sfd fe |
| `C92_defined` | PropRest.v | sfd fe |
| `C92_range` | PropRest.v | sfd fe |
| `C92_refinement` | PropRest.v | sfd fe |
| `C92_slanted_refuted` | PropRest.v | sfd fe |
| `C93_delay_partial` | PropGrids.v | sfd snd fe cl eps |
| `C93_layer_partial` | PropGrids.v | sfd snd fe cl eps |
| `C93_mask` | PropGrids.v | sfd snd fe |
| `C93_rectangular_refuted` | PropGrids.v | sfd snd fe cl eps |
| `C94_reshaped_partial` | PropGrids.v | sfd snd fe cl eps |
| `C94_vector_refuted` | PropGrids.v | sfd snd fe cl eps |
| `C95_bloch_refuted` | PropGrids.v | sfd snd fe cl eps |
| `C95_inverse` | PropGrids.v | sfd snd fe cl eps |
| `C95_parity` | PropGrids.v | sfd snd fe cl eps |
| `C95_series_partial` | PropGrids.v | sfd snd fe cl eps |
| `C96_accepted` | PropGrids.v | closed |
| `C96_three_fields` | PropGrids.v | closed |
| `C96_value` | PropGrids.v | closed |
| `C97_coords` | PropGrids.v | sfd fe |
| `C98_scale_partial` | PropScale.v | sfd snd fe cl eps |
| `C98_source_refuted` | PropScale.v | sfd snd fe cl eps |
| `C99_device_partial` | PropSym.v | sfd snd fe cl eps |
| `C99_islands` | PropSym.v | sfd snd fe cl eps |
| `C99_pictures` | PropSym.v | sfd snd fe cl eps |
| `C100_normal` | PropSym.v | sfd snd fe cl eps |
| `C100_oblique` | PropSym.v | sfd snd fe cl eps |
| `C101_exchanged` | PropSym.v | sfd snd fe cl eps |
| `C101_reversed` | PropSym.v | sfd snd fe cl eps |
| `C102_degenerate` | PropSym.v | sfd snd fe cl eps |
| `C102_normal` | PropSym.v | sfd snd fe cl eps |
| `C102_oblique` | PropSym.v | sfd snd fe cl eps |
| `C103_no_power` | PropBloch.v | sfd snd fe cl eps |
| `C103_opposite` | PropBloch.v | sfd snd fe cl eps |
| `C103_pairs` | PropBloch.v | sfd snd fe cl eps |
| `C104_reflection` | PropBloch.v | sfd snd fe cl eps |
| `C104_specular` | PropBloch.v | sfd snd fe cl eps |
| `C104_transmission` | PropBloch.v | sfd snd fe cl eps |
| `C105_even_window_refuted` | PropBloch.v | sfd snd fe cl eps |
| `C106_fold` | PropSupercell.v | sfd snd fe cl eps |
| `C106_repeat` | PropSupercell.v | closed |
| `C106_start` | PropSupercell.v | closed |
| `C107_bloch` | PropLoss.v | sfd snd fe cl eps |
| `C107_closed` | PropLoss.v | sfd snd fe cl eps |
| `C107_currents` | PropLoss.v | sfd snd fe cl eps |
| `C107_fluxes` | PropLoss.v | sfd snd fe cl eps |
| `C107_joined` | PropLoss.v | sfd snd fe cl eps |
| `C107_layer_defined` | PropLoss.v | sfd snd fe cl eps |
| `C108_absorbing` | PropDet.v | sfd snd fe cl eps |
| `C108_eigenvalues` | PropDet.v | closed |
| `C108_lossless` | PropDet.v | sfd snd fe cl eps |
| `C108_opposite` | PropDet.v | sfd snd fe cl eps |
| `C109_full` | PropPixmap.v | sfd snd fe cl eps |
| `C109_one_order_partial` | PropPixmap.v | sfd snd fe cl eps |
| `C109_refuted` | PropPixmap.v | sfd snd fe cl eps |
| `C109_shapes` | PropPixmap.v | sfd snd fe cl eps |
| `C109_sizes` | PropPixmap.v | sfd snd fe cl eps |
| `C109_table` | PropPixmap.v | sfd snd fe cl eps |
| `C110_bloch` | PropShift.v | sfd snd fe cl eps |
| `C110_fluxes` | PropShift.v | sfd snd fe cl eps |
| `C110_matrix` | PropShift.v | sfd snd fe cl eps |
| `C110_period` | PropShift.v | sfd snd fe cl eps |
| `C111_fields` | PropWave.v | sfd snd fe cl eps |
| `C111_power` | PropWave.v | sfd snd fe cl eps |
| `C112_matrix` | PropTurn.v | sfd snd fe cl eps |
| `C113_fluxes` | PropTurn.v | sfd snd fe cl eps |
| `C113_unchanged` | PropTurn.v | sfd snd fe cl eps |
| `C114_polarisation` | PropTurn.v | sfd snd fe cl eps |
| `C114_symmetric` | PropTurn.v | sfd snd fe cl eps |
| `C115_absorbing_refuted` | PropTscale.v | sfd snd fe cl eps |
| `C115_units_partial` | PropTscale.v | sfd snd fe cl eps |
| `C116_fluxes` | PropProfile.v | sfd snd fe cl eps |
| `C116_profile` | PropProfile.v | sfd snd fe cl eps |
| `C117_closed` | PropTprofile.v | sfd snd fe cl eps |
| `C117_profile` | PropTprofile.v | sfd snd fe cl eps |
| `C118_bloch` | PropUpside.v | sfd fe cl eps |
| `C118_symmetric` | PropUpside.v | sfd snd fe cl eps |
| `C118_upside` | PropUpside.v | sfd snd fe cl eps |
| `C119_bloch` | PropReversed.v | sfd snd fe cl eps |
| `C119_reversed` | PropReversed.v | sfd snd fe cl eps |
| `C119_symmetric` | PropReversed.v | sfd snd fe cl eps |
| `C120_symmetric` | PropTurned.v | sfd snd fe cl eps |
| `C120_turned` | PropTurned.v | sfd snd fe cl eps |
| `C121_turned` | PropTurnedPiles.v | sfd snd fe cl eps |
