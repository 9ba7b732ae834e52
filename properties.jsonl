{"id": "C01", "title": "Stacking two scatterers is exact wave matching", "statement": "Whenever redheffer_product(SA,SB) returns S, S is exactly the response of SA followed by SB: for every pair of incoming amplitudes there is one and only one pair of waves travelling in the gap between the two that satisfies both scatterers' input/output relations, and the outgoing amplitudes are S applied to the incoming ones. When it raises LinAlgError there are incoming amplitudes for which the gap waves are not unique.", "quantifier": "all matrix sizes, all pairs of 2x2-block scattering matrices, all incoming amplitudes", "why_tests_cant": "a test checks a few numeric matrices; the claim is an equivalence of linear relations for every size and every matrix", "anchors": ["khepri/alternative.py:redheffer_product"]}
{"id": "C02", "title": "Empty scatterer is neutral", "statement": "redheffer_product(scattering_identity, S) = S = redheffer_product(S, scattering_identity) for every S, and neither call ever raises.", "quantifier": "all sizes, all scattering matrices", "why_tests_cant": "universally quantified algebraic law, including that the linear solves never fail", "anchors": ["khepri/alternative.py:redheffer_product", "khepri/alternative.py:scattering_identity"]}
{"id": "C03", "title": "Stacking is associative", "statement": "Grouping of layers does not matter: if A*B and B*C are defined, then (A*B)*C is defined exactly when A*(B*C) is, and both give the same matrix.", "quantifier": "all sizes, all triples of scattering matrices", "why_tests_cant": "includes the definedness (singular solve) half, which sampling never meets", "anchors": ["khepri/alternative.py:redheffer_product"]}
{"id": "C04", "title": "Lossless scatterers stay lossless when stacked", "statement": "If SA and SB each conserve a (any) Hermitian energy flux between their two ports, the stacked matrix conserves it between the outer ports; in particular the product of unitary scattering matrices is unitary.", "quantifier": "all sizes, all Hermitian flux forms, all matrices meeting the hypothesis", "why_tests_cant": "an invariant over all stacks", "anchors": ["khepri/alternative.py:redheffer_product"]}
{"id": "C05", "title": "Turning a stack around, and reciprocity", "statement": "Seen from the other side a stack is the reversed stack of the reversed scatterers; and stacking reciprocal (symmetric) scatterers gives a reciprocal one.", "quantifier": "all sizes, all matrices, including which inputs raise", "why_tests_cant": "symmetry law for all inputs", "anchors": ["khepri/alternative.py:redheffer_product"]}
{"id": "C06", "title": "A layer's scattering matrix enforces tangential field continuity at both faces", "statement": "The matrix built for a finite layer is the one and only response for which, for every incoming amplitudes, modal amplitudes inside the layer exist making the tangential E and H continuous at both faces.", "quantifier": "all mode matrices, eigenvalues, thicknesses, wavelengths and incoming amplitudes for which the construction succeeds", "why_tests_cant": "a relational specification for all inputs; tests compare a few numbers with another code", "anchors": ["khepri/alternative.py:build_scatmat"]}
{"id": "C07", "title": "Zero-thickness and vacuum layers", "statement": "A layer of thickness 0 has the empty scattering matrix whatever its content; a layer whose modes are those of vacuum reflects nothing and multiplies each mode by its propagation phase.", "quantifier": "all mode matrices, eigenvalues, wavelengths", "why_tests_cant": "for all inputs", "anchors": ["khepri/alternative.py:build_scatmat", "khepri/alternative.py:scattering_identity"]}
{"id": "C08", "title": "Cutting a layer in two changes nothing", "statement": "Stacking the matrices of thicknesses d1 and d2 of the same medium gives the matrix of thickness d1+d2, whenever the three are defined.", "quantifier": "all media, all real thicknesses", "why_tests_cant": "semigroup law over all thicknesses", "anchors": ["khepri/alternative.py:build_scatmat", "khepri/alternative.py:redheffer_product"]}
{"id": "C09", "title": "The result does not depend on the eigenvectors LAPACK returns", "statement": "For one structured layer, any two valid eigendecompositions (any order, normalisation, basis of degenerate spaces, any sign of the square roots) give the same scattering matrix.", "quantifier": "all valid eigendecompositions of the same matrix", "why_tests_cant": "the eigen-solver's choices cannot be enumerated by tests", "anchors": ["khepri/alternative.py:solve_structured_layer", "khepri/alternative.py:build_scatmat"]}
{"id": "C10", "title": "Half-space matrices enforce field continuity at the outer interfaces", "statement": "The incidence (emergence) half-space matrix is the one and only response for which tangential E and H are continuous between the outer medium and the internal vacuum gap.", "quantifier": "all mode matrices, all incoming amplitudes", "why_tests_cant": "relational specification for all inputs", "anchors": ["khepri/alternative.py:scattering_reflection", "khepri/alternative.py:scattering_transmission"]}
{"id": "C11", "title": "Same medium on both sides and nothing between is transparent", "statement": "The incidence half-space stacked with the emergence half-space of the same medium is exactly the empty scatterer.", "quantifier": "all numbers of plane waves, all in-plane wavevectors, all epsilon", "why_tests_cant": "cancellation identity for all inputs", "anchors": ["khepri/alternative.py:scattering_reflection", "khepri/alternative.py:scattering_transmission", "khepri/alternative.py:redheffer_product"]}
{"id": "C12", "title": "Outer media may be any passive medium", "statement": "For every passive outer medium the modes used for the half space solve Maxwell's equations, and the reflectance of a passive substrate is at most 1.", "quantifier": "all complex epsilon of outer media, all in-plane wavevectors", "why_tests_cant": "universally quantified over complex permittivities", "anchors": ["khepri/alternative.py:scattering_reflection", "khepri/alternative.py:scattering_transmission", "khepri/crystal.py:Crystal"]}
{"id": "C13", "title": "Uniform-medium modes solve Maxwell's equations", "statement": "The modes and propagation constants returned for a uniform layer satisfy the second-order wave equation of that medium for every (complex) epsilon, decay or propagate forward and never grow for passive media, and agree with the free-space ones when epsilon is 1.", "quantifier": "all epsilon different from 0, all in-plane wavevectors that are not at a Rayleigh anomaly", "why_tests_cant": "all inputs incl. branch choice", "anchors": ["khepri/alternative.py:solve_uniform_layer", "khepri/alternative.py:free_space_eigenmodes"]}
{"id": "C14", "title": "Dispersion relation and evanescent branch of the k vectors", "statement": "k_vectors returns in-plane components k_parallel + G and a kz with kx^2+ky^2+kz^2 = epsilon (in units of k0); propagating orders have kz >= 0, evanescent ones decay, for real epsilon and also for absorbing epsilon.", "quantifier": "all lattices, k_parallel, wavelengths, epsilon", "why_tests_cant": "branch choice for every order and every input", "anchors": ["khepri/expansion.py:Expansion.k_vectors", "khepri/expansion.py:kz_from_kplanar"]}
{"id": "C15", "title": "The incident plane wave is a unit transverse wave in the zero order", "statement": "incident() fills only the zero diffraction order; the associated electric field has norm 1 and is orthogonal to k; TE has no z component; and the TE/TM frame is the limit of the oblique one at normal incidence.", "quantifier": "all numbers of plane waves, all real k vectors, all (te,tm) not both 0", "why_tests_cant": "continuity at a boundary case and for-all norm identities", "anchors": ["khepri/alternative.py:incident"]}
{"id": "C16", "title": "Energy conservation of lossless devices: R + T = 1", "statement": "For real positive epsi and epse, any stack of uniform layers with real epsilon and pixmap layers with real values, and any propagating incident plane wave, poynting_flux_end() returns R and T with R + T = 1 exactly (in exact arithmetic), whenever solve() succeeds.", "quantifier": "all devices, all stack heights, all numbers of plane waves, wavelengths, angles and polarisations", "why_tests_cant": "tests can only compare a few structures with reference spectra", "anchors": ["khepri/crystal.py:Crystal.poynting_flux_end", "khepri/alternative.py:poynting_fluxes", "khepri/alternative.py:redheffer_product", "khepri/alternative.py:build_scatmat"]}
{"id": "C17", "title": "Reflectance and transmittance are non-negative", "statement": "R >= 0 and T >= 0 (total and order by order) for every device when the outer media are lossless; together with C16 both are at most 1 for lossless devices.", "quantifier": "all devices, sources", "why_tests_cant": "for all inputs", "anchors": ["khepri/alternative.py:poynting_fluxes", "khepri/crystal.py:Crystal.poynting_flux_end"]}
{"id": "C18", "title": "Only the polarisation state matters, not its scale", "statement": "Multiplying (te,tm) by any positive number leaves the incident field, R and T unchanged, and multiplying by a global phase leaves R and T unchanged.", "quantifier": "all scalings, all sources and devices", "why_tests_cant": "for all inputs", "anchors": ["khepri/alternative.py:incident", "khepri/crystal.py:Crystal.poynting_flux_end"]}
{"id": "C19", "title": "Multilayer reproduces Fresnel and thin-film formulas", "statement": "For a single plane wave at normal incidence, an interface gives the Fresnel coefficients and one film gives the Airy formulas.", "quantifier": "all real positive epsilons of outer media, all complex film epsilon and thickness", "why_tests_cant": "closed form for all inputs", "anchors": ["khepri/crystal.py:Multilayer", "khepri/alternative.py:scattering_reflection", "khepri/alternative.py:build_scatmat"]}
{"id": "C20", "title": "A uniform picture is a uniform layer", "statement": "A pixmap whose pixels all have the value e gives, through the FFT route, the same scattering matrix as the uniform layer of epsilon e, so pixmap_or_uniform / add_pixmap_or_uniform may take either route.", "quantifier": "all picture sizes large enough for the expansion, all e, all depths, sources", "why_tests_cant": "equivalence of two algorithms for all inputs", "anchors": ["khepri/layer.py:Layer.pixmap_or_uniform", "khepri/crystal.py:Crystal.add_pixmap_or_uniform", "khepri/tools.py:convolution_matrix"]}
{"id": "C21", "title": "The dispatch of pixmap_or_uniform is exact", "statement": "The uniform route is taken exactly when all pixels are equal, with that common value; otherwise the picture itself is kept.", "quantifier": "all pictures", "why_tests_cant": "for all inputs", "anchors": ["khepri/layer.py:Layer.pixmap_or_uniform", "khepri/crystal.py:Crystal.add_pixmap_or_uniform"]}
{"id": "C22", "title": "Convolution matrix entries are the right Fourier coefficients, never aliased", "statement": "convolution_matrix(picture, pw) either raises IndexError or its entry (row of order G, column of order G') is the Fourier coefficient of the picture at G - G'; it succeeds exactly when pw fits in (N+1)//2 on both axes; negative-index wrap-around never leaks into a returned matrix.", "quantifier": "all picture shapes (odd and even), all expansions", "why_tests_cant": "index arithmetic with negative indexes and parity for all shapes", "anchors": ["khepri/tools.py:convolution_matrix", "khepri/tools.py:convolution_matrix_fourier", "khepri/expansion.py:generate_expansion_indices"]}
{"id": "C23", "title": "Real pictures give Hermitian convolution matrices", "statement": "For a real-valued picture the convolution matrix is Hermitian; it is linear in the picture; a picture of ones gives the identity.", "quantifier": "all real pictures, all sizes", "why_tests_cant": "for all inputs", "anchors": ["khepri/tools.py:convolution_matrix"]}
{"id": "C24", "title": "Analytical layers describe the same structure as drawn", "statement": "For an analytical layer the convolution matrix entry for orders G, G' is the structure's Fourier coefficient at G - G' with x and y as drawn, for every expansion.", "quantifier": "all island lists, all expansions (square or not)", "why_tests_cant": "memory-layout/reshape property over all shapes", "anchors": ["khepri/layer.py:Layer.solve", "khepri/expansion.py:Expansion.g_vectors_expanded", "khepri/tools.py:convolution_matrix_fourier"]}
{"id": "C25", "title": "Islands combine to the drawn permittivity", "statement": "combine_fourier_masks is the Fourier transform of the permittivity map in which each island has its own epsilon on the host background; and the islands a Drawing reports describe the same map as its canvas.", "quantifier": "all island lists, hosts; disjoint and overlapping", "why_tests_cant": "for all lists of shapes", "anchors": ["khepri/fourier.py:combine_fourier_masks", "khepri/draw.py:Drawing"]}
{"id": "C26", "title": "The rectangle's Fourier transform is the exact integral", "statement": "transform_rectangle equals the integral of exp(-iG.r) over the rectangle divided by the cell area, exactly away from the small-argument branch and within a tiny explicit error on it; at G=0 it is the filling fraction.", "quantifier": "all rectangles, all G, all cell areas", "why_tests_cant": "an integral identity and an error bound for a continuum of inputs", "anchors": ["khepri/fourier.py:transform_rectangle", "khepri/fourier.py:fexpz"]}
{"id": "C27", "title": "Reciprocal lattice duality", "statement": "reciproc(a1,a2) returns the unique b1,b2 with ai.bj = 2 pi delta_ij for all non-collinear a1,a2; the reciprocal cell area times unitcellarea is (2 pi)^2.", "quantifier": "all lattices", "why_tests_cant": "for all inputs", "anchors": ["khepri/tools.py:reciproc", "khepri/tools.py:unitcellarea"]}
{"id": "C28", "title": "The expansion is complete, centred and symmetric", "statement": "generate_expansion_indices lists every (m,n) with |m|<=M, |n|<=N exactly once; position (N-1)//2 is the zero order; position N-1-i holds the opposite order of position i; even sizes are rejected.", "quantifier": "all odd pw; rejection for all even ones", "why_tests_cant": "for all sizes", "anchors": ["khepri/expansion.py:generate_expansion_indices", "khepri/alternative.py:incident"]}
{"id": "C29", "title": "The sum of two expansions is their Minkowski sum", "statement": "e1+e2 holds, in a fixed order, g1+g2 for every pair, nothing else; its zero order sits where incident() puts the source; its size agrees with its pw, for every two expansions.", "quantifier": "all pairs of expansions", "why_tests_cant": "for all sizes, equal or not", "anchors": ["khepri/expansion.py:Expansion.__add__"]}
{"id": "C30", "title": "Joining sub-lattice matrices writes exactly the right entries", "statement": "joint_subspace places entry (r,c) of the matrix solved for the k-th vector of the other lattice at the rows/columns of the corresponding pair in the summed expansion, all other entries are zero; the strided writes stay inside the buffer and never overlap.", "quantifier": "all sizes, both modes, all submatrices", "why_tests_cant": "raw stride arithmetic for all sizes; memory safety", "anchors": ["khepri/extension.py:_joint_subspace", "khepri/extension.py:joint_subspace"]}
{"id": "C31", "title": "Joining commutes with stacking", "statement": "Joining the stacked matrices equals stacking the joined matrices; joining empty scatterers gives the empty scatterer; so a twisted device all of whose layers live on one lattice scatters each copy independently.", "quantifier": "all sizes, both modes, all families of scattering matrices", "why_tests_cant": "homomorphism for all inputs", "anchors": ["khepri/extension.py:joint_subspace", "khepri/alternative.py:redheffer_product"]}
{"id": "C32", "title": "Partial stacks around a layer reassemble the whole device", "statement": "stack_layers returns the ordered product of all layers; for each retained position i the left stack and right stack multiply to the total; left entries are kept exactly at retained positions.", "quantifier": "all lists of layers, all masks", "why_tests_cant": "for all list lengths and masks", "anchors": ["khepri/layer.py:stack_layers"]}
{"id": "C33", "title": "Internal amplitudes agree with the outside response", "statement": "The amplitudes returned by translate_mode_amplitudes are the unique gap waves compatible with the left and right stacks, and they reproduce the reflected and transmitted amplitudes of the whole device.", "quantifier": "all stacks and incoming amplitudes", "why_tests_cant": "for all inputs", "anchors": ["khepri/fields.py:translate_mode_amplitudes", "khepri/layer.py:stack_layers"]}
{"id": "C34", "title": "Every depth belongs to the right layer", "statement": "After solve(), locate_layer(z) returns the layer whose depth interval contains z and the offset of z from the start of that layer, for all z, including exactly on interfaces; below 0 it is the incidence medium and beyond the device the emergence medium.", "quantifier": "all devices with non-negative thicknesses, all real z", "why_tests_cant": "boundaries for all stacks", "anchors": ["khepri/crystal.py:Crystal.locate_layer", "khepri/crystal.py:Crystal.solve"]}
{"id": "C35", "title": "Tangential fields are continuous through the whole device", "statement": "The tangential E and H computed just before and just after any interface of the device coincide, including the incidence and the emergence interfaces.", "quantifier": "all devices, all interfaces, all incident fields", "why_tests_cant": "for all devices", "anchors": ["khepri/crystal.py:Crystal._fourier_fields", "khepri/fields.py:fourier_fields_from_mode_amplitudes"]}
{"id": "C36", "title": "Field maps use the declared unit-amplitude source", "statement": "The default source used by fields_coords_xy/fields_volume is the same plane wave poynting_flux_end uses.", "quantifier": "all sources", "why_tests_cant": "for all inputs", "anchors": ["khepri/crystal.py:Crystal.get_source_as_field_vectors", "khepri/crystal.py:Crystal._fourier_fields"]}
{"id": "C37", "title": "Longitudinal fields satisfy Gauss's law", "statement": "In a uniform medium the z components returned make k.E = 0 and k.H = 0 for each forward or backward mode, and they agree with the z component used to compute fluxes.", "quantifier": "all uniform media, all modes and amplitudes", "why_tests_cant": "for all inputs", "anchors": ["khepri/fields.py:longitudinal_fields", "khepri/alternative.py:poynting_fluxes"]}
{"id": "C38", "title": "A solve depends only on the current device and source, not on history or on iteration order", "statement": "The scattering matrix after solve() is a function of the current layers, device and source: previous solves, sources and devices do not matter, nor does the order in which the (unordered) set of required layers is solved.", "quantifier": "all histories of API calls, all iteration orders", "why_tests_cant": "all histories and all hash orders", "anchors": ["khepri/crystal.py:Crystal.solve", "khepri/crystal.py:Crystal.set_source", "khepri/crystal.py:Crystal.set_device"]}
{"id": "C39", "title": "Fluxes always refer to the current source", "statement": "poynting_flux_end() either raises or returns the R,T of the currently set source; in particular after set_source one must solve again, except that changing only the polarisation needs no new solve.", "quantifier": "all histories of API calls", "why_tests_cant": "all histories", "anchors": ["khepri/crystal.py:Crystal.poynting_flux_end", "khepri/crystal.py:Crystal.solved"]}
{"id": "C40", "title": "Field retention follows the user's mask", "statement": "After set_device(stack, mask) and solve(), the fields can be computed in exactly the layers the mask (or the outer media) retains, with or without outer media.", "quantifier": "all stacks, all masks, repeated layer names, void or not", "why_tests_cant": "all masks and stacks", "anchors": ["khepri/crystal.py:Crystal.set_device", "khepri/layer.py:stack_layers"]}
{"id": "C41", "title": "Depth bookkeeping", "statement": "depth is the sum of the device's layer depths and equals zmax after solve; the interface positions are the partial sums in order.", "quantifier": "all devices", "why_tests_cant": "all stacks", "anchors": ["khepri/crystal.py:Crystal.depth", "khepri/crystal.py:Crystal.zmax"]}
{"id": "C42", "title": "Direct Fourier sums are what they claim", "statement": "dft's running products equal the explicit exponential sum; and dft followed by idft on the lattice's orders reproduces any field that is a combination of those orders.", "quantifier": "all fields, wavevectors, sizes", "why_tests_cant": "recurrences over all sizes", "anchors": ["khepri/fourier.py:dft", "khepri/fourier.py:idft", "khepri/fourier.py:slow_dft"]}
{"id": "C43", "title": "The two inverse transforms agree", "statement": "idft2 returns the same field as idft on a regular grid.", "quantifier": "all regular grids and coefficients", "why_tests_cant": "all grids", "anchors": ["khepri/fourier.py:idft2", "khepri/fourier.py:idft"]}
{"id": "C44", "title": "Block reshaping round-trips", "statement": "block2dense(block_split(S)) = S for all even square matrices and block_split(block2dense(B)) = B; split cuts a matrix in its sub-blocks in row-major order for every shape.", "quantifier": "all shapes and contents", "why_tests_cant": "all shapes", "anchors": ["khepri/misc.py:block_split", "khepri/tools.py:block2dense", "khepri/misc.py:split"]}
{"id": "C45", "title": "T-matrix API stacking", "statement": "S1 @ S2 on LayerMatrix objects is wave matching, is associative, is the same operation as redheffer_product up to block layout, and has the library's scattering_identity as neutral element.", "quantifier": "all sizes and matrices", "why_tests_cant": "for all inputs", "anchors": ["khepri/tmat/matrices.py:multS", "khepri/tmat/scattering.py:LayerMatrix", "khepri/tmat/scattering.py:scattering_identity"]}
{"id": "C46", "title": "Transfer to scattering conversion turns products into stacks", "statement": "matrix_s(T1 T2) = multS(matrix_s(T1), matrix_s(T2)) whenever these are defined, and matrix_s(I) is neutral.", "quantifier": "all sizes and matrices", "why_tests_cant": "for all inputs", "anchors": ["khepri/tmat/matrices.py:matrix_s", "khepri/tmat/matrices.py:multS"]}
{"id": "C47", "title": "Polarisation basis changes are inverse of each other", "statement": "Lattice.U @ Lattice.Vi is the identity for every lattice, wavelength and real in-plane wavevector with no order at a Rayleigh anomaly; hence an interface between equal media is transparent.", "quantifier": "all lattices, wavelengths, angles", "why_tests_cant": "for all inputs", "anchors": ["khepri/tmat/matrices.py:matrix_u", "khepri/tmat/matrices.py:matrix_v", "khepri/tmat/tools.py:compute_eta", "khepri/tmat/tools.py:compute_mu", "khepri/tmat/scattering.py:scattering_interface"]}
{"id": "C48", "title": "The number of slices does not matter", "statement": "scattering_matrix of a layer does not depend on slicing_pow: slicing and doubling gives the matrix of the undivided layer.", "quantifier": "all layers, all slicing powers", "why_tests_cant": "induction over slicing_pow for all matrices", "anchors": ["khepri/tmat/scattering.py:scattering_matrix", "khepri/tmat/scattering.py:scattering_matrix_islands"]}
{"id": "C49", "title": "The fast Maxwell operator equals the reference one", "statement": "matrix_a and matrix_a_old return the same matrix for all inputs.", "quantifier": "all square plane-wave grids, lattices, coefficients, wavevectors", "why_tests_cant": "equivalence of two programs", "anchors": ["khepri/tmat/matrices.py:matrix_a", "khepri/tmat/matrices.py:matrix_a_old"]}
{"id": "C50", "title": "The plane-wave window of the lattice has the requested shape", "statement": "lattice.gx/gy have shape pw, hold m1*b1+m2*b2 with the zero order at the centre used by incident(), for every allowed pw.", "quantifier": "all same-parity pw", "why_tests_cant": "all shapes", "anchors": ["khepri/tmat/lattice.py:CartesianLattice", "khepri/tmat/tools.py:grid_size", "khepri/tmat/tools.py:incident"]}
{"id": "C51", "title": "Permittivity coefficient lookups never leave the table", "statement": "In the T-matrix API every Fourier coefficient index used to build the operator lies inside the table and addresses the difference of the two orders; the table's centre is the mean permittivity.", "quantifier": "all same-parity pw", "why_tests_cant": "all shapes and parities", "anchors": ["khepri/tmat/matrices.py:matrix_a", "khepri/tmat/tools.py:epsilon_g", "khepri/tmat/tools.py:coords_from_index"]}
{"id": "C52", "title": "Fluxes of the T-matrix API take the angle of incidence into account", "statement": "compute_fluxes returns R, T, A for the given in-plane wavevector kp, with A = 0 for a lossless interface.", "quantifier": "all lattices, angles, media", "why_tests_cant": "all angles", "anchors": ["khepri/tmat/tools.py:compute_fluxes", "khepri/tmat/tools.py:compute_currents"]}
{"id": "C53", "title": "Bloch modes from a scattering matrix", "statement": "w is an eigenvalue returned by the generalised eigenproblem exactly when the cell supports a Bloch wave multiplied by w from one side to the other; scattering_det is the determinant of S.", "quantifier": "all scattering matrices", "why_tests_cant": "for all inputs", "anchors": ["khepri/eigentricks.py:scattering_splitlr", "khepri/eigentricks.py:scattering_det"]}
{"id": "C54", "title": "Band structure keeps the propagating Bloch modes", "statement": "band_structure returns the Bloch factors that lie on the unit circle.", "quantifier": "all spectra", "why_tests_cant": "for all spectra", "anchors": ["khepri/eigentricks.py:band_structure", "khepri/eigentricks.py:on_shell"]}
{"id": "C55", "title": "Nested stackings in project files are flattened correctly", "statement": "The total matrix computed from a project's nested, repeated stackings is the product of the layers in their flattened order, each repeat expanded.", "quantifier": "all (acyclic) stackings, all repeat counts", "why_tests_cant": "all nestings", "anchors": ["khepri/ez.py:compute_spectrum"]}
{"id": "C56", "title": "A 1-D picture converted to islands is redrawn identically", "statement": "from_numpy(X) adds rectangles that reproduce X: disjoint intervals covering exactly the non-background pixels with their value, and the canvas equals X.", "quantifier": "all 1-D pictures of any length and any number of materials", "why_tests_cant": "all arrays", "anchors": ["khepri/draw.py:Drawing.from_numpy", "khepri/draw.py:Drawing.rectangle"]}
{"id": "C57", "title": "Drawings: last shape wins and nothing is lost", "statement": "A pixel of the canvas has the epsilon of the last drawn shape that contains it, else the background; every drawn shape appears in islands() and can be transformed.", "quantifier": "all sequences of drawing operations", "why_tests_cant": "all histories", "anchors": ["khepri/draw.py:Drawing", "khepri/fourier.py:transform"]}
{"id": "C58", "title": "Brillouin-zone grid", "statement": "gen_bzi_grid returns exactly shape[0]*shape[1] points, strictly inside the zone, symmetric and with zero mean.", "quantifier": "all shapes, pitches, reciprocal bases", "why_tests_cant": "all sizes", "anchors": ["khepri/beams.py:gen_bzi_grid"]}
{"id": "C59", "title": "Beam rotation is a rotation", "statement": "rotation_matrix is orthogonal with determinant 1 for all angles, sends z to the beam direction whatever the polarisation angle, so shifted_rotated_fields preserves field norms and the solve never fails.", "quantifier": "all angles", "why_tests_cant": "continuum of inputs", "anchors": ["khepri/beams.py:rotation_matrix", "khepri/beams.py:shifted_rotated_fields"]}
{"id": "C60", "title": "Beams", "statement": "The Laguerre-Gauss beam with p=l=0 is the Gaussian beam; the Gaussian has modulus at most 1, attained at the waist centre, and H = E/sqrt(er).", "quantifier": "all positions and parameters", "why_tests_cant": "continuum of inputs", "anchors": ["khepri/beams.py:_paraxial_gaussian_field_fn", "khepri/beams.py:_paraxial_laguerre_gaussian_field_fn"]}
{"id": "C61", "title": "Unit conversions are inverse of each other", "statement": "ev2fn(fn2ev(f,p),p) = f and conversely for every non-zero pitch.", "quantifier": "all f, all pitches", "why_tests_cant": "continuum", "anchors": ["khepri/constants.py:fn2ev", "khepri/constants.py:ev2fn"]}
{"id": "C62", "title": "Brillouin-zone paths", "statement": "bz_path returns sum(resolutions) points, segment by segment, each starting exactly at its high-symmetry point and equally spaced; wrong resolution lists are rejected.", "quantifier": "all lists of k points and resolutions", "why_tests_cant": "all lists", "anchors": ["khepri/tmat/lattice.py:CartesianLattice.bz_path"]}
{"id": "C63", "title": "Strided convolution stays inside the image", "statement": "strided_convolution reads only pixels of the image and returns at each position the weighted sum of the corresponding window.", "quantifier": "all image, kernel sizes and strides", "why_tests_cant": "memory safety for all shapes", "anchors": ["khepri/misc.py:strided_convolution"]}
{"id": "C64", "title": "Decomposing a field in plane-wave amplitudes is normalised", "statement": "amplitudes_from_fields of a unit plane wave of the expansion returns amplitude 1 in its order and 0 elsewhere.", "quantifier": "all grids, orders", "why_tests_cant": "all sizes", "anchors": ["khepri/beams.py:amplitudes_from_fields"]}
{"id": "C65", "title": "Rotating an expansion", "statement": "Expansion.rotate keeps lengths and the zero order, successive rotations add up, and rotating back restores the vectors.", "quantifier": "all expansions, all angles, all sequences of rotations", "why_tests_cant": "continuum and histories", "anchors": ["khepri/expansion.py:Expansion.rotate", "khepri/tools.py:rotation_matrix"]}
{"id": "C66", "title": "Absorption is never negative", "statement": "For passive layers (pixel values with non-positive imaginary part, the sign convention of the library) between lossless outer media, R + T <= 1.", "quantifier": "all devices with passive layers, all sources", "why_tests_cant": "for all inputs", "anchors": ["khepri/crystal.py:Crystal.poynting_flux_end"]}
{"id": "C67", "title": "In-plane wavevector of the source", "statement": "compute_kplanar has modulus sqrt(eps) k0 |sin theta| and direction phi; together with kzi it has modulus sqrt(eps) k0.", "quantifier": "all eps>0, wavelengths, angles", "why_tests_cant": "continuum", "anchors": ["khepri/tools.py:compute_kplanar", "khepri/crystal.py:Crystal.set_source"]}
{"id": "C68", "title": "Reciprocity of devices", "statement": "A device of reciprocal layers has the same transmission matrix (up to transposition in the power-normalised basis) from both sides.", "quantifier": "all stacks", "why_tests_cant": "for all stacks", "anchors": ["khepri/alternative.py:redheffer_product", "khepri/layer.py:stack_layers"]}
{"id": "C69", "title": "Field maps are divergence free in a uniform region", "statement": "In a homogeneous region the electric field returned by fields_coords_xy satisfies div E = 0: the sum of the derivatives of Ex, Ey, Ez along x, y, z vanishes.", "quantifier": "all solved devices, sources, points inside a homogeneous medium", "why_tests_cant": "The claim is about derivatives at every point; sampled maps only give finite differences, and TE or normal-incidence maps satisfy it by accident.", "anchors": ["khepri/crystal.py:fields_coords_xy", "khepri/fourier.py:idft", "khepri/fields.py:longitudinal_fields"]}
{"id": "C70", "title": "A layer of the incident medium only delays the waves (T-matrix API)", "statement": "scattering_matrix_islands of a layer whose host and islands all have the permittivity of the incident medium multiplies every order by exp(i kz d) in both directions and reflects nothing, for every number of slices.", "quantifier": "all lattices with as many orders in both directions, wavelengths, in-plane wavevectors, depths, slicing powers, lists of islands", "why_tests_cant": "The statement holds for infinitely many geometries and slicings; a test samples a few and compares floats.", "anchors": ["khepri/tmat/scattering.py:scattering_matrix_islands", "khepri/tmat/matrices.py:matrix_a", "khepri/tmat/tools.py:epsilon_g"]}
{"id": "C72", "title": "An extended uniform layer is the uniform layer of the summed lattice", "statement": "Solving an ExtendedLayer whose base is uniform gives exactly the scattering matrix, the modes W, V and the eigenvalues of the uniform layer built directly on the summed expansion, and its W0, V0 are the free-space modes of the summed expansion.", "quantifier": "all pairs of expansions (rotated or not), either operand, permittivities, depths, wavelengths, in-plane wavevectors", "why_tests_cant": "two different code paths must agree for every lattice pair and size, including the stride bookkeeping", "anchors": ["khepri/extension.py:ExtendedLayer.solve", "khepri/extension.py:extended_freespace", "khepri/layer.py:Layer.solve"]}
{"id": "C73", "title": "An extended layer carries the inverse permittivity of its base", "statement": "ExtendedLayer.IC, used for the longitudinal electric field, is the inverse permittivity of the layer in the summed lattice.", "quantifier": "all extended uniform layers", "why_tests_cant": "silently wrong Ez; no test looks at longitudinal fields of extended layers", "anchors": ["khepri/extension.py:ExtendedLayer.solve", "khepri/fields.py:longitudinal_fields"]}
{"id": "C71", "title": "Islands of project files have the stated place and size", "statement": "An island of a project file with a centre and a radius (disc) or a centre and a size (rectangle) is the disc or rectangle with that centre and that radius or size, in units of the pitch.", "quantifier": "all islands, all pitches", "why_tests_cant": "continuum of islands", "anchors": ["khepri/ez.py:load_layers", "khepri/ez.py:compute_spectrum", "khepri/fourier.py:transform_rectangle"]}
{"id": "C75", "title": "A parallelogram is drawn where it was asked for", "statement": "parallelogram(xy, ...) paints the parallelogram centred at xy.", "quantifier": "all centres, sizes and tilts", "why_tests_cant": "continuum of shapes", "anchors": ["khepri/draw.py:Drawing.parallelogram"]}
{"id": "C76", "title": "The pixels of a drawing sample the unit cell without repetition", "statement": "Different pixels of the canvas are different points of the periodic crystal, so that each stands for the same share of the cell.", "quantifier": "all shapes and lattices", "why_tests_cant": "all sizes", "anchors": ["khepri/draw.py:Drawing.__init__"]}
{"id": "C74", "title": "Impedance of a beam in a medium", "statement": "The beam functions return H = sqrt(er) E (in units of the vacuum impedance), as for a forward wave in a medium of permittivity er.", "quantifier": "all positions, waists, wavelengths and permittivities", "why_tests_cant": "continuum of inputs; the examples use er=1, where E/sqrt(er) and sqrt(er) E agree", "anchors": ["khepri/beams.py:_paraxial_gaussian_field_fn", "khepri/beams.py:_paraxial_laguerre_gaussian_field_fn"]}
{"id": "C77", "title": "The Gaussian beam solves the paraxial wave equation", "statement": "The envelope of _paraxial_gaussian_field_fn solves 2ik du/dz + d2u/dx2 + d2u/dy2 = 0 with the wave number of its medium.", "quantifier": "all positions, waists, wavelengths and permittivities", "why_tests_cant": "a differential equation at every point of space", "anchors": ["khepri/beams.py:_paraxial_gaussian_field_fn"]}
{"id": "C78", "title": "Topological charge of Laguerre-Gauss beams", "statement": "Turning the point about the axis multiplies the field of a beam of charge l by exp(i l angle), and beams of non-zero charge vanish on the axis.", "quantifier": "all points, angles, radial indices, charges and parameters", "why_tests_cant": "continuum of points and angles, all integers l", "anchors": ["khepri/beams.py:_paraxial_laguerre_gaussian_field_fn"]}
{"id": "C79", "title": "An extended structured layer is a structured slab of the summed lattice", "statement": "Joining the scattering matrices of a pixmap, uniform or analytical layer, solved once per wavevector of the other lattice, gives the scattering matrix the slab formulas give on all orders of the summed lattice, for the permittivity that acts on the layer's own orders and leaves the orders of the other lattice alone.", "quantifier": "all pairs of lattices and truncations, pictures, islands, permittivities, depths, wavelengths and in-plane wavevectors", "why_tests_cant": "the sum of two lattices has N squared orders; tests only ran square truncations of one pattern, and no independent solver of the summed lattice exists in the project", "anchors": ["khepri/extension.py:ExtendedLayer.solve", "khepri/extension.py:_joint_subspace"]}
{"id": "C80", "title": "Energy balance of devices with layers of several lattices", "statement": "A device made of lossless slabs of the crystal's lattice or of either of the two lattices it is the sum of has R + T = 1, and one made of passive pixmap or uniform slabs has R + T <= 1.", "quantifier": "all crystals, sequences of calls, lattices, pictures, depths, wavelengths and real in-plane wavevectors", "why_tests_cant": "infinitely many twist angles, pictures and stacks; every evanescent order of both lattices matters", "anchors": ["khepri/crystal.py:add_layer", "khepri/extension.py:ExtendedLayer.solve", "khepri/crystal.py:poynting_flux_end"]}
{"id": "C81", "title": "Energy balance of the spectra of project files", "statement": "Every row of the spectrum of a project file, whose materials are all real, has R + T = 1 and A = 0.", "quantifier": "all project files (lattices, layers, islands, nested and repeated stackings, materials), devices, polarisations, angles and frequencies", "why_tests_cant": "infinitely many projects; no test runs khepri/ez.py at all, and its imports fail", "anchors": ["khepri/ez.py:compute_spectrum", "khepri/tmat/scattering.py:scattering_matrix_islands", "khepri/tmat/tools.py:compute_fluxes"]}
{"id": "C82", "title": "The rows of a spectrum are the requested grid", "statement": "The spectrum has one row per combination of phi, theta and frequency, with phi outermost and the frequency innermost, at equally spaced points including both ends, and the wavelength of a row is the pitch over its frequency.", "quantifier": "all project files and ranges", "why_tests_cant": "all numbers of steps and ranges; no test runs khepri/ez.py", "anchors": ["khepri/ez.py:compute_spectrum", "khepri/ez.py:json_linspace"]}
{"id": "C83", "title": "Fourier coefficients of a disc", "statement": "The coefficient of a disc island at a wavevector G is the integral of exp(-i G.x) over the disc divided by the area of the cell.", "quantifier": "all centres, radii, wavevectors and cell areas", "why_tests_cant": "a continuum of discs and wavevectors; tests compare a few devices with pictures drawn on a grid, at a loose tolerance", "anchors": ["khepri/fourier.py:transform_disc", "khepri/fourier.py:transform"]}
{"id": "C84", "title": "T-matrix interfaces follow Fresnel's formulas", "statement": "The matrix of scattering_interface multiplies every order by Fresnel's coefficients of its own polarisation and normal wavevectors, from both sides, for any two media; it mixes neither orders nor polarisations.", "quantifier": "all lattices, all wavelengths and Bloch vectors, all pairs of media (dielectric, metallic, absorbing) for which the matrix exists, all incoming waves", "why_tests_cant": "Tests compare a few reflectances at normal incidence; signs and the p-polarisation factors only show at oblique incidence and in higher orders.", "anchors": ["khepri/tmat/scattering.py: scattering_interface", "khepri/tmat/matrices.py: matrix_u, matrix_v, matrix_s", "khepri/tmat/tools.py: compute_kz, compute_eta, compute_mu"]}
{"id": "C85", "title": "Uniform T-matrix layers follow Airy's formulas", "statement": "A layer whose host and islands are all of one medium reflects and transmits each order and polarisation according to Airy's formula of a film of that medium in the incident medium, independently of the islands and of slicing_pow.", "quantifier": "all lattices, island lists, host media, thicknesses, numbers of slices, wavelengths, Bloch vectors and incoming waves", "why_tests_cant": "The formula involves interference between both faces in every order, including evanescent ones; tests sample few thicknesses and the zero order.", "anchors": ["khepri/tmat/scattering.py: scattering_matrix, scattering_matrix_islands", "khepri/tmat/matrices.py: matrix_a, matrix_u, matrix_v, matrix_s, multS"]}
{"id": "C86", "title": "Energy through every plane of a device", "statement": "The flux of energy of the computed fields, averaged over the unit cell, is the same at every depth of a device of lossless layers and never grows with depth in a device of passive ones; at the two ends it is the incident flux times 1 - R and T, with the reported R and T.", "quantifier": "all devices built by the API with real outer media, any number and kind of layers, all sources, all incident field vectors, all depths", "why_tests_cant": "It ties the field maps at every depth to the reported fluxes, for unboundedly many stacks and depths; tests only look at a few plots.", "anchors": ["khepri/crystal.py: fields_coords_xy, locate_layer, solve, poynting_flux_end", "khepri/fields.py: fourier_fields_from_mode_amplitudes, layer_eigenbasis_matrix", "khepri/alternative.py: poynting_fluxes"]}
{"id": "C87", "title": "The Poynting vector of the maps is the flux of energy", "statement": "The real part of poynting_vector(E, H) of the fields returned by fields_coords_xy, averaged over the unit cell at one depth, is the flux of energy through that plane.", "quantifier": "all crystals, lattices, numbers of orders, depths, incident fields and grids with at least as many points as orders", "why_tests_cant": "No test looks at the maps' Poynting vector; the identity is Parseval's for every set of orders and every lattice.", "anchors": ["khepri/misc.py: poynting_vector", "khepri/crystal.py: fields_coords_xy", "examples/crystal_api/test_crystal.py"]}
{"id": "C88", "title": "Fields in a volume are the maps at each depth", "statement": "fields_volume returns, depth by depth, what fields_coords_xy returns there, and succeeds exactly when there is at least one depth and every map succeeds.", "quantifier": "all crystals, points, lists of depths, default or given incident fields", "why_tests_cant": "Unboundedly many depth lists and error cases.", "anchors": ["khepri/crystal.py: fields_volume, fields_coords_xy"]}
{"id": "C89", "title": "The crystal API and the T-matrix API agree on a film", "statement": "For a film, lossless or absorbing, between two lossless media at normal incidence, the reflectance and transmittance reported by a solved Multilayer (poynting_flux_end) are the same numbers as those compute_fluxes reports for the T-matrix layer followed by the interface, whatever the number of orders, slices and islands of the same medium; every lossless film with one order goes through the T-matrix API.", "quantifier": "all indices, depths, wavelengths, polarisations, truncations, slicing powers", "why_tests_cant": "Two independent implementations with opposite time conventions must agree on a continuum of films.", "anchors": ["khepri/crystal.py: Crystal.poynting_flux_end", "khepri/tmat/scattering.py: scattering_matrix, scattering_interface", "khepri/tmat/tools.py: compute_fluxes"]}
{"id": "C90", "title": "The layer functions and the Layer objects give the same answers", "statement": "scattering_uniform_layer (for a nonzero permittivity) and scattering_structured_layer return the scattering matrix and, on request, the modes that Layer.solve stores for the same layer, and raise the same errors.", "quantifier": "all expansions, wavevectors, wavelengths, permittivities, pictures, depths, eigensolvers", "why_tests_cant": "Two code paths over continuous parameters and arbitrary pictures, including their error cases.", "anchors": ["khepri/alternative.py: scattering_uniform_layer, scattering_structured_layer", "khepri/layer.py: Layer.solve"]}
{"id": "C91", "title": "make_woodpile builds a woodpile and it conserves energy", "statement": "The four layers of the crystal returned by make_woodpile are pictures of periodic rods: along the first axis through the middle (A), the same rods moved by the shift to both sides (C, shift up to half a period), and both with the axes exchanged (B, D), each with the given height, four heights in all; once solved under a propagating source, R + T = 1; the function returns for every positive resolution and odd truncation.", "quantifier": "all rod widths, permittivities, shifts, heights, truncations, resolutions, sources", "why_tests_cant": "A continuum of rod parameters and sources; the picture must be right at every pixel including the rods cut by the edge of the cell.", "anchors": ["khepri/factory.py: make_woodpile", "khepri/draw.py: Drawing.rectangle", "khepri/crystal.py: Crystal.solve"]}
{"id": "C92", "title": "A drawing at another resolution is the same drawing", "statement": "canvas(shape) returns on every lattice that is not degenerate; its values stay in the range of those drawn; a grid that refines the pixels keeps their values. The coordinates it returns are those of the pixels: true on upright lattices, false on slanted ones, where the cell is stretched over its bounding box and the point of a painted pixel gets another value.", "quantifier": "all drawings, lattices, target shapes", "why_tests_cant": "Bounds and interpolation identities for all canvases and shapes; the failure appears only on slanted lattices.", "anchors": ["khepri/draw.py: Drawing.canvas"]}
{"id": "C93", "title": "The delay line is a layer of air", "statement": "scattering_air_tmp returns the scattering matrix that the T-matrix API builds for a layer of vacuum of the same depth at normal incidence. True when the lattice vectors have equal lengths or there is one order along the second axis; false on rectangular lattices, because the function numbers the orders row by row and the matrices number them column by column. The radius mask keeps exactly the orders inside the disc, row by row.", "quantifier": "all lattices, wavelengths, depths, numbers of orders", "why_tests_cant": "The two agree on every square lattice, and a difference on other lattices is a permutation of phases.", "anchors": ["khepri/tmat/scattering.py: scattering_air_tmp", "khepri/tmat/lattice.py: restrict_radius_mask"]}
{"id": "C94", "title": "fourier2direct2 sums the plane waves of the orders", "statement": "Given the amplitudes of the orders, the wave vectors of the lattice and a grid, fourier2direct2 returns at each point the sum of amplitude times exp(i k.r). True for amplitudes reshaped to the square array of the orders; false for the vector in the numbering of the matrices, whose amplitudes go to other orders.", "quantifier": "all lattices with as many orders along both axes, amplitudes, wave vectors, grids", "why_tests_cant": "Plots look plausible with permuted orders and symmetric fields are unchanged.", "anchors": ["khepri/tmat/fields.py: fourier2direct2"]}
{"id": "C95", "title": "fourier2real_fft evaluates the Fourier series", "statement": "fourier2real_fft returns the Fourier series with the given coefficients on an N by N grid of the cell. It does, up to a factor 1/N^2, for Bloch vector zero and orders and points of the same parity; with other parities it raises ValueError; with a Bloch vector the values are those of the Bloch wave on no reading of the grid, since the phase is taken on points a k/(N-1) and with the axes exchanged while the series is on points a k/N.", "quantifier": "all coefficient arrays, cell sizes, resolutions, Bloch vectors", "why_tests_cant": "The identity is between a padded, shifted inverse FFT and an exponential sum for every array size.", "anchors": ["khepri/fields.py: fourier2real_fft"]}
{"id": "C96", "title": "A range given as text is read field by field", "statement": "str2linspace_args accepts exactly the texts with three fields separated by two colons whose fields parse, and returns the parsed fields in order; a text with another number of fields raises AssertionError.", "quantifier": "all strings and all number parsers", "why_tests_cant": "Quantifies over all strings.", "anchors": ["khepri/misc.py: str2linspace_args"]}
{"id": "C97", "title": "coords returns an equally spaced grid with the shape of its arguments", "statement": "coords returns X and Y of shape (ny, nx), X equally spaced along each row from xmin to xmax, Y along each column from ymin to ymax, and nz equally spaced values of z.", "quantifier": "all bounds and resolutions", "why_tests_cant": "For every resolution, including 0 and 1, and all real bounds.", "anchors": ["khepri/misc.py: coords"]}
{"id": "C98", "title": "The results of a device do not depend on the unit of length", "statement": "Take any crystal and any sequence of calls on it that works. Multiply the lattice, the islands, the depths and the wavelength by s > 0, and divide imposed in-plane wavevectors by s. The same calls then work, and they give the same scattering matrix, the same fluxes order by order, and the same fields at the points multiplied by s.", "quantifier": "For every s > 0, every lattice, window and pair of outer media, every sequence of calls (uniform, pictured, analytical and extended layers, devices with masks, sources, solves), every eigenvector routine and every Bessel routine. Proved when no wavevector that the code compares with 1e-8 changes side; refuted without this.", "why_tests_cant": "A test compares one device at a few scales. The claim ranges over all devices, call sequences and scales, and it fails only at the fixed threshold 1e-8 on wavevectors, which tests in the usual units never reach.", "anchors": ["khepri/crystal.py", "khepri/alternative.py", "khepri/expansion.py", "khepri/fourier.py"]}
{"id": "C99", "title": "Displacing the device changes no flux", "statement": "Take any crystal and any sequence of calls on it that works. Displace every picture cyclically, or every island by a vector. The same calls then work, and the flux of every order, reflected and transmitted, is the same.", "quantifier": "For every lattice, window, pair of outer media, sequence of calls, source, displacement and every complete eigenvector routine. Pictures alone: every window. Islands alone: windows of one row or column, and square windows. Both together: proved for one row or column; for square windows the islands have to move by the vector of exchanged coordinates.", "why_tests_cant": "A displacement multiplies every entry of every convolution matrix by a different phase, and the eigenvectors change. A test compares a few displacements of one picture to rounding error, and does not see that pictures and islands disagree on which axis comes first.", "anchors": ["khepri/crystal.py", "khepri/layer.py", "khepri/alternative.py", "khepri/expansion.py", "khepri/fourier.py"]}
{"id": "C100", "title": "Turning or reflecting the axes of the laboratory changes no flux", "statement": "Turn or reflect the lattice vectors, the discs and the source, and keep the pictures, which are drawn on the lattice. The turned crystal can be created, the same calls work, its in-plane wavevector is the turned one, and the flux of every order is the same.", "quantifier": "For every rotation and reflection of the plane, every lattice, window, sequence of calls and source, on both sides of the threshold at which the code changes its polarisation frame; islands must be discs or uniform shapes, and the reciprocal lattices must be longer than 1e-8.", "why_tests_cant": "Angles, lattices and devices are continuous families, and the polarisation follows two different conventions near the normal and away from it. A test that turns one device at one incidence exercises one convention.", "anchors": ["khepri/crystal.py", "khepri/layer.py", "khepri/alternative.py", "khepri/expansion.py", "khepri/fourier.py"]}
{"id": "C101", "title": "The naming of the lattice vectors changes no flux", "statement": "Exchange the two lattice vectors, the two sizes of the window and the axes of the pictures; or reverse the first lattice vector and read the pictures backwards. The same calls work, and each diffraction order carries the same flux under its new index; the totals are the same.", "quantifier": "For every lattice, window, pair of outer media, sequence of calls and source. Islands stay where they are: windows of one row or column or square for the exchange, one row or column for the reversal.", "why_tests_cant": "The claim concerns the index arithmetic of every window size at once, and every device. A transposition error in the reshaping of orders is invisible on symmetric test devices.", "anchors": ["khepri/crystal.py", "khepri/layer.py", "khepri/alternative.py", "khepri/expansion.py", "khepri/fourier.py"]}
{"id": "C102", "title": "Mirror images and polarisation degeneracy", "statement": "The mirror image of a device, described with exchanged lattice vectors and transposed pictures, has the transposed fluxes and the same totals. A device that is its own mirror image in the diagonal of its cell has, at normal incidence, the same totals for the two polarisations, and transposed orders.", "quantifier": "For every isometry of the plane, lattice, window, sequence of calls and source; the degeneracy for every lattice whose vectors are mirror images, every square window and every symmetric device.", "why_tests_cant": "Degeneracy of polarisations is usually checked on one symmetric structure to a few digits. Here it is exact and holds for every symmetric structure and truncation.", "anchors": ["khepri/crystal.py", "khepri/layer.py", "khepri/alternative.py", "khepri/expansion.py", "khepri/fourier.py"]}
{"id": "C103", "title": "Symmetries of Bloch factors", "statement": "In a cell of lossless layers the Bloch factors are not zero and come in pairs w, 1/conj(w), and a Bloch wave that grows or decays carries no power. In any cell, lossy or not, the inverse of a factor for the in-plane wavevector k is a factor for -k.", "quantifier": "For every lattice, window that fits (odd for the last claim), list of islands, permittivity, stacking, number of slices, wavelength and wavevector, and every eigenpair.", "why_tests_cant": "A test compares a few computed eigenvalues to a tolerance. The pairing is an exact statement about every cell and every truncation, which is what makes the unit circle a meaningful criterion for propagating modes.", "anchors": ["khepri/eigentricks.py:scattering_splitlr", "khepri/tmat/scattering.py:scattering_matrix_islands", "khepri/tmat/matrices.py:matrix_a", "khepri/ez.py"]}
{"id": "C104", "title": "Reciprocity of layered T-matrix devices", "statement": "The coefficient from order h to order g at wavevector k, normalised by the normal wavevectors, equals the coefficient from order -g to order -h at wavevector -k through the device in the other direction; likewise for reflection on both sides. The specular reflection of each polarisation is the same for k and -k.", "quantifier": "For every lattice, odd window that fits, list of islands, complex permittivity, media, stacking, wavelength, wavevector, pair of orders and pair of polarisations.", "why_tests_cant": "Reciprocity must hold for every structure, also lossy ones, where no energy balance can be used as a check.", "anchors": ["khepri/tmat/scattering.py:scattering_matrix_islands", "khepri/tmat/scattering.py:scattering_interface", "khepri/tmat/scattering.py:multS", "khepri/tmat/matrices.py:matrix_a", "khepri/tmat/matrices.py:matrix_v", "khepri/tmat/tools.py:compute_eta", "khepri/ez.py"]}
{"id": "C105", "title": "Symmetry of even windows", "statement": "The Bloch factors at -k are the inverses of those at k for every window, also with an even number of orders.", "quantifier": "For every window.", "why_tests_cant": "Even windows run without error; nothing signals the loss of symmetry.", "anchors": ["khepri/tmat/lattice.py:CartesianLattice", "khepri/eigentricks.py:scattering_splitlr"]}
{"id": "C106", "title": "Bloch factors do not depend on the choice of the period", "statement": "The non-zero Bloch factors computed for a periodic pile do not depend on the layer with which the period starts nor on how the period is nested in stackings; the factors of N periods are exactly the N-th powers of those of one.", "quantifier": "all projects with positive repeats, all layer matrices (over any field; C for the converse), all cyclic shifts of the period, all N > 0, whenever both matrices are computed", "why_tests_cant": "The set of layers, nestings, shifts and repeats is infinite and the eigenvalues of different matrices have to agree exactly.", "anchors": ["khepri/eigentricks.py:5-22", "khepri/ez.py:130-149", "khepri/tmat/matrices.py:194-212"]}
{"id": "C107", "title": "Absorbing piles do not amplify and are always computed", "statement": "For layers of disjoint rectangles in which no medium amplifies (positive imaginary parts), stacked in any way, the reflected and transmitted currents computed by the T-matrix code are real, non-negative and add up to at most the incident one; at normal incidence R + T <= 1 and the absorption is between 0 and 1; Bloch waves that carry power forwards do not grow. When every order propagates in the incident medium no matrix on the way is singular: layers are computed, piles join, and they close with the substrate.", "quantifier": "all rectangular cells, all windows, all wavelengths and in-plane wavevectors, all disjoint wide rectangles with complex permittivities, all depths >= 0, slicings, stackings and incident waves in propagating orders", "why_tests_cant": "Passivity is an inequality over a continuum of permittivities, geometries and angles; a test samples single points, and singular matrices are a thin set that sampling never meets.", "anchors": ["khepri/tmat/scattering.py:54-81", "khepri/tmat/matrices.py:75-160", "khepri/tmat/matrices.py:194-212", "khepri/tmat/tools.py:100-140", "khepri/eigentricks.py:5-22"]}
{"id": "C108", "title": "The determinant of a scattering matrix is on the unit circle without losses, in the unit disc with losses, and the same for opposite wavevectors", "statement": "scattering_eigenvalues returns Bloch waves of the layer, provided the eigensolver returns eigenpairs, and with dos the determinant of the scattering matrix. For a pile of layers made by the T-matrix API, all of whose orders propagate in the incident medium, the determinant is always computed; its modulus is 1 when all permittivities are real and at most 1 when the rectangles and hosts absorb. With or without losses, the determinant of a closed pile is the same at the opposite in-plane wavevector, for windows with an odd number of orders.", "quantifier": "all fields, matrices and eigensolvers (eigenvalues); all lattices, windows, wavelengths, wavevectors, media, recipes and stackings (moduli, opposite wavevectors)", "why_tests_cant": "A test computes one matrix at a time; the bounds hold for every structure and number of orders, and singular matrices are never met by sampling.", "anchors": ["khepri/eigentricks.py:29-40", "khepri/eigentricks.py:23-28", "khepri/tmat/scattering.py"]}
{"id": "C109", "title": "Islands given as pictures have the Fourier coefficients of the picture", "statement": "For a T-matrix layer with an island of shape pixmap, the table of permittivity coefficients is that of host + (eps - host) f, f being the picture, with the order (0, 0) in the middle of the table like for the other shapes. Refuted: the table holds the unshifted transform divided by the area of the cell and not by the number of pixels, so that a picture that fills the cell leaves the mean permittivity at that of the host. What the table holds is given for all pictures, and pictures of another size than the table (except axes of one pixel, which are repeated) are refused.", "quantifier": "all pictures, sizes of table, lattices, permittivities (table, sizes, full); witness with 3 x 3 orders (refuted)", "why_tests_cant": "No test uses this shape; a test with one order in a cell of area 1 passes.", "anchors": ["khepri/fourier.py:65-68", "khepri/tmat/tools.py:75-84", "khepri/tmat/scattering.py:54-81"]}
{"id": "C110", "title": "T-matrix piles: displacing all islands together changes phases only", "statement": "Displace all the islands of all the layers of a pile by the same vector r. The scattering matrix of the displaced pile is computed whenever that of the pile is, and is D S D^-1 where D multiplies the four amplitudes of order g by exp(-i r.g); the same with the closing interface. So the currents of every order and the fluxes for the incident waves of the API, the determinant and the Bloch factors do not change. A displacement by a vector of the lattice changes nothing, although the islands then lie outside the cell. Discs need a reciprocal lattice without vectors below the threshold 1e-8 of transform_disc.", "quantifier": "all displacements, lattices, media, wavelengths, wavevectors, piles and stackings, numbers of orders that fit the window, halvings", "why_tests_cant": "No test displaces islands in the T-matrix API; a test sees some displacements of one pile.", "anchors": ["khepri/fourier.py:28-49", "khepri/tmat/tools.py:75-84", "khepri/tmat/matrices.py:124-166", "khepri/tmat/scattering.py:54-81", "khepri/ez.py:130-149"]}
{"id": "C111", "title": "T-matrix incident waves have the requested polarisation and power", "statement": "The amplitudes returned by incident(pw, E0, p_pol, s_pol), turned into fields by the matrix Vi of the lattice, are those of a single plane wave in the zero order: electric field s E0 along the direction perpendicular to the plane of incidence and p E0 (times the cosine of the angle) in it, magnetic field the same turned, times the admittance of the medium; at normal incidence (in-plane wavevector below the threshold) the plane of incidence is that of the x axis. In a transparent medium the power through the plane is sqrt(eps)/(mu0 c) cos(theta) |E0|^2 (|s|^2 + |p|^2).", "quantifier": "all lattices, numbers of orders, media, wavelengths, wavevectors, amplitudes", "why_tests_cant": "The tests use isotropic quantities at one or two angles; the direction used at normal incidence and the order that is excited are invisible to the totals.", "anchors": ["khepri/tmat/tools.py:48-69", "khepri/tmat/tools.py:86-98", "khepri/tmat/matrices.py:43-73", "khepri/tmat/lattice.py:131-159"]}
{"id": "C112", "title": "T-matrix piles: turning or reflecting the pile, or renaming the lattice vectors, permutes orders and turns polarisations", "statement": "Turn or reflect, about the normal, the lattice vectors, the islands and the in-plane wavevector of a pile, then reverse or exchange the names of the lattice vectors. The new lattice is accepted whenever the old one is, and the scattering matrix of the new pile is W S W^T (with and without the closing interface), where the orthogonal matrix W moves each order to its new place and turns its polarisations: a reflection changes the sign of s, and the orders without in-plane direction (where the API uses the x axis) have s and p rotated, forward and backward oppositely. Limits: rectangles only without a turn or with the axes exchanged; reversed names need odd numbers of orders and exchanged names equal ones; discs need axes sent to axes or reciprocal lattices without vectors below 1e-8; a turn of the axes needs media that do not amplify and orders below the threshold to vanish.", "quantifier": "all turns and reflections, namings, lattices, media, wavelengths, wavevectors, piles and stackings, numbers of orders that fit the window, halvings", "why_tests_cant": "No test turns a structure in the T-matrix API; the permutation of the orders and the sign of s show in no total, and a continuous family of angles cannot be sampled.", "anchors": ["khepri/tmat/tools.py:38-84", "khepri/tmat/lattice.py:32-88", "khepri/tmat/matrices.py:9-73", "khepri/tmat/matrices.py:124-166", "khepri/tmat/scattering.py:54-134", "khepri/fourier.py:28-58", "khepri/ez.py:130-149"]}
{"id": "C113", "title": "T-matrix piles: determinant, Bloch factors and fluxes do not depend on orientation or naming", "statement": "Under the turns, reflections and renamings of C112 the scattering matrix keeps its determinant and its Bloch factors, and the fluxes computed for an incident wave of the API are those of the original pile when the polarisation of the wave is turned with it: (s, p) unchanged up to the sign of s away from normal incidence, rotated at normal incidence.", "quantifier": "all turns and reflections, namings, lattices, media, wavelengths, wavevectors, piles and stackings, numbers of orders that fit the window, halvings, polarisations", "why_tests_cant": "The fluxes are compared for one orientation; a wrong pairing of orders in some orientations passes.", "anchors": ["khepri/tmat/tools.py:86-143", "khepri/tmat/scattering.py:54-134", "khepri/tmat/scattering.py:137-150", "khepri/ez.py:130-149"]}
{"id": "C114", "title": "T-matrix piles: symmetric structures give symmetric matrices", "statement": "If a pile, its lattice and its in-plane wavevector are their own image under a turn or a reflection (with renaming), its scattering matrix commutes with the matrix W of C112. In particular, at normal incidence a pile that is its own image under a quarter turn gives the same reflected, transmitted and absorbed fluxes for any polarisation and the perpendicular one.", "quantifier": "all turns and reflections, namings, symmetric lattices and piles, media, wavelengths, stackings, numbers of orders that fit the window, halvings, polarisations", "why_tests_cant": "The tests compare no polarisations of symmetric structures; equality must hold for every size of window and every symmetric pile.", "anchors": ["khepri/tmat/tools.py:48-69", "khepri/tmat/tools.py:86-143", "khepri/tmat/matrices.py:9-73", "khepri/tmat/scattering.py:54-134", "khepri/ez.py:130-149"]}
{"id": "C115", "title": "T-matrix piles: the results do not depend on the unit of length", "statement": "Multiplying all lengths of a pile (lattice vectors, islands, depths, wavelength) by s > 0 and dividing the in-plane wavevector by s leaves the scattering matrix of the pile unchanged, with and without the last interface, as well as the reflected, transmitted and absorbed fluxes.", "quantifier": "all s > 0, lattices, windows, media, islands, stackings, wavelengths, in-plane wavevectors, amplitudes, numbers of orders", "why_tests_cant": "infinitely many scales and piles; the thresholds of the code matter only near particular values", "anchors": ["khepri/tmat/tools.py:38-69", "khepri/tmat/tools.py:100-143", "khepri/tmat/lattice.py:32-58", "khepri/tmat/matrices.py:9-73", "khepri/tmat/matrices.py:124-166", "khepri/tmat/scattering.py:54-81"]}
{"id": "C116", "title": "A device is what is found at each depth: cutting, merging, renaming or inserting empty layers changes nothing", "statement": "Two Crystal objects whose devices hold the same formulation at every depth z >= 0, between the same outer media and under the same light, have after solve() the same scattering matrix and the same reflected and transmitted fluxes, order by order, however the structure is divided into named layers.", "quantifier": "all crystals (any expansion, any void flag for the matrix), all finite stackings of pixmap, uniform and analytical layers of non-negative depths carrying the crystal's expansion, all sources, field masks, call histories and visiting orders for which solve() returns, all eigenvalue routines", "why_tests_cant": "A test compares a few hand-made divisions of one stack; the claim ranges over all pairs of stackings with equal profile, including unrelated names, masks, cut positions and numbers of layers.", "anchors": ["khepri/crystal.py:131-206", "khepri/layer.py:35-60", "khepri/layer.py:145-194", "khepri/alternative.py:181-195"]}
{"id": "C117", "title": "A pile of the T-matrix API is what is found at each depth", "statement": "Two project files over the same lattice and under the same light, whose unrolled piles hold the same islands and host medium at every depth z >= 0, give the same scattering matrix, with and without the last interface: layers may be cut, merged, repeated, nested in stackings, renamed, computed with another slicing power, or have no thickness.", "quantifier": "all lattices, plane-wave windows, wavelengths and in-plane wavevectors, all projects with repeats of at least 1 and layer names that are not names of stackings, all nestings of any depth, all layers of non-negative depths and any slicing powers for which the matrices are computed", "why_tests_cant": "A test compares a few hand-made divisions of one pile; the claim ranges over all pairs of projects with equal profile, including arbitrary nesting, repeats and unequal slicing powers.", "anchors": ["khepri/ez.py:130-149", "khepri/tmat/scattering.py:25-81", "khepri/tmat/scattering.py:130-134"]}
{"id": "C118", "title": "A T-matrix pile turned upside down has its two sides exchanged", "statement": "If the contents of one pile are those of another pile read in the opposite order of depths, in the same lattice and under the same light, then the scattering matrix of the one is that of the other with the two sides exchanged and the sign of the p waves reversed. The Bloch factors of the two are inverse of each other; a pile that is the same from above and from below, absorbing or not, has a matrix that is the same from both sides and Bloch factors in inverse pairs.", "quantifier": "all lattices, plane-wave windows, wavelengths and in-plane wavevectors, all projects with repeats of at least 1 and layer names that are not names of stackings, all layers of non-negative depths, complex permittivities and any slicing powers for which the matrices are computed, all non-zero Bloch factors", "why_tests_cant": "A test turns a few hand-made piles; the claim ranges over all piles, all nestings and divisions into layers, all media and all Bloch factors.", "anchors": ["khepri/ez.py:130-149", "khepri/tmat/scattering.py:25-81", "khepri/tmat/matrices.py:9-73", "khepri/eigentricks.py:5-22"]}
{"id": "C119", "title": "A device of the crystal API turned upside down has its sides exchanged", "statement": "Take two crystals of the layer API whose piles both resolve to known layers of positive or zero depth. If what is found at each depth of the second is what is found in the first read from the bottom, and the outer media are exchanged (or both devices are periodic in depth and have none), then after both are solved the scattering matrix of the second is that of the first with the two sides exchanged. In particular a device that reads the same from above and from below, between equal media, has S11 = S22 and S12 = S21. Repeated as the cell of a periodic pile, the two devices have inverse Bloch factors.", "quantifier": "for all eigensolvers and Bessel functions, all expansions, all reachable or unreachable crystal states meeting the hypotheses, all piles of any length and all outcomes of solve", "why_tests_cant": "Tests solve a few fixed stacks and never solve the same stack turned over; the statement ranges over every pile, every pattern and every way of cutting it into layers.", "anchors": ["khepri/crystal.py:131-206", "khepri/layer.py:35-60", "khepri/alternative.py:32-82"]}
{"id": "C120", "title": "Light goes back through the turned device", "statement": "Crystal.solve is only ever lit from above, so the way back through a device is computed by building the device upside down. For a crystal of slabs (lossy or not) between any two outer media, and the crystal whose contents are the same in the opposite order of depths with the outer media exchanged and which is lit with the opposite in-plane wavevector, the forward transmission blocks S21 of the two solves are transposes of each other in the bilinear form of the outer media that normalises power. In particular a device that is the same from above and from below, between equal media, lit from above with opposite in-plane wavevectors, has forward transmissions that are transposes of each other.", "quantifier": "for all eigensolvers that satisfy the eigenvalue equation, all expansions, all sequences of calls that add slabs and stack them, all outer media, wavelengths, incidences and amplitudes, and all ways of cutting the turned pile into layers", "why_tests_cant": "No test turns a device over or compares two directions; the statement ranges over all devices, all orders (propagating or evanescent) and all pairs of amplitudes.", "anchors": ["khepri/crystal.py:131-206", "khepri/layer.py:35-60", "khepri/alternative.py:32-82", "khepri/alternative.py:181-195"]}
{"id": "C121", "title": "T-matrix piles: light goes back through the turned pile", "statement": "Between equal incidence and emergence media, take a pile of the T-matrix API and a pile whose contents are the same in the opposite order of depths. For every pair of orders g, h and every pair of polarisations, the transmission coefficient of the first from h to g, multiplied by the normal wavevector of g, equals the transmission coefficient of the second from -g to -h for the opposite in-plane wavevector, multiplied by the normal wavevector of h (with the sign conventions of the order zero).", "quantifier": "for all permittivities, islands, stackings and slicings, all wavelengths and in-plane wavevectors, all windows with an odd number of orders, all matrix exponentials", "why_tests_cant": "No test turns a pile over or compares opposite wavevectors; the statement ranges over all piles and all pairs of orders, evanescent ones included.", "anchors": ["khepri/tmat/scattering.py:scattering_matrix_islands", "khepri/tmat/scattering.py:scattering_interface", "khepri/tmat/scattering.py:multS", "khepri/tmat/matrices.py:matrix_a", "khepri/tmat/matrices.py:matrix_v", "khepri/tmat/tools.py:compute_eta", "khepri/ez.py", "khepri/ez.py:130-149", "khepri/tmat/scattering.py:25-81", "khepri/tmat/matrices.py:9-73", "khepri/eigentricks.py:5-22"]}
