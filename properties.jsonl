{"id": "C01", "title": "Generated symmetry groups are closed and contain their generators", "statement": "Whenever Symmetry.from_generator(G, False) returns, the matrices it collected contain the identity as first entry, contain every matrix of G, contain no matrix twice, and the product of any two of them is again one of them.", "quantifier": "every dimension, every non-empty list of generator matrices (any order, with or without repetitions or the identity)", "why_tests_cant": "The closure loop runs a data-dependent number of rounds; a test can only look at named groups.", "anchors": ["src/tight_binding_redweasel/symmetry.py: Symmetry.from_generator"]}
{"id": "C02", "title": "Generated symmetry groups contain nothing that the generators do not generate", "statement": "Every matrix returned by Symmetry.from_generator(G, False) is a finite product of matrices of G (the empty product being the identity); together with C01 the result is exactly the generated monoid/group.", "quantifier": "every generator list for which the call returns", "why_tests_cant": "Minimality quantifies over all words in the generators.", "anchors": ["src/tight_binding_redweasel/symmetry.py: Symmetry.from_generator"]}
{"id": "C03", "title": "from_generator always terminates and fails exactly on groups that are too large", "statement": "from_generator returns (it never loops forever and never returns a non-closed set) if the generated set has fewer than 200 elements, and raises the size-limit ValueError if it is infinite or has at least 200 elements.", "quantifier": "every generator list with |det|=1", "why_tests_cant": "Termination for infinite groups and the exact threshold depend on every possible growth sequence.", "anchors": ["src/tight_binding_redweasel/symmetry.py: Symmetry.from_generator"]}
{"id": "C04", "title": "Every operation of a generated group has its inverse in the group", "statement": "For generators with determinant +-1, for each returned operation s there is a returned operation t with s t = t s = identity, so the object really is a group.", "quantifier": "every generator list of integer matrices with |det|=1, in every dimension, for which from_generator returns", "why_tests_cant": "Inverses are never computed by the code; that they are present follows only from finiteness.", "anchors": ["src/tight_binding_redweasel/symmetry.py: Symmetry.from_generator, Symmetry.__init__"]}
{"id": "C05", "title": "The named crystal groups have the documented order and are groups", "statement": "Symmetry.none, inv, o1, perm3, even_perm3, mirror3, mirror_x, mirror_xy, square, tetrahedral and cubic (with and without inversion) build closed groups whose len() equals the documented/mathematical order. Their operations are exactly the documented matrices (e.g. cubic: all integer orthogonal matrices; tetrahedral(full=True): those of determinant 1).", "quantifier": "all constructor arguments (finite domain, complete enumeration)", "why_tests_cant": "Unit tests check only a few of them, and only the length.", "anchors": ["src/tight_binding_redweasel/symmetry.py: Symmetry.none, inv, o1, perm3, even_perm3, mirror3, mirror_x, mirror_xy, square, tetrahedral, cubic"]}
{"id": "C06", "title": "len(sym) and get_symmetry_operations enumerate each operation exactly once", "statement": "For a Symmetry constructed from a duplicate-free list of operations closed under negation or not containing any negation pair, get_symmetry_operations() contains every represented operation (the given ones, plus their negatives if inversion was requested) exactly once and len(sym) is their number.", "quantifier": "every dimension (odd and even), every duplicate-free operation list, both values of the inversion flag", "why_tests_cant": "The internal split of inversion depends on the parity of the dimension and on the content of the list.", "anchors": ["src/tight_binding_redweasel/symmetry.py: Symmetry.__init__, __len__, get_symmetry_operations"]}
{"id": "C07", "title": "Equality of Symmetry objects is set equality of operations", "statement": "a == b holds iff both describe the same set of operations: it does not depend on the order in which operations are listed, and two symmetries with different operation sets are never equal.", "quantifier": "every pair of Symmetry objects", "why_tests_cant": "Equality uses a nearest-point distance on matrices; the failing lists are rare.", "anchors": ["src/tight_binding_redweasel/symmetry.py: Symmetry.__eq__", "src/tight_binding_redweasel/linalg.py: pointcloud_distance"]}
{"id": "C08", "title": "Neighbor lookup returns the right index and mirror flag", "statement": "The function returned by neighbor_function(neighbors) / try_neighbor_function(neighbors) maps r to (j, False) with neighbors[j] = r if r is listed, otherwise to (j, True) with neighbors[j] = -r if -r is listed, and otherwise raises ValueError / returns (None, None).", "quantifier": "every neighbor list and every query position (exact lattice coordinates)", "why_tests_cant": "Every position of every lattice is a potential query.", "anchors": ["src/tight_binding_redweasel/symmetry.py: neighbor_function, try_neighbor_function"]}
{"id": "C09", "title": "complete_neighbors returns a symmetric half-space representation", "statement": "For a symmetry group and any list of lattice positions, complete_neighbors returns positions such that (a) for every input position r and operation s, s^T r or its negative is returned, (b) never both r and -r are returned for r != 0 and no position occurs twice, (c) every returned position is (up to sign) an image of an input position, (d) the result is ordered by length so that 0, if given, comes first.", "quantifier": "every finite symmetry group and every list of integer lattice positions", "why_tests_cant": "Depends on group, order of inputs and signs; tests use a few lattices.", "anchors": ["src/tight_binding_redweasel/symmetry.py: Symmetry.complete_neighbors, realize_symmetric"]}
{"id": "C10", "title": "r_class_size is the number of distinct images of a point", "statement": "For a symmetry group (closed, duplicate free), r_class_size(k) equals the number of distinct points s k over all operations s (inversion included), i.e. the group order divided by the stabiliser order, and the division is exact.", "quantifier": "every finite group of integer matrices and every point", "why_tests_cant": "Orbit-stabiliser for every group and point.", "anchors": ["src/tight_binding_redweasel/symmetry.py: Symmetry.r_class_size"]}
{"id": "C11", "title": "k_weight is the reciprocal stabiliser order on the periodic lattice", "statement": "For a symmetry group, len(sym)*k_weight(k) equals the number of distinct images of k modulo integer translations; the weight of k=0 is 1/len(sym); the weight is constant on an orbit and periodic in k.", "quantifier": "every finite group of integer matrices and every rational k-point", "why_tests_cant": "Quantifies over all k-points and groups.", "anchors": ["src/tight_binding_redweasel/symmetry.py: Symmetry.k_weight"]}
{"id": "C12", "title": "equivalence_classes partitions the group", "statement": "equivalence_classes(rel) returns non-empty lists whose concatenation is a permutation of all operations; if rel is an equivalence relation, two operations are in the same list iff they are related. conjugacy_classes uses this with conjugation in the group.", "quantifier": "every operation list and every relation", "why_tests_cant": "Needs all relations and groups.", "anchors": ["src/tight_binding_redweasel/symmetry.py: Symmetry.equivalence_classes, conjugacy_classes"]}
{"id": "C13", "title": "Tensor symmetrisation is a projection onto invariant tensors", "statement": "Symmetry.symmetrize(t, rank=(1,1)) is linear, its result is invariant under every operation s -> s^-1 t s of the group, it leaves invariant tensors unchanged, hence applying it twice equals applying it once.", "quantifier": "every finite group, every rank-(1,1) tensor", "why_tests_cant": "All groups and tensors.", "anchors": ["src/tight_binding_redweasel/symmetry.py: Symmetry.symmetrize"]}
{"id": "C14", "title": "Tensor symmetrisation respects inversion", "statement": "For a symmetry with inversion, an odd rank (true) tensor is symmetrised to zero and the result of symmetrize is invariant under all operations including -1.", "quantifier": "every symmetry object with inversion", "why_tests_cant": "Tests only use even rank tensors.", "anchors": ["src/tight_binding_redweasel/symmetry.py: Symmetry.symmetrize"]}
{"id": "C15", "title": "realize_symmetric produces exactly the orbit of every given k-point with the right source index", "statement": "Every returned point is an image s k (or -s k with inversion) of the given point named by its returned source index, every image of every given point is returned, and no point is returned twice.", "quantifier": "every group and every list of pairwise inequivalent k-points", "why_tests_cant": "All groups and k-lists.", "anchors": ["src/tight_binding_redweasel/symmetry.py: Symmetry.realize_symmetric, realize_symmetric_data"]}
{"id": "C16", "title": "reduce_symmetric_data keeps one representative per class", "statement": "The reduced list contains a representative of every class of symmetric points of the input and no two distinct points of it are symmetric images of each other.", "quantifier": "every orthogonal group and every k-list (any spacing)", "why_tests_cant": "Depends on the rounding of lengths used for sorting, i.e. on the scale of the k-points.", "anchors": ["src/tight_binding_redweasel/symmetry.py: Symmetry.reduce_symmetric_data"]}
{"id": "C17", "title": "check_neighbors accepts symmetric neighbor lists", "statement": "check_neighbors(neighbors) returns normally iff the neighbor list (up to sign) is mapped onto itself by all operations.", "quantifier": "every 3D symmetry and neighbor list", "why_tests_cant": "Acceptance must hold for all symmetric lists.", "anchors": ["src/tight_binding_redweasel/symmetry.py: Symmetry.check_neighbors"]}
{"id": "C18", "title": "find_classes partitions the points into symmetry classes", "statement": "For points closed under the group, the sets returned by find_classes partition all indices, and two indices are in the same set iff an operation maps one point to the other.", "quantifier": "every group and duplicate-free closed point list", "why_tests_cant": "All point lists.", "anchors": ["src/tight_binding_redweasel/symmetry.py: Symmetry.find_classes"]}
{"id": "C19", "title": "Subgroup test agrees with set inclusion", "statement": "`b in a` holds iff every operation represented by group b is an operation represented by group a.", "quantifier": "every pair of groups (of the same dimension)", "why_tests_cant": "All pairs of groups.", "anchors": ["src/tight_binding_redweasel/symmetry.py: Symmetry.__contains__"]}
{"id": "C20", "title": "A representation accepted by check() is a homomorphism", "statement": "If UnitaryRepresentation.check() returns True then U(s1 s2) = U(s1) U(s2) for all operations and the inversion matrix commutes with every U; conversely every such representation of a closed group is accepted.", "quantifier": "every representation", "why_tests_cant": "All groups and representations.", "anchors": ["src/tight_binding_redweasel/unitary_representations.py: UnitaryRepresentation.check"]}
{"id": "C21", "title": "Direct sums and multiples of representations are representations with ordered inversion blocks", "statement": "For checked representations a, b of the same group, a + b passes check(), has dimension dim a + dim b, and its first inv_split basis functions are exactly the inversion-even ones; the same holds for a * n.", "quantifier": "every pair of representations that can be added, every n >= 1", "why_tests_cant": "Case distinction on the inversion blocks for all sizes.", "anchors": ["src/tight_binding_redweasel/unitary_representations.py: UnitaryRepresentation.__add__, __mul__"]}
{"id": "C22", "title": "UnitaryRepresentation.from_generator generates a representation", "statement": "from_generator returns matrices S closed under products containing all generators together with U such that s -> U(s) is a homomorphism extending the generator values.", "quantifier": "every generator dictionary with consistent values", "why_tests_cant": "All generators.", "anchors": ["src/tight_binding_redweasel/unitary_representations.py: UnitaryRepresentation.from_generator"]}
{"id": "C23", "title": "match_sym only reorders", "statement": "After match_sym(sym) the representation uses the operation order of sym and still assigns to every operation the same matrix as before; it raises if the operation sets differ.", "quantifier": "every representation and every reordering", "why_tests_cant": "All permutations of all groups.", "anchors": ["src/tight_binding_redweasel/unitary_representations.py: UnitaryRepresentation.match_sym"]}
{"id": "C24", "title": "HamiltonianSymmetry.symmetrize is a projection onto symmetric models", "statement": "For a closed neighbor list the symmetrised hopping matrices satisfy H(s R) = U(s) H(R) U(s)^dagger for every operation, already symmetric models are left unchanged, and the operation is linear and idempotent.", "quantifier": "every group, representation, basis and neighbor list", "why_tests_cant": "All models.", "anchors": ["src/tight_binding_redweasel/hamiltonian_symmetry.py: HamiltonianSymmetry.symmetrize", "src/tight_binding_redweasel/unitary_representations.py: UnitaryRepresentation.symmetrize"]}
{"id": "C25", "title": "The precompiled symmetrizer equals the reference symmetrize", "statement": "HamiltonianSymmetry.symmetrizer(neighbors)(H) equals symmetrize(neighbors, H) for every input.", "quantifier": "every group, representation, duplicate-free neighbor list and hopping matrices", "why_tests_cant": "Two independent implementations must agree on all inputs.", "anchors": ["src/tight_binding_redweasel/hamiltonian_symmetry.py: HamiltonianSymmetry.symmetrize, symmetrizer"]}
{"id": "C26", "title": "The Bloch Hamiltonian is hermitian", "statement": "HermitianFourierSeries.f(k) is a hermitian matrix for every real k whenever the R=0 matrix is hermitian, for arbitrary complex matrices at the other neighbors.", "quantifier": "every model, every k", "why_tests_cant": "All k and models.", "anchors": ["src/tight_binding_redweasel/tight_binding_asym.py: HermitianFourierSeries.f"]}
{"id": "C27", "title": "The Bloch Hamiltonian is lattice periodic and time-reversal consistent", "statement": "With integer neighbor vectors f(k+G) = f(k) for all integer G; with real hopping matrices f(-k) = conj(f(k)).", "quantifier": "every model, k and G", "why_tests_cant": "All k and G.", "anchors": ["src/tight_binding_redweasel/tight_binding_asym.py: HermitianFourierSeries.f"]}
{"id": "C28", "title": "df and ddf are the derivatives of f", "statement": "HermitianFourierSeries.df(k) is the gradient of f at k and ddf(k) is the gradient of df (hence the Hessian of f, symmetric in the two derivative directions).", "quantifier": "every model, k and direction", "why_tests_cant": "Finite differences only sample.", "anchors": ["src/tight_binding_redweasel/tight_binding_asym.py: HermitianFourierSeries.f, df, ddf"]}
{"id": "C29", "title": "The Hamiltonian does not depend on the parameter storage convention", "statement": "After set_params_complex(H), BandStructureModel.f(k) equals the hermitian Fourier series H_0 + sum_R (H_R e^{2 pi i k R} + h.c.) for all combinations of exp and cos_reduced (model without inversion symmetry).", "quantifier": "every model, k, both flags", "why_tests_cant": "All parameters and k.", "anchors": ["src/tight_binding_redweasel/bandstructure.py: BandStructureModel.f, set_params_complex, _get_tight_binding_coeff_funcs"]}
{"id": "C30", "title": "params_complex and set_params_complex are inverse", "statement": "Reading params_complex after set_params_complex(H) returns H (with the R=0 matrix hermitian) for all combinations of exp and cos_reduced without inversion symmetry; with inversion symmetry in cos form (exp=False) it returns the hermitian parts, and with exp=True always H itself.", "quantifier": "every hopping list", "why_tests_cant": "All parameters.", "anchors": ["src/tight_binding_redweasel/bandstructure.py: BandStructureModel.params_complex, set_params_complex"]}
{"id": "C31", "title": "Arithmetic on models acts on the band energies as documented", "statement": "model + E shifts every band energy by E, model * c scales them by c, and model_a + model_b has exactly the union of the band energies, at every k.", "quantifier": "every model, k and scalar", "why_tests_cant": "All models and k.", "anchors": ["src/tight_binding_redweasel/bandstructure.py: BandStructureModel.__add__, __mul__", "src/tight_binding_redweasel/tight_binding_asym.py: AsymTightBindingModel.__add__, __mul__, HermitianFourierSeries.__add__"]}
{"id": "C32", "title": "permute and normalize do not change band energies", "statement": "permute(order) with a permutation, and congruence of H and S with the same invertible matrix as done by normalize, leave all generalised eigenvalues unchanged at every k.", "quantifier": "every model, permutation and k", "why_tests_cant": "All permutations.", "anchors": ["src/tight_binding_redweasel/tight_binding_asym.py: AsymTightBindingModel.permute, normalize"]}
{"id": "C33", "title": "Neighbor list edits keep hopping matrices attached to their neighbor", "statement": "limit_neighbors, limit_neighbor_count and cleanup_neighbors keep a sub-collection of the (neighbor, matrix) pairs including R=0 at index 0; add_neighbors adds only zero matrices and therefore leaves f(k) unchanged; a model never lists the same neighbor twice.", "quantifier": "every model and edit sequence", "why_tests_cant": "Arbitrary histories of edits.", "anchors": ["src/tight_binding_redweasel/tight_binding_asym.py: HermitianFourierSeries.add_neighbors, limit_neighbors, limit_neighbor_count, cleanup_neighbors"]}
{"id": "C34", "title": "A supercell model has the folded band structure", "statement": "supercell(A) yields a model in which every eigenpair of the original model at k induces an eigenpair with the same energy at the same k.", "quantifier": "every model, supercell matrix and k", "why_tests_cant": "All neighbor sets and supercells.", "anchors": ["src/tight_binding_redweasel/tight_binding_asym.py: AsymTightBindingModel.supercell"]}
{"id": "C35", "title": "JSON save/load round trip", "statement": "Loading a saved model returns the same multiset of (neighbor, matrix) pairs sorted by length, every matrix entry unchanged except that real/imaginary parts below 1e-14 in magnitude are replaced by 0.", "quantifier": "every model", "why_tests_cant": "All models.", "anchors": ["src/tight_binding_redweasel/json_tb_format.py: save, load"]}
{"id": "C36", "title": "Wannier90 import keeps each hopping exactly once", "statement": "load_hr/load_tb return neighbors without duplicates and without R/-R pairs, represent every R of the file up to sign, keep the sign seen first, and each matrix entry is the value the file gives for it.", "quantifier": "every syntactically valid file", "why_tests_cant": "All files.", "anchors": ["src/tight_binding_redweasel/wannier90_tb_format.py: load_hr, load_tb"]}
{"id": "C37", "title": "Windowed loss finds the best band offset", "statement": "model_windowed_loss / model_error_hist evaluate every possible band offset of the smaller band set inside the larger and return the best one.", "quantifier": "all band counts and band data", "why_tests_cant": "Boundary offsets are never hit by the usual examples.", "anchors": ["src/tight_binding_redweasel/loss.py: model_windowed_loss, model_error_hist"]}
{"id": "C38", "title": "Optimisation logger keeps aligned history and stops exactly once", "statement": "After any sequence of add_data/abort calls the recorded iteration, loss (and parameter) lists have equal length, in call order, and abort raises if called twice.", "quantifier": "all call sequences", "why_tests_cant": "All histories.", "anchors": ["src/tight_binding_redweasel/logger.py: OptimisationLogger"]}
{"id": "C39", "title": "Conjugate gradient keeps the residual consistent", "statement": "During conjugate_gradient_solve the internal residual equals A x - b for the current x, and the solver terminates after at most max_i+2 iterations; if it returns because of the error criterion, |A x - b| <= err.", "quantifier": "every linear operator, right hand side, start vector and iteration limit", "why_tests_cant": "All operators.", "anchors": ["src/tight_binding_redweasel/linalg.py: conjugate_gradient_solve"]}
{"id": "C40", "title": "pointcloud_distance is zero only for equal point multisets", "statement": "pointcloud_distance(a, b) = 0 iff b is a reordering of a.", "quantifier": "all point clouds of equal size", "why_tests_cant": "Failing inputs are rare.", "anchors": ["src/tight_binding_redweasel/linalg.py: pointcloud_distance"]}
{"id": "C41", "title": "direct_sum and kron obey block algebra", "statement": "direct_sum(A,B) direct_sum(C,D) = direct_sum(AC, BD), it preserves adjoints and identity, and eigenpairs of the sum restrict to eigenpairs of the summands.", "quantifier": "all matrices", "why_tests_cant": "All sizes.", "anchors": ["src/tight_binding_redweasel/linalg.py: direct_sum"]}
{"id": "C42", "title": "KPath bookkeeping is consistent", "statement": "For every chain of to() calls len(path) is 1 plus the sum of the segment sizes, the last sample of each segment is exactly the requested point, the recorded indices point at the named points, names and indices have the same length, and the path parameter x is monotone.", "quantifier": "all chains of calls", "why_tests_cant": "All call sequences.", "anchors": ["src/tight_binding_redweasel/kpaths.py: KPath"]}
{"id": "C43", "title": "High symmetry point tables do not depend on earlier calls", "statement": "A call to a *_points function returns the same table regardless of which other point functions have been called before.", "quantifier": "all call histories", "why_tests_cant": "History dependence is invisible to isolated tests.", "anchors": ["src/tight_binding_redweasel/kpaths.py: tetragonal_bc_points"]}
{"id": "C44", "title": "Fermi surface selection", "statement": "fermi_surface returns exactly the bands that take values both above and below the Fermi energy on the samples, in order, each with its own index.", "quantifier": "all band arrays", "why_tests_cant": "All band arrays.", "anchors": ["src/tight_binding_redweasel/fermi_surface.py: fermi_surface"]}
{"id": "C45", "title": "Exported OBJ meshes are well formed", "statement": "Every face index written by export_3D_fermi_surface is between 1 and the number of vertices written so far and refers to a vertex of the same band; every referenced material is defined.", "quantifier": "all sets of marching-cubes meshes", "why_tests_cant": "All meshes and number of bands.", "anchors": ["src/tight_binding_redweasel/fermi_surface.py: export_3D_fermi_surface"]}
{"id": "C46", "title": "Cut-cube volume is a fraction of the cell", "statement": "cube_cut_volume gives a value in [0,1], 0 when the cube lies on one side and 1 on the other, is monotone in the plane offset and satisfies V(d)+V(-d)=1.", "quantifier": "all gradients and offsets", "why_tests_cant": "Real valued inputs.", "anchors": ["src/tight_binding_redweasel/smearing.py: cube_cut_volume, cube_precomp"]}
{"id": "C47", "title": "Cut-cube area is the derivative of the cut-cube volume", "statement": "cube_cut_dvolume is the derivative of cube_cut_volume with respect to the energy, and non-negative.", "quantifier": "all gradients and offsets away from degenerate cases", "why_tests_cant": "Real valued inputs.", "anchors": ["src/tight_binding_redweasel/smearing.py: cube_cut_dvolume, cube_cut_volume_dvolume"]}
{"id": "C48", "title": "Tetrahedron and sphere cut volumes", "statement": "unit_tetra_cut_volume/unit_sphere_cut are continuous monotone fractions between 0 and 1 and the dvolume functions are their derivatives.", "quantifier": "all real inputs", "why_tests_cant": "Real valued inputs.", "anchors": ["src/tight_binding_redweasel/smearing.py: unit_tetra_cut_volume, unit_tetra_cut_dvolume, unit_sphere_cut"]}
{"id": "C49", "title": "Polynomial moments against the Fermi function derivative are exact", "statement": "The closed forms used by convolve_df/_int_df/_int_xdf/_int_xxdf are antiderivatives of -f'(x) x^n.", "quantifier": "all energies and temperatures", "why_tests_cant": "Real valued inputs.", "anchors": ["src/tight_binding_redweasel/density_of_states.py: _int_df, _int_xdf, _int_xxdf, convolve_df"]}
{"id": "C50", "title": "State counting is monotone and bounded", "statement": "states_below(E) is non-decreasing in E, 0 below all bands and equal to the number of bands above all of them; fermi_energy(N) returns an energy at which states_below equals N up to the tolerance.", "quantifier": "all sampled bands", "why_tests_cant": "All bands.", "anchors": ["src/tight_binding_redweasel/density_of_states.py: DensityOfStates.states_below, fermi_energy, cut_band_indices, bandgap"]}
{"id": "C51", "title": "Transport coefficients obey the linear response relations", "statement": "With L0, L1, L2 the transport integrals: conductivity, Seebeck, Peltier and electronic thermal conductivity are the unique tensors solving j_e = L0 E - L1 gradT/T, j_q = L1 E - L2 gradT/T for the respective experimental condition, and for symmetric L0, L1 the Kelvin relation P = T S^T holds.", "quantifier": "all transport integrals with invertible L0, all T>0", "why_tests_cant": "All tensors.", "anchors": ["src/tight_binding_redweasel/bulk_properties.py: conductivity, seebeck, peltier, electronic_thermal_conductivity"]}
{"id": "C52", "title": "Thermal integration weights are exact on polynomials", "statement": "The weights returned by _integration_weights reproduce the moments of -df/dE for all polynomials up to degree N-1, for every number of points N >= 1.", "quantifier": "all sample points and N", "why_tests_cant": "All N.", "anchors": ["src/tight_binding_redweasel/bulk_properties.py: _integration_points, _integration_weights, KIntegral.integrate_df"]}
{"id": "C53", "title": "Lattice constructors build the documented cells", "statement": "The lattice matrices of sc, fcc, bcc, hexagonal, tetragonal, orthorhombic, monoclinic, triclinic and rhombohedral constructors have the documented lengths, angles and positive cell volume.", "quantifier": "all positive lengths and admissible angles", "why_tests_cant": "Real valued parameters.", "anchors": ["src/tight_binding_redweasel/qespresso_interface.py: QECrystal lattice constructors"]}
{"id": "C54", "title": "scale_to_density reaches the requested density", "statement": "After scale_to_density(rho), mass_density() = rho and the shape of the cell is unchanged up to a uniform scale.", "quantifier": "all cells and densities", "why_tests_cant": "Real valued parameters.", "anchors": ["src/tight_binding_redweasel/qespresso_interface.py: scale_to_density, mass_density"]}
{"id": "C55", "title": "Band names identify basis functions", "statement": "get_band_name maps every valid band index to the name of the atom/orbital that contains it and raises IndexError exactly for indices out of range.", "quantifier": "all bases", "why_tests_cant": "All bases.", "anchors": ["src/tight_binding_redweasel/hamiltonian_symmetry.py: HamiltonianSymmetry.get_band_name"]}
{"id": "C56", "title": "Free electron bands are sorted and gradients follow the band order", "statement": "FreeElectrons returns ascending energies at every k and bands_grad returns for each returned band the gradient of that very parabola.", "quantifier": "all k, cells and limits", "why_tests_cant": "All k.", "anchors": ["src/tight_binding_redweasel/bulk_properties.py: FreeElectrons"]}
{"id": "C57", "title": "The printed error bar shows every band error", "statement": "For every non-empty list of non-negative band errors, OptimisationLogger.add_data with print_loss prints one character per band, a space or one of U+2581..U+2588, whose height is the error divided by the largest error, rounded to eighths.", "quantifier": "all lists of non-negative errors", "why_tests_cant": "Boundary values (ties at 1/16, all errors zero) are not met by random data.", "anchors": ["src/tight_binding_redweasel/logger.py: OptimisationLogger.add_data l.43-46"]}
{"id": "C58", "title": "Conjugate gradients solve exactly within the default iteration limit", "statement": "For a symmetric positive definite linear operator on arrays with n real components, conjugate_gradient_solve with max_i >= n never stops because of the iteration limit, applies the operator at most n+1 times in its loop, and with err=0 returns the exact solution of Ax=b; the default max_i is large enough for real and complex arrays.", "quantifier": "every dimension, every symmetric positive definite operator, right hand side and start vector (exact arithmetic)", "why_tests_cant": "All operators and dimensions.", "anchors": ["src/tight_binding_redweasel/linalg.py: conjugate_gradient_solve l.233-278"]}
{"id": "C59", "title": "A failing KPath.to call leaves the path unchanged", "statement": "If KPath.to raises (unknown point, wrong dimension, N=0), the KPath object is as before, so sym_x() and sym_x_names() still have equal length.", "quantifier": "all KPath states and all failing calls", "why_tests_cant": "Tests of error cases look at the exception, not at the state afterwards.", "anchors": ["src/tight_binding_redweasel/kpaths.py: KPath.to l.60-84"]}
{"id": "C60", "title": "KPath accepts every documented kind of start", "statement": "KPath(start) accepts a point name, an explicit point like (0, 0, 0), or a list of those, and the path starts at (and runs through) the given points.", "quantifier": "all start arguments of the documented kinds", "why_tests_cant": "Which container type is used decides the code path.", "anchors": ["src/tight_binding_redweasel/kpaths.py: KPath.__init__ l.34-58"]}
{"id": "C61", "title": "The plotted Fermi surface has the right k coordinates", "statement": "plot_3D_fermi_surface draws grid index i of np.linspace(k_range, N) at its k coordinate.", "quantifier": "all N and k ranges", "why_tests_cant": "Pictures are not compared by tests.", "anchors": ["src/tight_binding_redweasel/fermi_surface.py: plot_3D_fermi_surface_to_ax l.40, l.69"]}
{"id": "C62", "title": "Cube cells are exact for linear bands", "statement": "CubesSmearing built from grid values takes the values at the eight corners of a cell (periodic at the border), and for band energies linear in k volume(E) is the exact fraction of each inner cell below E; dvolume is its derivative for all bands.", "quantifier": "all grid sizes, cells, linear bands whose slopes are not (relatively) below 1e-4, all energies", "why_tests_cant": "Real valued inputs.", "anchors": ["src/tight_binding_redweasel/smearing.py: CubesSmearing.__init__ l.171-191, volume, dvolume"]}
{"id": "C63", "title": "Extrapolation removes the error terms", "statement": "extrapolate_poly(T, p) of n+1 approximations whose error is a combination of h^p, h^2p, ..., h^np with step sizes halved each time returns the exact limit.", "quantifier": "all orders p, all n, all coefficients", "why_tests_cant": "All orders and lengths.", "anchors": ["src/tight_binding_redweasel/smearing.py: extrapolate_poly l.251-256"]}
{"id": "C64", "title": "Every smearing method returns volumes between 0 and 1", "statement": "SmearingMethod.volume is documented to return the volume (0 to 1) per cell; this holds for ExtraCubesSmearing too.", "quantifier": "all grids, energies and cells", "why_tests_cant": "All grids.", "anchors": ["src/tight_binding_redweasel/smearing.py: SmearingMethod.volume l.12-21, ExtraCubesSmearing.volume l.295-304"]}
{"id": "C65", "title": "Fermi surface samples lie on the surface of the linear approximation", "statement": "The sample point of a cut cell returned by cube_cut_area_com lies on the plane on which the linear approximation of the band has the given energy, and its weight is the derivative of the volume times the gradient norm.", "quantifier": "all gradients with no component below 1e-4 of the norm, all energies", "why_tests_cant": "Real valued inputs.", "anchors": ["src/tight_binding_redweasel/smearing.py: cube_cut_area_com l.124-150"]}
{"id": "C66", "title": "convolve_ddf is the derivative of convolve_df", "statement": "For every list of samples, every inverse temperature beta > 0 and every extrapolation mode, convolve_ddf(x, …) is the derivative with respect to x of convolve_df(x, …); for non-decreasing sampled states the convolution is non-decreasing in x.", "quantifier": "all sample lists, all x, all beta > 0, all extrapolation modes", "why_tests_cant": "Derivatives and real inputs; the default mode differs only by a term that decays exponentially away from the upper end of the samples.", "anchors": ["src/tight_binding_redweasel/density_of_states.py: convolve_df, convolve_ddf"]}
{"id": "C67", "title": "Total energy at T = 0 is the energy of the occupied states", "statement": "energy(mu, T=0) is the sum over all bands of the integral of e dN(e) up to mu, i.e. mu N(mu) minus the integral of N up to mu; the extrapolated trapezoidal rule is exact when N is a cubic polynomial on the occupied range.", "quantifier": "all bands, all mu, all numbers of samples >= 2", "why_tests_cant": "Integrals over real curves; a filled band below the chemical potential only shifts the result by a term linear in mu.", "anchors": ["src/tight_binding_redweasel/density_of_states.py: DensityOfStates.energy"]}
{"id": "C68", "title": "Heat capacity segments are integrals of the quadratic Taylor polynomial", "statement": "Each segment of the heat capacity sum is the integral, against the derivative of the Fermi function, of the quadratic Taylor polynomial about the middle of the segment of rho(e) e (e - mu + s), rho being the line through the two densities; it is exact for equal densities.", "quantifier": "all mu, s, beta, segments and densities", "why_tests_cant": "Integrals over real parameters.", "anchors": ["src/tight_binding_redweasel/density_of_states.py: DensityOfStates.heat_capacity"]}
{"id": "C69", "title": "Importance samples are increasing, hit mu and have equal weights", "statement": "For e0 < mu < e1 and N >= 4, _samples(e0, e1, mu, beta, N) are N strictly increasing energies from max(e0, mu - 30/beta) over mu to min(e1, mu + 30/beta), and the derivative of the Fermi function has the same integral between any two neighbors on the same side of mu.", "quantifier": "all ranges around mu, all beta > 0, all N >= 4", "why_tests_cant": "Unbounded number of samples and real inputs.", "anchors": ["src/tight_binding_redweasel/density_of_states.py: _samples"]}
{"id": "C70", "title": "naive_fermi_energy separates filled from empty levels", "statement": "naive_fermi_energy(bands, electrons) is an energy with at most (and at least, counting equal levels) electrons * number of k points levels below it, and a number for every filling from 0 to all bands.", "quantifier": "all bands, all electron numbers", "why_tests_cant": "With many k points an index that is off by one hardly changes the result for metals.", "anchors": ["src/tight_binding_redweasel/density_of_states.py: naive_fermi_energy"]}
{"id": "C71", "title": "An early return of secant is a root", "statement": "For every injective f (in particular strictly monotonic) and every tol > 0, if secant(y, f, a, b) returns before max_i steps, then |f(x) - y| < tol; affine functions are solved exactly in the first step.", "quantifier": "all injective functions, all start values", "why_tests_cant": "All functions.", "anchors": ["src/tight_binding_redweasel/density_of_states.py: secant"]}
{"id": "C72", "title": "Normalized surface weights sum to 1", "statement": "fermi_surface_samples(normalize=\"band\") returns weights that sum to 1 for every band, and normalize=\"total\" weights that sum to 1 over all bands, with or without weight_by_gradient.", "quantifier": "all sampled surfaces with non-zero area", "why_tests_cant": "All surfaces.", "anchors": ["src/tight_binding_redweasel/density_of_states.py: DensityOfStates.fermi_surface_samples"]}
{"id": "C73", "title": "Gauss rules for the Fermi function integrate low degree polynomials", "statement": "gauss_5_df and gauss_7_df integrate every quadratic polynomial against the derivative of the Fermi function up to 1e-12 of its coefficients (constant 1 gives 1, (e-mu)^2 gives pi^2/(3 beta^2)); gauss_4_f and gauss_6_f give 2 log(2)/beta for the constant 1 up to 1e-16; all four give exactly 0 for functions odd around mu.", "quantifier": "all mu, beta > 0, all coefficients, all odd functions", "why_tests_cant": "Improper integrals over real parameters.", "anchors": ["src/tight_binding_redweasel/density_of_states.py: gauss_5_df, gauss_7_df, gauss_4_f, gauss_6_f"]}
{"id": "C74", "title": "The finite temperature correction of the energy is exact for piecewise linear state counts", "statement": "For a piecewise linear number of states N through samples that contain mu, the sum of the segments in energy(mu, T) minus a mu^2/2 (a the slope of N below mu) plus the T = 0 energy mu N(mu) - int N is the integral of -(f + e f') N over the sampled range.", "quantifier": "all sample lists containing mu, all mu, all beta > 0", "why_tests_cant": "Integrals over real parameters.", "anchors": ["src/tight_binding_redweasel/density_of_states.py: DensityOfStates.energy"]}
{"id": "C75", "title": "Hall tensor and cubic Hall coefficient agree", "statement": "For a metal with cubic tensors (sigma2 = s I, sigma3 = c epsilon) hall_coefficients(conductivity_hall_tensor(...)) has R_xyz equal to hall_coefficient_metal_cubic.", "quantifier": "all Fermi surfaces, weights, cells and spin factors with cubic tensors", "why_tests_cant": "All Fermi surfaces.", "anchors": ["src/tight_binding_redweasel/bulk_properties.py: KIntegral.hall_coefficient_metal_cubic, KIntegral.conductivity_hall_tensor, hall_coefficients"]}
{"id": "C76", "title": "Transport coefficients are symmetric, positive and covariant", "statement": "transport_coefficients returns symmetric tensors for every moment, positive semidefinite ones for even moments with non-negative weights, they turn with the lattice vectors (L' = O L O^T), and L^(0) equals drude_factor and the rank 2 tensor of conductivity_hall_tensor; odd moments are not definite.", "quantifier": "all Fermi surfaces, weights, chemical potentials and rotations", "why_tests_cant": "All surfaces and moments.", "anchors": ["src/tight_binding_redweasel/bulk_properties.py: KIntegral.transport_coefficients, KIntegral.drude_factor, KIntegral.integrate_df_A"]}
{"id": "C77", "title": "Scattering times in conductivity_hall_tensor", "statement": "conductivity_hall_tensor multiplies the integrands by tau(k) and tau(k)^2 at each k point like transport_coefficients does; a constant tau cancels in the Hall coefficients.", "quantifier": "all numbers of points and scattering times", "why_tests_cant": "All callables.", "anchors": ["src/tight_binding_redweasel/bulk_properties.py: KIntegral.conductivity_hall_tensor"]}
{"id": "C78", "title": "Free electron Hessians", "statement": "FreeElectrons.bands_grad_hess returns for every returned band the Hessian of its parabola.", "quantifier": "all k, neighbors and limits", "why_tests_cant": "All limits.", "anchors": ["src/tight_binding_redweasel/bulk_properties.py: FreeElectrons.bands_grad_hess"]}
{"id": "C79", "title": "KIntegral has a value for every temperature", "statement": "KIntegral(...) succeeds for metals at all temperatures and for insulators at T = 0 and integrate_df returns one value for each temperature.", "quantifier": "all temperature lists, N and band gaps", "why_tests_cant": "All temperature lists.", "anchors": ["src/tight_binding_redweasel/bulk_properties.py: KIntegral.__init__, KIntegral.integrate_df"]}
{"id": "C80", "title": "The mass of a unit cell is the mass of its atoms", "statement": "The mass used by mass_density is the sum of the masses of the neutral atoms of the cell, independent of the order in which the atoms are listed; unknown symbols are rejected.", "quantifier": "all lists of element symbols, all tables of atomic masses", "why_tests_cant": "The error is in the fourth digit and differs between elements; a tolerance hides it. The list of atoms is unbounded.", "anchors": ["src/tight_binding_redweasel/qespresso_interface.py: _mass_per_cell l.392-395", "src/tight_binding_redweasel/qespresso_interface.py: element_masses, element_numbers l.78-79"]}
{"id": "C81", "title": "Wave functions are returned in the order of the k points", "statement": "read_wavefunctions returns k points, plane waves and coefficients in the order of the k index stored in the files (the order of read_bands_crystal), whatever order the directory lists the files in.", "quantifier": "all numbers of files and all orders of the directory listing", "why_tests_cant": "The order of os.listdir depends on the file system; a test sees one of n! orders.", "anchors": ["src/tight_binding_redweasel/qespresso_interface.py: read_wavefunctions l.709-790"]}
{"id": "C82", "title": "Symmetry.transform(B) conjugates every operation by B", "statement": "g.transform(B) returns a symmetry object of the same length and flags whose operations are exactly B s B^-1; it is a group when g is one, and for space groups (projective=True) the rotations are conjugated and the translations become B t.", "quantifier": "every symmetry object of integer matrices, every invertible B with integer conjugates, every dimension", "why_tests_cant": "No test calls transform; the statement ranges over all groups and basis changes.", "anchors": ["src/tight_binding_redweasel/symmetry.py: Symmetry.transform"]}
{"id": "C83", "title": "The dual group acts on reciprocal vectors and dual/transpose agree", "statement": "g.dual() consists of the inverse transposes, so that dual(s) k . s x = k . x for every pair of vectors; dual is an involution, the dual of a group is a group, and g.transpose() represents the same set of operations and keeps the flags.", "quantifier": "every symmetry object of unimodular integer matrices in every dimension", "why_tests_cant": "Ranges over all groups and all vectors; tests only look at orthogonal groups where dual is trivial.", "anchors": ["src/tight_binding_redweasel/symmetry.py: Symmetry.dual, Symmetry.transpose"]}
{"id": "C84", "title": "Symmetry.check() returns True exactly for groups", "statement": "g.check() returns True if and only if the set of represented operations (including the negatives when inversion is set) is closed under multiplication.", "quantifier": "every symmetry object without repeated operations and with fewer than 200 of them", "why_tests_cant": "The converse direction (no false positives) needs all inputs.", "anchors": ["src/tight_binding_redweasel/symmetry.py: Symmetry.check"]}
{"id": "C85", "title": "point_group() of a space group is the set of rotation parts", "statement": "For a space group g, g.point_group() is a group whose operations are exactly the linear parts of the operations of g, each once.", "quantifier": "every 3D space group given by affine integer operations", "why_tests_cant": "No test covers centred lattices or nonsymmorphic groups.", "anchors": ["src/tight_binding_redweasel/symmetry.py: Symmetry.point_group, Symmetry.ignore_translation"]}
{"id": "C86", "title": "strict_point_group() keeps the operations without translation", "statement": "For a space group g, g.strict_point_group() is a group whose operations are exactly the linear parts of the operations of g with zero translation, as a normalised Symmetry object equal to point_group() for groups without translations.", "quantifier": "every 3D space group given by affine integer operations", "why_tests_cant": "No test calls it.", "anchors": ["src/tight_binding_redweasel/symmetry.py: Symmetry.strict_point_group, Symmetry.remove_translation"]}
{"id": "C87", "title": "subgroup(f) returns the operations on which the invariant agrees with the identity", "statement": "g.subgroup(f) returns the group of all operations s represented by g with f(s) = f(identity) whenever those operations form a group.", "quantifier": "every group and every function of its operations", "why_tests_cant": "Ranges over arbitrary functions f and groups.", "anchors": ["src/tight_binding_redweasel/symmetry.py: Symmetry.subgroup"]}
{"id": "C88", "title": "The inversion flag of a projective symmetry adds the affine inversion", "statement": "Symmetry(S, inversion=True, projective=True) represents, besides each affine operation (R,t) of S, the operation (-R,t') composed with the inversion x -> -x.", "quantifier": "every list of affine operations", "why_tests_cant": "Tests never combine the two flags.", "anchors": ["src/tight_binding_redweasel/symmetry.py: Symmetry.__init__, Symmetry.S_full"]}
{"id": "C89", "title": "Symmetry.copy() is an equal, independent object", "statement": "g.copy() has the same operations in the same order, the same flags and dimension, and compares equal to g.", "quantifier": "every symmetry object", "why_tests_cant": "Ranges over all objects.", "anchors": ["src/tight_binding_redweasel/symmetry.py: Symmetry.copy"]}
{"id": "C90", "title": "g / h is the quotient of g by a normal subgroup", "statement": "For a normal subgroup h of g, g / h returns a group of order |g|/|h| with exactly one representative of each coset; for a subgroup that is not normal it raises.", "quantifier": "every pair of finite integer matrix groups", "why_tests_cant": "Tests divide only a few named groups; the search heuristic inside succeeds there by luck.", "anchors": ["src/tight_binding_redweasel/symmetry.py: Symmetry.__truediv__"]}
{"id": "C91", "title": "UnitaryRepresentation.symmetrize projects onto covariant hoppings", "statement": "If the neighbor list contains exactly one of r, -r and is closed under the group up to sign, symmetrize(H, neighbors) returns one matrix per neighbor; extended to the mirrored neighbors by the parities of the basis functions they satisfy H(S r) = U_S H(r) U_S^+ for every operation. Hoppings with this property are returned unchanged. A list that is not closed raises.", "quantifier": "every unitary representation of a finite group with inversion, every closed neighbor list and all hopping matrices", "why_tests_cant": "The claim ranges over all groups, lists and matrices; tests use one cubic example.", "anchors": ["src/tight_binding_redweasel/unitary_representations.py: UnitaryRepresentation.symmetrize"]}
{"id": "C92", "title": "The prepared symmetrizer equals symmetrize", "statement": "symmetrizer(neighbors)(H) and symmetrize(H, neighbors) return the same matrices for every neighbor list that symmetrize accepts.", "quantifier": "every unitary representation, closed neighbor list and list of matrices", "why_tests_cant": "The prepared function computes one neighbor per class and copies the others through overwritten dictionary entries; equality over all groups and lists is out of reach of samples.", "anchors": ["src/tight_binding_redweasel/unitary_representations.py: UnitaryRepresentation.symmetrizer"]}
{"id": "C93", "title": "symmetrize2 projects a matrix at k onto the matrices invariant under the little group", "statement": "symmetrize2 at a point k returns a matrix M with M = U_S M U_S^+ for every operation with S k = k, and M = P U_S M U_S^+ P (P the parities) for every operation with S k = -k when the inversion is included; a matrix with this property is returned unchanged.", "quantifier": "every unitary representation, point and matrix", "why_tests_cant": "Ranges over all points and groups.", "anchors": ["src/tight_binding_redweasel/unitary_representations.py: UnitaryRepresentation.symmetrize2"]}
{"id": "C94", "title": "realize_symmetric_matrices lists the star of a point with covariant matrices", "statement": "For a point k that is not zero and a matrix invariant under its little group, the returned points together with k are exactly the points S k (and -S k with inversion), each once, and the matrix at S k is U_S M U_S^+ (with the parities at -S k).", "quantifier": "every unitary representation, point and invariant matrix", "why_tests_cant": "The matrix kept for a point depends on the order of the operations; only the little group argument shows that the choice is irrelevant.", "anchors": ["src/tight_binding_redweasel/unitary_representations.py: UnitaryRepresentation.realize_symmetric_matrices"]}
{"id": "C95", "title": "permute reorders the basis and stays a unitary representation", "statement": "permute(order) with a permutation that keeps even functions before odd ones returns a unitary representation of the same group with U'_ij = U_order(i)order(j).", "quantifier": "every unitary representation and order accepted by permute", "why_tests_cant": "Ranges over all orders.", "anchors": ["src/tight_binding_redweasel/unitary_representations.py: UnitaryRepresentation.permute"]}
{"id": "C96", "title": "a * b is the tensor product of two representations", "statement": "The product of two representations of the same group is the representation by Kronecker products of the matrices.", "quantifier": "every pair of representations of one group", "why_tests_cant": "No test multiplies two representations.", "anchors": ["src/tight_binding_redweasel/unitary_representations.py: UnitaryRepresentation.__mul__"]}
{"id": "C97", "title": "check_symmetry decides whether an operator is symmetric", "statement": "check_symmetry(H) returns True exactly if U_S^+ H(S k) U_S does not depend on the operation S at its probe point, and True only if the operator is symmetric.", "quantifier": "every unitary representation and matrix valued function of k", "why_tests_cant": "The function itself samples one point.", "anchors": ["src/tight_binding_redweasel/unitary_representations.py: UnitaryRepresentation.check_symmetry"]}
{"id": "C98", "title": "The named cubic representations are representations of the cubic group", "statement": "o3, so3, o3ri, o3r, d3 and one_dim return unitary representations of the group of the 24 rotations that permute the axes up to sign: o3 and so3 act as vectors, o3ri and o3r as vectors times the sign of the axis permutation, d3 as the functions 3z^2-r^2 and sqrt(3)(x^2-y^2), one_dim trivially or by the sign; the split into even and odd functions is as requested.", "quantifier": "all 24 operations, every flag, over every ring with 1/2 and sqrt(3)", "why_tests_cant": "Generated from three generators in floating point; tests compare two matrices.", "anchors": ["src/tight_binding_redweasel/unitary_representations.py: UnitaryRepresentation.o3, so3, o3ri, o3r, d3, one_dim, from_generator"]}
{"id": "C99", "title": "Hall conductivity and inverse masses turn with the lattice vectors", "statement": "Replacing the lattice vectors by O A (O orthogonal) turns the inverse masses as O H O^T, the rank 3 tensor of conductivity_hall_tensor in every index with O, times det O, and hall_coefficients likewise.", "quantifier": "all orthogonal matrices, Fermi surfaces, weights and chemical potentials", "why_tests_cant": "All surfaces and rotations; a wrong index in the contraction is invisible for cubic crystals.", "anchors": ["src/tight_binding_redweasel/bulk_properties.py: KIntegral.integrate_df_A, KIntegral.conductivity_hall_tensor, hall_coefficients"]}
{"id": "C100", "title": "Band gradients are the derivatives of the bands", "statement": "For a k point where band i is not degenerate, the gradient returned by eigh_grad, geigh_grad and by the bands_grad methods, contracted with any direction v, is the derivative at t = 0 of the energy of that band along k + t v.", "quantifier": "all model sizes, parameters, k points, directions, bands and every continuous energy branch e(t); every solver that returns an eigenbasis", "why_tests_cant": "Tests compare finite differences at a few points; the claim holds for every model, direction and solver (phases and order of eigenvectors are free), with and without overlap matrix.", "anchors": ["src/tight_binding_redweasel/linalg.py: eigh_grad, geigh_grad, geigh", "src/tight_binding_redweasel/bandstructure.py: BandStructureModel.bands_grad", "src/tight_binding_redweasel/tight_binding_asym.py: AsymTightBindingModel.bands_grad"]}
{"id": "C101", "title": "Band Hessians are the second derivatives of the bands", "statement": "If the eigenvalues at k are separated by more than epsilon, the Hessian returned by eigh_grad_hess, bands_grad_hess and the perturbation sum is symmetric and gives the second order term of the band energy: (e(t) - e(0) - t g.v)/t^2 tends to v^T h v / 2 along every direction v.", "quantifier": "all model sizes, parameters, k points, directions and bands; every solver that returns an eigenbasis", "why_tests_cant": "A wrong factor in the second order sum only shows in the mixed directions of generic models; the limit is over all directions and models.", "anchors": ["src/tight_binding_redweasel/linalg.py: eigh_grad_hess", "src/tight_binding_redweasel/bandstructure.py: BandStructureModel.bands_grad_hess", "src/tight_binding_redweasel/tight_binding_asym.py: AsymTightBindingModel.bands_grad_hess"]}
{"id": "C102", "title": "Gradients and Hessians of all bands add up to the trace", "statement": "The gradients of all bands add up to the real part of the trace of dH, and the Hessians of all bands to that of ddH, degenerate eigenvalues included.", "quantifier": "all hermitian matrices and derivative matrices, all epsilon, every correct eigensolver", "why_tests_cant": "Holds at degenerate points too, where the single values depend on the solver, so tests cannot fix expected numbers.", "anchors": ["src/tight_binding_redweasel/linalg.py: eigh_grad, eigh_grad_hess"]}
{"id": "C103", "title": "The Hessian of degenerate bands is the second derivative", "statement": "At a k point with equal eigenvalues, eigh_grad_hess returns for every smooth energy branch the second order term of that branch.", "quantifier": "all matrices with two or more equal eigenvalues and all directions", "why_tests_cant": "Random models have no degenerate points, so random testing never gets there.", "anchors": ["src/tight_binding_redweasel/linalg.py: eigh_grad_hess"]}
{"id": "C104", "title": "Hessians of models with overlap", "statement": "bands_grad_hess of a model with overlap matrix S returns gradient and Hessian of the generalized eigenvalues: the gradients are those of bands_grad, the Hessian is the second order term.", "quantifier": "all models with overlap, k points, directions, non degenerate bands", "why_tests_cant": "The dependence of S on k has to be exercised together with an independent derivative.", "anchors": ["src/tight_binding_redweasel/tight_binding_asym.py: AsymTightBindingModel.bands_grad_hess, AsymTightBindingModel.bands_grad"]}
{"id": "C105", "title": "A single matrix gives the result of a batch of one", "statement": "geigh_grad and eigh_grad_hess accept a single matrix and return what they return for a batch that contains only this matrix.", "quantifier": "all matrices, derivatives and epsilon", "why_tests_cant": "The failing branch is chosen by a numerical comparison of the input.", "anchors": ["src/tight_binding_redweasel/linalg.py: geigh_grad, eigh_grad_hess"]}
{"id": "C106", "title": "TightBindingModel can be constructed for every representation", "statement": "TightBindingModel(unitary_repr, neighbors, params) returns a model for every unitary representation, neighbor list that starts with zero and is closed under the group, and parameter array of the right shape.", "quantifier": "all representations, neighbor lists and parameters", "why_tests_cant": "The class has no tests; whether any symmetric model can be built at all is a statement over all arguments.", "anchors": ["src/tight_binding_redweasel/tight_binding.py: TightBindingModel.__init__, TightBindingModel.normalize", "src/tight_binding_redweasel/unitary_representations.py: UnitaryRepresentation.symmetrizer"]}
{"id": "C107", "title": "TightBindingModel: matrix, derivatives and bands", "statement": "df and ddf are the first and second derivatives of f; f(0) is params[0]; f is hermitian for hermitian params and periodic for integer neighbors; bands_grad and bands_grad_hess give the first and second order of every non degenerate band.", "quantifier": "all parameters, neighbors, k points, directions and energy branches", "why_tests_cant": "Holds for all models, directions and eigensolvers; the index arithmetic of the sine parameters differs for every number of neighbors.", "anchors": ["src/tight_binding_redweasel/tight_binding.py: TightBindingModel.f_i, df_i, ddf_i, f, df, ddf, bands_grad, bands_grad_hess"]}
{"id": "C108", "title": "set_from_complex gives the model with these hoppings", "statement": "After set_from_complex(H_r), f(k) is the hermitian part of H_0 plus the sum of H_r e^(2 pi i k r) and its conjugate transpose, the same matrix as the asymmetric model with these neighbors and hoppings.", "quantifier": "all hopping lists, neighbors and k points", "why_tests_cant": "The shift of params[0] compensates cos - 1 for every number of neighbors and every k.", "anchors": ["src/tight_binding_redweasel/tight_binding.py: TightBindingModel.set_from_complex, TightBindingModel.f", "src/tight_binding_redweasel/tight_binding_asym.py: HermitianFourierSeries.f"]}
{"id": "C109", "title": "params_complex undoes set_from_complex", "statement": "params_complex returns the Fourier coefficients that set_from_complex was given.", "quantifier": "all hopping lists with hermitian H_0", "why_tests_cant": "The failure depends on the number of neighbors.", "anchors": ["src/tight_binding_redweasel/tight_binding.py: TightBindingModel.params_complex, TightBindingModel.set_from_complex"]}
{"id": "C110", "title": "One optimiser step with one sample", "statement": "One iteration of optimize with a single k point and learning rate 1 keeps the eigenvectors at that point and moves the fitted bands onto the reference energies.", "quantifier": "all models, k points, reference energies, windows and band weights", "why_tests_cant": "Exact for every model; a scale error of the step only slows the convergence, which a test of the final loss does not show.", "anchors": ["src/tight_binding_redweasel/tight_binding.py: TightBindingModel.optimize"]}
{"id": "C111", "title": "optimize follows the gradient of the loss", "statement": "Without pseudoinverse, the change of the parameters computed in one iteration of BandStructureModel.optimize is the negative gradient (up to a positive factor) of the sum of squared, weighted differences between the fitted bands and the reference, and to first order it does not increase the loss that is reported.", "quantifier": "all models, sample sets, windows of bands, weights and reference bands; non degenerate bands; every continuous branch of energies", "why_tests_cant": "Tests look at the loss after many iterations of some fits; a wrong factor or a missing weight only slows the convergence.", "anchors": ["src/tight_binding_redweasel/bandstructure.py: BandStructureModel.optimize, BandStructureModel.error"]}
{"id": "C112", "title": "optimize with the pseudoinverse is exact if there are enough parameters", "statement": "If the coefficients at the k samples are linearly independent, one iteration of BandStructureModel.optimize with use_pinv=True and learning rate 1 moves the fitted bands at every sample onto the reference energies and keeps the eigenvectors, whatever the band and sample weights are.", "quantifier": "all models, sample sets with independent coefficient vectors, windows, references, weights", "why_tests_cant": "An exact statement for every sample set; tests see the final loss only.", "anchors": ["src/tight_binding_redweasel/bandstructure.py: BandStructureModel.optimize"]}
{"id": "C113", "title": "The step of AsymTightBindingModel.optimize is normalised", "statement": "One iteration of AsymTightBindingModel.optimize with learning rate 1, with the pseudoinverse for independent samples or with a single sample, moves the band with the largest weight onto the reference, no band moves away from its reference, and the eigenvectors are kept.", "quantifier": "all models with and without overlap, k points, windows, weights, learning rates from 0 to 1", "why_tests_cant": "The normalisation factors (half R=0 term, number of neighbors minus 7/8, largest weight) have to fit together for every model.", "anchors": ["src/tight_binding_redweasel/tight_binding_asym.py: AsymTightBindingModel.optimize"]}
{"id": "C114", "title": "optimize_cg solves the linearised least squares problem", "statement": "The linear operator and the right side that optimize_cg gives to the conjugate gradient solver are symmetric and positive semidefinite, and the parameters computed from an exact solution minimise the weighted sum of squares of the bands linearised at the current parameters.", "quantifier": "all models, sample sets, windows, non negative weights and invertible preconditioners", "why_tests_cant": "A sign or factor error in operator or right side leaves a converging but different fit.", "anchors": ["src/tight_binding_redweasel/bandstructure.py: BandStructureModel.optimize_cg", "src/tight_binding_redweasel/tight_binding_asym.py: AsymTightBindingModel.optimize_cg", "src/tight_binding_redweasel/linalg.py: conjugate_gradient_solve"]}
{"id": "C115", "title": "normalize of BandStructureModel keeps the energies", "statement": "BandStructureModel.normalize without symmetrizer leaves the band energies at every k unchanged, makes params[0] diagonal and the entries next to the diagonal of params[1] real and not negative.", "quantifier": "all models with hermitian params[0], k points", "why_tests_cant": "All parameter arrays, including small entries and non hermitian hoppings.", "anchors": ["src/tight_binding_redweasel/bandstructure.py: BandStructureModel.normalize"]}
{"id": "C116", "title": "optimize respects keep_zeros and train_k0", "statement": "With keep_zeros=True any zeros in the parameters are kept by BandStructureModel.optimize, and with train_k0=False the Hamiltonian at k = 0 does not change.", "quantifier": "all models, sample sets, iteration counts", "why_tests_cant": "Holds for every entry and every number of iterations or is broken by the normalisation before and after the loop.", "anchors": ["src/tight_binding_redweasel/bandstructure.py: BandStructureModel.optimize, BandStructureModel.normalize"]}
{"id": "C117", "title": "init_from_ref reproduces the reference at k = 0", "statement": "The models created by BandStructureModel.init_from_ref, init_tight_binding_from_ref and AsymTightBindingModel.init_from_ref have at k = 0 the bands of the reference at k = 0, at the position band_offset, and add_bands further bands.", "quantifier": "all references, offsets, numbers of added bands and random matrices", "why_tests_cant": "The random matrices contribute at k = 0 unless the coefficient functions vanish there.", "anchors": ["src/tight_binding_redweasel/bandstructure.py: BandStructureModel.init_from_ref, BandStructureModel.init_tight_binding_from_ref", "src/tight_binding_redweasel/tight_binding_asym.py: AsymTightBindingModel.init_from_ref"]}
{"id": "C118", "title": "Symmetries read from Quantum ESPRESSO", "statement": "read_bands_crystal returns a symmetry group with one matrix for each operation of the XML file, whose point group acts on k in crystal coordinates as the contragredient of the rotations in the file: (R k)·(S n) = k·n for all k and n, and is closed if the rotations in the file are.", "quantifier": "all lists of unimodular integer rotations with integer or missing translations that begin with the identity", "why_tests_cant": "An example checks single operations; the relation between a rotation in the file and on k needs all pairs of vectors.", "anchors": ["src/tight_binding_redweasel/qespresso_interface.py: QECrystal.read_bands_crystal"]}
{"id": "C119", "title": "k points read in crystal coordinates", "statement": "read_bands_crystal returns k in crystal coordinates: k_file = B k, and k·n is the phase of the lattice vector A n, with A in the unit of the crystal; the coordinates lie in [0, 1[.", "quantifier": "all files with a non-singular reciprocal lattice", "why_tests_cant": "Real valued lattices and k points.", "anchors": ["src/tight_binding_redweasel/qespresso_interface.py: QECrystal.read_bands_crystal"]}
{"id": "C120", "title": "Energies of the readers", "statement": "Bands and Fermi energy of read_bands_crystal are in eV, an eigenvalue is below the Fermi energy exactly if it is in the file, and read_projections, which reads Rydberg, returns the same energies; alternating real and imaginary parts are read as complex numbers.", "quantifier": "all eigenvalues and Fermi energies", "why_tests_cant": "Both readers are only compared on complete Quantum ESPRESSO runs.", "anchors": ["src/tight_binding_redweasel/qespresso_interface.py: QECrystal.read_bands_crystal, QECrystal.read_projections"]}
{"id": "C121", "title": "from_disk returns the crystal that was written", "statement": "A crystal whose lattice, atoms in crystal coordinates, cutoff and smearing pw.x has written is returned by from_disk with the same lattice, positions, types, cutoff and temperature.", "quantifier": "all lattices, atoms, cutoffs and smearings", "why_tests_cant": "The test needs output of pw.x; the error appears in units only.", "anchors": ["src/tight_binding_redweasel/qespresso_interface.py: from_disk"]}
{"id": "C122", "title": "Wave functions read from wfc files", "statement": "read_wavefunctions returns for k points 1..N, whatever the order of the files in the directory, k in crystal coordinates, the Miller indices and evc[k][band][G][spin], the coefficient written for this band, plane wave and spinor component.", "quantifier": "all N, file orders, numbers of bands, plane waves and spinor components", "why_tests_cant": "Binary files of Quantum ESPRESSO are not part of the tests; directory order depends on the system.", "anchors": ["src/tight_binding_redweasel/qespresso_interface.py: QECrystal.read_wavefunctions"]}
{"id": "C123", "title": "Charge density read from charge-density.dat", "statement": "read_charge_density returns the integer vectors G and for each spin the coefficients of the density of these G.", "quantifier": "all files written by pw.x", "why_tests_cant": "Binary files of Quantum ESPRESSO are not part of the tests.", "anchors": ["src/tight_binding_redweasel/qespresso_interface.py: QECrystal.read_charge_density"]}
{"id": "C124", "title": "Wrapped lines of band files", "statement": "read_bandx_raw returns the k points and bands of a file for every way to break the numbers into lines, and raises exactly if the number of values is not a multiple of 3 + band count.", "quantifier": "all numbers of bands and k points and all line breaks", "why_tests_cant": "The number of values in a line depends on the version of bands.x.", "anchors": ["src/tight_binding_redweasel/qespresso_interface.py: QECrystal.read_bandx_raw"]}
{"id": "C125", "title": "Breaks in plotted bands", "statement": "plot_bands draws all points in their order, inserts a break exactly between two consecutive points where x does not grow, and x grows strictly inside each drawn line.", "quantifier": "all lists of points", "why_tests_cant": "All positions and numbers of breaks, including consecutive ones; inserting moves the indices.", "anchors": ["src/tight_binding_redweasel/qespresso_interface.py: QECrystal.plot_bands"]}
{"id": "C126", "title": "Names of projected orbitals", "statement": "read_projections_order_spilling lists for every atom the keys that are neither charges nor sums over a shell, in the order of the file and with the name of the type of the atom.", "quantifier": "all lists of atoms and keys", "why_tests_cant": "Needs output of projwfc.x for several atoms.", "anchors": ["src/tight_binding_redweasel/qespresso_interface.py: QECrystal.read_projections_order_spilling"]}
{"id": "C127", "title": "Input cards can be read back", "statement": "The cards of _crystal, the blocks of crystal_wannier and the cards of k_points and k_grid, read by the rules of pw.x and wannier90, give the unit, the lattice vectors, each species with its mass and pseudopotential, the atoms with their positions, and the k points with weight 1; an unknown element or missing pseudopotential raises.", "quantifier": "all lattices, atoms, species orders and k points", "why_tests_cant": "The set of species has no fixed order; the lattice is transposed when written.", "anchors": ["src/tight_binding_redweasel/qespresso_interface.py: QECrystal._crystal, QECrystal.crystal_wannier, k_points, k_grid"]}
{"id": "C128", "title": "k grid for wannier90", "statement": "prepare_wannier writes each point of the g×g×g grid exactly once, in the order of the automatic grid of pw.x, which the energies of the preceding run have; the inferred g satisfies g³ = number of k points, otherwise it raises.", "quantifier": "all g and numbers of k points", "why_tests_cant": "Symmetric models give the same energies for exchanged coordinates.", "anchors": ["src/tight_binding_redweasel/qespresso_interface.py: QECrystal.prepare_wannier"]}
{"id": "C129", "title": "Printed orbitals", "statement": "print_orbitals prints exactly the orbitals with |amplitude|² not below the threshold, each once, in descending order.", "quantifier": "all amplitudes, thresholds and results of argsort", "why_tests_cant": "Ties and equality with the threshold.", "anchors": ["src/tight_binding_redweasel/qespresso_interface.py: print_orbitals"]}
{"id": "C130", "title": "Lattice points in a sphere", "statement": "lattice_in_sphere(A, dist) returns exactly the lattice points A z (z integer) with |A z| < dist, each once; the intended shortening of the lattice basis is not part of what it achieves (it can make the basis longer).", "quantifier": "all invertible matrices of any dimension, all radii, all valid results of qr and svd, any rounding to a nearest integer", "why_tests_cant": "Whether the searched integer box always contains the sphere depends on the shape of the cell; tests see a few cells.", "anchors": ["src/tight_binding_redweasel/linalg.py: lattice_in_sphere"]}
{"id": "C131", "title": "Change of coordinates of a model", "statement": "AsymTightBindingModel.transform(A) changes the Hamiltonian to H(Aᵀk): values, energies, gradients (A·∇H) and second derivatives (A ∇∇H Aᵀ) follow the chain rule, and with the lattice vectors as columns of A the new model at the reciprocal vector B q equals the old one at crystal coordinates q. HermitianFourierSeries.unit_matrix is defined exactly if the first neighbor is 0 and is the identity at every k.", "quantifier": "all models, matrices (also singular), k points and dimensions", "why_tests_cant": "A transposed A is invisible for the symmetric (often diagonal) cells used in tests.", "anchors": ["src/tight_binding_redweasel/tight_binding_asym.py: transform", "src/tight_binding_redweasel/tight_binding_asym.py: unit_matrix"]}
{"id": "C132", "title": "Free electron model", "statement": "With bands_per_direction = 1, the band of free_electron_model_orthogonal(a, b, c, n, 1) tends to |k|² at every k of the first Brillouin zone (boundary included) with an error of order 1/n, and its second derivative tends to that of |k|².", "quantifier": "all a, b, c > 0, all k in the first Brillouin zone, all neighbor counts", "why_tests_cant": "Convergence of a Fourier series; every test uses one cut-off.", "anchors": ["src/tight_binding_redweasel/tight_binding_asym.py: free_electron_model_orthogonal"]}
{"id": "C133", "title": "Appended orbitals transform like the functions they are named after", "statement": "append adds one block with the given position, whose matrices are those of the representation in the order of the operations of the symmetry, and raises ValueError for positions of another dimension and for mixed inversion behavior. append_s adds one function that is unchanged by every operation and by inversion; append_p the coordinates; append_d2 the functions 2z²−x²−y² and √3(x²−y²); append_d3 the functions yz, xz, xy: evaluating the functions at the transformed point equals applying the stored matrix to the functions at the point.", "quantifier": "all symmetries of integer operations that the method accepts, all positions, all points", "why_tests_cant": "Every group and every point; a test looks at a few energies of a fitted model, where a wrong representation shows up as a worse fit only.", "anchors": ["src/tight_binding_redweasel/hamiltonian_symmetry.py: append, append_s, append_p, append_d2, append_d3"]}
{"id": "C134", "title": "Diamond orbitals are the orbitals of two exchanged sites", "statement": "append_diamond_s, append_diamond_p and append_diamond_d3 describe, in a suitable basis, two copies of the orbital on two sites that are exchanged by exactly those operations (inversion included) that do not keep the tetrahedron of neighbors of a site.", "quantifier": "all symmetries of signed axis permutations, with and without inversion", "why_tests_cant": "The existence of a common basis for all operations of every group.", "anchors": ["src/tight_binding_redweasel/hamiltonian_symmetry.py: append_diamond_s, append_diamond_p, append_diamond_d3"]}
{"id": "C135", "title": "apply transforms the operator by one symmetry operation", "statement": "apply returns U H U⁺ with the phases exp(2πik(1+S)(r1−r2)) of the class comment; the result is hermitian if H is; the identity operation returns H unchanged.", "quantifier": "all symmetries, blocks, positions, wave vectors and matrices", "why_tests_cant": "All matrices and wave vectors; the tests do not call apply.", "anchors": ["src/tight_binding_redweasel/hamiltonian_symmetry.py: apply"]}
{"id": "C136", "title": "The named points of the cubic zones are special points of the Brillouin zone", "statement": "Every entry of the table of symmetry points belongs to the Brillouin zone of the simple, face centered or body centered cubic lattice it is named for, as its center, the center of a face, the point of an edge nearest to the center, or a corner; the segments of SC_PATH, FCC_PATH, BCC_PATH and DIAMOND_PATH never leave the zone.", "quantifier": "all entries, all points of all segments, all reciprocal lattice vectors", "why_tests_cant": "The zone is the intersection of infinitely many half spaces; the paths are continua.", "anchors": ["src/tight_binding_redweasel/kpaths.py: points, SC_PATH, FCC_PATH, BCC_PATH, DIAMOND_PATH", "src/tight_binding_redweasel/qespresso_interface.py: simple_cubic, face_centered_cubic, body_centered_cubic"]}
{"id": "C137", "title": "tetragonal_bc_points gives special points of the Brillouin zone", "statement": "For every ratio c the points of tetragonal_bc_points(c) are in the Brillouin zone of the body centered tetragonal lattice (1, 1, c), as center, centers of faces, points of edges nearest to the center or in their middle, or corners.", "quantifier": "all positive c other than 1, on both sides of the change of shape", "why_tests_cant": "A continuum of lattices, each with infinitely many half spaces.", "anchors": ["src/tight_binding_redweasel/kpaths.py: tetragonal_bc_points, _hsp", "src/tight_binding_redweasel/qespresso_interface.py: tetragonal_body_centered"]}
{"id": "C138", "title": "trigonal_points gives special points of the Brillouin zone", "statement": "For every angle the points of trigonal_points(alpha) are in the Brillouin zone of the lattice rhombohedral(1, alpha), as center, centers of faces, points of edges nearest to the center or in their middle, or corners; with mirror_x the same holds for the lattice with x and y exchanged.", "quantifier": "all angles between 0 and 120 degrees, on both sides of 90 degrees", "why_tests_cant": "A continuum of lattices with two shapes of the zone.", "anchors": ["src/tight_binding_redweasel/kpaths.py: trigonal_points, _hsp", "src/tight_binding_redweasel/qespresso_interface.py: rhombohedral"]}
{"id": "C139", "title": "hexagonal_points gives special points of the Brillouin zone", "statement": "The points of hexagonal_points(r, h) are in the Brillouin zone of the hexagonal lattice whose reciprocal lattice has the distance r between neighbors in the plane and the height h, as center, centers of faces, points of edges nearest to the center or in their middle, or corners.", "quantifier": "all hexagonal lattices", "why_tests_cant": "A continuum of lattices; the tests use one lattice.", "anchors": ["src/tight_binding_redweasel/kpaths.py: hexagonal_points", "src/tight_binding_redweasel/qespresso_interface.py: hexagonal"]}
{"id": "C140", "title": "Chemical potentials of a list of temperatures", "statement": "For sorted temperatures chemical_potential returns one value per temperature, fermi_energy for every T <= 0. For every T > 0 the value solves the equation electrons = integral of states(e) * (-df/de)(e - x) up to the interpolation of states at N samples adapted to T and the tails of the Fermi function; evaluating many temperatures in one call only changes it slightly.", "quantifier": "all densities of states with sorted band ranges, all numbers of electrons with an existing Fermi energy, all lists of temperatures", "why_tests_cant": "Quantifies over all densities of states and over lists of any length; the samples of an early temperature are kept along any chain of close temperatures, which only long and finely spaced lists show.", "anchors": ["src/tight_binding_redweasel/density_of_states.py: DensityOfStates.chemical_potential, _samples, convolve_df, secant"]}
{"id": "C141", "title": "seebeck is the temperature derivative of the chemical potential", "statement": "For any list of temperatures, in any order, seebeck returns at every T > 0 the central difference (mu(T+h) - mu(T-h))/(2h), which converges to the derivative of the chemical potential for h -> 0, and 0 at T = 0.", "quantifier": "all lists of temperatures, all h smaller than the positive ones, all chemical potentials differentiable in T", "why_tests_cant": "Limits, and the index bookkeeping for every pattern of zero and positive temperatures.", "anchors": ["src/tight_binding_redweasel/density_of_states.py: DensityOfStates.seebeck"]}
{"id": "C142", "title": "k_resolved_density is the derivative of the smeared states of every cell", "statement": "At T = 0 k_resolved_density is the sum of the derivatives of the cell volumes of all bands. At T > 0 it is the derivative with respect to mu of the number of states of the cell, interpolated at N samples, smeared with the derivative of the Fermi function; in particular it is not negative for a volume that grows with the energy.", "quantifier": "all cell volume functions, all mu inside of the energy range, all T >= 0, all N >= 4", "why_tests_cant": "Arbitrary real functions; the deviation decays exponentially with the distance from the end of the band structure.", "anchors": ["src/tight_binding_redweasel/density_of_states.py: DensityOfStates.k_resolved_density, convolve_ddf, _samples"]}
{"id": "C143", "title": "o2 and cyclic are the groups of n turns", "statement": "For every count n >= 1, Symmetry.o2(n) and Symmetry.cyclic(n, inversion) are groups of n pairwise different operations (2n in total with inversion); operation i turns every point by the angle -2 pi i / n around the origin (around the z-axis). o2(n) contains the inversion, as its docstring says. The operations of o2(n) map some lattice of the plane onto itself exactly for n in {1, 2, 3, 4, 6}, the counts named in the docstring.", "quantifier": "all counts n >= 1, both inversion flags, all points, all lattices of the plane", "why_tests_cant": "Unbounded family of counts, all lattices of the plane (the crystallographic restriction).", "anchors": ["src/tight_binding_redweasel/symmetry.py: Symmetry.o2, Symmetry.cyclic, Symmetry.__init__"]}
{"id": "C144", "title": "dihedral is the group of n turns and n mirrors", "statement": "For every count n >= 1, Symmetry.dihedral(n, inversion) is a group with 2n operations (4n with inversion): the turns by -2 pi i/n around the z-axis and their products with the mirror x -> -x.", "quantifier": "all counts n >= 1, both inversion flags", "why_tests_cant": "Unbounded family of counts and the generated group has to be known for each of them.", "anchors": ["src/tight_binding_redweasel/symmetry.py: Symmetry.dihedral, Symmetry.mirror_x, Symmetry.__mul__, Symmetry.from_generator"]}
{"id": "C145", "title": "icosahedral is the symmetry group of an icosahedron on the z-axis", "statement": "Symmetry.icosahedral(inversion) is a group of order 60 (120 with inversion). All its 60 stored operations are rotations, they map the 12 vertices of a regular icosahedron with two vertices on the z-axis onto each other, every vertex is the image of (0, 0, 1), and the top off-axis vertex lies towards the x-axis.", "quantifier": "all operations of the group, all vertices, both inversion flags, exact real arithmetic", "why_tests_cant": "Irrational entries: tests only see rounded matrices compared up to tolerances; orders and closure hold exactly only over the reals.", "anchors": ["src/tight_binding_redweasel/symmetry.py: Symmetry.icosahedral, Symmetry.transform, Symmetry.__mul__"]}
{"id": "C146", "title": "SlaterKoster.parameters finds the independent parameters and set_parameter sets them", "statement": "For a SlaterKoster model, every tuple (k, i, j, fac) of parameters() names an entry in the upper triangle that symmetrisation can make nonzero, and every independent symmetric entry has a tuple. After set_parameter(tuple, v) the entry (k, i, j) of the parameters is v for every value, no matter how often it is called, and the parameters have the symmetry. The sliders of interactive_widget give the sum of the symmetrised unit parameters with the weights value/fac.", "quantifier": "all Hamiltonian symmetries with unitary representations, all neighbor lists, all tuples, values and previous symmetric parameters", "why_tests_cant": "The set of symmetries, representations and neighbor lists is infinite; the class is not covered by any test, and a single call on zero parameters hides the wrong update rule.", "anchors": ["src/tight_binding_redweasel/slater_koster.py: SlaterKoster.parameters, SlaterKoster.set_parameter, SlaterKoster.interactive_widget", "src/tight_binding_redweasel/hamiltonian_symmetry.py: HamiltonianSymmetry.symmetrizer, HamiltonianSymmetry.get_band_name"]}
{"id": "C147", "title": "SlaterKosterOriginal gives the Hermitian cubic s, p, d matrix of the paper", "statement": "SlaterKosterOriginal(...).f(k) and SlaterKosterOriginal.fcc(...).f(k) return the 9 x 9 matrix of a cubic crystal: it is Hermitian, f(-k) is the complex conjugate of f(k), and under every permutation of the axes with sign changes the s, p, t2g and e_g orbitals transform as their representations, so that for example the two e_g energies agree at k = 0.", "quantifier": "all k, all real parameters, all 48 operations of the cubic group", "why_tests_cant": "The symmetry has to hold for all wavevectors and all 54 parameters; a test with a few parameters misses wrong signs of single terms.", "anchors": ["src/tight_binding_redweasel/slater_koster.py: SlaterKosterOriginal.__init__, SlaterKosterOriginal.fcc, SlaterKosterOriginal.f"]}
{"id": "C148", "title": "realize_symmetric_data averages the data over equivalent samples", "statement": "Symmetry.realize_symmetric_data(k_smpl, data, unit_cell, average_bad_duplicates=True) returns points without repetition, inside [-0.5, 0.5[ if unit_cell is set, that contain every image of every sample. The value at a point is the mean of the data over exactly those samples that have this point as an image, each counted once. Points that are images of each other under the group get the same value.", "quantifier": "all symmetry objects with the identity, all lists of rational samples, all real data, with and without unit_cell", "why_tests_cant": "Which samples are merged depends on coincidences modulo the lattice between images of different samples; tests use samples without such coincidences.", "anchors": ["src/tight_binding_redweasel/symmetry.py: Symmetry.realize_symmetric, Symmetry.realize_symmetric_data"]}
{"id": "C149", "title": "interpolate reproduces the data and is periodic", "statement": "interpolate(k_smpl, bands, sym, periodic=True, grid) for samples that fill a rectilinear grid, given in any order, returns a function that has the data at every sample and at its periodic images, is defined for every k, and is periodic. The data is wrapped to the unit cell [-0.5, 0.5]. With a symmetry the value at an image of a sample is the mean of the data of the equivalent samples. With periodic=False it has the data at the samples and raises outside of the range of the samples.", "quantifier": "all product grids of 1, 2 or 3 axes, all orders of the samples, all data, all wavevectors, every interpolator that is exact at the nodes", "why_tests_cant": "The function must be defined on the whole space for every grid; a test evaluates a few wavevectors of one grid, which do not fall into the gap of an unwrapped grid.", "anchors": ["src/tight_binding_redweasel/kpaths.py: interpolate", "src/tight_binding_redweasel/symmetry.py: Symmetry.realize_symmetric_data"]}
{"id": "C150", "title": "HamiltonianSymmetry.realize_symmetric returns every image once with a covariant matrix", "statement": "realize_symmetric(k_smpl, hamiltonian) returns the samples and all their images under the operations (and inversion), sorted by the coordinates, with the index of the source sample. Every image of a sample occurs once per sample, and if no two samples are equivalent no point occurs twice. The matrices of the points of one sample satisfy H(g k) = U_g H(k) U_g^+ for every operation g, if the matrix of every sample respects the operations that keep its point.", "quantifier": "all groups of integer matrices, all lists of samples, all unitary representations on the blocks, all matrices", "why_tests_cant": "The choice of the operation must not matter for any group, point and little group; a test compares a few points of one crystal, and the sign of an odd orbital is invisible with s orbitals.", "anchors": ["src/tight_binding_redweasel/hamiltonian_symmetry.py: HamiltonianSymmetry.realize_symmetric", "src/tight_binding_redweasel/hamiltonian_symmetry.py: HamiltonianSymmetry.apply"]}
{"id": "C151", "title": "BandStructureModel.transform gives f'(k) = f(A^T k) and changes nothing else", "statement": "m.transform(A) multiplies the neighbors by A, so the transformed model has f'(k) = f(A^T k), and its derivative in direction e_a is the derivative of f at A^T k along the row a of A; the Hessian is transformed the same way in both indices. Other models, including those made from m by arithmetic, keep their values.", "quantifier": "all models with parameters, all real matrices A, all k, all pairs of models", "why_tests_cant": "A test transforms one model without operations and looks at that model; the operations that do not commute with A and the array shared with m * c are invisible there.", "anchors": ["src/tight_binding_redweasel/bandstructure.py: BandStructureModel.transform", "src/tight_binding_redweasel/bandstructure.py: BandStructureModel.copy"]}
{"id": "C152", "title": "electron_phonon_coupling is the band overlap times the difference of velocities", "statement": "electron_phonon_coupling(k_smpl, k1, k2) returns the bands, their gradients v and g[a,b,n,i,j] = (v_n,i(k1_a) - v_n,j(k2_b)) <psi_i(k1_a)|psi_j(k2_b)>. Exchanging k1 and k2 gives minus the conjugate, g vanishes between equal points, v is the derivative of the band, and v and |g|^2 do not depend on the choice of the eigenvectors.", "quantifier": "all models, all lists of points and index lists, all eigenvector bases returned by the solver", "why_tests_cant": "The invariance is about every choice of phases of the eigenvectors; a run sees the choice of one LAPACK build, and degenerate bands are avoided by generic points.", "anchors": ["src/tight_binding_redweasel/bandstructure.py: BandStructureModel.electron_phonon_coupling"]}
{"id": "C153", "title": "BandStructureModel.supercell returns a model of the larger cell", "statement": "For a model with neighbors and without symmetry, and for A_new = A_original L with an integer matrix L that is not singular, supercell(A_original, A_new) returns a BandStructureModel.", "quantifier": "all models, all matrices", "why_tests_cant": "The repository has no test that calls it; one call would show the error but not that no argument avoids it.", "anchors": ["src/tight_binding_redweasel/bandstructure.py: BandStructureModel.supercell"]}
{"id": "C154", "title": "interpolate_unstructured returns the row of the nearest sample or image, else NaN", "statement": "interpolate_unstructured(k_smpl, bands, sym, max_error) returns a function of a list of points. At every point the result is the row of bands of a sample one of whose images under sym is nearest to the point and closer than max_error, and a row of NaN if no image of a sample is closer than max_error. At a sample the result is its own row; if no two samples are equivalent, the result at every image of a sample is the row of this sample.", "quantifier": "all groups of integer matrices or none, all lists of samples and rows, all lists of points, all max_error > 0, every nearest neighbor search", "why_tests_cant": "Which of several equal points survives the sort and the removal of duplicates depends on the group, the samples and their order; a test sees a few lists.", "anchors": ["src/tight_binding_redweasel/kpaths.py: interpolate_unstructured", "src/tight_binding_redweasel/symmetry.py: Symmetry.realize_symmetric_data"]}
{"id": "C155", "title": "naive_energy is the mean over k of the occupied band energies", "statement": "naive_energy(bands, mu, T, spin_factor) = spin_factor / N_k * sum over k and bands of e f((e - mu) / (k_B T)), with the states up to mu for T = 0. A shift of bands and mu by c adds c per electron, the energy minus mu times the number of electrons never falls with T, and T = 0 is the limit of small T.", "quantifier": "all tables of bands, all mu, all T >= 0, all spin factors", "why_tests_cant": "The monotony and the limit are statements about all temperatures and all bands; a test with generic energies never has a band at mu.", "anchors": ["src/tight_binding_redweasel/density_of_states.py: naive_energy"]}
{"id": "C156", "title": "TightBindingModel.init_from_ref is correct at k = 0", "statement": "init_from_ref assigns the band energies of the data at k = 0 to the symmetric subspaces of the representation: different energies to different subspaces, every energy to a whole subspace, the bands that are left to 0.01 below the lowest energy. Every energy of the data occurs among the bands of the model at k = 0 at least as often as in the data. The matrix of the returned model at k = 0 is the diagonal matrix of the assigned energies.", "quantifier": "all representations, all lists of energies at k = 0, all orders of set and shuffle", "why_tests_cant": "The assignment is greedy and shuffled at random; a wrong multiplicity appears for special combinations of subspace sizes and degeneracies only.", "anchors": ["src/tight_binding_redweasel/tight_binding.py: TightBindingModel.init_from_ref"]}
{"id": "C157", "title": "UnitaryRepresentation.subspaces returns the blocks of the representation", "statement": "If subspaces() returns, the groups are a partition of the basis, two basis vectors are in one group exactly if some operation has a nonzero matrix element between them, and a diagonal matrix that is constant on the groups commutes with all operations. It returns whenever the nonzero matrix elements are an equivalence relation.", "quantifier": "all lists of complex matrices with a nonzero diagonal, as every list with the identity", "why_tests_cant": "The check of the code compares counts of equal rows and sums; that this is equivalent to a block structure is a statement about all tables.", "anchors": ["src/tight_binding_redweasel/unitary_representations.py: UnitaryRepresentation.subspaces"]}
{"id": "C158", "title": "BandStructureModel: load after save gives the same Hamiltonian", "statement": "For a model m created by init_tight_binding, BandStructureModel.load(name) after m.save(name) succeeds and the loaded model has the same Hamiltonian f(k) at every k (JSON: up to real and imaginary parts below 1e-14), for every symmetry, dimension, file format accepted by save and choice of cos_reduced and exp.", "quantifier": "all models in normalized form, all k, all file names and format arguments, all values of cos_reduced and exp given to load", "why_tests_cant": "The identity holds for real valued matrices at all k and for all combinations of storage conventions; the cases where it fails depend on the symmetry, the dimension and the format.", "anchors": ["src/tight_binding_redweasel/bandstructure.py:594-653", "src/tight_binding_redweasel/bandstructure.py:655-753", "src/tight_binding_redweasel/json_tb_format.py:9-36", "src/tight_binding_redweasel/symmetry.py:292-301"]}
{"id": "C159", "title": "AsymTightBindingModel: load after save gives the same bands", "statement": "AsymTightBindingModel.load after AsymTightBindingModel.save returns a model with the same neighbors and matrices (parts below 1e-14 set to 0, sorted by length), hence the same Hamiltonian and the same generalized eigenvalues. A python file written by BandStructureModel.save for a model without symmetry is read with the same Hamiltonian; files with a larger symmetry are rejected with a ValueError.", "quantifier": "all models with the neighbor 0 first and all k", "why_tests_cant": "Universally quantified over real valued models and k; a test with the default overlap cannot see that the overlap is lost.", "anchors": ["src/tight_binding_redweasel/tight_binding_asym.py:251-307", "src/tight_binding_redweasel/json_tb_format.py:9-36"]}
{"id": "C160", "title": "The integration points of KIntegral are Gauss points", "statement": "_integration_points(fermi_energy, T_min, T_max, N) with odd N returns N different real energies in ascending order. Together with the weights of _integration_weights at the Fermi energy they integrate every polynomial of degree below 2 N exactly against -df/dE at T_max, and these weights are positive.", "quantifier": "all odd N, all temperatures 0 < T_min <= T_max, all Fermi energies, all polynomials", "why_tests_cant": "The zeros come from a QR decomposition of a badly conditioned matrix; that they are real and simple for every N, and that the rule is exact to twice the order, is a statement about all N and all polynomials.", "anchors": ["src/tight_binding_redweasel/bulk_properties.py: _integration_points", "src/tight_binding_redweasel/bulk_properties.py: _integration_weights"]}
{"id": "C161", "title": "k_path_wannier writes every segment of a KPath", "statement": "For a three-dimensional KPath, QECrystal.k_path_wannier(kpath, A_norm) has between its first and its last line exactly one line for each call of to(). Each line has eight words: name and crystal coordinates of the start and of the end of the segment, where the crystal coordinates are those with respect to the reciprocal basis of the lattice vectors in the columns of A_norm.", "quantifier": "all paths, all invertible lattices, all names", "why_tests_cant": "Any number of calls with any number of samples each; the points have to be found again by their indices.", "anchors": ["src/tight_binding_redweasel/qespresso_interface.py: QECrystal.k_path_wannier", "src/tight_binding_redweasel/kpaths.py: KPath.to"]}
{"id": "C162", "title": "str(KPath) lists the points of the path", "statement": "str(kpath) of a three-dimensional KPath is a card K_POINTS {tpiba_b} with one line per sample, and read by pw.x with the cells sc(a), fcc(a) or bcc(a) the lines are the points of the path, which are given in units of 2 pi / a.", "quantifier": "all paths, all cubic lattices", "why_tests_cant": "The text has to agree with the units of another program, for every point and lattice.", "anchors": ["src/tight_binding_redweasel/kpaths.py: KPath.__str__"]}
{"id": "C163", "title": "Electron count and cutoff from the pseudo potentials", "statement": "read_valence_electrons() returns n exactly if every atom type has a readable pseudo potential file with an integer z_valence and n is the sum of z_valence over all atoms of the cell. It does not depend on the order of the atoms and is additive for two parts of the cell. set_cutoff_from_pseudopotentials() sets the largest wfc_cutoff of the types that occur, and raises without atoms.", "quantifier": "all lists of atom types, all tables of files", "why_tests_cant": "All cells with repeated types in every order.", "anchors": ["src/tight_binding_redweasel/qespresso_interface.py: QECrystal.read_valence_electrons", "src/tight_binding_redweasel/qespresso_interface.py: QECrystal.set_cutoff_from_pseudopotentials"]}
{"id": "C164", "title": "full_curve at a temperature returns increasing energies, a monotone number of states and the density that belongs to it", "statement": "For a DensityOfStates with at least one band, N >= 2 and T > 0, full_curve(N, T) returns three arrays of the same length. The energies increase strictly, contain all samples of full_curve(N), begin 5 k_B T below the lowest band and end 5 k_B T above the highest. The states are the sampled states at T = 0, interpolated linearly and convolved with the negative derivative of the Fermi function; they never decrease, lie between 0 and the number of bands, and come within 1/(1+e^5) of both relative to the number of bands (at the lower end plus the flat bands that begin there). The density is the convolution of the sampled densities over the range of the bands, is not negative, and is the derivative of the states, so that it adds up to their increase. Without bands full_curve gives empty arrays at T = 0 and raises an IndexError at any other temperature.", "quantifier": "all lists of bands with monotone volumes and non-negative derivatives, all N >= 2, all T > 0", "why_tests_cant": "The values are improper integrals over a piecewise function for every temperature and every arrangement of overlapping and touching bands; tests see a few curves and cannot compare with the integral.", "anchors": ["src/tight_binding_redweasel/density_of_states.py: DensityOfStates.full_curve", "src/tight_binding_redweasel/density_of_states.py: convolve_df"]}
{"id": "C165", "title": "heat_capacity is the integral of the interpolated density, up to a stated error, and its dependence on the zero of energy", "statement": "For T > 0, N >= 4 and a chemical potential mu inside the range of the bands, heat_capacity(electrons, T, N, spin_factor, h) differs from spin_factor / T times the integral of rho(e) e (e - mu + s) (-df/de) by at most spin_factor / T * D * W^2 / 8. Here s is T times the central difference of the chemical potential, rho is the linear interpolation of the density at N increasing energies that contain mu and reach 30 k_B T or to the ends of the bands, D is the largest difference of two neighboring densities and W the largest distance of two neighboring energies. If all energies and the chemical potential are shifted by c, the result changes by exactly c * spin_factor / T times the integral J of rho(e) (e - mu + s) (-df/de). If J = 0, which says that the number of electrons stays constant, the integral is not negative. For T <= 0 the result is 0.", "quantifier": "all lists of bands, all T, all N >= 4, all values of the chemical potential at the three temperatures, all spin factors and steps h", "why_tests_cant": "The error bound and the exact law for the shift are statements about all densities and all temperatures; a test compares a few numbers with a tolerance.", "anchors": ["src/tight_binding_redweasel/density_of_states.py: DensityOfStates.heat_capacity", "src/tight_binding_redweasel/density_of_states.py: _samples"]}
{"id": "C166", "title": "autofit_asym writes one checkpoint series per neighbor and supports additional bands", "statement": "autofit_asym(name, neighbors_src, ..., start_neighbors_count, add_bands_below, add_bands_above, randomize, restarts) begins with the first restart of least loss, completes the first start_neighbors_count + 1 neighbors together, and writes asym_{name}_start.json. Then it fits with n neighbors of the list for every n from start_neighbors_count + 1 to the length of the list and writes asym_{name}_{n}.json after every round, 10 rounds with randomize and 1 without. The neighbors of the file n are the completed first ones followed by the completion of each further one. Every file continues the coefficients of the file before, with zero matrices for new neighbors, and the result is the last file. This holds for every number of additional bands, for a list of which all neighbors are used from the beginning, and for a list that names equivalent neighbors twice.", "quantifier": "all symmetries, all lists of neighbors, all numbers of restarts and bands, all results of the numerical fits", "why_tests_cant": "The fit takes minutes and random numbers; a test runs one list with one symmetry and can hardly reach every exit of the loop.", "anchors": ["src/tight_binding_redweasel/tight_binding_asym.py: autofit_asym", "src/tight_binding_redweasel/tight_binding_asym.py: HermitianFourierSeries.add_neighbors"]}
