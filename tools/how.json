{
 "C01": [
  "`from_generator` as rounds that append every new pairwise product, over an operation type with decidable equality (SymModel)",
  "loop invariant: the list only grows; at the exit round no product is new, hence closure"
 ],
 "C02": [
  "same",
  "invariant: every element is a word in the generators; both inclusions"
 ],
 "C03": [
  "same, with fuel; the fuel result is an explicit constructor",
  "growth by at least one per round forces either a fixpoint or 200 operations; equivalence with the size of the generated monoid"
 ],
 "C04": [
  "same with the determinant test of the constructor; determinant is the Laplace expansion",
  "pigeonhole on powers; adjugate in every dimension via the mathcomp determinant (DetMC.v)"
 ],
 "C05": [
  "named constructors as integer matrix lists, mirrors/none/inv with symbolic dimension",
  "complete computation for the fixed groups, induction for every dimension; the members by enumerating the 216 matrices with unit rows"
 ],
 "C06": [
  "`__init__` case split, `__len__`, `get_symmetry_operations`",
  "list reasoning; witness in even dimension"
 ],
 "C07": [
  "`__eq__` through the model of `pointcloud_distance`",
  "zero-distance analysis; witnesses; soundness and completeness on normal objects"
 ],
 "C08": [
  "first match in a list",
  "induction on the list"
 ],
 "C09": [
  "`realize_symmetric`, half-space filter, stable sort",
  "orbit invariants, the sort is a permutation; witness"
 ],
 "C10": [
  "count of fixing operations",
  "orbit-stabiliser theorem by counting fibres (FinGroup.v)"
 ],
 "C11": [
  "same modulo 1 on rational points",
  "same, on residue classes"
 ],
 "C12": [
  "pop/partition loop with fuel",
  "permutation invariant; equivalence relation gives classes"
 ],
 "C13": [
  "group mean on tensors of every rank as multi-index functions",
  "re-indexing of the sum by a group translation"
 ],
 "C14": [
  "same",
  "witness; true part with inversion added to the list"
 ],
 "C15": [
  "orbit loop, reduced and sorted",
  "membership both ways, source index invariant"
 ],
 "C16": [
  "reduce loop incl. rounding of lengths over Q",
  "witness for fine spacing; half-integer rounding bound for lattice points"
 ],
 "C17": [
  "shape level model of `zip(self.S)`",
  "every non-empty list raises"
 ],
 "C18": [
  "set operations on images",
  "set reasoning; witness"
 ],
 "C19": [
  "subset test with distances",
  "witness; soundness/completeness"
 ],
 "C20": [
  "pairs (s,U) over any star ring",
  "both directions of the loop over all pairs"
 ],
 "C21": [
  "block sums / Kronecker with identity on functional matrices",
  "block algebra by index cases; witness with i"
 ],
 "C22": [
  "generation loop on pairs with conflict detection",
  "invariants as for C01 on pairs; witnesses"
 ],
 "C23": [
  "order search and reindexing",
  "pigeonhole; list reasoning"
 ],
 "C24": [
  "both passes of `symmetrize` on functional matrices",
  "group sum re-indexing; explicit counterexample with two atoms"
 ],
 "C25": [
  "table construction and its evaluation",
  "equality by collecting equal table keys"
 ],
 "C26": [
  "Fourier sum over complex numbers `R*R`",
  "conjugation of sums"
 ],
 "C27": [
  "same",
  "2 pi periodicity"
 ],
 "C28": [
  "`df`, `ddf` as written",
  "Coquelicot derivatives along every direction"
 ],
 "C29": [
  "four storage conventions, symmetries",
  "ring identities per neighbor; witness with two operations"
 ],
 "C30": [
  "both conversions",
  "list/ring reasoning"
 ],
 "C31": [
  "arithmetic on models",
  "eigenpair formulation, uniqueness of sorted spectra (SpecProofs.v); witness"
 ],
 "C32": [
  "permute, congruence, normalize",
  "matrix algebra; `eigh` enters by its defining equation"
 ],
 "C33": [
  "list edits with boolean masks / argsort",
  "list reasoning; witnesses for count 0 and duplicates"
 ],
 "C34": [
  "cell enumeration, block assembly",
  "bijection (new neighbor, site) <-> old neighbor; Bloch vectors; witnesses"
 ],
 "C35": [
  "token level save and load",
  "list round trip, permutation of the sort"
 ],
 "C36": [
  "line level state machine",
  "simulation invariant over all valid files; witnesses for invalid ones"
 ],
 "C37": [
  "offset loops",
  "exact value over the tried placements; witness for the missing one"
 ],
 "C38": [
  "logger state machine",
  "invariant over all call histories"
 ],
 "C39": [
  "CG loop over any linear operator on R^n",
  "invariant r = b - A x; witness"
 ],
 "C40": [
  "nested minimum loops",
  "both directions of zero distance; witness"
 ],
 "C41": [
  "functional matrices",
  "index cases"
 ],
 "C42": [
  "KPath state machine",
  "invariant over all call histories"
 ],
 "C43": [
  "module level dictionary as state",
  "witness; independence otherwise"
 ],
 "C44": [
  "band selection by masks",
  "list reasoning"
 ],
 "C45": [
  "OBJ writer and an independent reader",
  "reading back all meshes; witness with too many bands"
 ],
 "C46": [
  "cut volume formula with guarded gradients",
  "equality with iterated integrals of the indicator; witness for guarded cells"
 ],
 "C47": [
  "cut area formula",
  "derivative of the volume"
 ],
 "C48": [
  "sphere and tetrahedron formulae, the six tetrahedra of a cell",
  "integrals; identity of divided differences; witnesses at the dual switch"
 ],
 "C49": [
  "closed forms with `spence` as an integral",
  "antiderivatives, improper integrals (Basel.v for zeta(2))"
 ],
 "C50": [
  "counting over sampled bands",
  "monotonicity; witnesses; Newton exit condition"
 ],
 "C51": [
  "tensors as real matrices, `inv` as a two-sided inverse",
  "algebra; characterisation by equivalence"
 ],
 "C52": [
  "linear system for the weights, `solve` by its equation",
  "moments of -df/dE as improper integrals (FermiMoments.v); witnesses; Lagrange polynomials give the unique solution of the moment system for different points"
 ],
 "C53": [
  "cell matrices over R",
  "trigonometry; Gram determinants; membership in centred lattices"
 ],
 "C54": [
  "density and scaling with unit bookkeeping",
  "field; witness"
 ],
 "C55": [
  "index walk",
  "induction"
 ],
 "C56": [
  "sort + take_along_axis",
  "sorting is a permutation; gradient follows"
 ],
 "C57": [
  "error bar characters with python rounding",
  "interval analysis; witness"
 ],
 "C58": [
  "CG loop",
  "conjugacy invariant, dimension argument"
 ],
 "C59": [
  "KPath.to",
  "case analysis; witness"
 ],
 "C60": [
  "KPath constructor",
  "case analysis; witness"
 ],
 "C61": [
  "marching cubes scaling",
  "algebra; witness"
 ],
 "C62": [
  "cell set-up from eight corners",
  "exact for affine functions"
 ],
 "C63": [
  "Richardson extrapolation",
  "algebra on error terms"
 ],
 "C64": [
  "volumes of all methods",
  "interval analysis; witness"
 ],
 "C65": [
  "centre of the cut polygon",
  "sum identities"
 ],
 "C66": [
  "second convolution",
  "derivative under the segment sum; witness"
 ],
 "C67": [
  "energy integral at T=0",
  "integration by parts; witness"
 ],
 "C68": [
  "heat capacity segments",
  "integral of the Taylor polynomial"
 ],
 "C69": [
  "sample transform",
  "logit/expit monotonicity, substitution"
 ],
 "C70": [
  "sort and slice",
  "counting; witness"
 ],
 "C71": [
  "secant loop",
  "case analysis"
 ],
 "C72": [
  "surface weights",
  "sums; witness"
 ],
 "C73": [
  "quadrature coefficients as exact decimals",
  "rigorous pi bounds, rational arithmetic"
 ],
 "C74": [
  "T>0 correction",
  "moments of the Fermi derivative"
 ],
 "C75": [
  "Hall coefficients",
  "algebra; sign witness"
 ],
 "C76": [
  "transport tensors as sums",
  "quadratic forms"
 ],
 "C77": [
  "broadcast shapes",
  "shape model; witness"
 ],
 "C78": [
  "Hessian of the free electron bands",
  "derivatives; witness"
 ],
 "C79": [
  "constructor and integration control flow",
  "case analysis; witness"
 ],
 "C80": [
  "mass table lookup",
  "sums, permutation; witness"
 ],
 "C81": [
  "scatter then gather",
  "inverse permutation"
 ],
 "C82": [
  "transform, sym_init, block embedding of B",
  "conjugation is an injective homomorphism; induction-free block algebra"
 ],
 "C83": [
  "dual, transpose",
  "inverse transpose laws of integer matrices"
 ],
 "C84": [
  "check as from_generator on the stored operations",
  "exactness of from_generator, counting"
 ],
 "C85": [
  "space_group, cut, ignore_translation, point_group",
  "homomorphism onto the linear part"
 ],
 "C86": [
  "remove_translation, strict_point_group",
  "kernel-like subset is closed"
 ],
 "C87": [
  "subgroup with an arbitrary function of the operation",
  "exactness of from_generator on the kept operations"
 ],
 "C88": [
  "constructor with both flags",
  "witness"
 ],
 "C89": [
  "copy",
  "idempotence of the constructor on normalised objects"
 ],
 "C90": [
  "__truediv__ with its search loop, powers and shifts",
  "invariants of the search; order counting; witnesses by computation"
 ],
 "C91": [
  "usym_sum / urep_symmetrize with lookup, parities and cut",
  "identified with a group average; covariance and fixed points of group averages"
 ],
 "C92": [
  "the three task lists, counts, class dictionaries and the prepared function",
  "task lists characterised entry by entry; classes are the first members of the orbits; copies follow from the covariance of the average"
 ],
 "C93": [
  "the two filtered sums over the little group",
  "average over the stabiliser, closed under translation"
 ],
 "C94": [
  "the loop with its list of known points",
  "invariant of the loop; uniqueness by the little group"
 ],
 "C95": [
  "permute with its parity check",
  "index manipulation of sums"
 ],
 "C96": [
  "__mul__ with its type and shape errors",
  "case analysis"
 ],
 "C97": [
  "the probe point and the comparison of all images",
  "both directions of the comparison"
 ],
 "C98": [
  "rep3, from_generator with d3 and one_dim generators",
  "generation followed on the operations; homomorphisms checked on all 24 operations, matrices by ring identities"
 ],
 "C99": [
  "unit conversion, Hall integrand and contraction",
  "cofactors of an orthogonal matrix; linearity of the sum over the surface"
 ],
 "C100": [
  "eigh_grad, geigh_grad, bands_grad with the eigensolver as a parameter",
  "a branch through a simple eigenvalue: expansion in the eigenbasis, limit of the difference quotient (no differentiability of the eigenvectors is assumed)"
 ],
 "C101": [
  "eigh_grad_hess with masks, sorting and single/batch forms, bands_grad_hess",
  "second order expansion of the branch in the eigenbasis; Taylor expansion of the matrix"
 ],
 "C102": [
  "the same",
  "cyclic trace; the mixed terms cancel in pairs"
 ],
 "C103": [
  "the degenerate branch of eigh_grad_hess (diagonalisation of dH in the degenerate block)",
  "explicit crossing of two bands"
 ],
 "C104": [
  "asymmetric model with overlap",
  "reduction to C101 for constant overlap; witness 1/(2+cos)"
 ],
 "C105": [
  "batch and single forms",
  "case analysis"
 ],
 "C106": [
  "constructor with the prepared symmetrizer of UrepModel2",
  "no task of kind zero without inversion, hence IndexError; case analysis"
 ],
 "C107": [
  "f_i, df_i, ddf_i with the index arithmetic, f, df, ddf, bands_grad, bands_grad_hess",
  "derivative along a line, term by term; C100/C101 for the bands"
 ],
 "C108": [
  "set_from_complex as list operations",
  "split of the parameter sum into the constant, cosine and sine parts"
 ],
 "C109": [
  "params_complex with numpy broadcasting",
  "lengths; explicit lists"
 ],
 "C110": [
  "one iteration of optimize over a batch",
  "orthonormality of the eigenvectors; sum of squares"
 ],
 "C111": [
  "one iteration of the loop of optimize (FitModel), eigensolver as a parameter",
  "first order perturbation of the bands along the step, bilinear form of the update"
 ],
 "C112": [
  "the same with the rescaled pseudoinverse",
  "the left inverse picks the sample; orthonormal eigenvectors; witness with two weights"
 ],
 "C113": [
  "one iteration of AsymTightBindingModel.optimize with hermitised R=0 term",
  "coefficients sum to the norm; orthonormal eigenvectors; witness with S = 1/4"
 ],
 "C114": [
  "operator, right side, preconditioner and update of optimize_cg",
  "bilinear forms; normal equations give the minimum of a sum of squares"
 ],
 "C115": [
  "normalize: hermitise, rotate, phase loop",
  "unitary congruence and phases keep the spectrum; induction over the loop; witnesses"
 ],
 "C116": [
  "the loop of optimize over any list of batches, optimize as normalize, loop, normalize",
  "invariant of the loop; coefficients at k = 0; witnesses"
 ],
 "C117": [
  "padding of the reference and the initial parameters of both classes",
  "coefficients vanish at k = 0; list lemmas; witnesses"
 ],
 "C118": [
  "the symmetry part of read_bands_crystal with the classes of SymModel3",
  "dual operations of Sym3Props, block matrices; witnesses with a screw axis"
 ],
 "C119": [
  "k points, lattices and units of read_bands_crystal, solve by Cramer's rule",
  "field identities; a negative coordinate as witness"
 ],
 "C120": [
  "energy factors of both readers, pairing of reals",
  "arithmetic of the constants, list lemmas"
 ],
 "C121": [
  "from_disk over the fields of the XML file",
  "composition with an independent writer of pw.x; witness silicon"
 ],
 "C122": [
  "reader of binary files as 4-byte words, order of the files",
  "reader after writer by induction over records; C81 for the order"
 ],
 "C123": [
  "read_charge_density over the same words",
  "induction with the shifted stream"
 ],
 "C124": [
  "numbers of all lines, reshape",
  "list lemmas"
 ],
 "C125": [
  "loop with insertions from the end",
  "equal to a structural recursion, then induction"
 ],
 "C126": [
  "loop over atoms and keys with the exceptions of numpy",
  "induction; search in strings of the standard library"
 ],
 "C127": [
  "lines of words of the input cards",
  "independent readers, induction"
 ],
 "C128": [
  "meshgrid order, cube root with assertion",
  "injectivity of i/g; entry number g differs"
 ],
 "C129": [
  "flipped argsort with break",
  "sorted lists"
 ],
 "C130": [
  "basis reduction, bounding box from the svd, filter by length",
  "norms through the orthogonal factors; lattice invariance under unit triangular integer matrices"
 ],
 "C131": [
  "transform, unit_matrix",
  "linearity of the Fourier sums; wf conditions kept"
 ],
 "C132": [
  "neighbor list and hoppings of the one-band model",
  "Dirichlet kernel and two applications of the mean value theorem, Basel sums for k = 0 and the zone boundary"
 ],
 "C133": [
  "append and the single orbitals",
  "evaluation of the functions at the transformed point; enumeration of the 48 signed permutations for the quadratic functions"
 ],
 "C134": [
  "the three diamond methods, both branches",
  "explicit change of basis to even and odd combinations; traces for the refutations"
 ],
 "C135": [
  "apply, with the offset bug of the inversion loop",
  "block sums; chain of two functions as witness"
 ],
 "C136": [
  "the table of cubic points and the default paths",
  "the 3 zones by an obtuse superbase: 7 pairs of planes suffice (Selling), then every entry; convexity for the segments"
 ],
 "C137": [
  "tetragonal_bc_points, _hsp with lstsq a parameter",
  "obtuse superbase for each shape; lstsq pinned by its normal equations"
 ],
 "C138": [
  "trigonal_points, both shapes, mirror_x",
  "obtuse superbase for each shape; exchange of axes"
 ],
 "C139": [
  "hexagonal_points",
  "obtuse superbase; largest distance from the axis for the refutation"
 ],
 "C140": [
  "chemical_potential as a loop over the temperatures with the kept samples and the last beta as state; exceptions as values",
  "induction over sorted lists; the convolution theorem C49 and the sample theorem C69 for one temperature; a geometric chain of 201 temperatures for the refutation with the mean value theorem"
 ],
 "C141": [
  "the index lists of seebeck over an arbitrary chemical potential",
  "lookup lemmas for the filtered index list; difference quotients from both sides"
 ],
 "C142": [
  "k_resolved_density of one cell with arbitrary volume functions",
  "derivative of the flat extrapolated convolution (FermiConv), telescoping sums"
 ],
 "C143": [
  "o2 and cyclic with real matrices, the constructor with exact comparisons",
  "addition theorems on indices modulo n, trace of an integer matrix for the crystallographic restriction"
 ],
 "C144": [
  "dihedral as product of cyclic and mirror_x through from_generator",
  "explicit list of 2n members, exact characterisation of from_generator"
 ],
 "C145": [
  "icosahedral as product of cyclic(5) and its transform through from_generator",
  "the 60 words computed over Z[(sqrt 5 - 1)/2] in the basis of three vertices, transported by an injective homomorphism"
 ],
 "C146": [
  "parameters, set_parameter and the sliders over the model of symmetrizer, labels as name and index",
  "linearity and idempotence of the symmetrisation; the loop by induction over the index list; counterexamples computed with rational complex numbers"
 ],
 "C147": [
  "constructor arguments, attributes read, all 45 entries of the matrix over the reals",
  "entrywise ring identities after trigonometric sign rules; counterexamples with one nonzero parameter"
 ],
 "C148": [
  "realize_symmetric with unit_cell and collect_bad_duplicates, realize_symmetric_data with averaging, integer coordinates in units of 1/M",
  "stable radix sort makes equal points adjacent; induction over the runs; invariance from closure of the group under products and inverses"
 ],
 "C149": [
  "sorting, reshape, periodic extension and wrapped argument of interpolate; the scipy interpolator as a parameter with a specification",
  "sorted permutations of a product grid are equal; index arithmetic of reshape; ascending extended axes; witnesses for the refutations"
 ],
 "C150": [
  "the loop over inversions and operations with used_k, the stable sort; apply as a parameter and as modelled for C135",
  "invariant of the fold over the operations; stable radix sort; the operation that was used and any other one differ by an operation of the little group"
 ],
 "C151": [
  "transform of the neighbors; models as an address of an array of neighbors and the rest, copy shares the address",
  "linearity of the dot product and A^T commuting with the transposed operations; chain rule on the series; two square lattice witnesses at k = (1/2, 0)"
 ],
 "C152": [
  "the einsum contractions of bands, gradients and eigenvectors, eigh as a parameter",
  "sums factor; simple eigenvectors differ by a phase; C100 for the derivative; a rotated basis of a degenerate pair as witness"
 ],
 "C153": [
  "the checks before l.864 with the numpy type of every array; the rest of the function as a parameter",
  "case analysis of the checks"
 ],
 "C154": [
  "realize_symmetric_data without averaging, the appended NaN row, the query of the tree as a parameter with a specification",
  "stable sort and removal of equal neighbors keep the sample itself; the spec of the query on the list of images; a linear search as instance"
 ],
 "C155": [
  "both branches of naive_energy on the raveled bands",
  "sums over the concatenation; the Fermi function is decreasing; an epsilon argument for T -> 0"
 ],
 "C156": [
  "the lists by degeneracy, the greedy loop with its errors, the ordered variant, the writes to model_bands; set order and shuffle as parameters",
  "permutation invariants of the loop; counting of energies; witnesses of three bands"
 ],
 "C157": [
  "the occupancy table, np.unique of its rows, the two assertions",
  "exactly one row contains every index; a sorted list without repetition"
 ],
 "C158": [
  "BsmFileModel: save_format, load_format, bsm_save, bsm_load, loaded_f on top of params_complex, set_params_complex (FourierModel) and json_save, json_load (FormatModel)",
  "set_params_complex restores the matrices of a normalized model from params_complex; the Hamiltonian is the Bloch sum of params_complex; a sorted permutation with the neighbor 0 first leaves the sum unchanged; witnesses with one band for the failing cases"
 ],
 "C159": [
  "BsmFileModel: atb_save, atb_load, new_atb",
  "the JSON lemma of C158 with the series of HermitianFourierSeries; spectrum of equal pairs; one band with overlap 2 as a witness"
 ],
 "C160": [
  "the moments divided by factorials as the code computes them, the columns for one and two temperatures, the last column of q, np.roots, shift and sort; qr and roots as parameters",
  "the integer division of factorials is exact, so the columns are moments and the last column of q is an orthogonal polynomial; a divisor (x-a)^2+b^2 contradicts a positive integral, so the zeros are real and simple; division with remainder; squares of Lagrange products for the signs; an explicit QR decomposition for N = 3"
 ],
 "C161": [
  "zip of indices and names, the transposed product, lines as lists of words",
  "the indices of a path without failed calls are the waypoints (C42); the dual basis by determinants; concrete paths for the refutations"
 ],
 "C162": [
  "header, count and doubled coordinates",
  "the written point times a/alat compared with the point; squares of the lengths of the first vectors"
 ],
 "C163": [
  "dictionary over the types, table of files, headers, integer check, sum and maximum, exceptions as values",
  "characterisation of the loops by their successful results, in both directions"
 ],
 "C164": [
  "the samples, the margins of five k_B T, np.unique, the two convolutions with their extrapolation, the IndexError",
  "order and membership of the samples, the integrals of the convolution, bounds outside of the samples, the plain curve at T = 0; one uniform band as witness for the missing density"
 ],
 "C165": [
  "the three chemical potentials, the central difference, the samples, the sum over the segments, the early return",
  "error of one segment from the dropped cubic term, sum over the segments, substitution for the shift, uniqueness of the integral"
 ],
 "C166": [
  "restarts with losses that may be nan, the loop over the neighbors, add_neighbors, the files, the size check of numpy; numerical steps as parameters",
  "induction over the restarts and over the loop, invariant for the list of files; a small instance as witness"
 ]
}