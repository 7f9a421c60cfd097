# Formal model of redweasel/tight-binding — design

Source: `/repo/src/tight_binding_redweasel/*.py` (python, numpy/scipy). The code is read as text only.
Model and proofs: `/verif/rocq/theories` (Coq 8.16.1, logical name `Verif`).

## 1. Layering

* `*Model.v` files contain only definitions, each with a comment citing the file and lines it models and the
  simplifications made. No proofs live there.
* `*Spec.v` sections (or the head of a `*Props.v` file) contain the small independent specification the theorem is stated
  against (set of words in generators, orbit, stabiliser, eigenpair, sum, derivative, ...).
* `*Proofs.v` contain lemmas.
* `*Props.v` contain the property theorems (`Theorem Cnn_...`), closed with `exact`, with `Print Assumptions` beneath and
  a concrete `Example` that meets the hypotheses.

## 2. Number model

| Python | Coq | justification / loss |
|---|---|---|
| symmetry matrices, lattice vectors (crystal coordinates) | `Z` matrices `list (list Z)` | the entries are integers stored in floats; `norm(a-b) < 1e-7` is exact equality on integers. Rotation matrices with irrational entries (hexagonal groups in cartesian coordinates, icosahedral group) are covered only by the theorems that are generic in the operation type. |
| complex hopping matrices | matrices over an arbitrary commutative ring with involution (`sring`), instantiated to Z, Gaussian integers and the complex numbers `R*R` | rounding of floating point arithmetic is not modelled; all statements are about exact arithmetic. |
| real energies, smearing formulae | Coq `R` (or `Q` where a computation is shown) | floating point rounding is not modelled. |
| `ValueError`, `AssertionError`, ... | explicit error results (`option`, `result`) | |
| `while`/`for` with data dependent bound | fuel with explicit out-of-fuel result, or structural recursion | the theorem statements exclude or cover out-of-fuel explicitly |
| `np.linalg.eigh/inv/solve` | never computed; characterised by the equation it satisfies (hypothesis of the theorem) | numerical linear algebra is trusted |
| file contents | lists of parsed tokens | tokenising/number parsing is trusted |

## 3. Trusted base

* Coq kernel (re-checked by `coqchk`), the reading of the python text into the model (cited line by line).
* Axioms: only those of the Coq standard library; listed per theorem by `Print Assumptions` in the `*Props.v` files and
  summarised in section 5.
* numpy/scipy primitives behave as documented on exact values (matmul, einsum, argsort, KDTree, linalg.inv/det).
* Not modelled: floating point rounding, plotting, subprocess calls to Quantum ESPRESSO, XML parsing, optimiser heuristics,
  performance.
* mathcomp is used in `DetMC.v` only (determinants of integer matrices of every size). `vcheck`/`coqchk` list fields of
  mathcomp's sealed modules and the abstract symbols of `Coq.Reals` among the constants of the loaded libraries; no theorem
  depends on them (`Print Assumptions` lists only the axioms of section 5).

What is modelled, per file of `/repo/src/tight_binding_redweasel`:

| source file | modelled in | not modelled |
|---|---|---|
| symmetry.py | SymModel, SymModel2 (constructor, generation, orbits, classes, weights, tensor mean, subgroup test, named groups with integer matrices, neighbor completion), SymModel3 (transform, copy, dual, transpose, check, subgroup, space groups and their point groups, division), RotModel (o2, cyclic, dihedral, icosahedral with real entries), InterpModel (realize_symmetric_data with averaging), UnstructModel (without averaging) | warnings |
| unitary_representations.py | UrepModel (check, +, * with an integer, from_generator, match_sym, symmetrize), UrepModel2 (symmetrizer, symmetrize2, permute, realize_symmetric_matrices, check_symmetry, products, named cubic representations), InitRefModel (subspaces) | printing, random tests, representations with non-integer operations |
| slater_koster.py | SkModel (SlaterKoster.parameters, set_parameter, sliders), SkoModel (SlaterKosterOriginal); the import of `tuple` from typing, which raises, is ignored | from_orbitals, plotting |
| hamiltonian_symmetry.py | HamModel (symmetrize, symmetrizer, band names), HamOrbModel (append and all orbitals, diamond pairs, apply), HamRealModel (realize_symmetric) | copy (raises), names |
| tight_binding_asym.py | FourierModel, NbrModel, SupercellModel, EigModel (bands_grad, bands_grad_hess), FitModel (iteration of optimize, optimize_cg, init_from_ref), AsymOpsModel (transform, unit_matrix, free_electron_model_orthogonal with one band), BsmFileModel (save, load), AutofitModel (control flow of autofit_asym) | use_lstsq_stepsize, train_S, stopping rule |
| tight_binding.py | TbmModel (constructor, f, df, ddf, conversion of coefficients, bands with derivatives, one optimiser step), InitRefModel (energies at k = 0 in init_from_ref) | copy_transformed, random matrices |
| bandstructure.py | FourierModel (storage conventions, f, df, ddf, arithmetic), EigModel (bands_grad, bands_grad_hess), FitModel (optimize, optimize_cg, normalize, init_from_ref), BsmOpsModel (transform, sharing of the neighbors, electron_phonon_coupling, supercell), BsmFileModel (save, load) | stopping rule of the fits, plotting |
| json_tb_format.py, wannier90_tb_format.py | FormatModel (token/line level) | tokenising, number parsing |
| loss.py, logger.py | LossModel | printing except the error bar |
| linalg.py | LinalgModel (pointcloud_distance, conjugate gradients, direct sums), EigModel (geigh, eigh_grad, geigh_grad, eigh_grad_hess with the LAPACK solver as a parameter), SphereModel (lattice_in_sphere; qr and svd as parameters) | random_hermitian |
| kpaths.py | KPathModel (KPath, tetragonal_bc_points), KPointsModel (tables of points), InterpModel (interpolate on a given grid), UnstructModel (interpolate_unstructured), QePathModel (`__str__`) | points of dimension 1 and 2 |
| fermi_surface.py | FermiModel | rendering, marching cubes itself |
| smearing.py | SmearModel | vectorisation |
| density_of_states.py | DosModel, ChemModel (chemical_potential over a list of temperatures, seebeck, k_resolved_density), CurveModel (full_curve at T > 0), HeatModel (heat_capacity) | interpolation heuristics |
| bulk_properties.py | BulkModel, GaussModel (`_integration_points`; qr and np.roots as parameters) | printing |
| qespresso_interface.py | LatModel (cells, densities, masses, file order), QeModel (values of the XML files, binary wave functions and densities as 4-byte words, band files, orbital names, input cards, k grids), QePathModel (k_path_wannier, read_valence_electrons, set_cutoff_from_pseudopotentials) | subprocess control, XML and text tokenising, plots |

How to read `seeded/LOG.jsonl` (one line per edit of a scratch copy of the model):

* `failed_directly` lists the lemmas, theorems and examples whose proof script stopped compiling after the edit.
* `failed` adds the property theorems that use one of these, found from the text of the files, names resolved by import.
  Such a theorem can no longer be built from its proof; it is not shown to be false for the edited model. The same holds
  for a proof script that breaks: apart from the `tightened` entries it was not checked that the statement became false.
* Many edits were run against the files of the edited model only, so theorems of other files may be missing in `failed`.
* An entry with a `comment` says what is special about it, e.g. when the property id was assigned after the run.

## 4. Per property

Status `partial` covers both incomplete proofs and properties that are false of the code; the latter have a
`_refuted` theorem with a witness and the note starts with REFUTED.

| id | title | status | what is modelled | how it is proved | remarks |
|---|---|---|---|---|---|
| C01 | Generated symmetry groups are closed and contain their generators | proved | `from_generator` as rounds that append every new pairwise product, over an operation type with decidable equality (SymModel) | loop invariant: the list only grows; at the exit round no product is new, hence closure | Integer matrices of every dimension. |
| C02 | Generated symmetry groups contain nothing that the generators do not generate | proved | same | invariant: every element is a word in the generators; both inclusions | Both directions: the result is exactly the set of finite products. |
| C03 | from_generator always terminates and fails exactly on groups that are too large | proved | same, with fuel; the fuel result is an explicit constructor | growth by at least one per round forces either a fixpoint or 200 operations; equivalence with the size of the generated monoid | The 200-round loop bound is shown never to matter. |
| C04 | Every operation of a generated group has its inverse in the group | proved | same with the determinant test of the constructor; determinant is the Laplace expansion | pigeonhole on powers; adjugate in every dimension via the mathcomp determinant (DetMC.v) | Every dimension (determinant theory through mathcomp); also for the object with inversion. |
| C05 | The named crystal groups have the documented order and are groups | partial | named constructors as integer matrix lists, mirrors/none/inv with symbolic dimension | complete computation for the fixed groups, induction for every dimension; the members by enumerating the 216 matrices with unit rows | REFUTED as stated: mirror_xy(True, dim=2) lists two operations twice. All other named groups proved, mirrors/none/inv in every dimension; the members of the cubic, tetrahedral, perm3, mirror3, square and even_perm3 groups are characterised (C05_members, C05_even_perm3). |
| C06 | len(sym) and get_symmetry_operations enumerate each operation exactly once | partial | `__init__` case split, `__len__`, `get_symmetry_operations` | list reasoning; witness in even dimension | REFUTED as stated for even dimension when -1 is listed and inversion=True; proved otherwise. |
| C07 | Equality of Symmetry objects is set equality of operations | partial | `__eq__` through the model of `pointcloud_distance` | zero-distance analysis; witnesses; soundness and completeness on normal objects | REFUTED as stated (repeated operations; mirrors stored beside inversion). Soundness and completeness proved for duplicate-free objects that store rotations only. |
| C08 | Neighbor lookup returns the right index and mirror flag | proved | first match in a list | induction on the list | Exact lattice coordinates. |
| C09 | complete_neighbors returns a symmetric half-space representation | partial | `realize_symmetric`, half-space filter, stable sort | orbit invariants, the sort is a permutation; witness | REFUTED without inversion (neighbors whose first non-zero coordinate is negative are dropped). Proved for groups containing inversion or lists closed under negation. |
| C10 | r_class_size is the number of distinct images of a point | proved | count of fixing operations | orbit-stabiliser theorem by counting fibres (FinGroup.v) |  |
| C11 | k_weight is the reciprocal stabiliser order on the periodic lattice | proved | same modulo 1 on rational points | same, on residue classes | Rational points v/D. |
| C12 | equivalence_classes partitions the group | proved | pop/partition loop with fuel | permutation invariant; equivalence relation gives classes |  |
| C13 | Tensor symmetrisation is a projection onto invariant tensors | proved | group mean on tensors of every rank as multi-index functions | re-indexing of the sum by a group translation | Every rank (p,q), true and pseudo tensors, any star ring in which the group order is invertible. |
| C14 | Tensor symmetrisation respects inversion | partial | same | witness; true part with inversion added to the list | REFUTED: symmetrize ignores the inversion flag. |
| C15 | realize_symmetric produces exactly the orbit of every given k-point with the right source index | proved | orbit loop, reduced and sorted | membership both ways, source index invariant | unit_cell=False. |
| C16 | reduce_symmetric_data keeps one representative per class | partial | reduce loop incl. rounding of lengths over Q | witness for fine spacing; half-integer rounding bound for lattice points | REFUTED for fine spacing (0.01); proved for lattice points of length up to 10^6. |
| C17 | check_neighbors accepts symmetric neighbor lists | partial | shape level model of `zip(self.S)` | every non-empty list raises | REFUTED: every non-empty list raises ValueError. |
| C18 | find_classes partitions the points into symmetry classes | partial | set operations on images | set reasoning; witness | REFUTED for symmetries with inversion; proved when the stored operations form the whole group. |
| C19 | Subgroup test agrees with set inclusion | partial | subset test with distances | witness; soundness/completeness | REFUTED: perm3(True) in cubic(True) is False. Soundness always, completeness for objects storing rotations only. |
| C20 | A representation accepted by check() is a homomorphism | proved | pairs (s,U) over any star ring | both directions of the loop over all pairs | Both directions, every group, dimension and star ring; matrix comparison taken exact. |
| C21 | Direct sums and multiples of representations are representations with ordered inversion blocks | partial | block sums / Kronecker with identity on functional matrices | block algebra by index cases; witness with i | REFUTED for complex representations: __add__ assigns into a float array, the imaginary parts are lost. Proved for real ones (any order of the operations of b) and for a*n with integer n. |
| C22 | UnitaryRepresentation.from_generator generates a representation | partial | generation loop on pairs with conflict detection | invariants as for C01 on pairs; witnesses | REFUTED as stated: generators without identity, duplicate generators, or generated sets that Symmetry.__init__ reduces/doubles. Proved for duplicate-free generator lists containing the identity: exact generated set, homomorphism, extension of generator values, and the call returns for consistent values and fewer than 1000 products. |
| C23 | match_sym only reorders | proved | order search and reindexing | pigeonhole; list reasoning |  |
| C24 | HamiltonianSymmetry.symmetrize is a projection onto symmetric models | partial | both passes of `symmetrize` on functional matrices | group sum re-indexing; explicit counterexample with two atoms | REFUTED as stated for symmetries with inversion: {1,C2z} with inversion and atoms at 0 and (1/2,0,1/2) and a closed neighbor list give a result that is not inversion symmetric and changes when symmetrised again. Proved: the result transforms with the representation under all operations without inversion, fixed points, linearity (all unconditional); inversion symmetry and idempotence under the hypothesis that inverses of fully listed bond orbits are fully listed (automatic when all atoms share a position). |
| C25 | The precompiled symmetrizer equals the reference symmetrize | proved | table construction and its evaluation | equality by collecting equal table keys | Duplicate-free list; the comparison that merges table entries (rounding to 4 digits) is abstracted as any sound comparison. |
| C26 | The Bloch Hamiltonian is hermitian | proved | Fourier sum over complex numbers `R*R` | conjugation of sums | fs_f and bsm_f are hermitian for every k when the R=0 matrix is. Uses the stdlib real-number axioms. |
| C27 | The Bloch Hamiltonian is lattice periodic and time-reversal consistent | proved | same | 2 pi periodicity | Periodicity for integer neighbors and integer G; conjugation for real matrices. Uses the stdlib real-number axioms. |
| C28 | df and ddf are the derivatives of f | proved | `df`, `ddf` as written | Coquelicot derivatives along every direction | Directional derivatives along every direction of real and imaginary part of every entry; also for BandStructureModel with every flag and symmetry. Uses the stdlib real-number axioms. |
| C29 | The Hamiltonian does not depend on the parameter storage convention | partial | four storage conventions, symmetries | ring identities per neighbor; witness with two operations | REFUTED as stated: with cos_reduced and more than one symmetry operation set_params_complex compensates the -1 of the coefficient functions only once. Proved for cos_reduced=False with every symmetry and for cos_reduced=True with one operation; the trivial symmetry gives the plain series in all four conventions. Uses the stdlib real-number axioms. |
| C30 | params_complex and set_params_complex are inverse | proved | both conversions | list/ring reasoning | All flag combinations; with inversion in cos form the hermitian parts are returned. Uses the stdlib real-number axioms. |
| C31 | Arithmetic on models acts on the band energies as documented | partial | arithmetic on models | eigenpair formulation, uniqueness of sorted spectra (SpecProofs.v); witness | REFUTED as stated: AsymTightBindingModel + number with a k-dependent overlap does not shift the energies (only S_0 is used); BandStructureModel.__add__ does not compare symmetries. Proved: BandStructureModel shift and scale, sum for equal symmetries; AsymTightBindingModel scale, sum, shift for constant S. Eigenvalue lists are proved unique up to order. Uses the stdlib real-number axioms. |
| C32 | permute and normalize do not change band energies | proved | permute, congruence, normalize | matrix algebra; `eigh` enters by its defining equation | permute with any permutation, congruence with any invertible matrix, and normalize for unitary eigenvector matrices and positive eigenvalues of S(0). Uses the stdlib real-number axioms. |
| C33 | Neighbor list edits keep hopping matrices attached to their neighbor | partial | list edits with boolean masks / argsort | list reasoning; witnesses for count 0 and duplicates | REFUTED as stated in two corners: limit_neighbor_count(0) drops R=0 (C33_limit_count_zero_refuted) and add_neighbors accepts a vector listed twice inside the new list (C33_add_duplicate_refuted). The kept pairs, order and rejection behaviour are proved otherwise. |
| C34 | A supercell model has the folded band structure | partial | cell enumeration, block assembly | bijection (new neighbor, site) <-> old neighbor; Bloch vectors; witnesses | REFUTED as stated: hoppings into cells outside the original neighbor list are dropped (C34_supercell_refuted), and some valid cells fail the determinant assertion (C34_supercell_rejects_refuted). Proved when the stored neighbors cover all hoppings (cells_cover); the model takes A_original = 1. |
| C35 | JSON save/load round trip | proved | token level save and load | list round trip, permutation of the sort |  |
| C36 | Wannier90 import keeps each hopping exactly once | partial | line level state machine | simulation invariant over all valid files; witnesses for invalid ones | Proved for every syntactically valid file, including the extent of the degeneracy list (C36_degeneracy). REFUTED side claims about invalid files: a file ending inside the degeneracy list makes load_hr loop for ever (C36_truncated_hangs_refuted); a band index 0 is written to the last row instead of being rejected (C36_index_zero_refuted). |
| C37 | Windowed loss finds the best band offset | partial | offset loops | exact value over the tried placements; witness for the missing one | REFUTED as stated: range(max_offset) never tests the last placement, and with equal band counts nothing is tested, so model_windowed_loss returns inf and model_error_hist raises TypeError. What holds is proved: the best over all placements except the last one. |
| C38 | Optimisation logger keeps aligned history and stops exactly once | proved | logger state machine | invariant over all call histories |  |
| C39 | Conjugate gradient keeps the residual consistent | partial | CG loop over any linear operator on R^n | invariant r = b - A x; witness | Residual invariant and termination within max_i+2 passes proved for every linear operator. REFUTED part: on the error criterion the loop first updates x and then returns, so the returned x is one step further than the x whose residual was tested (C39_error_criterion_refuted); proved instead: the residual before the last update was at most err. |
| C40 | pointcloud_distance is zero only for equal point multisets | partial | nested minimum loops | both directions of zero distance; witness | REFUTED as stated: np.delete is applied to the local distance array, so partners are reused and a repeated point is matched twice. Proved: distance 0 iff every point of the first cloud occurs in the second; hence the claim when the first cloud has no repeated point. |
| C41 | direct_sum and kron obey block algebra | proved | functional matrices | index cases |  |
| C42 | KPath bookkeeping is consistent | proved | KPath state machine | invariant over all call histories |  |
| C43 | High symmetry point tables do not depend on earlier calls | partial | module level dictionary as state | witness; independence otherwise | REFUTED as stated: `global points` in tetragonal_bc_points makes every call with c != 1 rebind the module table, which a later call with c == 1 returns. Proved: calls with c != 1 do not depend on the history. |
| C44 | Fermi surface selection | proved | band selection by masks | list reasoning |  |
| C45 | Exported OBJ meshes are well formed | partial | OBJ writer and an independent reader | reading back all meshes; witness with too many bands | Face numbers proved correct for all meshes by reading the file back. REFUTED part: with more Fermi bands than palette colors the file uses undefined materials; proved equivalent to (bands <= colors). |
| C46 | Cut-cube volume is a fraction of the cell | partial | cut volume formula with guarded gradients | equality with iterated integrals of the indicator; witness for guarded cells | Range, monotonicity, symmetry and equality with the exact volume (iterated integral of the indicator) proved. REFUTED part: with a gradient component below EPSILON a cell entirely below the energy is not reported as full; proved with a margin of 1.5e-4 of the gradient norm. |
| C47 | Cut-cube area is the derivative of the cut-cube volume | proved | cut area formula | derivative of the volume |  |
| C48 | Tetrahedron and sphere cut volumes | partial | sphere and tetrahedron formulae, the six tetrahedra of a cell | integrals; identity of divided differences; witnesses at the dual switch | Sphere part proved. Tetrahedron: volume equals the exact volume up to 1e-42 for distinct slopes not close to zero; derivative proved away from the switch to the dual problem; the six tetrahedra of a cell (cube_tetra_cut_volume, TetraSmearing.volume) give the fraction of the cell for linear bands (C48_cube_partial, C48_smearing_partial). REFUTED as stated: slightly negative volume for an empty cut, and not monotone/continuous at the switch when slopes are guarded. |
| C49 | Polynomial moments against the Fermi function derivative are exact | proved | closed forms with `spence` as an integral | antiderivatives, improper integrals (Basel.v for zeta(2)) | All three closed forms are proved to be antiderivatives-as-integrals of x^n (-f'(x)) (with scipy's spence as an integral), normalisation 1 and second moment pi^2/3 as improper integrals, int_poly and the segment sum of convolve_df equal the exact integral of the piecewise linear curve, with flat extrapolation as improper integral. |
| C50 | State counting is monotone and bounded | partial | counting over sampled bands | monotonicity; witnesses; Newton exit condition | Monotone, bounded, extremes, density as derivative, insulator Fermi energy and band gap proved for every smearing with monotone volumes in [0,1], instantiated for "cubes". REFUTED as stated in two corners: "cubes+" counts 4/3 states in one band and then decreases; fermi_energy(0) with a flat lowest band returns an energy with one state below. For metals only the Newton exit condition is proved (partial): states_below may jump at band edges. |
| C51 | Transport coefficients obey the linear response relations | proved | tensors as real matrices, `inv` as a two-sided inverse | algebra; characterisation by equivalence | Any dimension; np.linalg.inv enters as a two-sided inverse of L0. Each tensor is characterised by an equivalence (it is the only matrix with the response property). |
| C52 | Thermal integration weights are exact on polynomials | partial | linear system for the weights, `solve` by its equation | moments of -df/dE as improper integrals (FermiMoments.v); witnesses; Lagrange polynomials give the unique solution of the moment system for different points | REFUTED as stated: one point returns a bare array, and filtering by the energy range drops weights (C52_one_point_refuted, C52_filter_refuted). Proved when no point is filtered (C52_partial): exact for every polynomial of degree below N as an improper integral, including that the zeta function coefficients are the true moments of -df/dE. For different points the linear system has exactly one solution (C52_solvable), so it is enough that np.linalg.solve solves regular systems (C52_distinct_partial); for repeated points the solution is never unique (C52_repeated). Weights at beta > 1e16 pick the point at mu (C52_zero_temperature). The points of _integration_points are C160. |
| C53 | Lattice constructors build the documented cells | proved | cell matrices over R | trigonometry; Gram determinants; membership in centred lattices | Lengths, angles, orientation and volume of sc, hexagonal, triclinic, monoclinic, orthorhombic, tetragonal and rhombohedral; the exact domain of triclinic (Gram determinant factorisation) and rhombohedral; the centred constructors (fcc, bcc, base, body, face) generate exactly the centred point sets. Over the reals. |
| C54 | scale_to_density reaches the requested density | partial | density and scaling with unit bookkeeping | field; witness | REFUTED as stated: an integer matrix A raises at the in-place product and a left-handed cell becomes NaN (C54_refuted). For right-handed float cells the density is reached by a uniform positive scaling (C54_partial). |
| C55 | Band names identify basis functions | partial | index walk | induction | REFUTED as stated: negative (out of range) indices return a name. Proved for all non-negative indices. |
| C56 | Free electron bands are sorted and gradients follow the band order | proved | sort + take_along_axis | sorting is a permutation; gradient follows | Energies of __call__ are the lowest parabolas in ascending order, bands_grad returns the same energies and the gradients of the neighbors they come from. C56_unit: the energies are those of free electrons in eV to 10^-7. |
| C57 | The printed error bar shows every band error | partial | error bar characters with python rounding | interval analysis; witness | Proved whenever some error is positive. REFUTED for a perfect fit: all errors 0 gives 0/0 and round(nan) raises ValueError. |
| C58 | Conjugate gradients solve exactly within the default iteration limit | proved | CG loop | conjugacy invariant, dimension argument |  |
| C59 | A failing KPath.to call leaves the path unchanged | partial | KPath.to | case analysis; witness | REFUTED as stated: the label is appended before the checks. Proved: samples and indices are untouched and at most one name is appended. |
| C60 | KPath accepts every documented kind of start | partial | KPath constructor | case analysis; witness | REFUTED as stated: a tuple or list of numbers is taken as a list of points and raises TypeError. Proved: a list of points gives the chain of to() calls. |
| C61 | The plotted Fermi surface has the right k coordinates | partial | marching cubes scaling | algebra; witness | REFUTED as stated: the code divides by N instead of N-1. Proved: the picture is shrunk by (N-1)/N towards the lower corner. |
| C62 | Cube cells are exact for linear bands | proved | cell set-up from eight corners | exact for affine functions |  |
| C63 | Extrapolation removes the error terms | proved | Richardson extrapolation | algebra on error terms |  |
| C64 | Every smearing method returns volumes between 0 and 1 | partial | volumes of all methods | interval analysis; witness | REFUTED as stated: 4/3 for a peak on a 2x2x2 grid. Proved bounds -1/3 and 4/3. |
| C65 | Fermi surface samples lie on the surface of the linear approximation | proved | centre of the cut polygon | sum identities |  |
| C66 | convolve_ddf is the derivative of convolve_df | partial | second convolution | derivative under the segment sum; witness | REFUTED as stated: with the default flat extrapolation the term of the upper end has the wrong sign (constant states have derivative 0 but convolve_ddf < 0). Proved without extrapolation, and monotonicity of the convolution proved. |
| C67 | Total energy at T = 0 is the energy of the occupied states | partial | energy integral at T=0 | integration by parts; witness | REFUTED as stated: for a completely filled band the integral of N stops at the band edge while mu N(mu) uses mu, so the result is too large by mu - hi (C67_filled, witness C67_refuted). Proved (partial) for bands whose upper edge is not below mu and cubic N. |
| C68 | Heat capacity segments are integrals of the quadratic Taylor polynomial | proved | heat capacity segments | integral of the Taylor polynomial | The documented quadratic approximation is proved; exactness for constant density included. |
| C69 | Importance samples are increasing, hit mu and have equal weights | proved | sample transform | logit/expit monotonicity, substitution | Proved for e0 < mu < e1; numpy's linspace/logit/expit as real functions. |
| C70 | naive_fermi_energy separates filled from empty levels | partial | sort and slice | counting; witness | REFUTED as stated: the slice [i:i+2] starts one index too late, so i+1 levels are separated (proved as C70_value_partial), and all bands filled gives nan. |
| C71 | An early return of secant is a root | proved | secant loop | case analysis | Proved for injective f; C71_needs_injective shows a monotonic function with a plateau for which the early return is no root. |
| C72 | Normalized surface weights sum to 1 | partial | surface weights | sums; witness | REFUTED as stated for weight_by_gradient=True: the weights are divided by the area although they have been divided by the gradient. Proved without weight_by_gradient. |
| C73 | Gauss rules for the Fermi function integrate low degree polynomials | proved | quadrature coefficients as exact decimals | rigorous pi bounds, rational arithmetic | Proved for the coefficients as written in the source, with rigorous bounds of pi from Machin's formula. |
| C74 | The finite temperature correction of the energy is exact for piecewise linear state counts | proved | T>0 correction | moments of the Fermi derivative | Proved; the code uses density(mu) for the slope a, which the property makes explicit. C74_energy states the whole result of energy(mu, T) under the hypotheses that make it exact. |
| C75 | Hall tensor and cubic Hall coefficient agree | partial | Hall coefficients | algebra; sign witness | REFUTED as stated: R_xyz is minus the cubic coefficient (C75_refuted: free electrons); C75_partial: equal magnitude, opposite sign for all cubic surfaces. |
| C76 | Transport coefficients are symmetric, positive and covariant | proved | transport tensors as sums | quadratic forms | Symmetry, positivity, covariance and the equality with drude_factor hold; C76_odd_moments_indefinite shows that the parity hypothesis is needed (the first moment is not positive). |
| C77 | Scattering times in conductivity_hall_tensor | partial | broadcast shapes | shape model; witness | REFUTED as stated: a callable tau fails to broadcast for all point counts except 1 and 3 and is applied to the wrong axis for 3 (C77_refuted); C77_constant_partial covers constant tau; C77_points_partial: one point is right, three points exactly when tau is the same at all three. |
| C78 | Free electron Hessians | partial | Hessian of the free electron bands | derivatives; witness | REFUTED as stated with limit_count (C78_refuted); proved without limit (C78_partial). |
| C79 | KIntegral has a value for every temperature | partial | constructor and integration control flow | case analysis; witness | REFUTED as stated: AttributeError for insulators at T=0, NotImplementedError for insulators at T>0 (C79_insulator_refuted), one value for T=[0,0], ValueError for N=1 (C79_refuted). C79_partial: metals with a positive temperature. C79_mixed_partial: a zero temperature in such a list gets the weights of the sample at the chemical potential. |
| C80 | The mass of a unit cell is the mass of its atoms | partial | mass table lookup | sums, permutation; witness | REFUTED as stated: electrons are added to atomic masses that already contain them, and their number is Z-1 per atom because element_numbers counts from zero (C80_refuted). The exact value, order independence and the failure domain are proved (C80_partial). |
| C81 | Wave functions are returned in the order of the k points | proved | scatter then gather | inverse permutation | Proved for every permutation: inverse permutation by scatter, then gather. |
| C82 | Symmetry.transform(B) conjugates every operation by B | partial | transform, sym_init, block embedding of B | conjugation is an injective homomorphism; induction-free block algebra | Proved for point groups in every dimension (C82_transform_group, C82_transform_object) and for 3D space groups (C82_transform_projective_partial). REFUTED side claim: transform of a 2D space group raises a ValueError because the embedding of B is hard-wired to 4x4 (C82_transform_projective_refuted). |
| C83 | The dual group acts on reciprocal vectors and dual/transpose agree | partial | dual, transpose | inverse transpose laws of integer matrices | REFUTED as stated only for the flags: transpose() drops the projective flag (C83_transpose_refuted). Dual, pairing, involution and equality of operation sets are proved (C83_dual, C83_transpose). |
| C84 | Symmetry.check() returns True exactly for groups | partial | check as from_generator on the stored operations | exactness of from_generator, counting | REFUTED as stated: {1, C2x, C2y, sigma_z} with inversion=True represents a group but check() is False (C84_check_refuted). Proved without inversion flag or when all stored operations are proper (C84_check_partial). |
| C85 | point_group() of a space group is the set of rotation parts | partial | space_group, cut, ignore_translation, point_group | homomorphism onto the linear part | REFUTED as stated: with a centring translation point_group() keeps the same rotation twice, len is 2 instead of 1 (C85_point_group_refuted). Proved for space groups whose rotations are distinct (C85_point_group_partial). |
| C86 | strict_point_group() keeps the operations without translation | partial | remove_translation, strict_point_group | kernel-like subset is closed | REFUTED as stated: the result for P-1 is not normalised and differs from point_group(), and a non-projective input raises an AssertionError (C86_strict_point_group_refuted). The operation set is proved (C86_strict_point_group_partial). |
| C87 | subgroup(f) returns the operations on which the invariant agrees with the identity | partial | subgroup with an arbitrary function of the operation | exactness of from_generator on the kept operations | REFUTED as stated: with the inversion flag a mirror is lost, and a class function on the cubic group raises an AssertionError (C87_subgroup_refuted). Proved for objects without the inversion flag (C87_subgroup_partial). |
| C88 | The inversion flag of a projective symmetry adds the affine inversion | partial | constructor with both flags | witness | REFUTED as stated: inversion=True together with projective=True adds no affine operation (C88_projective_inversion_refuted). |
| C89 | Symmetry.copy() is an equal, independent object | proved | copy | idempotence of the constructor on normalised objects |  |
| C90 | g / h is the quotient of g by a normal subgroup | partial | __truediv__ with its search loop, powers and shifts | invariants of the search; order counting; witnesses by computation | REFUTED as stated: C4/C2 and T/D2 raise a ValueError although the subgroup is normal, T/C3 returns a group although C3 is not normal, and two operands with inversion raise an AssertionError (C90_div_refuted). Proved: without inversion flags the division ends, and what it returns is a complement of h in g (C90_div_partial). |
| C91 | UnitaryRepresentation.symmetrize projects onto covariant hoppings | partial | usym_sum / urep_symmetrize with lookup, parities and cut | identified with a group average; covariance and fixed points of group averages | REFUTED as stated in two corner cases: a representation of the inversion group alone is returned unchanged although the parities are violated (C91_inversion_only_refuted), and without the inversion flag a neighbor found mirrored is read as if it were not (C91_mirrored_refuted). Proved for at least two operations: with inversion flag (C91_symmetrize_invariant_partial, C91_symmetrize_fixes, C91_symmetrize_open_raises) and without it for lists closed without mirroring (C91_symmetrize_plain_partial). |
| C92 | The prepared symmetrizer equals symmetrize | partial | the three task lists, counts, class dictionaries and the prepared function | task lists characterised entry by entry; classes are the first members of the orbits; copies follow from the covariance of the average | REFUTED as stated: the preparation fails with an IndexError for a list in which no neighbor is found mirrored, without the zero neighbor, and always without the inversion flag (C92_no_mirror_refuted, C92_symmetrizer_needs). Proved: otherwise both functions agree for every group, list and matrices (C92_symmetrizer_equal_partial; 1/2 must exist in the ring). |
| C93 | symmetrize2 projects a matrix at k onto the matrices invariant under the little group | proved | the two filtered sums over the little group | average over the stabiliser, closed under translation | Every group, point and matrix; the tolerance of the comparison S k = k is taken as exact equality. |
| C94 | realize_symmetric_matrices lists the star of a point with covariant matrices | partial | the loop with its list of known points | invariant of the loop; uniqueness by the little group | REFUTED as stated: with the inversion flag the parities are missing at -S k (C94_inversion_refuted) and the default argument uses U^+ M U instead of U M U^+ (C94_default_refuted). Proved: the points (C94_orbit) and, without inversion and with inverse=True, the matrices (C94_covariant_partial). |
| C95 | permute reorders the basis and stays a unitary representation | partial | permute with its parity check | index manipulation of sums | REFUTED as stated: an order with a repeated index is accepted and gives matrices that are not unitary (C95_repeated_refuted). Proved for permutations (C95_permute_representation). |
| C96 | a * b is the tensor product of two representations | partial | __mul__ with its type and shape errors | case analysis | REFUTED as stated: the product never returns (C96_product_never_returns, C96_product_refuted); it raises for every pair of arguments. |
| C97 | check_symmetry decides whether an operator is symmetric | partial | the probe point and the comparison of all images | both directions of the comparison | REFUTED as stated: an operator that is not symmetric is accepted (C97_accepts_asymmetric_refuted) and every group in another dimension than three raises (C97_dimension_raises). Proved: the answer is exactly the symmetry at the probe point (C97_check_symmetry_point_partial). |
| C98 | The named cubic representations are representations of the cubic group | proved | rep3, from_generator with d3 and one_dim generators | generation followed on the operations; homomorphisms checked on all 24 operations, matrices by ring identities | Complete enumeration of the 24 operations inside the proof; the square root of three and 1/2 are elements of the ring, so rounding is not modelled. |
| C99 | Hall conductivity and inverse masses turn with the lattice vectors | proved | unit conversion, Hall integrand and contraction | cofactors of an orthogonal matrix; linearity of the sum over the surface | Proved for every orthogonal matrix, reflections change the sign of the tensor. |
| C100 | Band gradients are the derivatives of the bands | proved | eigh_grad, geigh_grad, bands_grad with the eigensolver as a parameter | a branch through a simple eigenvalue: expansion in the eigenbasis, limit of the difference quotient (no differentiability of the eigenvectors is assumed) | Proved for every continuous energy branch through the eigenvalue. If the code takes the shortcut for S = 1 (test with a tolerance) the theorem asks that S is exactly 1 and its derivative exactly 0 at that point. |
| C101 | Band Hessians are the second derivatives of the bands | proved | eigh_grad_hess with masks, sorting and single/batch forms, bands_grad_hess | second order expansion of the branch in the eigenbasis; Taylor expansion of the matrix | Proved: symmetry, the first derivative and the limit of the second order quotient; perturbation sum also with a constant overlap. |
| C102 | Gradients and Hessians of all bands add up to the trace | proved | the same | cyclic trace; the mixed terms cancel in pairs | Proved for every solver that diagonalises every hermitian matrix. |
| C103 | The Hessian of degenerate bands is the second derivative | partial | the degenerate branch of eigh_grad_hess (diagonalisation of dH in the degenerate block) | explicit crossing of two bands | REFUTED as stated: for the two crossing bands of H(x) = [[2 x^2, x], [x, 0]] at x = 0 none of the returned Hessians is the second order term of the branch; the gradients are right (C103_degenerate_refuted). The sum over the bands is right (C102). |
| C104 | Hessians of models with overlap | partial | asymmetric model with overlap | reduction to C101 for constant overlap; witness 1/(2+cos) | REFUTED as stated: the derivative of S is ignored; for H = 1, S = 2 + cos(2 pi k) at k = 1/4 the gradient is 0 instead of pi/2 (C104_overlap_refuted). Proved for an overlap that does not depend on k (C104_constant_overlap). At a point with equal energies the division by 10^-40 leaves Hessians of the size 10^40 (C104_degenerate_refuted). |
| C105 | A single matrix gives the result of a batch of one | partial | batch and single forms | case analysis | REFUTED as stated: geigh_grad of a single pair with S <> 1 raises IndexError (C105_single_refuted); eigh_grad_hess of a single matrix fails exactly if two eigenvalues are closer than epsilon (C105_single_fails). When there is a result it is the one of the batch (C105_single, C105_single_hess). |
| C106 | TightBindingModel can be constructed for every representation | partial | constructor with the prepared symmetrizer of UrepModel2 | no task of kind zero without inversion, hence IndexError; case analysis | REFUTED as stated: with inversion the constructor reads self.params before it is assigned (AttributeError, C106_inversion_refuted); without inversion the symmetrizer of more than one matrix always raises. C106_constructor: exactly the representations with at most one matrix and no inversion give a model; there normalize changes nothing (C106_symmetrizer_trivial). |
| C107 | TightBindingModel: matrix, derivatives and bands | proved | f_i, df_i, ddf_i with the index arithmetic, f, df, ddf, bands_grad, bands_grad_hess | derivative along a line, term by term; C100/C101 for the bands | Proved. |
| C108 | set_from_complex gives the model with these hoppings | proved | set_from_complex as list operations | split of the parameter sum into the constant, cosine and sine parts | Proved, for every list (H_0 enters with its hermitian part). |
| C109 | params_complex undoes set_from_complex | partial | params_complex with numpy broadcasting | lengths; explicit lists | REFUTED as stated: with three or more neighbors params_complex always raises (C109_raises); with two it returns the conjugate transpose of the hopping and half the matrix at k = 0 (C109_two, C109_roundtrip_refuted). |
| C110 | One optimiser step with one sample | partial | one iteration of optimize over a batch | orthonormality of the eigenvectors; sum of squares | REFUTED as stated: the normalisation is applied twice, the bands move by the fraction 1/S of the way, S >= 1 the sum of the squared coefficients (1/3 in C110_exact_refuted). Proved: eigenvectors are kept and the fraction is lr w s/S^2 (C110_one_sample), so the distance to the reference never grows (C110_contracts). |
| C111 | optimize follows the gradient of the loss | partial | one iteration of the loop of optimize (FitModel), eigensolver as a parameter | first order perturbation of the bands along the step, bilinear form of the update | REFUTED as stated for the reported loss: it leaves out the sample weights that the step uses; with unequal weights a step from the best fit increases it for every learning rate (C111_sample_weights_refuted). Proved: the step is -1/4 of the gradient of the loss that contains the weights and the normalisation (C111_gradient); for equal weights and coefficients of equal size the reported loss decreases to first order (C111_descent). Eigensolver as a parameter; simple bands. Uses the stdlib real-number axioms. |
| C112 | optimize with the pseudoinverse is exact if there are enough parameters | partial | the same with the rescaled pseudoinverse | the left inverse picks the sample; orthonormal eigenvectors; witness with two weights | REFUTED as stated for band weights that are not all equal: with the weights 1 and 4 the loss grows in one iteration (C112_band_weights_refuted). Proved: eigenvectors are kept and band j at sample b moves by lr times the normalised weights times the distance (C112_pinv_step), exact for equal weights (C112_exact). pinv enters as a left inverse. Uses the stdlib real-number axioms. |
| C113 | The step of AsymTightBindingModel.optimize is normalised | partial | one iteration of AsymTightBindingModel.optimize with hermitised R=0 term | coefficients sum to the norm; orthonormal eigenvectors; witness with S = 1/4 | REFUTED as stated with overlap: the step is not normalised with S, an energy 0 with the reference 1 becomes 16 for S = 1/4 (C113_overlap_refuted). Proved for S = 1: C113_pinv_step, C113_one_sample, C113_contracts. use_lstsq_stepsize is not modelled; train_S=True raises an UnboundLocalError in the source. Uses the stdlib real-number axioms. |
| C114 | optimize_cg solves the linearised least squares problem | proved | operator, right side, preconditioner and update of optimize_cg | bilinear forms; normal equations give the minimum of a sum of squares | Eigenvectors and eigenvalues at the current parameters, preconditioner and the solution of the linear system are parameters; C114_linearised: to first order the bands are the expectation values used; C114_gauss_newton: minimum over all parameter arrays. Symmetrizer and keep_zeros are not modelled. Uses the stdlib real-number axioms. |
| C115 | normalize of BandStructureModel keeps the energies | partial | normalize: hermitise, rotate, phase loop | unitary congruence and phases keep the spectrum; induction over the loop; witnesses | REFUTED as stated: with exponentials and inversion the other matrices are made hermitian, -2 sin x becomes 0 (C115_inversion_refuted); entries up to 10^-14 are set to 0 on one side of the diagonal only, which halves the splitting (C115_small_refuted). Proved otherwise for every k (C115_energies), and the normal form always (C115_normal_form). Uses the stdlib real-number axioms. |
| C116 | optimize respects keep_zeros and train_k0 | partial | the loop of optimize over any list of batches, optimize as normalize, loop, normalize | invariant of the loop; coefficients at k = 0; witnesses | REFUTED as stated: optimize starts with normalize, which rotates the zeros away (C116_keep_zeros_refuted); train_k0=False without cos_reduced changes H(0) (C116_k0_refuted). Proved for the loop: zeros stay, params[0] stays and with cos_reduced H(0) stays, for every number of iterations (C116_zeros_in_loop, C116_k0_in_loop, C116_f0_in_loop). Uses the stdlib real-number axioms. |
| C117 | init_from_ref reproduces the reference at k = 0 | partial | padding of the reference and the initial parameters of both classes | coefficients vanish at k = 0; list lemmas; witnesses | REFUTED as stated: without cos_reduced and for AsymTightBindingModel the random matrices shift the bands at k = 0 (C117_plain_refuted, C117_asym_refuted); band_offset > add_bands gives more bands than asked for (C117_count_refuted). Proved with cos_reduced (C117_gamma), and position and order of the reference in the continued list (C117_window). Uses the stdlib real-number axioms. |
| C118 | Symmetries read from Quantum ESPRESSO | partial | the symmetry part of read_bands_crystal with the classes of SymModel3 | dual operations of Sym3Props, block matrices; witnesses with a screw axis | Contragredience, length and closure proved for every group with the identity first. REFUTED in two details: with translations the returned 4×4 matrices carry the translation in the last row (C118_translation_refuted), and a file without symmetries raises AssertionError (C118_empty_refuted). |
| C119 | k points read in crystal coordinates | partial | k points, lattices and units of read_bands_crystal, solve by Cramer's rule | field identities; a negative coordinate as witness | Coordinates, phases and unit proved; REFUTED for the range: k is not reduced to [0, 1[ (C119_range_refuted). |
| C120 | Energies of the readers | proved | energy factors of both readers, pairing of reals | arithmetic of the constants, list lemmas |  |
| C121 | from_disk returns the crystal that was written | partial | from_disk over the fields of the XML file | composition with an independent writer of pw.x; witness silicon | REFUTED as stated: the positions (bohr) are divided by the lattice already converted to angstrom, so crystal coordinates come back multiplied by 1/0.529, and Hartree energies are taken as Rydberg, so cutoff and temperature come back halved (C121_from_disk_refuted). C121_from_disk_partial gives the exact result for every crystal. |
| C122 | Wave functions read from wfc files | partial | reader of binary files as 4-byte words, order of the files | reader after writer by induction over records; C81 for the order | Proved for npol = 1. REFUTED for spinors: the file holds all plane waves of the first component before those of the second, reshape(nbnd, igwx, npol) reads them as alternating (C122_spinor_refuted). The file is modelled as 4-byte words with the record markers of Fortran. |
| C123 | Charge density read from charge-density.dat | partial | read_charge_density over the same words | induction with the shifted stream | REFUTED as stated for every file: the record markers before the density are not skipped and only the real part is kept, so entry j+1 is the imaginary part of coefficient j, and G is returned in cartesian coordinates (C123_shift, C123_density_refuted). |
| C124 | Wrapped lines of band files | proved | numbers of all lines, reshape | list lemmas |  |
| C125 | Breaks in plotted bands | proved | loop with insertions from the end | equal to a structural recursion, then induction |  |
| C126 | Names of projected orbitals | partial | loop over atoms and keys with the exceptions of numpy | induction; search in strings of the standard library | Proved for one atom in the cell; REFUTED for two or more: `if self.types` raises ValueError as soon as one orbital is listed (C126_order_refuted). |
| C127 | Input cards can be read back | proved | lines of words of the input cards | independent readers, induction |  |
| C128 | k grid for wannier90 | partial | meshgrid order, cube root with assertion | injectivity of i/g; entry number g differs | Points, number and inferred size proved; REFUTED for the order: np.meshgrid exchanges the first two axes, for every g ≥ 2 (C128_order_refuted). |
| C129 | Printed orbitals | proved | flipped argsort with break | sorted lists |  |
| C130 | Lattice points in a sphere | partial | basis reduction, bounding box from the svd, filter by length | norms through the orthogonal factors; lattice invariance under unit triangular integer matrices | REFUTED as stated in one detail: the points are exactly right (C130_sphere), but the step meant to make the basis more orthogonal multiplies by round(R) instead of its inverse: for the square lattice given by [[1,1],[0,1]] the off-diagonal entry grows to 8. |
| C131 | Change of coordinates of a model | proved | transform, unit_matrix | linearity of the Fourier sums; wf conditions kept |  |
| C132 | Free electron model | partial | neighbor list and hoppings of the one-band model | Dirichlet kernel and two applications of the mean value theorem, Basel sums for k = 0 and the zone boundary | REFUTED as stated in one detail: the energies converge to k² (C132_free_electrons), the second derivative at k = 0 is 4 for odd and 0 for even neighbor counts (C132_hessian), never near 2 (nor 1, as the comment above the function says). bands_per_direction > 1 (supercell folding) is not covered. |
| C133 | Appended orbitals transform like the functions they are named after | partial | append and the single orbitals | evaluation of the functions at the transformed point; enumeration of the 48 signed permutations for the quadratic functions | REFUTED as stated in one detail: append, s, p (any integer group) and d2 are proved; append_d3 divides the operation by its determinant, which is right exactly for the operations that permute the axes evenly (C133_d3_iff); a quarter turn about z maps xy to −xy but the stored matrix says +xy (C133_d3_refuted), contrary to the docstring. |
| C134 | Diamond orbitals are the orbitals of two exchanged sites | partial | the three diamond methods, both branches | explicit change of basis to even and odd combinations; traces for the refutations | REFUTED as stated in one detail: without inversion all three are proved, with inversion append_diamond_d3 is proved; append_diamond_s and append_diamond_p have the parities of the two blocks interchanged and are right only if no listed operation exchanges the sites (C134_s_with_inversion_iff, C134_p_with_inversion_wrong); the cubic group refutes both (C134_s_and_p_with_inversion_refuted). |
| C135 | apply transforms the operator by one symmetry operation | partial | apply, with the offset bug of the inversion loop | block sums; chain of two functions as witness | REFUTED as stated in one detail: hermiticity is proved in general and the formula of the comment for even blocks; the loop over odd blocks ignores the argument inversion and never advances its offset, so the identity changes signs (C135_identity_parity_refuted); the phase of the comment itself is not 1 for the identity and two positions (C135_identity_phase_refuted). |
| C136 | The named points of the cubic zones are special points of the Brillouin zone | proved | the table of cubic points and the default paths | the 3 zones by an obtuse superbase: 7 pairs of planes suffice (Selling), then every entry; convexity for the segments |  |
| C137 | tetragonal_bc_points gives special points of the Brillouin zone | proved | tetragonal_bc_points, _hsp with lstsq a parameter | obtuse superbase for each shape; lstsq pinned by its normal equations |  |
| C138 | trigonal_points gives special points of the Brillouin zone | proved | trigonal_points, both shapes, mirror_x | obtuse superbase for each shape; exchange of axes |  |
| C139 | hexagonal_points gives special points of the Brillouin zone | partial | hexagonal_points | obtuse superbase; largest distance from the axis for the refutation | REFUTED as stated: with r the distance of neighboring reciprocal lattice points, as documented, K (and H) are outside of the zone for every hexagonal lattice in every orientation (C139_documented_refuted). The table is right for r = 1/a and h = 1/c of hexagonal(a, c), where the distance is 2/sqrt(3) times r (C139_hexagonal). |
| C140 | Chemical potentials of a list of temperatures | partial | chemical_potential as a loop over the temperatures with the kept samples and the last beta as state; exceptions as values | induction over sorted lists; the convolution theorem C49 and the sample theorem C69 for one temperature; a geometric chain of 201 temperatures for the refutation with the mean value theorem | REFUTED as stated in two details: (1) C140_batch_refuted: the distribution of samples is compared with the previous temperature instead of the one it was made for, so it is never renewed along temperatures in steps of less than 5%; in 4% steps up to 1000 K the equation for the last temperature has no solution below 1/2 although the exact value is 0; (2) C140_descending_refuted: temperatures sorted in descending order end in an UnboundLocalError. Proved: ascending temperatures give one value each and no exception (C140_ascending); a single temperature solves the equation for the interpolated states up to 2 n exp(-60) (C140_single, with the integral as an independent specification); from T_lin on the equation is solved on equidistant samples without any error (C140_high). |
| C141 | seebeck is the temperature derivative of the chemical potential | partial | the index lists of seebeck over an arbitrary chemical potential | lookup lemmas for the filtered index list; difference quotients from both sides | REFUTED as stated in one detail: if no temperature is positive (e.g. [0]) np.min of an empty array raises ValueError instead of returning 0 (C141_zero_refuted). Proved: the central differences for every list with a positive temperature (C141_values) and the limit to the derivative (C141_derivative). |
| C142 | k_resolved_density is the derivative of the smeared states of every cell | partial | k_resolved_density of one cell with arbitrary volume functions | derivative of the flat extrapolated convolution (FermiConv), telescoping sums | REFUTED as stated in one detail: convolve_ddf adds the last sample with the wrong sign, so a completely filled cell has a negative density instead of 0 (C142_filled_refuted). Proved: the value at T = 0 (C142_zero), the exact value at T > 0 including the error term (C142_value), and that the error is at most 2 exp(-30)/(k_B T) times the states if the band structure ends 30 k_B T above mu (C142_interior). |
| C143 | o2 and cyclic are the groups of n turns | partial | o2 and cyclic with real matrices, the constructor with exact comparisons | addition theorems on indices modulo n, trace of an integer matrix for the crystallographic restriction | REFUTED as stated in one detail: the docstring of o2 says that the inversion is included, which holds exactly for even counts (C143_o2_inversion, C143_o2_inversion_refuted). Proved: groups, orders and action of cyclic and o2 for all counts (C143_cyclic, C143_o2) and the crystallographic restriction of the docstring for o2 (C143_lattice). |
| C144 | dihedral is the group of n turns and n mirrors | partial | dihedral as product of cyclic and mirror_x through from_generator | explicit list of 2n members, exact characterisation of from_generator | REFUTED as stated in one detail: counts from 100 on raise the group size error of from_generator (C144_limit_refuted), although cyclic has no limit. Proved: order, group and action for all counts below 100 (C144_dihedral). |
| C145 | icosahedral is the symmetry group of an icosahedron on the z-axis | partial | icosahedral as product of cyclic(5) and its transform through from_generator | the 60 words computed over Z[(sqrt 5 - 1)/2] in the basis of three vertices, transported by an injective homomorphism | REFUTED as stated in one detail: the vertex of the upper ring lies towards the y-axis, no vertex lies over the x-axis (C145_alignment_refuted). Proved: orders 60 and 120, group, rotations, invariance and transitivity on the 12 vertices (C145_icosahedral). |
| C146 | SlaterKoster.parameters finds the independent parameters and set_parameter sets them | partial | parameters, set_parameter and the sliders over the model of symmetrizer, labels as name and index | linearity and idempotence of the symmetrisation; the loop by induction over the index list; counterexamples computed with rational complex numbers | REFUTED as stated: setting a parameter a second time gives v + (1 - fac) * old instead of v, for example 5/2 instead of 2 for the hopping of an s band on the square lattice (C146_again_refuted); for entries that may only be imaginary the factor is real and a real value gives 0 (C146_imag_refuted); atoms with the same name have equal labels, so that free parameters are missing in the dictionary (C146_labels_refuted). The module cannot be imported because of 'from typing import tuple'; it is modelled as if that were repaired. Proved: the exact update rule and the symmetry of the result (C146_set), the correctness of every tuple (C146_parameters), that the first call sets the value (C146_first) and the rule of the sliders (C146_sliders). Complex parameters are covered by C146_set only for real differences. That every independent entry has a tuple when the labels are distinct is not proved. |
| C147 | SlaterKosterOriginal gives the Hermitian cubic s, p, d matrix of the paper | partial | constructor arguments, attributes read, all 45 entries of the matrix over the reals | entrywise ring identities after trigonometric sign rules; counterexamples with one nonzero parameter | REFUTED as stated: the constructor does not accept 24 of the attributes that f reads, so f always raises AttributeError, and fcc() calls the constructor without arguments (C147_attributes_refuted). For objects that got the attributes by other means: time reversal fails for x_d1_111 because of a missing 1j (C147_time_reversal_refuted); the p-d block is not cubic since x_xy is used for (y, yz) and others (C147_pd_refuted); the e_g energies differ at k = 0 (C147_eg_refuted); (d2, d2) is not symmetric in x and y (C147_d2_refuted). Proved: Hermitian (C147_hermitian), time reversal without x_d1_111 (C147_time_reversal), all 48 cubic operations on the s, p and t2g blocks and on s-p, s-t2g (C147_cubic), and all of these entries as Bloch sums over the neighbor shells (C147_bloch). |
| C148 | realize_symmetric_data averages the data over equivalent samples | proved | realize_symmetric with unit_cell and collect_bad_duplicates, realize_symmetric_data with averaging, integer coordinates in units of 1/M | stable radix sort makes equal points adjacent; induction over the runs; invariance from closure of the group under products and inverses | Proved over integer coordinates in units of 1/M, so for all rational samples; tolerances are exact comparisons. C148_mean gives points, coverage and means, C148_symmetric the invariance for a group. |
| C149 | interpolate reproduces the data and is periodic | partial | sorting, reshape, periodic extension and wrapped argument of interpolate; the scipy interpolator as a parameter with a specification | sorted permutations of a product grid are equal; index arithmetic of reshape; ascending extended axes; witnesses for the refutations | REFUTED as stated in one detail: without a symmetry the samples are not wrapped to the unit cell, so samples 0, 1/4, 1/2, 3/4 give a function that raises at k = -0.4 (C149_unwrapped_refuted), and an axis with one point makes every call raise (C149_single_refuted). Proved for samples in [-0.5, 0.5[ and at least two points per axis: C149_periodic, C149_symmetric, C149_plain. The interpolator of scipy is a parameter with the listed properties interp_spec, and floor_spec shows that they can be met; the default grid is not modelled. |
| C150 | HamiltonianSymmetry.realize_symmetric returns every image once with a covariant matrix | partial | the loop over inversions and operations with used_k, the stable sort; apply as a parameter and as modelled for C135 | invariant of the fold over the operations; stable radix sort; the operation that was used and any other one differ by an operation of the little group | REFUTED as stated in one detail: apply changes the signs of the leading rows and columns for every odd block, also for operations without inversion, so with a p orbital the matrix at the image has the wrong sign between s and p (C150_parity_refuted, a mirror with s and p_y). Proved: order, coverage, uniqueness and source of every returned entry for any apply and any group (C150_orbits, C150_distinct); the covariance if all blocks are even and at one position (C150_covariant_partial). Missing: covariance for odd blocks under a corrected apply and for blocks at several positions. |
| C151 | BandStructureModel.transform gives f'(k) = f(A^T k) and changes nothing else | partial | transform of the neighbors; models as an address of an array of neighbors and the rest, copy shares the address | linearity of the dot product and A^T commuting with the transposed operations; chain rule on the series; two square lattice witnesses at k = (1/2, 0) | REFUTED as stated in two details: transform multiplies the neighbors but not the operations of the symmetry, so f'(k) = f(A^T k) fails for A that does not commute with them (C151_symmetric_refuted, exchange of x and y with a stretch along x), and arithmetic on a model shares the array of neighbors, so m2 = m * c; m2.transform(A) changes m (C151_alias_refuted). Proved: the values, gradients and Hessians if A commutes with the operations (C151_transform_partial), the effect on the model itself and on models with another array (C151_self, C151_other). |
| C152 | electron_phonon_coupling is the band overlap times the difference of velocities | partial | the einsum contractions of bands, gradients and eigenvectors, eigh as a parameter | sums factor; simple eigenvectors differ by a phase; C100 for the derivative; a rotated basis of a degenerate pair as witness | REFUTED as stated in one detail: at degenerate bands v and g depend on the basis chosen by the solver (C152_degenerate_refuted). Proved: the formula, the exchange of the points, g = 0 at equal points, v as the derivative of a simple band (C152_grads), independence of v and \|g\|^2 of the eigenvectors if the bands are simple (C152_gauge). |
| C153 | BandStructureModel.supercell returns a model of the larger cell | partial | the checks before l.864 with the numpy type of every array; the rest of the function as a parameter | case analysis of the checks | REFUTED as stated: np.linalg.inv and np.round return float64 arrays, so the assertion that the bounding box has the type int64 always fails; every call raises (C153_raises, C153_supercell_refuted). |
| C154 | interpolate_unstructured returns the row of the nearest sample or image, else NaN | proved | realize_symmetric_data without averaging, the appended NaN row, the query of the tree as a parameter with a specification | stable sort and removal of equal neighbors keep the sample itself; the spec of the query on the list of images; a linear search as instance | Coordinates are rational. KDTree.query is a parameter with a specification, which a linear search satisfies. With fewer rows than samples a point far from all samples raises IndexError (C154_short). |
| C155 | naive_energy is the mean over k of the occupied band energies | partial | both branches of naive_energy on the raveled bands | sums over the concatenation; the Fermi function is decreasing; an epsilon argument for T -> 0 | REFUTED as stated in one detail: with a band at mu the value at T = 0 counts it fully, while the limit T -> 0 counts one half (C155_continuous_refuted). Proved: the sum, the shift, the monotony, the limit in general (C155_limit), continuity if no band is at mu (C155_continuous_partial). |
| C156 | TightBindingModel.init_from_ref is correct at k = 0 | partial | the lists by degeneracy, the greedy loop with its errors, the ordered variant, the writes to model_bands; set order and shuffle as parameters | permutation invariants of the loop; counting of energies; witnesses of three bands | REFUTED as stated in one detail: a degenerate energy of the data is assigned to one subspace, which may be smaller, so its other copies are lost (C156_degenerate_refuted; data 0, 1, 1 and three bands give 0, 1, -0.01), with use_repr_order as well (C156_ordered_refuted), and an energy with a degeneracy above dim is dropped (C156_dropped_refuted). Proved: the assignment (C156_assigned), the exact spectrum if the sizes of the subspaces match the degeneracies (C156_exact_partial, C156_ordered_partial), the matrix at k = 0 (C156_gamma). Energies are integers in units of 1e-5, the rounding of the code. |
| C157 | UnitaryRepresentation.subspaces returns the blocks of the representation | proved | the occupancy table, np.unique of its rows, the two assertions | exactly one row contains every index; a sorted list without repetition |  |
| C158 | BandStructureModel: load after save gives the same Hamiltonian | partial | BsmFileModel: save_format, load_format, bsm_save, bsm_load, loaded_f on top of params_complex, set_params_complex (FourierModel) and json_save, json_load (FormatModel) | set_params_complex restores the matrices of a normalized model from params_complex; the Hamiltonian is the Bloch sum of params_complex; a sorted permutation with the neighbor 0 first leaves the sum unchanged; witnesses with one band for the failing cases | REFUTED as stated in several cases. Proved: python format for normalized models with cos_reduced or with a single operation; JSON for normalized models without rotations (all storage conventions, all flags of load, with the entrywise rounding of 1e-14, exact when no part is that small); which names can be saved. Refuted: python format with rotations and cos_reduced=False (f(0) = 4 becomes 2), python format with exp and inversion and matrices that are not hermitian, JSON with rotations (the symmetry is not saved), JSON in dimensions other than 3 (load uses Symmetry.none() of dimension 3, f raises ValueError), the format wannier90 (NotImplementedError in save, ValueError in load). |
| C159 | AsymTightBindingModel: load after save gives the same bands | partial | BsmFileModel: atb_save, atb_load, new_atb | the JSON lemma of C158 with the series of HermitianFourierSeries; spectrum of equal pairs; one band with overlap 2 as a witness | REFUTED as stated in one detail: the overlap S is not saved, so the generalized eigenvalues change when S is not the identity (witness: energy 1/2 becomes 1). The series H itself, the Hamiltonian and, for S = 1, the energies are proved to be kept. |
| C160 | The integration points of KIntegral are Gauss points | partial | the moments divided by factorials as the code computes them, the columns for one and two temperatures, the last column of q, np.roots, shift and sort; qr and roots as parameters | the integer division of factorials is exact, so the columns are moments and the last column of q is an orthogonal polynomial; a divisor (x-a)^2+b^2 contradicts a positive integral, so the zeros are real and simple; division with remainder; squares of Lagrange products for the signs; an explicit QR decomposition for N = 3 | REFUTED as stated in one detail: for T_min < T_max most conditions are set at the mean temperature, so the rule is not exact up to degree 2 N - 1 at T_max (C160_two_refuted, N = 3, T_min = T_max / 2, degree 4). Proved for T_min = T_max: the points are the zeros of the orthogonal polynomial, N real different ascending numbers (C160_points_partial), exactness for degree < 2 N (C160_gauss_partial), positive weights (C160_positive_partial); for two temperatures exactness for degree < N + N//2 - 1 at T_max and < 2 N - N//2 + 1 at the mean temperature, if the zeros are real (C160_two_partial); the AssertionErrors (C160_errors). qr and np.roots are parameters with a specification of the call, np.linalg.solve is only assumed to solve the systems that have exactly one solution (C160_rule_partial). Missing: real zeros for two temperatures. KIntegral adds 1e-20 to k_B T in the weights only and uses the chemical potential instead of the Fermi energy. |
| C161 | k_path_wannier writes every segment of a KPath | partial | zip of indices and names, the transposed product, lines as lists of words | the indices of a path without failed calls are the waypoints (C42); the dual basis by determinants; concrete paths for the refutations | REFUTED as stated in one detail: the default name of a point given by coordinates contains blanks, so the line has at least ten words (C161_names_refuted), and after a call of to() that raised the names are shifted (C161_failed_refuted). Proved: one line per call with the names and the crystal coordinates of both ends, for all paths from calls that do not raise and all lattices (C161_path_partial). Printing of numbers is not modelled. |
| C162 | str(KPath) lists the points of the path | partial | header, count and doubled coordinates | the written point times a/alat compared with the point; squares of the lengths of the first vectors | REFUTED as stated: all coordinates are multiplied by 2, which is right only if alat = 2 a; with the length of the first lattice vector as alat (pw.x with ibrav = 0) every point except the center is wrong for all three cubic lattices (C162_scale_refuted). Proved: one line per sample, and the line means the point exactly if alat = 2 a or the point is the center (C162_card_partial). The meaning of alat is taken from the documentation of pw.x. |
| C163 | Electron count and cutoff from the pseudo potentials | proved | dictionary over the types, table of files, headers, integer check, sum and maximum, exceptions as values | characterisation of the loops by their successful results, in both directions |  |
| C164 | full_curve at a temperature returns increasing energies, a monotone number of states and the density that belongs to it | partial | the samples, the margins of five k_B T, np.unique, the two convolutions with their extrapolation, the IndexError | order and membership of the samples, the integrals of the convolution, bounds outside of the samples, the plain curve at T = 0; one uniform band as witness for the missing density | REFUTED as stated in one detail: the density is convolved from its own samples, which are 0 at the ends of the bands by the strict comparisons of states_density; with N = 2 and one band all densities are 0 while the states rise from below 0.1 to above 0.9, at every temperature (C164_density_refuted). Everything else is proved in exact arithmetic (C164_curve, C164_zero, C164_empty). |
| C165 | heat_capacity is the integral of the interpolated density, up to a stated error, and its dependence on the zero of energy | proved | the three chemical potentials, the central difference, the samples, the sum over the segments, the early return | error of one segment from the dropped cubic term, sum over the segments, substitution for the shift, uniqueness of the integral | Proved in exact arithmetic for given values of chemical_potential at the three temperatures (C165_integral, C165_zero); two equal samples, which the code turns into nan, do not occur for mu inside the range. |
| C166 | autofit_asym writes one checkpoint series per neighbor and supports additional bands | partial | restarts with losses that may be nan, the loop over the neighbors, add_neighbors, the files, the size check of numpy; numerical steps as parameters | induction over the restarts and over the loop, invariant for the list of files; a small instance as witness | REFUTED as stated in three details: with additional bands and two or more reference bands l.959 assigns a matrix of the wrong size and always raises a ValueError (C166_bands_refuted); if all neighbors are used from the beginning, the loop is left at once, only the start file is written and the result is the best restart without a fit (C166_all_refuted); an equivalent neighbor later in the list raises a ValueError after some files are written, although among the first ones it is accepted (C166_duplicate_refuted). The rest is proved for every result of the numerical steps, which are parameters (C166_checkpoints_partial, C166_coefficients); without a restart of finite loss the assertion fails (C166_no_model). |

## 5. Axioms per theorem

Taken from `Print Assumptions` (`tools/axioms.sh` rewrites `tools/axioms.txt`). All axioms belong to the Coq standard
library: `sig_forall_dec`, `sig_not_dec` (ClassicalDedekindReals), `functional_extensionality_dep`
(FunctionalExtensionality) and `classic` (Classical_Prop). No axiom of another library is used: mathcomp (DetMC.v) and
Coquelicot only contribute proved lemmas.

* Closed under the global context (159): C01_from_generator_closed, C02_from_generator_generated, C03_from_generator_total, C04_from_generator_inverses, C04_sym_from_generator_group, C05_even_perm3, C05_members, C05_mirror_groups_partial, C05_named_groups, C05_named_groups_refuted, C06_operations_partial, C06_operations_refuted, C07_eq_complete_partial, C07_eq_refuted, C07_eq_sound_partial, C08_neighbor_lookup, C09_complete_neighbors_partial, C09_complete_neighbors_refuted, C10_r_class_size, C118_empty_refuted, C118_symmetries, C118_translation_refuted, C11_k_weight, C120_projections, C124_bandx, C124_truncated, C126_one_atom_partial, C126_order_refuted, C127_crystal, C127_k_grid, C127_k_points, C127_missing, C127_wannier, C128_infer, C12_conjugacy_classes, C12_equivalence_classes, C133_append, C133_s_and_p, C134_d3_with_inversion, C134_s_and_p_with_inversion_partial, C134_without_inversion, C13_rank11, C13_tensor_projection, C146_again_refuted, C146_first, C146_imag_refuted, C146_labels_refuted, C146_parameters, C146_set, C146_sliders, C147_attributes_refuted, C14_inversion_refuted, C150_defined, C150_distinct, C150_orbits, C153_raises, C153_supercell_refuted, C156_assigned, C156_degenerate_refuted, C156_dropped_refuted, C156_exact_partial, C156_ordered_partial, C156_ordered_refuted, C15_realize_symmetric, C16_reduce_partial, C16_reduce_refuted, C17_check_neighbors_refuted, C18_find_classes_partial, C18_find_classes_refuted, C19_contains_complete_partial, C19_contains_refuted, C19_contains_sound_partial, C20_check_iff_homomorphism, C21_multiple, C21_sum_defined, C21_sum_partial, C21_sum_refuted, C22_from_generator_refuted, C22_generated_representation_partial, C22_object_partial, C22_returns, C23_match_sym_reorders, C23_match_sym_succeeds_iff, C24_idempotent_partial, C24_inv_closed_same_position, C24_linear, C24_result_symmetric, C24_symmetric_fixed, C24_symmetrize_refuted, C25_symmetrizer_eq_symmetrize, C36_bad_line, C36_degeneracy, C36_index_zero_refuted, C36_truncated_hangs_refuted, C38_abort_once, C38_history, C38_last, C38_last_empty, C41_blocks, C41_direct_sum_adj, C41_direct_sum_id, C41_direct_sum_mul, C41_eigenpairs, C41_kron2, C41_kron_adj, C41_kron_mul, C45_faces, C45_materials_partial, C45_materials_refuted, C45_plot_partial, C55_band_name_partial, C55_band_name_refuted, C81_order, C82_transform_group, C82_transform_object, C82_transform_projective_partial, C82_transform_projective_refuted, C83_dual, C83_transpose, C83_transpose_refuted, C84_check_partial, C84_check_refuted, C85_ignore_translation, C85_point_group_partial, C85_point_group_refuted, C86_strict_point_group_partial, C86_strict_point_group_refuted, C87_subgroup_inversion_partial, C87_subgroup_partial, C87_subgroup_refuted, C88_projective_inversion_refuted, C89_copy, C90_div_partial, C90_div_refuted, C91_inversion_only_refuted, C91_mirrored_refuted, C91_symmetrize_fixes, C91_symmetrize_invariant_partial, C91_symmetrize_open_raises, C91_symmetrize_plain_partial, C92_no_mirror_refuted, C92_symmetrizer_equal_partial, C92_symmetrizer_needs, C93_symmetrize2_fixes, C93_symmetrize2_invariant, C94_covariant_partial, C94_default_refuted, C94_inversion_refuted, C94_orbit, C95_permute_representation, C95_repeated_refuted, C96_product_never_returns, C96_product_refuted, C97_accepts_asymmetric_refuted, C97_check_symmetry_point_partial, C97_dimension_raises, C98_d3, C98_one_dim, C98_vector_representations.

* `classic`, `functional_extensionality_dep`, `sig_forall_dec`, `sig_not_dec` (103): C100_asym_bands_grad, C100_bands_grad, C101_bands_grad_hess, C101_eigh_grad_hess, C101_perturbation_sum, C103_degenerate_refuted, C104_constant_overlap, C104_overlap_refuted, C107_bands_grad, C107_bands_grad_hess, C107_gradient, C107_hessian, C111_descent, C111_gradient, C114_linearised, C132_free_electrons, C140_ascending, C140_batch_refuted, C140_descending_refuted, C140_high, C140_single, C142_filled_refuted, C142_interior, C142_value, C142_zero, C152_grads, C155_continuous_partial, C155_continuous_refuted, C155_limit, C155_monotone, C160_gauss_partial, C160_points_partial, C160_positive_partial, C160_rule_partial, C160_two_partial, C160_two_refuted, C164_curve, C164_density_refuted, C164_empty, C164_zero, C165_integral, C165_zero, C28_bsm_gradient, C28_bsm_hessian, C28_gradient, C28_hessian, C46_exact_fraction, C46_monotone, C46_near_fraction, C46_range, C46_sides_partial, C46_sides_refuted, C46_symmetric, C47_combined, C47_derivative, C47_nonneg, C48_cube_partial, C48_smearing_partial, C48_sphere_derivative, C48_sphere_volume, C48_tetra_corners_partial, C48_tetra_derivative_partial, C48_tetra_volume_partial, C49_convolve_bounds, C49_convolve_flat, C49_convolve_range, C49_int_df, C49_int_poly, C49_int_xdf, C49_int_xxdf, C49_normalisation, C49_second_moment, C49_weight, C50_cubes, C50_cubes_density, C50_extra_refuted, C52_distinct_partial, C52_filter_refuted, C52_partial, C52_solvable, C54_partial, C54_refuted, C56_gradients, C62_dvolume, C62_linear_band, C64_range_partial, C64_range_refuted, C66_flat_refuted, C66_monotone, C66_none_partial, C67_filled, C67_partial, C67_refuted, C67_total_partial, C68_segment, C69_samples, C73_df_rules, C73_exact, C73_f_constant, C73_odd, C74_correction, C74_energy, C78_partial.

* `functional_extensionality_dep`, `sig_forall_dec` (156): C100_eigh_grad, C100_geigh, C100_geigh_grad, C101_symmetric, C102_gradient_sum, C102_sums, C104_degenerate_refuted, C105_single, C105_single_fails, C105_single_hess, C106_constructor, C106_inversion_refuted, C106_symmetrizer_trivial, C109_raises, C109_roundtrip_refuted, C109_two, C111_sample_weights_refuted, C112_band_weights_refuted, C112_exact, C112_pinv_step, C113_contracts, C113_mask_and_origin, C113_one_sample, C113_pinv_step, C114_gauss_newton, C114_operator, C114_right_side, C114_symmetric, C116_k0_in_loop, C116_zeros_in_loop, C117_window, C119_k_points, C119_range_refuted, C120_energies, C121_from_disk_partial, C121_from_disk_refuted, C122_spinor_refuted, C122_wavefunctions_partial, C123_density_refuted, C125_breaks, C128_grid_partial, C128_order_refuted, C129_orbitals, C130_reduction_refuted, C133_d2, C133_d3_iff, C133_d3_refuted, C134_p_with_inversion_wrong, C134_s_and_p_with_inversion_refuted, C134_s_with_inversion_iff, C136_cubic, C136_paths, C137_tetragonal, C141_derivative, C141_values, C141_zero_refuted, C148_mean, C148_symmetric, C149_periodic, C149_plain, C149_single_refuted, C149_symmetric, C149_unwrapped_refuted, C151_other, C151_self, C152_degenerate_refuted, C152_exchange, C152_formula, C152_gauge, C152_same, C154_image, C154_sample, C157_commutes, C157_complete, C157_partition, C158_formats_refuted, C158_names, C161_failed_refuted, C161_names_refuted, C161_path_partial, C162_card_partial, C163_cutoff, C163_order, C163_parts, C163_valence, C166_all_refuted, C166_bands_refuted, C166_checkpoints_partial, C166_coefficients, C166_duplicate_refuted, C166_no_model, C29_defined, C30_roundtrip, C30_roundtrip_inversion, C30_roundtrip_inversion_exp, C31_energies_unique, C35_idempotent, C35_save_defined, C39_residual, C39_terminates, C42_consistent, C42_names, C43_history_partial, C43_history_refuted, C44_fermi_surface, C50_bounds, C50_cut_indices, C50_extremes, C50_fermi_insulator, C50_fermi_metal_partial, C50_fermi_zero_refuted, C50_monotone, C50_no_gap, C50_states_density, C51_conductivity, C51_kelvin, C51_peltier, C51_seebeck, C51_thermal, C53_bcc, C53_cubic_volumes, C53_fcc, C53_orthorhombic_base, C53_orthorhombic_body, C53_orthorhombic_face, C53_tetragonal_body, C57_bar, C57_perfect_fit_refuted, C58_default_limit, C58_finite_termination, C59_failed_to_partial, C60_list_start_partial, C60_tuple_start_refuted, C61_plot_scale_refuted, C61_plot_shrink_partial, C63_extrapolation, C63_two_grids, C70_refuted, C70_value_partial, C71_affine, C71_early_return, C71_needs_injective, C72_band_partial, C72_gradient_refuted, C72_total_partial, C75_partial, C75_refuted, C76_drude, C76_odd_moments_indefinite, C76_positive, C76_symmetric, C77_constant_partial, C77_points_partial, C77_refuted, C80_partial, C80_refuted.

* `functional_extensionality_dep`, `sig_forall_dec`, `sig_not_dec` (155): C105_single_refuted, C107_gamma, C107_hermitian, C107_periodic, C108_same_as_asym, C108_set_from_complex, C110_contracts, C110_exact_refuted, C110_one_sample, C113_overlap_refuted, C115_energies, C115_inversion_refuted, C115_normal_form, C115_small_refuted, C116_f0_in_loop, C116_k0_refuted, C116_keep_zeros_refuted, C117_asym_refuted, C117_gamma, C117_plain_refuted, C130_sphere, C131_crystal, C131_energies, C131_gradient, C131_hessian, C131_transform, C131_unit, C132_hessian, C132_hessian_refuted, C135_formula_partial, C135_hermitian, C135_identity_parity_refuted, C135_identity_partial, C135_identity_phase_refuted, C138_trigonal, C139_documented_refuted, C139_hexagonal, C143_cyclic, C143_lattice, C143_o2, C143_o2_inversion, C143_o2_inversion_refuted, C144_dihedral, C144_limit_refuted, C145_alignment_refuted, C145_icosahedral, C147_bloch, C147_cubic, C147_d2_refuted, C147_eg_refuted, C147_hermitian, C147_pd_refuted, C147_time_reversal, C147_time_reversal_refuted, C150_covariant_partial, C150_parity_refuted, C151_alias_refuted, C151_symmetric_refuted, C151_transform_partial, C155_shift, C155_sum, C156_gamma, C158_dimension_refuted, C158_json_partial, C158_json_symmetry_refuted, C158_python_exp_refuted, C158_python_partial, C158_python_refuted, C159_json_partial, C159_overlap_refuted, C159_python, C160_errors, C162_scale_refuted, C26_bsm_hermitian, C26_hermitian, C27_periodic, C27_time_reversal, C28_hessian_symmetric, C29_convention_partial, C29_inversion, C29_plain, C29_refuted, C31_bsm_scale, C31_bsm_shift, C31_bsm_union_partial, C31_bsm_union_refuted, C31_scale, C31_shift_partial, C31_shift_refuted, C31_union, C32_congruence, C32_normalize, C32_permute, C33_add, C33_add_duplicate_refuted, C33_add_ok_iff, C33_cleanup, C33_limit_count, C33_limit_count_zero_refuted, C33_limit_neighbors, C33_limit_neighbors_defined, C34_supercell_partial, C34_supercell_refuted, C34_supercell_rejects_refuted, C35_roundtrip, C36_load_hr, C36_load_tb, C37_equal_counts_refuted, C37_hist_equal_counts_refuted, C37_hist_partial, C37_last_offset_refuted, C37_windowed_partial, C39_error_criterion_partial, C39_error_criterion_refuted, C40_distinct_partial, C40_repeated_refuted, C40_zero_iff_partial, C42_sym_x, C42_x, C48_sphere_monotone, C48_sphere_range, C48_tetra_monotone_refuted, C48_tetra_range_refuted, C50_cubes_range, C50_cubes_sorted, C50_density, C52_repeated, C52_zero_temperature, C53_hexagonal, C53_monoclinic, C53_monoclinic_base, C53_orthorhombic, C53_rhombohedral, C53_rhombohedral_domain, C53_sc, C53_tetragonal, C53_triclinic, C53_triclinic_domain, C56_energies, C56_same_bands, C56_unit, C59_failed_to_refuted, C65_area, C65_on_plane, C76_rotation, C78_refuted, C79_insulator_refuted, C79_mixed_partial, C79_partial, C79_refuted, C79_zero_temperature, C99_chain_rule, C99_hall_coefficients, C99_hall_rotation, C99_hessian.

* `sig_forall_dec` (6): C117_count_refuted, C123_shift, C154_nearest, C154_short, C52_one_point_refuted, C62_corners.
