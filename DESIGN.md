# Formal model of pyElli: design and trusted base

Everything in `/verif/rocq/theories` is written for Coq 8.16.1.  The code under
`/repo/src/elli` was only read, never run; the tie between the model and the
code is the citation (file and lines) that each model definition carries.

## Layout

| Folder | Contents |
|---|---|
| `Base/` | general tools: Python outcomes (`Py.v`), complex numbers (`Cx.v`), matrices (`Mat.v`), determinants and inverses (`Det.v`), matrix exponential (`Mexp.v`) |
| `Model/` | the model, function by function; definitions only; each cites file and lines |
| `Spec/` | small specifications, written without the model's helper functions |
| `Proof/` | lemmas |
| `Props/` | the theorems, concrete `Example`s that meet the hypotheses, and `Print Assumptions` |

A theorem whose name ends in `_refuted` proves that the English claim is false
of the faithful model and gives the witness.  A theorem whose name ends in
`_partial` proves a part of the claim; the missing part is said beside it.
Which theorems belong to which property, and what is missing, is in
`MANIFEST.json`.  `seeded/LOG.jsonl` records the wrong programs the theorems
were tried on.  There `file:name` is the first proof that broke, which may be a lemma
about the edited definition, and `file not built` a theorem file that rests on it.  In
that case the log shows that the proof of the theorem no longer goes through, not by
itself that the theorem has become false.

## Trusted base

* Coq's kernel (8.16.1), `coqc` and `coqchk`.
* Axioms: only those of Coq's standard library that `Print Assumptions` lists for
  some theorem:
  `ClassicalDedekindReals.sig_forall_dec`, `ClassicalDedekindReals.sig_not_dec`,
  `FunctionalExtensionality.functional_extensionality_dep` and
  `Classical_Prop.classic`.  No axiom is declared here.  The list for each
  theorem is at the end of this file.
* The reading of the Python code, and the statements below on libraries.
* The specifications in `Spec/`, which say what the English words mean.

### What numbers are

Floating point numbers are modelled as exact real and complex numbers.  Rounding,
overflow, signed zeros and subnormals are not modelled.  NaN and infinity are
modelled where the code can produce them by dividing by zero: the operation then
returns `None` ("not finite"), so that no theorem holds because of Coq's
convention for `x / 0`.  One consequence: on the branch cut of `arcsin` (a real
argument above 1) the model takes the side that numpy documents (continuous from
below on [1, inf)), while numpy decides by the sign of the zero imaginary part.
For inner layers the side is irrelevant (`C36_branch`); for half spaces
`Solver2x2` replaces the sign by its own rule unless the wave number is within
1e-10 (C35).  Only `C35_growing_refuted` looks inside this band.  There the other
side would give kz = -i e with real part zero, and in floating point
cos(pi/2 + i y) has a real part of about 6e-17 > 0, so that the growing wave is
kept as well; in exact arithmetic with the other side it would be turned around.

### What library calls are

| Library call | Model |
|---|---|
| `numpy`, `scimath` arithmetic, `sqrt`, `exp`, `log`, `arcsin`, `arctan`, `angle` | exact functions on R and C with the principal branches, defined in `Base/Cx.v` |
| `np.linalg.inv` | the adjugate formula, error when the determinant is zero |
| `scipy.linalg.expm` and the batched expm | the power series of the matrix exponential (`Base/Mexp.v`) |
| `np.linalg.eig` | not computed: its result (values and vectors) is an argument of the model; theorems assume the eigenvalue equation and say when they need more; in `Spectrum4` an arbitrary function of the sixteen elements |
| `np.lexsort`, `np.where`, `np.squeeze`, `np.mean`, `np.array` of lists | functions on lists or on arrays with shapes |
| `scipy.interpolate.interp1d(kind="linear")` | piecewise linear interpolation on nodes sorted by wavelength, `ValueError` outside; duplicate wavelengths are excluded; the other values of `kind` are in `Model/TableKinds.v`; quadratic and cubic are the splines with the not-a-knot knots of `scipy.interpolate.make_interp_spline`, in `Model/Spline.v` as explicit solutions of the interpolation conditions |
| `scipy.special` | the Gaussian oscillator uses Dawson's function as defined by its integral; complex `digamma` and `gamma` are the series of Weierstrass and Euler (`Base/Special.v`), without a value at the poles |
| `copy.deepcopy` | copy of the whole reachable heap with shifted references |
| `lmfit.Parameters` | a dictionary of references to mutable parameter objects; `copy` makes fresh objects and a fresh (empty) history, `update` stores the other's objects; `minimize` is an arbitrary function that returns new values |
| `lark` (formula grammar) | a lexer with the terminals' priorities and an operator precedence parser for the grammar that occurs; theorems tie it to an independent rendering relation |
| `pint` units of formulas | a unit is a length or an energy with a factor, or unknown |
| `pandas` frames | lists of rows or columns; missing values are explicit; `logical_or` on missing values is a parameter |
| `pandas.read_csv` | splitting at tabs or runs of blanks, blank lines skipped, cells become numbers, text or missing (`Model/TextTable.v` says which assumptions) |
| `re` | regular expressions as data, matched by derivatives (`Model/Regex.v`); `Proof/RegexP.v` proves the matcher right for the usual language of a regular expression (`Spec/Language.v`) |
| `rapidfuzz` | an arbitrary score with the threshold test that the code makes |
| `h5py` / NeXus files | the tree of groups, datasets and attributes as data; arithmetic on an unread dataset is a `TypeError` |
| `yaml` | the loaded dictionary as data |
| `plotly` figures | the list of traces with their data |
| `ipywidgets` | callbacks are functions on the state of the object |
| Python attribute lookup | instance/class attributes first, then `__getattr__`; subscripting needs a `__getitem__` of the class |

## Per property

| Ids | Model | Specification | How |
|---|---|---|---|
| C01, C02 | `Model/DeltaRange.v` | `Spec/Angle.v` | case analysis; floor modulus on R; exact characterisation of the bounds for which the angle is preserved |
| C03, C05, C43, C44, C60 | `Model/Ellips.v` | `Spec/Light.v` | polar form of complex numbers; explicit Mueller matrices; Stokes action |
| C04 | `Model/Ellips.v`, `Model/Solver2.v` | `Spec/Light.v` | field identities with the solver model |
| C06, C09 | `Model/Units.v` | (in the statements) | field identities |
| C07, C08 | `Model/Rotation.v` | `Spec/Rot.v` | polynomial identities modulo sin²+cos²=1; Rodrigues through the exponential series |
| C10 | `Model/Params.v` | `Spec/Binding.v` | list lemmas on argument binding |
| C11-C16 | `Model/DispAdd.v` | `Spec/Adding.v` | heap of mutable sums; invariant by induction over histories of additions; principal square root |
| C17-C21, C63, C65 | `Model/Dispersions.v` | `Spec/DispDoc.v` | real inequalities, limits, list induction |
| C22, C23 | `Model/Formula.v` | `Spec/Meaning.v` | evaluator with array shapes against a pointwise meaning, for any arithmetic |
| C24 | `Model/FormulaText.v` | `Spec/Rendering.v` | parser against a rendering relation, both directions |
| C25-C30, C61, C62, C64 | `Model/Materials.v`, `Model/Mixture.v` | `Spec/Effective.v` | matrix algebra, principal roots, convexity, induction over histories |
| C31-C33 | `Model/Structure.v` | (in the statements) | list induction |
| C34 | `Model/Polar.v` | `Spec/Analyser.v` | square roots, field identities |
| C35-C37, C66, C67 | `Model/Solver2.v` | `Spec/Stack.v` | transfer matrices, wave matching problem, conserved flux; induction over layers |
| C38-C41, C68-C70 | `Model/Solver4.v` | `Spec/Maxwell.v`, `Spec/Tensor.v` | Berreman matrix from Maxwell's equations, matrix exponential, conserved Hermitian form |
| C42, C71 | `Model/Solver4.v` | `Spec/Tensor.v` | change of basis of the eigenvectors |
| C45, C46 | `Model/ResultAttr.v` | `Spec/Names.v` | strings |
| C47 | `Model/ResultList.v` | (in the statements) | arrays with shapes |
| C48, C72, C73 | `Model/Kkr.v` | `Spec/KK.v` | sums over lists |
| C49 | `Model/ParamsHist.v` | `Spec/Undo.v` | heap model, refinement to an undo stack by induction over operations |
| C50, C74 | `Model/FitGui.v` | `Spec/Undo.v` | heap model, induction over clicks |
| C51 | `Model/Rii.v` | `Spec/Database.v` | formulas of the database documentation; lists of coefficients |
| C52 | `Model/RiiCatalog.v` | `Spec/Library.v` | list induction with the state of the loops |
| C53 | `Model/TextTable.v`, `Model/SpectraRayTable.v` | `Spec/SpectraRayFile.v` | list and string induction |
| C54 | `Model/Regex.v`, `Model/TextTable.v`, `Model/Woollam.v` | `Spec/Language.v`, `Spec/WoollamFile.v` | derivatives of regular expressions, list induction |
| C55 | `Model/Nexus.v` | `Spec/NexusFile.v` | heap of sums (C11) and induction over the groups of a file |
| C56, C75 | `Model/PlotStructure.v` | `Spec/Picture.v` | list induction; refuted by the y direction |
| C57, C76 | `Model/MMatrixFit.v` | `Spec/Labels.v` | list lemmas, induction over histories |
| C58 | `Model/Tables.v` | `Spec/Table.v` | induction over sorted tables |
| C59 | `Model/Snapshot.v` | (in the statements) | heap model with deep copy |
| C77-C79 | `Model/FitRho.v` | `Spec/FitPicture.v` | the residual and the figure of psi/delta fits against a picture of the data |
| C80, C81 | `Model/FitWidgets.v` | (in the statements) | list lemmas on number boxes and checkboxes |
| C82 | `Model/NexusPsiDelta.v` | `Spec/NexusData.v` | list lemmas on the data of a NeXus file |
| C83, C85 | `Model/SpectraRayPsi.v` | `Spec/SpectraRayData.v` | string and list induction over the text of a file |
| C84 | `Model/Accurion.v` | `Spec/AccurionFile.v` | pivot table as sums over the rows of a file |
| C86-C90 | `Model/Solver4.v`, `Model/Solver2.v` | `Spec/Turned.v` | conserved bilinear forms, similarity of delta matrices, matrix exponential |
| C91-C93 | `Model/Solver2.v` | `Spec/Waves.v`, `Spec/Stack.v` | Wronskian and uniqueness of the wave matching problem, Fresnel formulas |
| C94 | `Model/Solver2.v`, `Model/Structure.v` | `Spec/Mirror.v`, `Spec/Stack.v` | induction over the layers on the fields at the interfaces; geometric growth of the seen index |
| C95 | `Model/Solver4.v`, `Model/Solver2.v` | `Spec/Plane.v` | agreement of matrices on a pair of rows and columns, kept by products and the matrix exponential |
| C96 | `Model/Solver2.v`, `Model/Ellips.v` | `Spec/Light.v`, `Spec/Angle.v` | rho as a quotient of normal wave numbers; sign analysis |
| C97 | `Model/Solver2.v` | `Spec/Stack.v` | linearity of the fields in front in the fields behind; energy flux shows that a forward wave is present; exponential dominance |
| C98 | `Model/IntWave.v` | `Spec/Dispersions.v` | Wavelengths as integers: type of the array (int64 if all are integers), overflow, negative integer powers, promotion to float and complex |
| C99 | `Model/Spectrum.v`, `Model/Solver2.v`, `Model/Mixture.v`, `Model/Structure.v`, `Model/Tables.v` | `Spec/Pointwise.v` | Solver2x2 as a program on arrays over the wavelengths (numpy broadcasting, vstack, boolean masks) and the same at one wavelength |
| C58 | `Model/TableKinds.v` | `Spec/TableKind.v` | the parameter kind of tables: the methods of scipy.interpolate.interp1d, written from its documentation and source |
| C100 | `Model/Spectrum4.v`, `Model/Spectrum.v`, `Model/Solver4.v`, `Model/Mixture.v`, `Model/Structure.v` | `Spec/Pointwise.v`, `Spec/Pointwise4.v` | Solver4x4 as a program on stacks of 4x4 matrices over the wavelengths (np.array with moveaxis, einsum, matmul, stacked inv and eig, nan) and the same at one wavelength; np.linalg.eig is any function of the sixteen elements |
| C101 | `Model/Tanguy (Base/Special).v` | `Spec/Exciton.v`, `Spec/DispDoc.v` | complex digamma and gamma as series; real arguments below the gap, upper half plane above; limits at the poles with boundedness of the rest |
| C102 | `Model/Tanguy (Base/Special).v` | `Spec/Exciton.v`, `Spec/DispDoc.v` | logarithm of gamma as a series with Lipschitz bounds; continuity of the general formula; estimates on both sides of d = 2; at d = 3 the derivative of log gamma and the reflection formula of digamma |
| C103 | `Model/PseudoFunc.v`, `Model/Spline.v`, `Model/TableKinds.v`, `Model/Solver2.v`, `Model/Ellips.v` | `Spec/PseudoDoc.v`, `Spec/SplineDoc.v`, `Spec/Light.v` | the dispersion as a table of rows, each row the algebraic inverse of the Fresnel ratio; cubic spline between them; nan spreads over all values |
| C104 | `Model/PseudoFunc.v`, `Model/Solver2.v`, `Model/Ellips.v` | `Spec/PseudoDoc.v`, `Spec/Light.v`, `Spec/Angle.v` | (1 - rho)/(1 + rho) as the scaled normal wave number; sign of its imaginary part decides which root the solver takes |
| C105 | `Model/Structure.v`, `Model/Solver4.v` | `Spec/Graded.v`, `Spec/Maxwell.v`, `Spec/Turned.v` | Base/Ode.v, Base/Approx.v: existence and uniqueness for linear differential equations (Picard, Gronwall), one-step error of each slice, stability of the product; calculus of errors of order 1/n through the 2x2 inverse; energy flux excludes resonances |
| C106 | `Model/Kkr.v` | `Spec/KK.v`, `Spec/PV.v` | the integrand folded at the pole is Lipschitz; the points of opposite parity are the midpoints of cells of width 2h; midpoint rule and principal value |
| C107 | `Model/RiiOpen.v`, `Model/RiiCatalog.v`, `Model/Rii.v` | `Spec/Library.v` | rows correspond to places of the library without repetition; a filter with exactly one place has one row |
| C108 | `Model/Structure.v`, `Model/Solver4.v` | `Spec/Layered.v`, `Spec/Graded.v`, `Spec/Maxwell.v` | the matrix of the differential equation of the mean tensor is the mean of the matrices of the layers; one period is a step of it up to h^2; then as C105 |
| C109 | `Model/Structure.v`, `Model/Solver4.v` | `Spec/Helix.v`, `Spec/Graded.v`, `Spec/Maxwell.v`, `Spec/Turned.v` | in the turning frame the equations have constant coefficients; their matrix satisfies a biquadratic equation (Cayley-Hamilton), its four spectral projections give the waves; then C105; the discriminant of the biquadratic is positive for real indices |
| C110 | `Model/Structure.v`, `Model/Solver4.v` | `Spec/Turns.v`, `Spec/Turned.v` | induction over the repetitions; turns about the normal add up |
| C111 | `Model/Frames.v` | `Spec/Rows.v` | numbers, arrays, lists and None as arguments; induction over nested sums that arrays are evaluated point by point and fail exactly if a point does |
| C112 | `Model/Dispersions.v`, `Model/Units.v` | `Spec/Causal.v` | explicit primitives of the integrand in logarithms and arctangents, their limits at the pole and at infinity; partial fractions for Tauc-Lorentz; under, critical and over damping separately for Lorentz; for Gaussians the value of the Gaussian integral and differentiation under the integral |
| C113 | `Model/Mixture.v` | `Spec/Bounds.v`, `Spec/Effective.v` | one family of bounds, monotone in the comparison medium, contains the means, Maxwell-Garnett and the Bruggeman value; Looyenga by polynomials with positive coefficients |
| C114 | `Model/Sample.v` | `Spec/Objects.v` | heap of materials, lists, layers and structures; programs of constructor and setter calls; validity, acceptance, existence of profiles, sharing; infinite thicknesses and direct assignment to attributes are not modelled |
| C115 | `Model/Dispersions.v` | `Spec/Causal.v`, `Spec/Strength.v` | strength sum rules of the oscillator models as improper integrals |
| C116 | `Model/Solver2.v`, `Model/Ellips.v` | `Spec/Film.v`, `Spec/Light.v` | derivative of the reflected amplitudes in the thickness of the uppermost layer; Drude formula for rho, psi and delta |
| C117 | `Model/RhoImport.v`, `Model/SpectraRayPsi.v`, `Model/Woollam.v`, `Model/NexusPsiDelta.v`, `Model/Ellips.v` | `Spec/Light.v`, `Spec/SpectraRayData.v`, `Spec/WoollamFile.v`, `Spec/NexusData.v`, `Spec/Angle.v` | rho of measured files is the rho of the psi and delta written in them |
| C118 | `Model/Experiment.v`, `Model/Polar.v`, `Model/Ellips.v` | `Spec/Incident.v`, `Spec/Light.v`, `Spec/Angle.v` | the light of an experiment: rho, psi, delta and the Mueller matrix of a result agree, whatever the history of setter calls |
| C119 | `Model/Solver2.v` | `Spec/Etalon.v`, `Spec/Stack.v` | samples divided at a transparent layer, sum of multiple reflections, Airy formula |
| C120 | `Model/DispRepr.v` | `Spec/Shown.v` | the text of dispersions and sums determines them |
| C121 | `Model/Solver2.v`, `Model/ResultList.v` | `Spec/Etalon.v`, `Spec/Stack.v` | mean over equally spaced thicknesses, incoherent limit |
| C122 | `Model/Solver2.v` | `Spec/Stack.v` | frustrated total reflection, tunnelling through a gap |
| C123 | `Model/Dispersions.v` | `Spec/Static.v`, `Spec/Causal.v`, `Spec/Strength.v` | static dielectric constant from the absorption |
| C124 | `Model/Dispersions.v` | `Spec/Normal.v` | normal dispersion of transparent models |
| C125 | `Model/Solver2.v` | `Spec/Stack.v` | Stokes relations of transparent stacks |

## Not modelled

* Layout of plots and widgets, file system and HDF5 access, encoding detection,
  downloading of the refractive index database, logging and warnings.
* The shape of `lmfit` reports.
* Signed zeros: `Tanguy` without broadening takes above the gap one of two conjugate
  values depending on the sign of a zero; the theorems only say that there is a value.
* Floating point rounding, see above.
* Numerical minimisation: a fit returns arbitrary values.

## What the model says about the code

Apart from the refuted claims (each `_refuted` theorem names a witness) reading the
code function by function showed:

* `EulerAngles` and mixtures apart, `set_rotation` replaces the former rotation (C25).
* `LorentzEnergy` and others contain the constant 1 of the permittivity, so the sum of two of them counts it twice.
* `Solver4x4`: the phase normalisation of the half-space modes multiplies by `e/|e|` once instead of dividing (C42), and one `np.where` result is discarded.
* The power correction of `Solver4x4` is left out when the back medium is not an `IsotropicMaterial`.
* `Structure.set_front_material` accepts anisotropic materials although the documentation forbids them.
* `set_vector` of the polarisation classes ignores vectors of another shape silently.
* Index table plus number raises `InvalidParameters` (C14).
* The docstring formula of `im2re_reciprocal` differs from the code; the code is right.

## Print Assumptions

Abbreviations: **D** `ClassicalDedekindReals.sig_forall_dec`,
**N** `ClassicalDedekindReals.sig_not_dec`,
**F** `FunctionalExtensionality.functional_extensionality_dep`,
**C** `Classical_Prop.classic`.

### D

* `DispAddT.v`: C11_order_refuted, C12_example, C13_mixed_kinds, C13_mixed_type_error_refuted, C13_example, C14_index_table_number_fails, C14_two_tables_fail, C14_table_sum_refuted, C15_as_index_refuted
* `FitGuiT.v`: C50_change, C50_undo_change, C50_undo_changes, C50_fit, C50_redo, C50_initial, C50_fitted_partial, C50_example
* `FitRhoT.v`: C79_example
* `FitWidgetsT.v`: C81_checkbox_partial, C81_reset, C81_last, C81_undo_refuted, C81_example
* `MMatrixFitT.v`: C57_init, C57_init_refuted, C76_figure_partial, C76_history_partial, C76_example
* `MixtureT.v`: C25_axes, C25_rejects, C25_last_rotation_wins
* `NexusPsiDeltaT.v`: C82_legacy_example
* `ParamsHistT.v`: C49_bound, C49_refinement, C49_undo_partial, C49_undo_refuted, C49_revert, C49_example
* `RiiCatalogT.v`: C52_catalog, C52_no_pages, C52_example
* `RiiOpenT.v`: C107_example
* `SpectraRayPsiT.v`: C85_last, C85_one_partial, C85_example, C85_names_refuted

### D F

* `AccurionT.v`: C84_sums, C84_distinct_partial, C84_example, C84_regions_refuted, C84_missing_refuted, C84_errors
* `BoundsT.v`: C113_bounds, C113_metal, C113_example
* `DeltaRangeT.v`: C01_integer_ranges_accepted, C01_other_integers_rejected, C01_non_integers_rejected_partial, C01_non_integer_rejected_refuted, C01_example_accepted, C01_example_rejected, C02_result_in_turn, C02_total, C02_result_is_shifted, C02_angle_preserved_iff, C02_angle_preserved_refuted, C02_upper_bound_refuted, C02_example
* `Dispersions2T.v`: C63_example, C65_cauchy, C65_sellmeier, C65_poles, C65_drude_energy, C65_lorentz_lambda_refuted, C65_lorentz_energy_partial, C65_lorentz_energy_refuted, C65_example
* `DispersionsT.v`: C17_lorentz_energy, C17_lorentz_lambda, C17_drude_energy, C17_example, C18_example, C19_lorentz_lambda, C19_lorentz_drude_partial, C19_lorentz_drude_refuted, C19_poles, C19_example, C21_same_sign, C21_metal_refuted, C21_metal_partial, C21_example
* `EllipsT.v`: C43_real, C43_normalised
* `FitGuiT.v`: C50_fitted_refuted, C50_one_click_refuted, C50_initial_refuted, C50_redo_refuted, C74_plain_refuted
* `FitWidgetsT.v`: C80_boxes_partial, C80_typed_partial, C80_mueller, C80_rho_partial, C80_rho_refuted, C80_example
* `FormulaT.v`: C22_sum_refuted, C22_heaviside_refuted, C22_kkr_refuted, C22_unit, C23_add_refuted, C22_example, C23_example
* `LayeredT.v`: C108_mean, C108_isotropic
* `MMatrixFitT.v`: C57_residual_partial, C57_order_refuted, C57_example
* `MixtureT.v`: C25_symmetric, C25_invariants, C25_product, C25_isotropic, C25_two_calls_refuted, C26_host_guest, C26_linear, C26_exchange, C26_rotation, C26_example, C27_equation, C27_quotients, C27_defined, C27_guest_refuted, C27_host_refuted, C27_isotropic, C27_example, C30_always_in_range, C30_set_fraction, C30_example, C62_maxwell_garnett_refuted
* `NexusPsiDeltaT.v`: C82_present, C82_legacy_partial, C82_default, C82_errors, C82_example, C82_sample_refuted, C82_documented_refuted, C82_repeated_refuted
* `NexusT.v`: C55_without_x, C55_empty_group, C55_two_tables, C55_tables_refuted, C55_energy_table_refuted, C55_example
* `NormalT.v`: C124_sellmeier, C124_cauchy, C124_poles, C124_across_refuted
* `ParamsHistT.v`: C49_shared_refuted
* `ResultListT.v`: C47_mean_partial, C47_single, C47_mean_refuted, C47_scalar, C47_rejected, C47_example
* `RiiCatalogT.v`: C52_search_partial, C52_fuzzy_partial, C52_filter, C52_column_error, C52_missing_refuted, C52_unknown_range_refuted, C52_example_search
* `RiiOpenT.v`: C107_loads_refuted
* `RiiT.v`: C51_example_table
* `RotationT.v`: C08_example
* `SampleT.v`: C114_valid, C114_accepted, C114_layers, C114_profile, C114_value, C114_shared, C114_cycle_refuted, C114_append_refuted, C114_nan_refuted, C114_nonvacuous, C114_setter, C114_constructor
* `SpectraRayPsiT.v`: C83_psi_delta_partial, C83_example, C83_decimal_refuted, C83_repeated_refuted, C85_first_refuted
* `SpectraRayT.v`: C53_energy_partial, C53_wavelength, C53_no_unit, C53_example, C53_wavelength_refuted, C53_comma_refuted, C53_blank_refuted
* `StructureT.v`: C31_slices, C31_rejects, C31_example, C32_periodic_partial, C32_slices, C32_inhomogeneous_refuted, C32_long_count_refuted, C32_example, C33_profile, C33_ends, C33_written_out, C33_written_out_partial, C33_inhomogeneous_refuted, C33_example
* `Symmetry4T.v`: C86_material
* `TableKindsT.v`: C58_kind_outside, C58_kind_rejected, C58_kind_accepted, C58_kind_tabulated_partial, C58_kind_meaning_partial, C58_single_row, C58_single_refuted, C58_duplicate_refuted, C58_kind_example
* `TablesT.v`: C58_between_partial, C58_tabulated_partial, C58_outside, C58_order_partial, C58_example
* `TanguyDimT.v`: C102_example, C102_three_example
* `UnitsT.v`: C06_physical_laws, C06_involutions, C06_energy_frequency, C06_frequency_through_energy, C06_example
* `WoollamT.v`: C54_wvase_partial, C54_complete_ease_partial, C54_no_table, C54_trig, C54_negative_refuted, C54_all_negative_refuted, C54_no_header_refuted, C54_wvase_example, C54_complete_ease_example

### D N F

* `BoundsT.v`: C113_which
* `CausalT.v`: C112_unique
* `DispAddT.v`: C11_add, C11_shared_sum_refuted, C11_example, C12_operands_partial, C12_error_changes_nothing, C12_left_sum_becomes_result, C12_left_sum_refuted, C12_right_sum_refuted, C13_sums_flat_and_kinded, C14_table_sum_partial, C14_example, C15_as_index, C15_example, C16_n_squared, C16_branch, C16_index_dispersion_partial, C16_index_dispersion_refuted, C16_example
* `Dispersions2T.v`: C65_urbach, C65_drude_resistivity_refuted
* `DispersionsT.v`: C17_drude_resistivity, C17_cody_lorentz, C19_drude_models, C20_cody_lorentz_positive, C20_cody_lorentz_refuted, C21_resistivity_refuted
* `EllipsT.v`: C43_defined, C43_nondepolarising, C43_stokes, C43_isotropic_table, C43_example, C05_psi_delta_to_mueller_refuted, C05_wrong_whenever, C44_reflection, C44_transmission, C44_power_per_handedness, C44_total_power, C44_normal_incidence, C44_example, C60_R_unpolarised_partial, C60_R_deficit, C60_R_unpolarised_refuted, C60_example
* `ExperimentT.v`: C118_history
* `FitRhoT.v`: C77_squares, C77_lengths, C78_figure, C78_lengths, C78_example, C79_get_model_data, C79_to_csv_refuted
* `FramesT.v`: C111_rows, C111_index_rows, C111_raises, C111_square, C111_branch, C111_conjugate, C111_default, C111_table, C111_lists, C111_number, C111_lists_refuted, C111_shape_refuted, C111_default_refuted, C111_example
* `GradedT.v`: C105_varying
* `HelixT.v`: C109_modes, C109_stop_band
* `KkrT.v`: C48_maclaurin_partial, C48_first_refuted, C48_linear, C48_parity, C48_reject, C48_example, C72_roundtrip_sign, C72_roundtrip_refuted, C72_example, C73_orientation, C73_orientation_refuted, C73_example
* `MixtureT.v`: C25_example, C27_limits_partial, C28_equation, C28_quotients, C28_exchange, C28_limits_partial, C28_undefined, C28_host_refuted, C28_isotropic, C28_example, C61_bruggeman_between, C61_example, C62_bruggeman_refuted, C64_unrotated_partial, C64_rotated_refuted, C64_example
* `ModesT.v`: C42_positive_refuted
* `NexusT.v`: C55_file_partial, C55_x_and_y, C55_x_y_refuted
* `NormalT.v`: C124_sellmeier_index, C124_example
* `PlotStructureT.v`: C56_x_partial, C56_refuted, C75_graph, C56_example, C75_example
* `PolarT.v`: C34_jones, C34_stokes_partial, C34_undefined, C34_unpolarised_refuted, C34_round_trip, C34_default, C34_example
* `PseudoFuncT.v`: C103_row, C103_table, C103_nan, C103_rejected
* `ResultAttrT.v`: C45_circular_refuted, C45_order, C45_order_refuted
* `RhoImportT.v`: C117_any_file, C117_spectraray_partial, C117_wvase_partial, C117_complete_ease_partial, C117_nexus, C117_errors, C117_spectraray_example, C117_nexus_example, C117_wvase_example
* `RotationT.v`: C07_product, C07_proper, C07_identity, C07_inverse, C07_example, C08_action, C08_fixes_axis, C08_axis_not_normalised
* `Solver2T.v`: C36_branch
* `Solver4T.v`: C39_defective, C39_linear_zero, C39_linear_refuted, C39_example, C40_inverse, C40_defined, C40_example
* `StaticT.v`: C123_unique
* `StrengthT.v`: C115_unique, C115_sum
* `StructureT.v`: C31_twist, C31_zero_thickness
* `Symmetry4T.v`: C86_euler
* `TableKindsT.v`: C58_cubic_refuted, C58_kind_tabulated, C58_kind_meaning, C58_polynomial, C58_spline_example
* `TurnsT.v`: C110_profile, C110_turns
* `UnitsT.v`: C09_quarter_wave, C09_no_plate, C09_example

### D F C

* `EllipsT.v`: C03_rho_is_field_ratio

### D N F C

* `BoundsT.v`: C113_hashin_shtrikman, C113_wiener, C113_monotone, C113_fraction
* `CausalT.v`: C112_lorentz_energy, C112_lorentz_lambda, C112_tauc_lorentz, C112_drude, C112_drude_resistivity, C112_drude_refuted, C112_example, C112_gaussian
* `DispAddT.v`: C11_expression_partial, C11_order_partial, C12_only_sum_operands_change
* `Dispersions2T.v`: C63_reality, C65_powers, C65_sellmeier_custom, C65_gaussian_width_partial, C65_gaussian_refuted
* `DispersionsT.v`: C17_gaussian, C17_tauc_lorentz_partial, C17_tauc_lorentz_refuted, C18_superposition_and_order, C19_sellmeier_custom, C19_cauchy, C20_tauc_lorentz_partial, C20_tauc_lorentz_refuted, C20_tauc_lorentz_undefined, C20_cody_lorentz_continuous, C20_example
* `EllipsT.v`: C03_psi_delta_rho_partial, C03_folded_range, C03_consistent_iff, C03_example, C03_psi_delta_rho_refuted, C03_delta_matrix_folded_refuted
* `Energy4T.v`: C69_defined, C69_passive, C41_energy, C41_example, C69_example, C70_deficit, C70_unpolarized_refuted, C38_example, C31_response4_example
* `EnergyT.v`: C37_energy, C37_result, C37_defined, C66_passive, C67_interface_partial, C67_power_refuted, C37_example
* `EtalonT.v`: C119_split, C119_waves, C119_etalon, C119_example, C119_waves_example
* `ExperimentT.v`: C118_same_light, C118_rho, C118_default, C118_polarimeter, C118_no_light, C118_example
* `FilmT.v`: C116_film, C116_riccati, C116_rho, C116_drude, C116_angles, C116_psi, C116_example
* `FitRhoT.v`: C77_zero_partial, C77_example, C77_range_refuted
* `GradedT.v`: C105_converges, C105_passive, C105_twisted, C105_example
* `HelixT.v`: C109_waves, C109_passive, C109_example
* `IncoherentT.v`: C121_mean, C121_limit, C121_example
* `IntWaveT.v`: C98_float, C98_same_partial, C98_same_example, C98_negative, C98_negative_refuted, C98_overflow_refuted
* `KkrLimitT.v`: C106_converges, C106_example, C106_documented_refuted
* `LayeredT.v`: C108_converges, C108_passive, C108_example
* `MaxwellT.v`: C68_maxwell, C68_example
* `MirrorT.v`: C94_quarter_stack, C94_bragg, C94_perfect, C94_example
* `MixtureT.v`: C29_cube_root, C29_average, C29_limits, C29_exchange, C29_isotropic, C29_example, C61_passive, C62_looyenga_refuted, C62_isotropic_partial, C62_example
* `ModesT.v`: C42_reflection, C71_reflection, C42_example, C42_phase_refuted, C71_transmission_refuted
* `OpaqueT.v`: C97_opaque, C97_hidden, C97_defined, C97_example, C66_example
* `Optics2T.v`: C91_total, C91_phase, C91_brewster, C91_example_total, C91_example_brewster, C92_period, C92_absentee, C92_quarter, C92_antireflection, C93_amplitudes, C93_transmittance, C93_reflectance, C92_example_plate, C92_example_coating, C93_example
* `PlaneT.v`: C95_s, C95_p, C95_solver2, C95_example, C95_example_s
* `PseudoFuncT.v`: C103_substrate, C103_folded, C103_documented_refuted, C103_normal_refuted, C103_example, C104_reproduced, C104_mirrored, C104_spectrum, C104_refuted, C104_example
* `PseudoT.v`: C04_substrate_partial, C04_defined, C04_folded, C04_folded_passive, C04_example, C04_normal_refuted, C04_folded_refuted
* `RhoImportT.v`: C117_determined
* `RiiOpenT.v`: C107_loads_partial, C107_unknown, C107_twice
* `RiiT.v`: C51_formula, C51_undefined, C51_table_partial, C51_several, C51_with_k_partial, C51_other, C51_blanks, C51_unpaired, C51_example, C51_example4
* `RotationT.v`: C08_proper, C08_additive, C08_constructors_agree, C08_rotation_v_proper
* `SnapshotT.v`: C59_presentation, C59_delta_refuted, C59_rho_refuted
* `Solver2T.v`: C35_snell, C35_defined, C35_rule, C35_front, C35_forward_partial, C35_growing_refuted, C36_boundary, C36_fresnel, C36_jones, C36_same_media, C36_zero_thickness, C36_split, C31_response, C36_example, C35_example
* `Solver4T.v`: C39_expm, C39_eig, C39_eig_laws, C39_linear_tangent, C39_solver, C38_agree, C38_passive, C31_response4
* `Spectrum4T.v`: C100_pointwise, C100_length, C100_raises, C100_concat, C100_select, C100_value, C100_value_aniso, C100_singular, C100_nan_entry, C100_nan_raises, C100_refuted, C100_example, C100_nan_example
* `SpectrumT.v`: C99_pointwise, C99_power, C99_length, C99_raises, C99_concat, C99_select, C99_example
* `StaticT.v`: C123_lorentz_energy, C123_lorentz_lambda, C123_example
* `StokesT.v`: C125_stokes, C125_quadrature, C125_interface, C125_example
* `StrengthT.v`: C115_lorentz_energy, C115_lorentz_lambda, C115_drude_energy, C115_drude_resistivity, C115_gaussian, C115_tauc_lorentz, C115_nonvacuous
* `SubstrateT.v`: C96_psi, C96_transparent, C96_absorbing, C96_example, C96_example_absorbing
* `Symmetry4T.v`: C86_half_turn, C86_half_turn_modes, C86_example, C86_example_modes, C87_mirror, C87_no_conversion, C87_example, C87_example_in_plane, C88_turn, C88_example, C89_amplitudes, C89_transmittance, C89_example, C90_solver4, C90_solver2, C90_example
* `TanguyDimT.v`: C102_continuous, C102_two_dimensions_refuted, C101_strength_dimension, C101_strength_dimension_example, C102_three_dimensions
* `TanguyT.v`: C101_below, C101_gap, C101_above, C101_broadened, C101_documented_refuted, C101_conjugate, C101_absorbs, C101_amplitude, C101_strength, C101_example, C101_strength_example, C101_weak_binding, C101_weak_example, C101_passive
* `TunnelT.v`: C122_gap, C122_width, C122_example, C122_critical, C122_critical_example
* `TurnsT.v`: C110_solver, C110_half_turns_refuted, C110_example

### closed under the global context

* `DispAddT.v`: C15_as_index_defined_partial, C15_as_index_fails
* `FitRhoT.v`: C79_to_csv
* `FormulaT.v`: C22_value, C22_defined, C22_scalar, C22_representation, C23_sets, C23_rejected, C23_accepted, C23_add_ignored, C22_defined_example
* `FormulaTextT.v`: C24_exact, C24_show_partial, C24_kkr_partial, C24_unique, C24_error, C24_power_refuted, C24_sign_refuted, C24_minus_refuted, C24_names, C24_name_refuted, C24_example, C24_writable_example
* `MMatrixFitT.v`: C57_columns_partial, C57_rejects, C57_model_data_partial
* `NexusT.v`: C55_function_errors
* `ParamsT.v`: C10_constructor, C10_template_unchanged, C10_add, C10_add_history, C10_error_class_refuted, C10_add_unset_refuted, C10_example
* `ResultAttrT.v`: C45_whole, C45_element, C45_only, C45_attribute_error, C45_error_class, C45_undocumented_refuted, C46_get_refuted, C46_never, C45_examples
* `ResultListT.v`: C47_stack
* `RiiCatalogT.v`: C52_example_page
* `ShownT.v`: C120_determined, C120_layout, C120_underline_refuted, C120_headline_refuted, C120_example
* `SnapshotT.v`: C59_snapshot, C59_old_objects, C59_experiment, C59_evaluate_pure, C59_as_delta_range, C59_example
* `StructureT.v`: C32_rejects
* `TablesT.v`: C58_accepted, C58_rejected
* `WoollamT.v`: C54_is_float, C54_is_float_partial, C54_is_float_refuted
