{"id": "C01", "title": "DeltaRange accepts exactly the documented ranges", "statement": "DeltaRange(lower, upper) with two integers succeeds if and only if (lower, upper) is (0, 180) or upper - lower is 360 with lower between -360 and 0; every other pair raises ValueError. A call in which either bound is not an integer raises TypeError.", "quantifier": "all pairs of bounds, of integer or non-integer type", "why_tests_cant": "the pair space is unbounded; tests sample a handful", "anchors": ["src/elli/utils.py:DeltaRange"]}
{"id": "C02", "title": "convert_delta_range moves an angle into the range without changing it", "statement": "For every accepted range (l, u) and every angle d, convert_delta_range returns an angle in [l, l+360) which differs from d by a whole number of turns.", "quantifier": "all real angles and all accepted ranges", "why_tests_cant": "continuous domain; the existing test only checks the interval, never that the angle is the same angle", "anchors": ["src/elli/utils.py:convert_delta_range"]}
{"id": "C03", "title": "Psi, Delta and rho of a Result describe the same complex number", "statement": "For every pair of non-zero reflection amplitudes and every accepted Delta range of one full turn, result.rho equals tan(psi)*exp(-i*delta), psi is in [0, 90] degrees and delta lies in the range; for the folded range (0, 180) the same holds for the folded rho and delta is in [0, 180].", "quantifier": "all Jones matrices, incident vectors and accepted delta ranges", "why_tests_cant": "continuous domain", "anchors": ["src/elli/result.py:Result.rho", "src/elli/result.py:Result.psi", "src/elli/result.py:Result.delta", "src/elli/utils.py:calc_rho"]}
{"id": "C04", "title": "calc_pseudo_diel inverts the bare substrate", "statement": "For every substrate permittivity and angle of incidence for which the solver result is finite, simulating the bare substrate in air, reading psi and delta and feeding calc_rho's value to calc_pseudo_diel returns the substrate permittivity.", "quantifier": "all complex permittivities and angles", "why_tests_cant": "end to end identity over a continuum", "anchors": ["src/elli/utils.py:calc_pseudo_diel", "src/elli/solver2x2.py:Solver2x2.calculate"]}
{"id": "C05", "title": "Psi/Delta to Mueller matrix conversion agrees with the simulation", "statement": "convert_psi_delta_to_isotropic_mueller_matrix applied to the psi and delta of a sample without polarisation conversion returns the same normalised Mueller matrix as Result.mueller_matrix.", "quantifier": "all psi, delta in degrees", "why_tests_cant": "continuous domain", "anchors": ["src/elli/utils.py:convert_psi_delta_to_isotropic_mueller_matrix", "src/elli/result.py:Result.mueller_matrix"]}
{"id": "C06", "title": "Unit conversions are mutually inverse and consistent", "statement": "The wavelength/energy and wavelength/frequency conversions are their own inverses on non-zero input, the energy/frequency pair are inverses of each other, and converting wavelength to frequency directly or through energy gives the same value up to the ratio of the declared constants.", "quantifier": "all non-zero real inputs", "why_tests_cant": "continuous domain", "anchors": ["src/elli/utils.py:conversion_wavelength_energy", "src/elli/utils.py:conversion_wavelength_frequency", "src/elli/utils.py:conversion_energy_frequency"]}
{"id": "C07", "title": "rotation_euler is a proper rotation with the documented inverse", "statement": "For all angles rotation_euler(p, n, r) is orthogonal with determinant one, is the identity for zero angles, and its inverse is rotation_euler(-r, -n, -p).", "quantifier": "all triples of angles", "why_tests_cant": "continuous domain", "anchors": ["src/elli/utils.py:rotation_euler"]}
{"id": "C08", "title": "Axis-angle rotations are proper rotations and the two constructors agree", "statement": "For every unit axis v and angle t, rotation_v_theta(v, t) is a proper rotation that fixes v, composes additively in t and equals rotation_v of t (in radians) times v.", "quantifier": "all unit vectors and angles", "why_tests_cant": "continuous domain, matrix exponential", "anchors": ["src/elli/utils.py:rotation_v", "src/elli/utils.py:rotation_v_theta"]}
{"id": "C09", "title": "get_qwp_thickness yields a quarter wave plate", "statement": "The returned thickness times the real refractive index is a quarter of the wavelength, so a layer of that material at normal incidence has a phase thickness of pi/2.", "quantifier": "all materials with non-zero real index and all wavelengths", "why_tests_cant": "continuous domain", "anchors": ["src/elli/utils.py:get_qwp_thickness"]}
{"id": "C10", "title": "Dispersion constructor arguments bind each parameter exactly once", "statement": "Constructing a dispersion (or adding a repeated parameter set) with positional and keyword arguments either raises InvalidParameters or yields a parameter set with exactly the documented keys, in which every passed argument is stored under its own name, every other key has its default, and no mandatory value is left unset; the class defaults are never changed.", "quantifier": "all templates, argument lists and keyword dictionaries", "why_tests_cant": "unbounded combinations of positional/keyword arguments", "anchors": ["src/elli/dispersions/base_dispersion.py:BaseDispersion._fill_params_dict", "src/elli/dispersions/base_dispersion.py:BaseDispersion.__init__", "src/elli/dispersions/base_dispersion.py:BaseDispersion.add"]}
{"id": "C11", "title": "Adding dispersions adds dielectric functions", "statement": "For any expression built with + from dispersions and numbers, the dielectric function of the value is the sum of those of the operands as they were before the additions; for index dispersions the same holds for refractive indices. The order of the operands does not matter.", "quantifier": "all expressions / histories of additions", "why_tests_cant": "unbounded histories", "anchors": ["src/elli/dispersions/base_dispersion.py:Dispersion.__add__", "src/elli/dispersions/base_dispersion.py:DispersionSum.__add__", "src/elli/dispersions/base_dispersion.py:IndexDispersion.__add__", "src/elli/dispersions/base_dispersion.py:IndexDispersionSum.__add__"]}
{"id": "C12", "title": "Adding dispersions leaves the operands unchanged", "statement": "Evaluating a + b does not change the dielectric function of a or of b.", "quantifier": "all object graphs and histories of additions", "why_tests_cant": "aliasing appears only in particular histories", "anchors": ["src/elli/dispersions/base_dispersion.py:DispersionSum.__add__", "src/elli/dispersions/base_dispersion.py:Dispersion.__add__"]}
{"id": "C13", "title": "Sums of dispersions stay flat and well kinded", "statement": "After any history of additions no sum contains another sum, a dielectric sum contains only dielectric dispersions and an index sum only index dispersions; mixing the two kinds always raises TypeError and changes nothing.", "quantifier": "all histories of additions", "why_tests_cant": "unbounded histories", "anchors": ["src/elli/dispersions/base_dispersion.py:DispersionSum", "src/elli/dispersions/base_dispersion.py:IndexDispersionSum", "src/elli/dispersions/base_dispersion.py:Dispersion._check_valid_operand"]}
{"id": "C14", "title": "Tabulated dispersions can be summed like any other", "statement": "A tabulated refractive index plus a number is the refractive index table shifted by that number, and a tabulated permittivity plus a dispersion or number is the sum of the two.", "quantifier": "all tables and all operands", "why_tests_cant": "all combinations of operand types", "anchors": ["src/elli/dispersions/table_index.py:Table.__add__", "src/elli/dispersions/table_epsilon.py:TableEpsilon.__add__", "src/elli/dispersions/pseudo_dielectric.py:PseudoDielectricFunction.__add__"]}
{"id": "C15", "title": "as_index converts a dispersion without changing its optics", "statement": "For every dielectric dispersion, as_index() returns an index dispersion whose dielectric function is the original one and whose refractive index squared is the dielectric function.", "quantifier": "all dispersions and wavelengths", "why_tests_cant": "all dispersion classes and parameter values", "anchors": ["src/elli/dispersions/base_dispersion.py:Dispersion.as_index"]}
{"id": "C16", "title": "Refractive index and permittivity are consistent", "statement": "For every dispersion the square of get_refractive_index equals get_dielectric, the returned index has non-negative real part for dielectric dispersions, and it has non-negative imaginary part whenever the permittivity has.", "quantifier": "all dispersions and wavelengths", "why_tests_cant": "continuous domain with branch cut", "anchors": ["src/elli/dispersions/base_dispersion.py:BaseDispersion.get_refractive_index", "src/elli/dispersions/base_dispersion.py:IndexDispersion.dielectric_function"]}
{"id": "C17", "title": "Oscillator models are passive", "statement": "With non-negative amplitudes and dampings the imaginary part of the dielectric function of the Lorentz, Drude, Tauc-Lorentz, Cody-Lorentz and Gaussian oscillator models is non-negative at every wavelength.", "quantifier": "all parameter values with the stated signs and all wavelengths", "why_tests_cant": "continuous domain", "anchors": ["src/elli/dispersions/lorentz_energy.py", "src/elli/dispersions/lorentz_lambda.py", "src/elli/dispersions/drude_energy.py", "src/elli/dispersions/drude_resistivity.py", "src/elli/dispersions/tauc_lorentz.py", "src/elli/dispersions/cody_lorentz.py", "src/elli/dispersions/gaussian.py"]}
{"id": "C18", "title": "Oscillator order does not matter and oscillators superpose", "statement": "The dielectric function does not depend on the order in which repeated parameter sets were added, and the contribution of a concatenation of parameter sets is the sum of the contributions.", "quantifier": "all lists of parameter sets", "why_tests_cant": "unbounded lists", "anchors": ["src/elli/dispersions/base_dispersion.py:BaseDispersion.add", "src/elli/dispersions/sellmeier.py", "src/elli/dispersions/lorentz_energy.py"]}
{"id": "C19", "title": "Equivalent dispersion models agree", "statement": "Sellmeier equals the custom-exponent Sellmeier with exponents 2 and 1 plus one; an undamped Lorentz model in wavelength equals Sellmeier with the resonance squared; Cauchy without absorption equals the custom-exponent Cauchy with exponents -2 and -4; a Lorentz oscillator at zero energy is a Drude term.", "quantifier": "all parameter values and wavelengths", "why_tests_cant": "continuous domain", "anchors": ["src/elli/dispersions/sellmeier_custom.py", "src/elli/dispersions/cauchy_custom.py", "src/elli/dispersions/drude_energy.py"]}
{"id": "C20", "title": "Tauc-Lorentz and Cody-Lorentz absorb only above the gap and are continuous", "statement": "The imaginary part is zero up to the gap and positive above; the Cody-Lorentz imaginary part is continuous where the Urbach tail joins.", "quantifier": "all parameter values and photon energies", "why_tests_cant": "continuous domain with piecewise definitions", "anchors": ["src/elli/dispersions/tauc_lorentz.py", "src/elli/dispersions/cody_lorentz.py"]}
{"id": "C21", "title": "A Drude dispersion describes a metal", "statement": "For some sign of the amplitude the Drude dispersion has negative real and non-negative imaginary contribution to the permittivity, as the Lorentz model with zero resonance energy has.", "quantifier": "all amplitudes, dampings and energies", "why_tests_cant": "continuous domain", "anchors": ["src/elli/dispersions/drude_energy.py", "src/elli/dispersions/drude_resistivity.py"]}
{"id": "C22", "title": "Formula dispersions compute the written formula", "statement": "For every formula, evaluating it over an array of wavelengths gives at each wavelength the value of the formula at that wavelength, with sum[...] the sum over the repeated parameter sets.", "quantifier": "all formulas, parameters and axes", "why_tests_cant": "infinitely many formulas", "anchors": ["src/elli/formula_parser/parser.py:FormulaTransformer", "src/elli/dispersions/formula.py:Formula"]}
{"id": "C23", "title": "Formula parameters behave like those of other dispersions", "statement": "Repeated parameters given as lists of equal length become one set per position and lists of different length are rejected; sets added later with add() contribute to the dielectric function.", "quantifier": "all dictionaries of lists, all later additions", "why_tests_cant": "unbounded", "anchors": ["src/elli/dispersions/formula.py:FormulaParser", "src/elli/dispersions/formula.py:Formula"]}
{"id": "C24", "title": "Formula text is parsed with the usual precedence", "statement": "Rendering a formula with the usual rules of precedence and associativity and parsing it gives the same formula back; a parameter can have any identifier as its name.", "quantifier": "all formulas and identifiers", "why_tests_cant": "infinitely many formulas", "anchors": ["src/elli/formula_parser/dispersion_function_grammar.lark"]}
{"id": "C25", "title": "Material tensors are symmetric and rotate covariantly", "statement": "The permittivity tensor of every isotropic, uniaxial or biaxial material is symmetric for every rotation, has the same trace and determinant as the unrotated tensor, rotating by A then B equals rotating by the product, and isotropic tensors do not change under rotation.", "quantifier": "all dispersions, rotations and wavelengths", "why_tests_cant": "continuous domain", "anchors": ["src/elli/materials.py:SingleMaterial.get_tensor", "src/elli/materials.py:SingleMaterial.set_rotation"]}
{"id": "C26", "title": "VCA mixture interpolates linearly", "statement": "The virtual crystal mixture is host at fraction 0, guest at 1, linear in between, symmetric under exchanging host and guest with complementary fraction, and commutes with rotation of both constituents.", "quantifier": "all tensors and fractions", "why_tests_cant": "continuous domain", "anchors": ["src/elli/materials.py:VCAMaterial"]}
{"id": "C27", "title": "Maxwell-Garnett mixture solves the Maxwell-Garnett equation", "statement": "For every host, guest and fraction the result satisfies the Maxwell-Garnett equation, is the host at fraction 0 and the guest at fraction 1.", "quantifier": "all tensors and fractions", "why_tests_cant": "continuous domain", "anchors": ["src/elli/materials.py:MaxwellGarnettEMA"]}
{"id": "C28", "title": "Bruggeman mixture solves the Bruggeman equation", "statement": "For every host, guest and guest fraction the result satisfies the Bruggeman equation, is the host at fraction 0 and the guest at fraction 1, and is symmetric under exchange with complementary fraction.", "quantifier": "all tensors and fractions", "why_tests_cant": "continuous domain with branch choice", "anchors": ["src/elli/materials.py:BruggemanEMA"]}
{"id": "C29", "title": "Looyenga mixture", "statement": "The cube root of the Looyenga mixture is the volume average of the cube roots, it is the host at fraction 0 and the guest at fraction 1 and symmetric under exchange with complementary fraction.", "quantifier": "all tensors and fractions", "why_tests_cant": "continuous domain", "anchors": ["src/elli/materials.py:LooyengaEMA"]}
{"id": "C30", "title": "Mixture fractions are always volume fractions", "statement": "After any history of constructor and set_fraction calls the stored fraction is in [0, 1]; a rejected value leaves the previous fraction in place.", "quantifier": "all histories of calls", "why_tests_cant": "unbounded histories", "anchors": ["src/elli/materials.py:MixtureMaterial.set_fraction"]}
{"id": "C31", "title": "Inhomogeneous layers are sliced without losing thickness", "statement": "For every number of divisions the slice thicknesses are equal and sum to the layer thickness, the sampling points are the slice centres inside the layer, and a layer of constant composition gives the same optical response as one homogeneous layer.", "quantifier": "all thicknesses and division counts", "why_tests_cant": "unbounded division count", "anchors": ["src/elli/structure.py:InhomogeneousLayer", "src/elli/structure.py:TwistedLayer", "src/elli/structure.py:VaryingMixtureLayer"]}
{"id": "C32", "title": "RepeatedLayers expands to the documented sequence", "statement": "The expansion consists of the last `before` layers of the period, the period repeated, and the first `after` layers of the period; the number of slices and total thickness follow.", "quantifier": "all periods, repetition counts, before and after counts", "why_tests_cant": "unbounded", "anchors": ["src/elli/structure.py:RepeatedLayers"]}
{"id": "C33", "title": "The permittivity profile has the half spaces at its ends and nothing lost between", "statement": "A structure's profile starts with the front and ends with the back medium with infinite thickness and contains the slices of all layers in order; replacing a repeated layer by its written out layers does not change it.", "quantifier": "all structures", "why_tests_cant": "unbounded structures", "anchors": ["src/elli/structure.py:Structure.get_permittivity_profile"]}
{"id": "C34", "title": "Stokes and Jones input vectors describe the same light", "statement": "Setting a Jones vector stores the Stokes vector of that light; setting a Stokes vector stores a normalised Jones vector whose Stokes vector is the polarised part of the input, including the documented unpolarised vector.", "quantifier": "all vectors", "why_tests_cant": "continuous domain with a singular case", "anchors": ["src/elli/experiment.py:Experiment.set_vector"]}
{"id": "C35", "title": "Tangential wave vector is conserved and half-space angles are outgoing", "statement": "In Solver2x2 n*sin(angle) is the same in every layer, and the angles used for the half spaces have forward travelling or decaying waves.", "quantifier": "all structures", "why_tests_cant": "unbounded structures, branch cuts", "anchors": ["src/elli/solver2x2.py:Solver2x2.list_snell", "src/elli/solver2x2.py:Solver2x2.is_forward_angle"]}
{"id": "C36", "title": "Solver2x2 reduces to Fresnel and ignores trivial layers", "statement": "Without layers Solver2x2 returns the Fresnel coefficients; inserting a layer of zero thickness, splitting a layer in two, or inserting an interface between identical media changes nothing; flipping the branch of the angle in an interior layer changes nothing.", "quantifier": "all structures", "why_tests_cant": "unbounded structures", "anchors": ["src/elli/solver2x2.py:Solver2x2.calculate", "src/elli/solver2x2.py:Solver2x2.fresnel"]}
{"id": "C37", "title": "Lossless isotropic stacks conserve energy", "statement": "For real permittivities and propagating front and back waves, R + T = 1 for s and p polarisation for any number of layers, including evanescent ones.", "quantifier": "all lossless stacks", "why_tests_cant": "unbounded stacks", "anchors": ["src/elli/solver2x2.py:Solver2x2.calculate", "src/elli/result.py:Result.R", "src/elli/result.py:Result.T"]}
{"id": "C38", "title": "Solver2x2 and Solver4x4 agree on isotropic structures", "statement": "For every isotropic structure with forward half-space waves both solvers return the same reflection and transmission Jones matrices and power correction, for PropagatorExpm and PropagatorEig.", "quantifier": "all isotropic structures", "why_tests_cant": "unbounded stacks; equality of two algorithms", "anchors": ["src/elli/solver2x2.py:Solver2x2", "src/elli/solver4x4.py:Solver4x4"]}
{"id": "C39", "title": "Propagators compose over thickness and agree", "statement": "The propagator over thickness a+b is the product of the propagators over a and b, over zero thickness it is the identity, and the eigenvalue and exponential propagators are equal whenever the eigenvector matrix is invertible, regardless of eigenvalue order and eigenvector scaling.", "quantifier": "all delta matrices and thicknesses", "why_tests_cant": "continuous domain", "anchors": ["src/elli/solver4x4.py:PropagatorExpm", "src/elli/solver4x4.py:PropagatorEig", "src/elli/solver4x4.py:PropagatorLinear"]}
{"id": "C40", "title": "Half-space transition matrices are inverse to each other", "statement": "For an isotropic half space the transition matrix and the one requested with inv=True are mutually inverse.", "quantifier": "all indices and angles with non-zero index and cosine", "why_tests_cant": "continuous domain", "anchors": ["src/elli/solver4x4.py:Solver4x4.transition_matrix_iso_halfspace"]}
{"id": "C41", "title": "Lossless anisotropic stacks conserve energy", "statement": "For Hermitian permittivity tensors with any orientation and propagating isotropic half spaces the reflected and transmitted power of each incident polarisation sum to one, for any number of layers.", "quantifier": "all lossless stacks", "why_tests_cant": "unbounded stacks", "anchors": ["src/elli/solver4x4.py:Solver4x4.calculate", "src/elli/solver4x4.py:Solver4x4.build_delta_matrix"]}
{"id": "C42", "title": "Reflection does not depend on the normalisation of substrate modes", "statement": "The reflection Jones matrix does not depend on scaling, phase or order of the two forward eigenmodes chosen in an anisotropic exit medium; the normalisation step makes the chosen field component real and positive.", "quantifier": "all choices of eigenvectors", "why_tests_cant": "eigenvector phase is arbitrary", "anchors": ["src/elli/solver4x4.py:Solver4x4.transition_matrix_halfspace", "src/elli/solver4x4.py:Solver4x4.calculate"]}
{"id": "C43", "title": "Mueller matrices are physical and consistent with the Stokes convention", "statement": "The Mueller matrix of a Result is real, has M11 = 1, is non-depolarising (sum of squares 4), and maps the Stokes vector of any Jones vector to the Stokes vector of the reflected Jones vector up to the normalisation.", "quantifier": "all Jones matrices", "why_tests_cant": "continuous domain", "anchors": ["src/elli/result.py:Result.mueller_matrix", "src/elli/experiment.py:Experiment.set_vector"]}
{"id": "C44", "title": "Circular and linear representations carry the same power", "statement": "The circular Jones matrices are unitary transforms of the linear ones: total power R and T computed from circular elements equal those from linear elements, and circular light of one handedness is mapped as the linear matrix says.", "quantifier": "all Jones matrices", "why_tests_cant": "continuous domain", "anchors": ["src/elli/result.py:Result.jones_matrix_rc", "src/elli/result.py:Result.jones_matrix_tc", "src/elli/result.py:Result.Rc", "src/elli/result.py:Result.Tc"]}
{"id": "C45", "title": "Attribute names of a Result select the documented quantity", "statement": "Every documented name (with Greek aliases, _matrix, _t and two-letter suffixes) returns the documented quantity; circular suffixes return circular coefficients; every undocumented name raises AttributeError.", "quantifier": "all attribute names", "why_tests_cant": "infinitely many names", "anchors": ["src/elli/result.py:Result.__getattr__"]}
{"id": "C46", "title": "Result.get returns the same as attribute access", "statement": "result.get(name) equals getattr(result, name) for every name.", "quantifier": "all names", "why_tests_cant": "all names", "anchors": ["src/elli/result.py:Result.get"]}
{"id": "C47", "title": "Averaging a list of results is the elementwise mean", "statement": "For any non-empty list of results of equal shape, the mean of a quantity is its elementwise mean over the list.", "quantifier": "all list lengths and array shapes", "why_tests_cant": "unbounded lengths and shapes", "anchors": ["src/elli/result.py:ResultList", "src/elli/result.py:AveragedResultList"]}
{"id": "C48", "title": "Kramers-Kronig transforms are the documented discrete sums", "statement": "On an equidistant axis with step h every output point equals the Maclaurin sum with weight 2h over the points of opposite parity; the transforms are linear, independent of the same-parity input values, and reject inputs of different length.", "quantifier": "all axes and spectra", "why_tests_cant": "unbounded lengths", "anchors": ["src/elli/kkr/kkr.py:_calc_kkr", "src/elli/kkr/kkr.py:im2re", "src/elli/kkr/kkr.py:re2im"]}
{"id": "C49", "title": "Parameter history is a bounded undo stack", "statement": "After any history of operations at most max_history_len versions are kept; undoing the last k tracked changes restores the values from before them; reverting never raises for a position inside the history and leaves the stored history unchanged.", "quantifier": "all histories of operations", "why_tests_cant": "unbounded histories; aliasing", "anchors": ["src/elli/fitting/params_hist.py:ParamsHist"]}
{"id": "C50", "title": "Fit GUI undo and redo are inverse", "statement": "Undo after a change restores the previous values, redo after undo restores the undone ones, one click undoes one user action, and changing a widget never changes the stored fit result.", "quantifier": "all click histories", "why_tests_cant": "unbounded histories; aliasing", "anchors": ["src/elli/fitting/decorator.py:FitDecorator"]}
{"id": "C51", "title": "refractiveindex.info formulas are evaluated as defined by the database", "statement": "For every coefficient list of formula types 1 to 5 and tabulated types the returned dispersion evaluated at a wavelength in nm has the refractive index given by the database's definition at that wavelength in micrometres.", "quantifier": "all coefficient lists and wavelengths", "why_tests_cant": "unbounded lists", "anchors": ["src/elli/database/refractive_index_info.py:RII.get_dispersion"]}
{"id": "C52", "title": "Catalog and search of refractiveindex.info", "statement": "Every page of the library appears once in the catalog under its shelf, book and nearest preceding divider; search returns exactly the matching rows in catalog order and the wavelength filter only removes rows outside the range.", "quantifier": "all libraries and queries", "why_tests_cant": "unbounded libraries", "anchors": ["src/elli/database/refractive_index_info.py:RII.__init__", "src/elli/database/refractive_index_info.py:RII.search"]}
{"id": "C53", "title": "SpectraRay tables are read completely", "statement": "For every file with one begin and one end marker, exactly the lines between the markers are read, and both photon energy and wavelength files load.", "quantifier": "all files", "why_tests_cant": "unbounded files", "anchors": ["src/elli/dispersions/table_spectraray.py"]}
{"id": "C54", "title": "Woollam files are read completely", "statement": "For every Woollam file all data rows appear in the result, whatever the sign of Delta, and is_float recognises exactly the strings that are floats.", "quantifier": "all strings and files", "why_tests_cant": "unbounded strings", "anchors": ["src/elli/importer/woollam.py"]}
{"id": "C55", "title": "NeXus materials", "statement": "A material entry with dispersions for x, for x and z, or for x, y and z yields an isotropic, uniaxial or biaxial material; any other combination raises ValueError; several dispersions in a group are added.", "quantifier": "all groups", "why_tests_cant": "all combinations", "anchors": ["src/elli/importer/nexus.py:read_nexus_materials"]}
{"id": "C56", "title": "Index profile for plotting shows the index along the chosen direction", "statement": "get_index_profile(v) returns the square root of v.eps.v for every unit direction v.", "quantifier": "all directions and tensors", "why_tests_cant": "continuous domain", "anchors": ["src/elli/plot/structure.py:get_index_profile"]}
{"id": "C57", "title": "Mueller matrix fitting labels and residuals", "statement": "Element Mij of the model appears in the column Mij of the data frame, the residual vanishes exactly when all elements agree, and the fitting class can be constructed without the optional display arguments.", "quantifier": "all data frames", "why_tests_cant": "all column orders and keyword combinations", "anchors": ["src/elli/fitting/decorator_mmatrix.py"]}
{"id": "C58", "title": "Tables interpolate the given points", "statement": "Table, TableEpsilon return the tabulated value at every tabulated wavelength, a value between the neighbours in between, and raise outside the range.", "quantifier": "all tables and wavelengths", "why_tests_cant": "unbounded tables", "anchors": ["src/elli/dispersions/table_index.py", "src/elli/dispersions/table_epsilon.py"]}
{"id": "C59", "title": "A Result is a snapshot", "statement": "Changing the structure, experiment or materials after evaluate does not change an existing result; as_delta_range only changes the presentation of Delta.", "quantifier": "all histories of later changes", "why_tests_cant": "unbounded histories", "anchors": ["src/elli/solver.py:Solver", "src/elli/result.py:Result.as_delta_range"]}
{"id": "C60", "title": "Result.R and Result.T are the reflectance and transmittance for unpolarised light", "statement": "For every sample, Result.R is the fraction of unpolarised incident power that is reflected, in all outgoing polarisations; likewise Result.T for transmission.", "quantifier": "all Jones matrices", "why_tests_cant": "continuous domain; tests use samples without polarisation conversion", "anchors": ["src/elli/result.py:Result.R", "src/elli/result.py:Result.T"]}
{"id": "C61", "title": "Effective media of passive constituents are passive", "statement": "If host and guest have non-negative imaginary permittivity, so has every VCA, Looyenga, Maxwell-Garnett and Bruggeman mixture of them at every fraction in [0, 1] for which the formula has a value.", "quantifier": "all complex permittivities and fractions", "why_tests_cant": "a wrong branch of the root or cube root shows only in part of the complex plane; tests use a few materials", "anchors": ["src/elli/materials.py:MaxwellGarnettEMA", "src/elli/materials.py:BruggemanEMA", "src/elli/materials.py:LooyengaEMA"]}
{"id": "C62", "title": "Effective media do not depend on the coordinate frame", "statement": "Rotating host and guest by the same rotation and mixing them gives the rotated mixture, for the Looyenga, Maxwell-Garnett and Bruggeman mixtures of single materials.", "quantifier": "all rotations, fractions and materials", "why_tests_cant": "tests mix unrotated isotropic materials", "anchors": ["src/elli/materials.py:MaxwellGarnettEMA.get_tensor_fraction", "src/elli/materials.py:BruggemanEMA.get_tensor_fraction", "src/elli/materials.py:LooyengaEMA.get_tensor_fraction"]}
{"id": "C63", "title": "Oscillator models satisfy the reality condition", "statement": "The permittivity of the Lorentz, Drude and Gaussian models at the negative photon energy is the complex conjugate of the one at the positive energy, so even real and odd imaginary part.", "quantifier": "all parameter values, lists of oscillators and wavelengths", "why_tests_cant": "continuous domain, never evaluated at mirrored energies", "anchors": ["src/elli/dispersions/lorentz_energy.py", "src/elli/dispersions/lorentz_lambda.py", "src/elli/dispersions/drude_energy.py", "src/elli/dispersions/drude_resistivity.py", "src/elli/dispersions/gaussian.py"]}
{"id": "C64", "title": "The refractive index tensor squares to the permittivity tensor", "statement": "For every single material, rotated or not, the matrix square of get_refractive_index is get_tensor.", "quantifier": "all materials and rotations", "why_tests_cant": "tests read single elements of isotropic materials", "anchors": ["src/elli/materials.py:Material.get_refractive_index"]}
{"id": "C65", "title": "Dispersions return their documented formula", "statement": "The classes Cauchy, CauchyCustomExponent, CauchyUrbach, Polynomial, Sellmeier, SellmeierCustomExponent, Poles, DrudeEnergy, DrudeResistivity, LorentzEnergy, LorentzLambda and Gaussian compute the formula in their documentation, wherever it has a value.", "quantifier": "all parameter values and wavelengths", "why_tests_cant": "tests compare with stored values of the same code", "anchors": ["src/elli/dispersions/cauchy.py", "src/elli/dispersions/sellmeier.py", "src/elli/dispersions/lorentz_energy.py", "src/elli/dispersions/lorentz_lambda.py", "src/elli/dispersions/drude_resistivity.py", "src/elli/dispersions/gaussian.py"]}
{"id": "C66", "title": "Passive stacks never return more power than they receive", "statement": "For a lossless front medium and layers and back medium with non-negative imaginary permittivity, Solver2x2 reports R + T <= 1 and T >= 0 in s and in p polarisation for any number of layers.", "quantifier": "all passive stacks", "why_tests_cant": "unbounded stacks", "anchors": ["src/elli/solver2x2.py:Solver2x2.calculate"]}
{"id": "C67", "title": "A single interface to an absorbing medium absorbs nothing", "statement": "Without layers R + T = 1 in s and in p polarisation, also for an absorbing back medium.", "quantifier": "all angles and passive back media", "why_tests_cant": "continuous domain; the source carries an open TODO about the correction for p polarisation", "anchors": ["src/elli/solver2x2.py:Solver2x2.calculate"]}
{"id": "C68", "title": "Solver4x4 solves Maxwell's equations", "statement": "For every stack of layers with arbitrary permittivity tensors between isotropic half spaces, the reflected and transmitted amplitudes given by the Jones matrices of Solver4x4 are the only ones that belong to a solution of Maxwell's equations, continuous at all interfaces, with the given incident wave and no wave coming from behind.", "quantifier": "all stacks, tensors, thicknesses, wavelengths, angles and incident polarisations", "why_tests_cant": "unbounded stacks and tensors; the specification is a differential equation", "anchors": ["src/elli/solver4x4.py:Solver4x4.calculate", "src/elli/solver4x4.py:Solver4x4.build_delta_matrix", "src/elli/solver4x4.py:PropagatorExpm"]}
{"id": "C69", "title": "Passive anisotropic stacks have a result and no gain", "statement": "For a lossless isotropic front medium, layers with passive permittivity tensors and a passive isotropic back medium, Solver4x4 always has a finite result away from grazing incidence, no transmittance is negative and the outgoing power never exceeds the incident power, for any incident polarisation.", "quantifier": "all passive stacks", "why_tests_cant": "unbounded stacks and tensors", "anchors": ["src/elli/solver4x4.py:Solver4x4.calculate", "src/elli/result.py:Result.R_matrix", "src/elli/result.py:Result.T_matrix"]}
{"id": "C70", "title": "R and T for unpolarized light add up to one", "statement": "Result.R and Result.T, documented as the absolute reflectance and transmittance for unpolarized light, add up to one for every lossless structure.", "quantifier": "all lossless stacks", "why_tests_cant": "only anisotropic layers that mix p and s show the difference", "anchors": ["src/elli/result.py:Result.R", "src/elli/result.py:Result.T"]}
{"id": "C71", "title": "An isotropic exit medium need not be declared isotropic", "statement": "An exit medium with an isotropic tensor gives the same reflection and transmission whether it is an IsotropicMaterial or any other material, as the comment in transition_matrix_halfspace says.", "quantifier": "all stacks in front of it and all eigenvector choices", "why_tests_cant": "the eigenvectors are arbitrary", "anchors": ["src/elli/solver4x4.py:Solver4x4.transition_matrix_halfspace", "src/elli/solver4x4.py:Solver4x4.transition_matrix_iso_halfspace"]}
{"id": "C72", "title": "re2im undoes im2re", "statement": "On an equidistant axis, transforming an imaginary part with im2re and the result back with re2im gives a spectrum of the same orientation as the original: its scalar product with the original is not negative, and the original comes back up to the truncation of the axis.", "quantifier": "all equidistant axes and spectra", "why_tests_cant": "only im2re is tested, and unbounded lengths", "anchors": ["src/elli/kkr/kkr.py:re2im", "src/elli/kkr/kkr.py:im2re"]}
{"id": "C73", "title": "Kramers-Kronig transforms do not depend on the direction of the axis", "statement": "Reversing axis and values of an equidistant spectrum reverses the result.", "quantifier": "all equidistant axes and spectra", "why_tests_cant": "unbounded lengths", "anchors": ["src/elli/kkr/kkr.py:_calc_kkr"]}
{"id": "C74", "title": "The Fit button of the fit window works with lmfit Parameters", "statement": "With an lmfit Parameters object, as the documentation asks for, a click on Fit shows the fitted values in the window.", "quantifier": "all parameters and fit results", "why_tests_cant": "the window is not exercised by tests", "anchors": ["src/elli/fitting/decorator.py:FitDecorator.fit_button_clicked"]}
{"id": "C75", "title": "Drawn structures are to scale", "statement": "In the graph of draw_structure every layer is drawn with its refractive index along x from the depth at which it starts to the depth at which it ends, and the front and back media fill a margin before and after.", "quantifier": "all structures", "why_tests_cant": "all numbers of layers and thicknesses", "anchors": ["src/elli/plot/structure.py:draw_structure"]}
{"id": "C76", "title": "The figure of the Mueller matrix fit shows the present model", "statement": "The figure shows element Mij of the experiment and of the model in row i and column j of the grid, and after any sequence of parameter changes and toggles of the residual it shows the present model or its difference to the experiment.", "quantifier": "all sequences of actions", "why_tests_cant": "unbounded histories of user actions", "anchors": ["src/elli/fitting/decorator_mmatrix.py"]}
{"id": "C77", "title": "The residual of a psi/delta fit is zero exactly for a perfect fit", "statement": "For measured psi in [0, 90) and a simulated Result in any accepted delta range, the vector that fit_function returns is zero exactly when psi and delta of the result agree with the measured values at every wavelength, delta up to whole turns (and anything where psi is 0). The sum of its squares is the sum of |rho_measured - rho_simulated|^2.", "quantifier": "all measurements, Jones matrices, Jones vectors and accepted ranges", "why_tests_cant": "an equivalence over all spectra, with equality of angles modulo a turn", "anchors": ["src/elli/fitting/decorator_psi_delta.py:232-280", "src/elli/utils.py:87-105", "src/elli/result.py:57-132"]}
{"id": "C78", "title": "The figure of a psi/delta fit shows the present simulation", "statement": "For measurements with one angle of incidence and after any sequence of dropdown choices and parameter changes the figure shows the four lines of the chosen display (psi/delta, rho, pseudo dielectric function or residual), measured and simulated with the present parameters, each value at its wavelength, whatever the order of the columns of the measured data.", "quantifier": "all measurements and all sequences of user actions", "why_tests_cant": "unbounded histories of user actions; the first figure is built in another way than later ones", "anchors": ["src/elli/fitting/decorator_psi_delta.py:34-154", "src/elli/fitting/decorator_psi_delta.py:391-425"]}
{"id": "C79", "title": "The data of a psi/delta fit can be read and saved", "statement": "get_model_data returns the simulated psi and delta or rho, with the given or else the fitted parameters, named _model or _fit, with the measured data if wanted, and raises ValueError for other representations. to_csv saves what get_model_data returns.", "quantifier": "all measurements, simulations, representations and flags", "why_tests_cant": "all combinations of optional arguments and all representations", "anchors": ["src/elli/fitting/decorator_psi_delta.py:315-365", "src/elli/fitting/decorator.py:73-95"]}
{"id": "C80", "title": "The number boxes of the fit windows show the parameters", "statement": "After any sequence of typed numbers and pressed buttons every number box of a fit window shows the value of its parameter, and a number within the bounds of the parameter that is typed into the box becomes its value and changes no other parameter.", "quantifier": "all parameters, bounds, fit results and sequences of user actions", "why_tests_cant": "unbounded histories of user actions on shared mutable objects, and arbitrary bounds", "anchors": ["src/elli/fitting/decorator.py:122-191", "src/elli/fitting/decorator_psi_delta.py:168-193", "src/elli/fitting/decorator_mmatrix.py:102-119"]}
{"id": "C81", "title": "The checkboxes of the fit windows tell which parameters are varied", "statement": "After any sequence of user actions every parameter has a checkbox that shows what was chosen last, and the next fit varies the parameter if and only if the checkbox is set.", "quantifier": "all parameters and sequences of user actions", "why_tests_cant": "unbounded histories of user actions on shared mutable objects", "anchors": ["src/elli/fitting/decorator.py:118-166", "src/elli/fitting/decorator_psi_delta.py:168-175"]}
{"id": "C82", "title": "Psi and delta are read from NeXus files", "statement": "For every NeXus file that stores psi and delta for a list of angles of incidence and wavelengths in Angstrom, in the first or in the present layout and with any names of its groups, read_nexus_psi_delta returns a row for each angle and wavelength (in nm) with the psi and delta of that angle and wavelength. Other files raise ValueError.", "quantifier": "all files, names of groups, numbers of angles and wavelengths", "why_tests_cant": "arrays of any size and all names of groups", "anchors": ["src/elli/importer/nexus.py:28-142"]}
{"id": "C83", "title": "Psi and delta are read from SpectraRay files", "statement": "For every SpectraRay ascii file whose first line lists the angles of incidence (each twice) and whose lines hold a wavelength and psi and delta for each angle, with numbers in the notation that the argument decimal names, read_spectraray_psi_delta returns one row for each angle and wavelength, sorted, with psi as written and delta as the same angle between -180 and 180 degrees.", "quantifier": "all files, numbers of angles and wavelengths", "why_tests_cant": "files of any size, all white space and number notations", "anchors": ["src/elli/importer/spectraray.py:14-67"]}
{"id": "C84", "title": "Psi and delta are read from Accurion files", "statement": "For every Accurion dat file with the columns AOI, Lambda, Delta and Psi among others, read_accurion_psi_delta returns a row for each measurement, sorted by angle and wavelength, with psi as written and delta as the same angle between -180 and 180 degrees. A file with a field that is no number, or without one of the columns, is refused.", "quantifier": "all files, orders of columns, numbers of measurements", "why_tests_cant": "files of any size and all orders of columns", "anchors": ["src/elli/importer/accurion.py:11-38"]}
{"id": "C85", "title": "Mueller matrices are read from SpectraRay files", "statement": "For every SpectraRay ascii file of Mueller matrices read_spectraray_mmatrix returns for each wavelength the sixteen elements of the first matrix of the line.", "quantifier": "all files, numbers of wavelengths and of matrices in a line", "why_tests_cant": "files of any size and any number of matrices", "anchors": ["src/elli/importer/spectraray.py:70-112"]}
{"id": "C86", "title": "Half a turn of the sample exchanges the two polarisation conversions in reflection (Onsager reciprocity)", "statement": "For layers of any SingleMaterials (whose tensors are always symmetric), absorbing or not, in any orientation, Solver4x4 with an exact propagator gives after turning the whole sample by 180 degrees about its normal (set_rotation with rotation_euler(180, 0, 0) in front): r_pp and r_ss unchanged, r_ps' = -r_sp and r_sp' = -r_ps. The same holds on a back medium that is not an IsotropicMaterial and turns with the sample.", "quantifier": "all symmetric tensors, thicknesses, wavelengths, angles, front media and back media for which both evaluations have a result; PropagatorExpm or PropagatorEig with any complete eigenvectors", "why_tests_cant": "A test compares a few stacks at floating-point tolerance with a reference; the relation must hold for every biaxial absorbing stack, and a sign error in one element of the delta matrix need not show up for uniaxial samples with the axis in a symmetry plane.", "anchors": ["src/elli/solver4x4.py:159-202", "src/elli/solver4x4.py:262-304", "src/elli/solver4x4.py:330-389", "src/elli/materials.py:78-115", "src/elli/utils.py:281-312"]}
{"id": "C87", "title": "A mirror image of the sample changes only the sign of the conversions; a symmetric sample converts nothing", "statement": "Mirroring all tensors at the plane of incidence leaves r_pp, r_ss, t_pp, t_ss and the power correction of Solver4x4 unchanged and negates r_ps, r_sp, t_ps, t_sp. In particular a sample that is its own mirror image (isotropic, or with an optic axis in or normal to the plane of incidence) has r_ps = r_sp = t_ps = t_sp = 0 exactly.", "quantifier": "all tensors (also non-symmetric ones), thicknesses, wavelengths and angles; if one of the two evaluations has a result so has the other", "why_tests_cant": "Tests on single crystals cannot show that no stack converts; the vanishing elements come from cancellation in a matrix exponential and an inverse.", "anchors": ["src/elli/solver4x4.py:159-202", "src/elli/solver4x4.py:262-304", "src/elli/solver4x4.py:330-389"]}
{"id": "C88", "title": "At normal incidence turning the sample turns the Jones matrices", "statement": "At theta_i = 0, turning all layers of the sample by phi about the normal gives the transmission Jones matrix R(phi) J_t R(-phi) and the reflection Jones matrix R(-phi) J_r R(-phi), where R(phi) turns the plane by phi (the reflected wave is described in axes turned by the reversal of its direction).", "quantifier": "all angles phi, tensors, thicknesses, wavelengths and isotropic half spaces", "why_tests_cant": "It quantifies over all azimuths and all stacks; a test can sample a few azimuths.", "anchors": ["src/elli/solver4x4.py:159-202", "src/elli/solver4x4.py:262-304", "src/elli/solver4x4.py:330-389"]}
{"id": "C89", "title": "A sample turned over transmits the same from both sides", "statement": "Turn a sample over (layers in reverse order, every tensor turned by 180 degrees about y) and let the light come in through the other half space under the angle with the same k_x. Between lossless isotropic half spaces T_pp and T_ss of Solver4x4 are unchanged and T_ps and T_sp exchanged, however much the layers absorb; the amplitudes differ by the factor n cos of the half spaces.", "quantifier": "all stacks of symmetric tensors, thicknesses, wavelengths and pairs of corresponding angles", "why_tests_cant": "Reflection and absorption from the two sides differ, so the equality is not visible from the code; tests can only sample stacks.", "anchors": ["src/elli/solver4x4.py:159-202", "src/elli/solver4x4.py:307-322", "src/elli/solver4x4.py:330-389"]}
{"id": "C90", "title": "Only the ratio of thickness and wavelength matters", "statement": "Multiplying the wavelength and all thicknesses by the same non-zero factor, with the permittivities kept, changes no result of Solver2x2 and Solver4x4, also not whether there is a result.", "quantifier": "all factors other than zero, all stacks, angles, half spaces; the result of Solver2x2 is equal as a whole", "why_tests_cant": "A statement about every structure and every factor.", "anchors": ["src/elli/solver2x2.py:35-114", "src/elli/solver4x4.py:100-152", "src/elli/solver4x4.py:330-389"]}
{"id": "C91", "title": "Brewster's angle and total reflection come out of Solver2x2", "statement": "Evaluating an interface between two transparent media with Solver2x2 gives R_pp = 0 exactly at Brewster's angle arctan(n2/n1) and R_ss = 0 at no angle. A stack of media with real permittivities reflects everything (R = 1, T = 0 in both polarisations) exactly from the critical angle of its back medium on, whatever the layers between, and less than everything below it. The phases of total reflection at one interface are those of the formulas with the decay constant.", "quantifier": "for all positive permittivities of the half spaces, all angles of incidence, all wavelengths and all lists of real layers", "why_tests_cant": "A numerical test meets an angle at which a coefficient vanishes only up to rounding, and cannot show that it vanishes at no other angle; the branch of the square root beyond the critical angle depends on all inputs.", "anchors": ["src/elli/solver2x2.py:19-33", "src/elli/solver2x2.py:76-147"]}
{"id": "C92", "title": "Thickness counts only up to half waves; quarter wave coatings", "statement": "With Solver2x2, adding m half waves lambda/(2 n cos) to the thickness of a transparent layer anywhere in a stack leaves every reflected amplitude (thus psi, delta, R) unchanged and multiplies the transmitted amplitudes by (-1)^m (thus T is unchanged); a layer of m half waves is as good as no layer. At normal incidence a layer of an odd number of quarter waves reflects (n0 n2 - n1^2)/(n0 n2 + n1^2), and nothing exactly if n1^2 = n0 n2.", "quantifier": "for all wavelengths, angles, integers m, positions in the stack and permittivities of all other media", "why_tests_cant": "The periodicity holds for infinitely many orders and arbitrary surroundings; floating point tests only see it approximately and for chosen stacks.", "anchors": ["src/elli/solver2x2.py:35-114"]}
{"id": "C93", "title": "A stack transmits the same from both sides", "statement": "Turning a stack over (layers in the opposite order, half spaces exchanged) and lighting it at the angle of refraction gives the same transmittance in Solver2x2 in both polarisations, also with absorbing layers, and a result exists from one side exactly if it exists from the other. For absorbing half spaces the amplitudes are in the ratio of the normal wave numbers. Without absorption the reflectance is the same, too.", "quantifier": "for all stacks, wavelengths, angles and permittivities", "why_tests_cant": "Reversal symmetry is a relation between two evaluations for all stacks; tests compare a few stacks with fixed reference values.", "anchors": ["src/elli/solver2x2.py:35-140", "src/elli/structure.py:467-486"]}
{"id": "C94", "title": "Quarter wave stacks and Bragg mirrors reflect as in the textbook", "statement": "At normal incidence a stack of quarter wave layers (each an odd number of quarters thick) on a transparent substrate reflects, with Solver2x2, like a bare substrate whose index n is found by replacing n by n_i^2/n layer by layer from the back. A Bragg mirror written as a RepeatedLayers of a high and a low quarter wave layer therefore reflects with n = (e1/e2)^N n_s, or (e1/e2)^N e1/n_s when closed by one more first layer (after = 1), and its reflectance tends to one with the number of periods, whichever layer comes first.", "quantifier": "for all wavelengths, all positive permittivities, all numbers of layers and periods, all orders of the layers", "why_tests_cant": "The formula holds for every number of periods and the limit needs all of them; the tests compute a single Bragg stack and compare numbers.", "anchors": ["src/elli/structure.py:53-145", "src/elli/solver2x2.py:35-147"]}
{"id": "C95", "title": "In the symmetric position each polarisation sees only its own part of the permittivity", "statement": "If the layers are symmetric with respect to the plane of incidence (an axis of the tensor is along y), the reflected and transmitted amplitudes of s polarised light from Solver4x4 depend only on eps_yy of the layers, and those of p polarised light only on the entries within the plane. The amplitudes of s are therefore those Solver2x2 gives for isotropic layers of permittivity eps_yy.", "quantifier": "for all angles, wavelengths, stacks of layers with complex tensors (absorbing or not, tilted in the plane) and isotropic half spaces", "why_tests_cant": "Independence of three or more complex tensor entries per layer is a statement about pairs of evaluations; tests compare single configurations.", "anchors": ["src/elli/solver4x4.py:100-203", "src/elli/solver4x4.py:262-389", "src/elli/solver2x2.py:35-147"]}
{"id": "C96", "title": "psi and delta of a bare substrate in air show Brewster's angle, total reflection and the principal angle", "statement": "For the interface of air and a passive substrate (imaginary part of eps not negative) with Solver2x2, the default light and the default range, psi lies between 0 and 45 degrees and is 45 exactly at normal incidence and for total reflection by a real eps. For a transparent substrate delta is -180 degrees below Brewster's angle and 0 from there on, and psi vanishes exactly at Brewster's angle. For an absorbing substrate at oblique incidence delta lies strictly between 0 and 180 degrees, and it passes 90 degrees exactly where |eps - sin^2| = sin^2 tan^2.", "quantifier": "for all angles of incidence, wavelengths and complex permittivities for which a result is returned", "why_tests_cant": "The statements compare psi and delta with thresholds on a continuum of angles and complex permittivities; tests sample single angles.", "anchors": ["src/elli/result.py:57-132", "src/elli/solver2x2.py:19-147"]}
{"id": "C97", "title": "A thick absorbing layer hides what lies behind it", "statement": "With growing thickness of an absorbing layer the reflected amplitude of a sample computed by Solver2x2 tends to that of the sample in which the layer's material is the back medium, and the transmitted amplitude tends to zero. Two samples that differ only behind the layer therefore cannot be told apart by their reflection if the layer is thick enough.", "quantifier": "for both polarisations, all angles and wavelengths, all layers in front, all passive layers and back media behind, every absorbing permittivity and every tolerance", "why_tests_cant": "It is a limit over all thicknesses with a bound for every tolerance and for arbitrary layers behind; tests evaluate finitely many thicknesses.", "anchors": ["src/elli/solver2x2.py:35-147"]}
{"id": "C98", "title": "Wavelengths given as integers give the spectra of the same wavelengths as floats", "statement": "The wavelengths of an experiment may be given as a Python number or a list of numbers. For every dispersion the result does not depend on whether a wavelength is written as an integer (500) or as a float (500.0): the dielectric function is the documented formula of the wavelength, and no exception is raised for the one that is not raised for the other.", "quantifier": "all dispersions (Cauchy, CauchyCustomExponent, Polynomial and LorentzLambda with any integer or float parameters, all classes that convert the wavelength first), all numbers and lists of numbers as wavelengths", "why_tests_cant": "The type of the wavelength array depends on the whole list, and numpy calculates in 64 bit integers if all of them are integers; overflow and negative integer exponents depend on the values, which a finite set of wavelengths and exponents does not cover.", "anchors": ["src/elli/experiment.py:141-150", "src/elli/dispersions/cauchy.py:35-46", "src/elli/dispersions/cauchy_custom.py:28-31", "src/elli/dispersions/polynomial.py:28-31", "src/elli/dispersions/lorentz_lambda.py:33-39"]}
{"id": "C99", "title": "Solver2x2 computes a spectrum wavelength by wavelength", "statement": "Evaluating a structure with Solver2x2 for an array of wavelengths gives at every position of the array what evaluating it for this one wavelength gives: the entries of the Jones matrices and the power correction at one wavelength do not depend on the other wavelengths, on their order or on how many there are. Spectra of two ranges put together are the spectrum of both ranges. The evaluation raises exactly if one of the wavelengths raises alone. A nan of one material at one wavelength does not spread to other wavelengths.", "quantifier": "all structures with any layers of isotropic materials, rotated materials and the four mixtures, all dispersions and sums of them, all angles and all lists of float wavelengths", "why_tests_cant": "The code works on whole arrays with broadcasting of constants, masks that select elements (Bruggeman, angle correction) and in-place assignments; tests compare a few spectra, they do not show that no wavelength influences another one.", "anchors": ["src/elli/solver2x2.py:19-147", "src/elli/materials.py:88-115", "src/elli/materials.py:441-469", "src/elli/experiment.py:141-163", "src/elli/solver.py:28-35"]}
{"id": "C100", "title": "Solver4x4 computes a spectrum wavelength by wavelength", "statement": "Evaluating a structure with Solver4x4 for an array of wavelengths gives at every position of the array what evaluating it for this one wavelength gives, for each of the propagators and for isotropic and anisotropic back materials: the Jones matrices and the power correction at one wavelength do not depend on the other wavelengths, on their order or on how many there are, and a wavelength without a result does not take away the results at other wavelengths.", "quantifier": "all structures of materials with rotated tensors and mixtures, PropagatorLinear, PropagatorExpm and PropagatorEig with any eigenvalue routine, all angles and all lists of wavelengths", "why_tests_cant": "The code works on stacks of 4x4 matrices built with np.array, moveaxis, einsum, matmul, stacked inverses and stacked eigenvectors; tests compare a few spectra of regular samples and never contain a wavelength where a block is singular or a permittivity is nan.", "anchors": ["src/elli/solver4x4.py:43-152", "src/elli/solver4x4.py:154-322", "src/elli/solver4x4.py:330-389", "src/elli/experiment.py:141-163"]}
{"id": "C101", "title": "Tanguy: bound states, gap and broadening", "statement": "With documented parameters (1 < d <= 3, positive binding energy and gap) the Tanguy dispersion has a finite value at every wavelength if the broadening is not zero (leaving out the pole of the Sellmeier term). Without broadening it has no finite value exactly at the gap and at the bound states E = Eg - R/(n + (d-3)/2)^2, is real at all other energies below the gap, and has a value at all energies above. Near a bound state in two and three dimensions it behaves as a simple pole with the oscillator strength 4 A R^(d/2) / (E_n^2 (n + (d-3)/2)^3), for other d times Gamma(n+d-2) / ((n-1)! Gamma((d-1)/2)^2 (n+(d-3)/2)^(d-2)). For a positive broadening and amplitude the dielectric function has a positive imaginary part, the opposite broadening gives the complex conjugate, and A multiplies the excitonic part. For d = 2 and 3 the limit of vanishing binding energy is the critical point of free pairs.", "quantifier": "all dimensions 1 < d <= 3, binding energies, gaps, amplitudes, broadenings, Sellmeier coefficients and wavelengths", "why_tests_cant": "The value is a combination of digamma and gamma functions of complex arguments with infinitely many poles accumulating at the gap; tests compare a table at one set of parameters.", "anchors": ["src/elli/dispersions/tanguy.py:54-97"]}
{"id": "C102", "title": "Tanguy: continuous in the dimension", "statement": "The Tanguy dispersion interpolates between two and three dimensions: at a fixed energy below the gap that is not a bound state, without broadening, its value depends continuously on the dimension d, also at d = 2 and d = 3 where the code switches to separate formulas.", "quantifier": "all dimensions 1 < d <= 3, binding energies with a ground state of positive energy, gaps, amplitudes, Sellmeier coefficients and energies below the gap other than bound states", "why_tests_cant": "Continuity is a statement about all nearby dimensions; the switch to another formula happens only at the two exact floating point values 2 and 3.", "anchors": ["src/elli/dispersions/tanguy.py:81-97"]}
{"id": "C103", "title": "PseudoDielectricFunction recovers a bare substrate", "statement": "PseudoDielectricFunction(angle, lbda, psi, delta) made of psi and delta of a bare substrate in air returns the dielectric function of the substrate at all measured wavelengths, a cubic spline through these values in between, raises outside, and follows its documented formula.", "quantifier": "all substrates, angles and tables of measured wavelengths", "why_tests_cant": "continuum of optical constants and tables of any length", "anchors": ["src/elli/dispersions/pseudo_dielectric.py", "src/elli/solver2x2.py"]}
{"id": "C104", "title": "A substrate of the pseudo dielectric function has the measured psi and delta", "statement": "If measured psi and delta are turned into a PseudoDielectricFunction and a bare substrate in air of this dispersion is evaluated at the same angle, the Result has the measured psi and, up to turns, the measured delta at every measured wavelength.", "quantifier": "all angles, psi, delta and tables of measured wavelengths", "why_tests_cant": "continuum of measured values; the branch of the square root in the solver depends on them", "anchors": ["src/elli/dispersions/pseudo_dielectric.py", "src/elli/solver2x2.py", "src/elli/result.py"]}
{"id": "C105", "title": "Slicing an inhomogeneous layer converges to the continuous medium", "statement": "For structures of homogeneous layers and inhomogeneous layers (TwistedLayer, VaryingMixtureLayer with a smooth modulation, or any tensor that changes at a bounded rate) between isotropic half spaces, Maxwell's equations in the continuously varying medium have well defined Jones matrices unless a wave leaves the structure unaided, which does not happen in media without gain. Solver4x4 then has a result for every sufficiently large number of divisions, and its Jones matrices differ from the ones of the continuous medium by at most K / div, with the exponential and the eigenvalue propagator, and with the linear one if all layers are inhomogeneous.", "quantifier": "all structures, tensor profiles, angles, wavelengths and all sufficiently large numbers of divisions", "why_tests_cant": "a limit over the number of divisions, compared with the solution of a differential equation that has no closed form", "anchors": ["src/elli/structure.py", "src/elli/solver4x4.py"]}
{"id": "C106", "title": "Kramers-Kronig transforms converge to the principal value integrals", "statement": "For a smooth spectrum that is zero outside the range of an equidistant axis, every result of re2im, im2re, re2im_reciprocal and im2re_reciprocal after the first point differs from 2/pi times the principal value of the integral in the documentation of the function by at most a constant times the step; the constant depends neither on the axis nor on the point.", "quantifier": "all smooth spectra, axes and points", "why_tests_cant": "a limit over ever finer axes", "anchors": ["src/elli/kkr/kkr.py:_calc_kkr", "src/elli/kkr/kkr.py:im2re", "src/elli/kkr/kkr.py:re2im", "src/elli/kkr/kkr.py:im2re_reciprocal", "src/elli/kkr/kkr.py:re2im_reciprocal"]}
{"id": "C107", "title": "Every page of the refractiveindex.info library can be loaded", "statement": "For every page of the library the dispersion, reference and comment of exactly its file are returned for the names of its book and page; names that no page has raise ValueError, a missing reference or comment KeyError.", "quantifier": "all libraries, books and pages", "why_tests_cant": "the tests load a few pages of one library", "anchors": ["src/elli/database/refractive_index_info.py:_open_file", "src/elli/database/refractive_index_info.py:get_reference", "src/elli/database/refractive_index_info.py:get_comment", "src/elli/database/refractive_index_info.py:get_dispersion"]}
{"id": "C108", "title": "Many thin periods of a repeated layer act as one anisotropic layer", "statement": "A RepeatedLayers object whose period consists of any layers, anisotropic ones included, with given shares of the thickness: as the number of repetitions grows at fixed total thickness, the Jones matrices of Solver4x4 come within K / repetitions of those of the structure in which it is replaced by one homogeneous layer with the mean tensor, the one that connects the means of E and D when the tangential E and the normal D are common to the layers. The structure may contain further homogeneous, inhomogeneous and repeated layers. The mean tensor exists and is unique unless the mean of the inverse zz components vanishes, has no gain if the layers have none, and for isotropic layers is uniaxial with the mean and the harmonic mean of the permittivities.", "quantifier": "all periods, structures, angles, wavelengths and all sufficiently large numbers of repetitions", "why_tests_cant": "a limit over the number of repetitions for all periods and tensors", "anchors": ["src/elli/structure.py:RepeatedLayers", "src/elli/solver4x4.py"]}
{"id": "C109", "title": "Light along the axis of a twisted layer: closed form and reflection band", "statement": "For light along the normal of a TwistedLayer whose tensor has its axes along x, y and z, Maxwell's equations are solved exactly by the sums of four waves that turn with the medium, with propagation constants given by a biquadratic equation. As the number of divisions grows, the Jones matrices of Solver4x4 come within K / div of those computed with these four waves. For real indices n1, n2 along the turning axes, waves that decay along the helix exist exactly if the wavelength lies between p n1 and p n2, where p is the pitch, which are the band edges the cholesteric example computes.", "quantifier": "all thicknesses, angles, tensors with axes along x, y, z, wavelengths and all sufficiently large numbers of divisions", "why_tests_cant": "a limit over the number of divisions, compared with a closed form for all parameters; the band edges are a statement about all wavelengths", "anchors": ["src/elli/structure.py:TwistedLayer", "src/elli/solver4x4.py", "examples/gallery/plot_cholesteric_lq.py"]}
{"id": "C110", "title": "Repeating turns of a twisted layer makes one longer twisted layer", "statement": "RepeatedLayers([TwistedLayer(material, d, div, angle)], N) has the same slices and gives the same results as TwistedLayer(material, N d, N div, N angle) for full turns and for half turns, whatever the other layers of the structure are.", "quantifier": "all materials, thicknesses, divisions, repetitions, angles of incidence, wavelengths and surrounding layers", "why_tests_cant": "equality of results for all materials, numbers of repetitions and surroundings", "anchors": ["src/elli/structure.py:TwistedLayer", "src/elli/structure.py:RepeatedLayers", "examples/gallery/plot_cholesteric_lq.py"]}
{"id": "C111", "title": "Data frames of dispersions agree with the pointwise values", "statement": "get_dielectric_df and get_refractive_index_df return one row per requested wavelength, indexed by it, with the real and imaginary part of what get_dielectric and get_refractive_index return for that wavelength alone; (n + ik)^2 equals the dielectric function in every row; conjugate=True only changes the sign of the second column; without an argument the frame covers 200 to 1000 nm in 801 points or the range of the table; lists and arrays of wavelengths give the same frames; get_dielectric returns a value per wavelength; sums of dispersions with a default frame have one.", "quantifier": "all dispersions, including nested sums and index conversions, all lists of wavelengths, both conventions", "why_tests_cant": "the dispersions are nested arbitrarily and mix constants, formulas and tables, and the wavelengths are arbitrary; tests compare a few frames of single dispersions", "anchors": ["src/elli/dispersions/base_dispersion.py:get_dielectric_df", "src/elli/dispersions/base_dispersion.py:get_refractive_index_df", "src/elli/dispersions/base_dispersion.py:get_dielectric", "src/elli/dispersions/table_epsilon.py"]}
{"id": "C112", "title": "Oscillator models satisfy the Kramers-Kronig relation", "statement": "For Lorentz, Tauc-Lorentz, Gaussian and Drude terms the real part of the dielectric function minus a constant (1 for Lorentz, 0 otherwise) is the Kramers-Kronig transform of the imaginary part: 2/pi times the principal value of the integral of x eps2(x)/(x^2-E^2) over all positive energies.", "quantifier": "all energies, all numbers of oscillators, all amplitudes, all positive resonance energies and dampings (Lorentz), all gaps, resonances and broadenings below twice the resonance (Tauc-Lorentz), all Gaussians of positive width, all Drude parameters", "why_tests_cant": "the statement equates a long closed formula with an improper principal value integral for a continuum of parameters; tests compare a few tabulated values", "anchors": ["src/elli/dispersions/tauc_lorentz.py:TaucLorentz.eps1", "src/elli/dispersions/lorentz_energy.py", "src/elli/dispersions/lorentz_lambda.py", "src/elli/dispersions/drude_energy.py", "src/elli/dispersions/drude_resistivity.py", "src/elli/dispersions/gaussian.py"]}
{"id": "C113", "title": "Mixtures of transparent media obey the Wiener and Hashin-Shtrikman bounds", "statement": "For two media with positive real dielectric constants every mixing rule (VCA, Looyenga, Maxwell-Garnett, Bruggeman) gives a positive real constant between the harmonic and the arithmetic mean; the three effective medium rules lie between the Hashin-Shtrikman bounds, of which Maxwell-Garnett is one and VCA is the arithmetic mean; Bruggeman is the only self-consistent value. The value strictly increases with the fraction of the medium with the larger constant, so equal results mean equal fractions.", "quantifier": "all positive constants of host and guest, all fractions from 0 to 1, all four rules", "why_tests_cant": "inequalities over a continuum of constants and fractions; tests evaluate a few mixtures", "anchors": ["src/elli/materials.py:VCAMaterial", "src/elli/materials.py:LooyengaEMA", "src/elli/materials.py:MaxwellGarnettEMA", "src/elli/materials.py:BruggemanEMA"]}
{"id": "C114", "title": "Samples built with constructors and setters stay well formed, and shared layers change together", "statement": "After any sequence of constructor and setter calls on materials, layers, lists of layers and structures, with calls that raise caught, every object is valid: thicknesses are not negative, divisions and repetitions are at least 1, before and after at least 0, materials are Material objects (MixtureMaterial for VaryingMixtureLayer) and layers is a list. Exactly the calls with acceptable arguments succeed and the others change nothing. Every layer and structure then has a permittivity profile, that of the layers written out as values. A layer object that occurs several times in a sample changes in every place, and nowhere else, when set_thickness or set_material is called on it.", "quantifier": "for all programs of constructor and setter calls (with lists shared between objects and appended to), all heaps, layers, structures and nesting depths", "why_tests_cant": "Validity after every history is an induction over arbitrary programs, and sharing, cycles and lists that are changed after the construction only show for particular combinations of calls.", "anchors": ["src/elli/structure.py:53-144 RepeatedLayers", "src/elli/structure.py:147-203 Layer", "src/elli/structure.py:205-397 InhomogeneousLayer, TwistedLayer, VaryingMixtureLayer", "src/elli/structure.py:404-486 Structure"]}
{"id": "C115", "title": "Oscillator models obey the strength sum rule", "statement": "The integral over all photon energies E of E times the imaginary part of the dielectric function converges to a value fixed by the parameters: pi/2 times the sum of the amplitudes for LorentzEnergy, whatever the resonance energies and dampings; pi/2 A (hc/lambda_r)^2 per term for LorentzLambda; pi/2 A for DrudeEnergy and pi/2 hbar^2/(eps0 rho tau), the squared plasma energy, for DrudeResistivity; A E sigma sqrt(pi)/(2 sqrt(ln 2)) per term for Gaussian; a closed form per term for TaucLorentz. The strengths of models that are added add.", "quantifier": "all lists of oscillators with positive energies and broadenings (Tauc-Lorentz: broadening below twice the resonance energy), all positive constants", "why_tests_cant": "The value is an improper integral over an infinite range and holds for all parameters; a test can only compare a numerical integral over a finite range for a few parameters.", "anchors": ["src/elli/dispersions/lorentz_energy.py", "src/elli/dispersions/lorentz_lambda.py", "src/elli/dispersions/drude_energy.py", "src/elli/dispersions/drude_resistivity.py", "src/elli/dispersions/gaussian.py", "src/elli/dispersions/tauc_lorentz.py"]}
{"id": "C116", "title": "Very thin films change the reflection in proportion to their thickness (Drude's formula)", "statement": "For Solver2x2 the reflected amplitude of a sample with one more layer on top is differentiable in the thickness of that layer; at every thickness its derivative is a fixed quadratic polynomial in the amplitude itself (a Riccati equation), with coefficients from the layer's permittivity, the front medium, the angle and the wavelength only. For a film on a bare substrate the first order change of rho is Drude's formula: rho'/rho = 2 i k q s^2 eb (eb - e)(e - x) / (e (eb - x)(x eb - s^2 (eb + x))). Its real part is the relative change of tan(psi), its imaginary part the angle by which delta turns back. A transparent film on a transparent substrate changes psi only in second order.", "quantifier": "all transparent front media, angles, wavelengths, complex permittivities of film, layers below and substrate for which the solver gives a result; Drude's formula for rho0 other than 0", "why_tests_cant": "The statement is about a limit of thickness to zero with the error controlled for every bound, and for all permittivities and angles; numerical differences for a few samples cannot show it.", "anchors": ["src/elli/solver2x2.py:35-140", "src/elli/result.py:57-132"]}
{"id": "C117", "title": "The rho readers return the rho of the psi and delta in the file", "statement": "read_spectraray_rho, read_woollam_rho and read_nexus_rho return, with the index (angle of incidence, wavelength in nm) of the psi/delta readers, tan(psi) exp(-i delta) of the values written in the file, whatever the range of delta there; rho determines psi and, up to whole turns, delta, so that nothing measured is lost. What the psi/delta readers raise is raised here too; text among psi and delta raises TypeError.", "quantifier": "all files that the psi/delta readers read correctly (C54, C82, C83) with psi below 90 degrees", "why_tests_cant": "unbounded files and continuous values", "anchors": ["src/elli/importer/spectraray.py:read_spectraray_rho", "src/elli/importer/woollam.py:read_woollam_rho", "src/elli/importer/nexus.py:read_nexus_rho", "src/elli/utils.py:calc_rho"]}
{"id": "C118", "title": "The light of an experiment and what its results say about it", "statement": "rho, psi and delta of a result depend only on the polarised part of the incident light, not on how it was described (Jones vector with any power and phase, Stokes vector with any power and degree of polarisation, no vector for diagonal light) nor on earlier vectors; rho is the ratio of the p and s components of the reflected light, r_pp / r_ss for samples that do not mix them and the default light. For polarised light, the Mueller matrix of the result applied to the stored Stokes vector gives the Stokes vector of light with the psi and delta of the same result (ranges (0, 360), (-180, 180), (-360, 0)). After any history of setter calls every attribute is that of the last call with an argument that is understood; vectors of other shapes are ignored, and without light rho, psi and delta raise TypeError.", "quantifier": "all experiments, solvers, vectors and histories of setter calls", "why_tests_cant": "continuous domains and unbounded histories", "anchors": ["src/elli/experiment.py:Experiment", "src/elli/structure.py:Structure.evaluate", "src/elli/result.py:Result.rho"]}
{"id": "C119", "title": "Multiple reflections inside a transparent layer with Solver2x2", "statement": "A sample divided at a transparent layer: its reflection and transmission in s and p polarisation follow from three evaluations in which the material of the layer is the back or the front medium (the part above, the part above seen from inside, the part below, at the refracted angle) and the phase of one passage. For passive materials they are the sums over all waves that leave the layer after 0, 1, 2, ... reflections at its two sides. A transparent plate in a transparent medium follows Airy's formula 1 / T = 1 + 4 R / (1 - R)^2 sin^2 phi, with R the reflectance of one surface, and R + T = 1.", "quantifier": "all layers above and below, thicknesses, wavelengths, angles and transparent layer materials for which the evaluations are defined", "why_tests_cant": "infinite series and unbounded stacks", "anchors": ["src/elli/solver2x2.py:Solver2x2.calculate"]}
{"id": "C120", "title": "The text of a dispersion shows all of it", "statement": "Two dispersions, or sums of dispersions, that print the same text (repr) have the same class, the same parameters with the same printed values, the same oscillators, and for sums the same kind and the same summands, all in the same order; for names and values on one line without comma and equals sign, oscillators with at least one parameter, and no class named Oscillators. Without the last condition it is false. The line below the name of an IndexDispersionSum is shorter than the name.", "quantifier": "all dispersions and sums, all names and values", "why_tests_cant": "injectivity over unbounded texts", "anchors": ["src/elli/dispersions/base_dispersion.py:BaseDispersion.__repr__", "src/elli/dispersions/base_dispersion.py:DispersionSum.__repr__"]}
{"id": "C121", "title": "Averaging over thicknesses makes a plate incoherent", "statement": "For a transparent plate between equal transparent half spaces, the mean (ResultList.mean) of the transmittance over n >= 2 thicknesses, equally spaced over one interference period lambda / (2 n cos theta'), starting at any thickness, lies between (1-R)/(1+R) times (1-R^n)/(1+R^n) and (1-R)/(1+R) times the inverse, R the reflectance of one surface. So it converges to the incoherent transmittance, the sum of the powers of all multiply reflected waves, whatever the first thickness.", "quantifier": "all angles, wavelengths, permittivities, thicknesses, numbers of results and both polarisations", "why_tests_cant": "an inequality and a limit over all parameters and numbers of thicknesses", "anchors": ["src/elli/result.py:ResultList", "src/elli/solver2x2.py:Solver2x2.calculate"]}
{"id": "C122", "title": "Frustrated total reflection: light tunnels through a thin gap", "statement": "Beyond the critical angle a gap of lower index between two equal transparent half spaces transmits, with Solver2x2, 1/(1 + F sinh^2(2 pi kappa d / lambda)) and reflects the rest, with kappa = sqrt(x sin^2 - e), F = (g + 1/g)^2 / 4 and g = kappa/(sqrt x cos) for s, kappa sqrt x/(e cos) for p polarised light. Without a gap everything passes; a wider gap transmits strictly less, but never nothing; the transmittance of a wide gap is at most 4 exp(-4 pi kappa d / lambda). At the critical angle itself there is no result.", "quantifier": "all angles beyond the critical one, wavelengths, permittivities, widths of the gap and both polarisations", "why_tests_cant": "closed form and monotony over a continuum of parameters; the layer's wave number is imaginary", "anchors": ["src/elli/solver2x2.py:Solver2x2.calculate", "src/elli/solver2x2.py:Solver2x2.list_snell"]}
{"id": "C123", "title": "The absorption of the Lorentz models adds up to their static dielectric constant", "statement": "For long wavelengths LorentzEnergy tends to the real value 1 + sum A/E^2 and LorentzLambda to 1 + sum A. This static value minus one equals 2/pi times the integral of the imaginary part over E, divided by E, taken over all photon energies, whatever the dampings.", "quantifier": "all lists of oscillators with positive resonances and dampings, all positive constants", "why_tests_cant": "an improper integral and a limit for all parameters", "anchors": ["src/elli/dispersions/lorentz_energy.py", "src/elli/dispersions/lorentz_lambda.py"]}
{"id": "C124", "title": "Transparent models have normal dispersion", "statement": "Between two wavelengths without a resonance in between, a Sellmeier model with amplitudes and B not negative has real values and a smaller permittivity at the longer wavelength; beyond all resonances the permittivity is at least 1 + sum A and the refractive index is real and falls too. The index of Cauchy falls for n1, n2 not negative and k = 0, and the permittivity of Poles for A_ir <= 0 <= A_uv away from the pole. Across a resonance of Sellmeier it may rise.", "quantifier": "all parameters of the stated signs and all pairs of wavelengths", "why_tests_cant": "monotony over a continuum of wavelengths and parameters", "anchors": ["src/elli/dispersions/sellmeier.py", "src/elli/dispersions/cauchy.py", "src/elli/dispersions/poles.py"]}
{"id": "C125", "title": "Transparent stacks obey Stokes' relations", "statement": "Let a stack of layers with real permittivities of either sign lie between two transparent half spaces, and let it be lit by Solver2x2 from the front and, layers reversed, from the back at the angle that belongs to the same wave number along the interfaces. If there are amplitudes r, t from the front there are amplitudes r', t' from the back, and r' conj(t) + conj(r) t = 0 and t' conj(t) + |r|^2 = 1, for both polarizations. For a single interface r' = -r and t t' = 1 - r^2. A stack that reads the same from both sides between equal half spaces reflects and transmits a quarter of a period apart: Re(r conj(t)) = 0, and |r|^2 + |t|^2 = 1.", "quantifier": "all lists of layers, real thicknesses and real permittivities, all wavelengths and angles short of grazing", "why_tests_cant": "phases of complex amplitudes of arbitrary stacks, linked between two different runs", "anchors": ["src/elli/solver2x2.py"]}
