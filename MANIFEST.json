{
 "claims": [
  {
   "property": "C01",
   "status": "partial",
   "theorems": [
    "C01_integer_ranges_accepted",
    "C01_other_integers_rejected",
    "C01_non_integers_rejected_partial",
    "C01_non_integer_rejected_refuted"
   ],
   "note": "Integer ranges are accepted exactly as documented. The TypeError clause is refuted when only one bound is not an integer."
  },
  {
   "property": "C02",
   "status": "partial",
   "theorems": [
    "C02_result_in_turn",
    "C02_total",
    "C02_result_is_shifted",
    "C02_angle_preserved_iff",
    "C02_angle_preserved_refuted",
    "C02_upper_bound_refuted"
   ],
   "note": "The result is always in the turn; it is the angle delta + 2*lower, so the angle is preserved for exactly the lower bounds 0, -180, -360. Refuted for the others and for the upper bound of (0, 180)."
  },
  {
   "property": "C03",
   "status": "partial",
   "theorems": [
    "C03_rho_is_field_ratio",
    "C03_psi_delta_rho_partial",
    "C03_folded_range",
    "C03_consistent_iff",
    "C03_psi_delta_rho_refuted",
    "C03_delta_matrix_folded_refuted"
   ],
   "note": "Proved for the ranges starting at 0, -180, -360 (default and folded range included); refuted for the other accepted ranges and for delta_matrix in the folded range."
  },
  {
   "property": "C04",
   "status": "partial",
   "theorems": [
    "C04_substrate_partial",
    "C04_defined",
    "C04_folded",
    "C04_folded_passive",
    "C04_normal_refuted",
    "C04_folded_refuted"
   ],
   "note": "Proved for every substrate, angle and unfolded delta range of C03: the permittivity comes back exactly at oblique incidence (C04_substrate_partial); rho is finite unless eps = 1 (C04_defined). Refuted at normal incidence, where rho = -1 and calc_pseudo_diel divides by zero (C04_normal_refuted). In the folded range (0, 180) the result is eps or its conjugate (C04_folded), eps for every substrate without gain outside the 1e-10 band of the forward rule (C04_folded_passive), and the conjugate for a tiny gain (C04_folded_refuted). The light is the default diagonal polarisation; the 2x2 solver."
  },
  {
   "property": "C05",
   "status": "partial",
   "theorems": [
    "C05_psi_delta_to_mueller_refuted",
    "C05_wrong_whenever"
   ],
   "note": "Refuted: degrees are used as radians and M33 equals M34. Also proved: it is wrong for every sample whose cos(delta) differs from -sin(delta)."
  },
  {
   "property": "C06",
   "status": "proved",
   "theorems": [
    "C06_physical_laws",
    "C06_involutions",
    "C06_energy_frequency",
    "C06_frequency_through_energy"
   ],
   "note": "Conversion laws, involutions and consistency for every non-zero value and any non-zero constants c, h; zero input is the only failure. Exact reals."
  },
  {
   "property": "C07",
   "status": "proved",
   "theorems": [
    "C07_product",
    "C07_proper",
    "C07_identity",
    "C07_inverse"
   ],
   "note": "All angles; also equals the z-x-z product of elementary rotations."
  },
  {
   "property": "C08",
   "status": "proved",
   "theorems": [
    "C08_action",
    "C08_proper",
    "C08_fixes_axis",
    "C08_additive",
    "C08_constructors_agree",
    "C08_rotation_v_proper",
    "C08_axis_not_normalised"
   ],
   "note": "Unit axis: Rodrigues action, proper rotation, axis fixed, additive, equal to the matrix exponential constructor. rotation_v is proper for every vector. rotation_v_theta does not normalise its axis (C08_axis_not_normalised)."
  },
  {
   "property": "C09",
   "status": "proved",
   "theorems": [
    "C09_quarter_wave",
    "C09_no_plate"
   ],
   "note": "For a material with xx permittivity (n+ik)^2, n > 0; the thickness is undefined exactly when the real index is zero."
  },
  {
   "property": "C10",
   "status": "partial",
   "theorems": [
    "C10_constructor",
    "C10_template_unchanged",
    "C10_add",
    "C10_add_history",
    "C10_error_class_refuted",
    "C10_add_unset_refuted"
   ],
   "note": "Proved for constructor and add with distinct keyword names other than the parameter names of the internal helper. Refuted: the keyword 'template' raises TypeError, and add leaves a mandatory value unset."
  },
  {
   "property": "C11",
   "status": "partial",
   "theorems": [
    "C11_add",
    "C11_expression_partial",
    "C11_order_partial",
    "C11_shared_sum_refuted",
    "C11_order_refuted"
   ],
   "note": "Proved for one addition after any history and for every expression that uses no sum object twice. Refuted when a sum is used twice, and for the order when the pseudo dielectric function is the left operand."
  },
  {
   "property": "C12",
   "status": "partial",
   "theorems": [
    "C12_operands_partial",
    "C12_only_sum_operands_change",
    "C12_error_changes_nothing",
    "C12_left_sum_becomes_result",
    "C12_left_sum_refuted",
    "C12_right_sum_refuted"
   ],
   "note": "Proved when no operand is a sum; in general only sum operands change and a failing addition changes nothing. Refuted for a sum on either side; a sum on the left always becomes the result."
  },
  {
   "property": "C13",
   "status": "partial",
   "theorems": [
    "C13_sums_flat_and_kinded",
    "C13_mixed_kinds",
    "C13_mixed_type_error_refuted"
   ],
   "note": "Flatness and kinds proved for all histories, mixing kinds always raises and changes nothing. Only the exception class is refuted, for a pseudo dielectric function on the left."
  },
  {
   "property": "C14",
   "status": "partial",
   "theorems": [
    "C14_table_sum_partial",
    "C14_index_table_number_fails",
    "C14_two_tables_fail",
    "C14_table_sum_refuted"
   ],
   "note": "Proved for everything but index table plus number (always InvalidParameters) and table plus table (always NotImplementedError)."
  },
  {
   "property": "C15",
   "status": "partial",
   "theorems": [
    "C15_as_index",
    "C15_as_index_defined_partial",
    "C15_as_index_fails",
    "C15_as_index_refuted"
   ],
   "note": "Proved whenever as_index returns, for all later histories; it returns for all but tables and pseudo dielectric functions, for which it always raises (refuted)."
  },
  {
   "property": "C16",
   "status": "partial",
   "theorems": [
    "C16_n_squared",
    "C16_branch",
    "C16_index_dispersion_partial",
    "C16_index_dispersion_refuted"
   ],
   "note": "n^2 = eps proved for every dispersion, the branch for every dielectric dispersion. For index dispersions the sign clause is proved for positive real part and refuted otherwise."
  },
  {
   "property": "C17",
   "status": "partial",
   "theorems": [
    "C17_lorentz_energy",
    "C17_lorentz_lambda",
    "C17_drude_energy",
    "C17_drude_resistivity",
    "C17_gaussian",
    "C17_cody_lorentz",
    "C17_tauc_lorentz_partial",
    "C17_tauc_lorentz_refuted"
   ],
   "note": "Proved for Lorentz (energy and wavelength), both Drude models, Gaussian and Cody-Lorentz (imaginary part), and for Tauc-Lorentz with broadening below twice the resonance energy. Refuted for Tauc-Lorentz with larger broadening, where the square root alpha turns imaginary. Resonance energies non-negative; for Tanguy in two and three dimensions see C101_passive."
  },
  {
   "property": "C18",
   "status": "proved",
   "theorems": [
    "C18_superposition_and_order"
   ],
   "note": "Every dispersion with repeated parameters, for all lists, including where the result is not finite."
  },
  {
   "property": "C19",
   "status": "partial",
   "theorems": [
    "C19_sellmeier_custom",
    "C19_lorentz_lambda",
    "C19_cauchy",
    "C19_lorentz_drude_partial",
    "C19_lorentz_drude_refuted",
    "C19_drude_models",
    "C19_poles"
   ],
   "note": "All identities proved except the Drude one, which holds only with the opposite sign of the damping and fails for every non-negative damping (refuted). Two further identities proved."
  },
  {
   "property": "C20",
   "status": "partial",
   "theorems": [
    "C20_tauc_lorentz_partial",
    "C20_tauc_lorentz_refuted",
    "C20_tauc_lorentz_undefined",
    "C20_cody_lorentz_continuous",
    "C20_cody_lorentz_positive",
    "C20_cody_lorentz_refuted"
   ],
   "note": "Tauc-Lorentz proved for broadening below twice the resonance energy (refuted beyond; no value exactly at the gap). Cody-Lorentz continuous at every energy and positive everywhere, so 'zero up to the gap' is refuted for it."
  },
  {
   "property": "C21",
   "status": "partial",
   "theorems": [
    "C21_same_sign",
    "C21_metal_refuted",
    "C21_resistivity_refuted",
    "C21_metal_partial"
   ],
   "note": "Refuted for every positive damping: real and imaginary part have the same sign. Proved for the Lorentz oscillator at zero energy and for the undamped Drude term."
  },
  {
   "property": "C22",
   "status": "partial",
   "theorems": [
    "C22_value",
    "C22_defined",
    "C22_sum_refuted",
    "C22_heaviside_refuted",
    "C22_kkr_refuted",
    "C22_scalar",
    "C22_unit",
    "C22_representation"
   ],
   "note": "Proved for any arithmetic of the numbers: the formula has at every wavelength the value of the written expression (C22_value) and is defined when every part is (C22_defined); the axis is in the given unit (C22_unit) and n or eps is what the left side says (C22_representation). Refuted: a sum without the axis variable raises AxisError, heaviside raises TypeError, a Kramers-Kronig formula raises NotImplementedError (C22_sum_refuted, C22_heaviside_refuted, C22_kkr_refuted). lark's Transformer and numpy's broadcasting are assumed as described in Model/Formula.v."
  },
  {
   "property": "C23",
   "status": "partial",
   "theorems": [
    "C23_sets",
    "C23_rejected",
    "C23_accepted",
    "C23_add_ignored",
    "C23_add_refuted"
   ],
   "note": "Proved: the value is the sum over the parameter sets given to the constructor, lists of different length are rejected and equal lengths accepted. Refuted: sets added later with add() are ignored (C23_add_refuted)."
  },
  {
   "property": "C24",
   "status": "partial",
   "theorems": [
    "C24_exact",
    "C24_show_partial",
    "C24_kkr_partial",
    "C24_unique",
    "C24_error",
    "C24_power_refuted",
    "C24_sign_refuted",
    "C24_minus_refuted",
    "C24_names",
    "C24_name_refuted"
   ],
   "note": "C24_exact: exactly the texts of Spec/Rendering.v are read, each as the formula it renders; C24_show_partial: a written formula comes back if powers in powers are in parentheses and parameters have names that begin with no word of the grammar. Refuted: chained powers are an error (C24_power_refuted), -2**2 is read as (-2)**2 (C24_sign_refuted), there is no minus sign before a name (C24_minus_refuted), an identifier like height cannot be a name (C24_name_refuted; C24_names says which can). lark's LALR parser and contextual lexer are assumed as described in Model/FormulaText.v."
  },
  {
   "property": "C25",
   "status": "partial",
   "theorems": [
    "C25_axes",
    "C25_rejects",
    "C25_symmetric",
    "C25_invariants",
    "C25_product",
    "C25_isotropic",
    "C25_last_rotation_wins",
    "C25_two_calls_refuted"
   ],
   "note": "All clauses proved for the tensor. Read as two successive calls of set_rotation, the product clause is refuted: the second call replaces the first rotation."
  },
  {
   "property": "C26",
   "status": "proved",
   "theorems": [
    "C26_host_guest",
    "C26_linear",
    "C26_exchange",
    "C26_rotation"
   ],
   "note": "All fractions, tensors and rotations (rotation clause for single materials)."
  },
  {
   "property": "C27",
   "status": "partial",
   "theorems": [
    "C27_equation",
    "C27_quotients",
    "C27_defined",
    "C27_limits_partial",
    "C27_guest_refuted",
    "C27_host_refuted",
    "C27_isotropic"
   ],
   "note": "Equation and isotropy proved whenever the formula has a value, existence for passive constituents. Host and guest limits proved outside their singular points, where they are refuted: no value for a zero host element or for guest = -2 host."
  },
  {
   "property": "C28",
   "status": "partial",
   "theorems": [
    "C28_equation",
    "C28_quotients",
    "C28_exchange",
    "C28_limits_partial",
    "C28_undefined",
    "C28_host_refuted",
    "C28_isotropic"
   ],
   "note": "Equation and exchange symmetry proved without conditions. Limits proved for passive non-zero constituents except lossless ones of opposite sign, for which they are refuted; no value exactly when one of two different elements is zero."
  },
  {
   "property": "C29",
   "status": "proved",
   "theorems": [
    "C29_cube_root",
    "C29_average",
    "C29_limits",
    "C29_exchange",
    "C29_isotropic"
   ],
   "note": "For complex permittivities with the principal cube root (argument in (-60, 60] degrees)."
  },
  {
   "property": "C30",
   "status": "proved",
   "theorems": [
    "C30_always_in_range",
    "C30_set_fraction"
   ],
   "note": "All histories over any number of mixtures. Assignment to the attribute from outside is not an operation of the model."
  },
  {
   "property": "C31",
   "status": "proved",
   "theorems": [
    "C31_response",
    "C31_response4",
    "C31_slices",
    "C31_twist",
    "C31_zero_thickness",
    "C31_rejects"
   ],
   "note": "Slice count, equal thickness, sum and centres proved for every division count; the response of a layer of constant composition proved for Solver2x2 and for Solver4x4 with PropagatorExpm."
  },
  {
   "property": "C32",
   "status": "partial",
   "theorems": [
    "C32_rejects",
    "C32_periodic_partial",
    "C32_slices",
    "C32_inhomogeneous_refuted",
    "C32_long_count_refuted"
   ],
   "note": "Proved for periods of homogeneous layers with counts up to the period; in general before and after count slices, not layers, and larger counts are cut silently (refuted)."
  },
  {
   "property": "C33",
   "status": "partial",
   "theorems": [
    "C33_profile",
    "C33_ends",
    "C33_written_out",
    "C33_written_out_partial",
    "C33_inhomogeneous_refuted"
   ],
   "note": "Profile proved for all structures; writing out a repetition proved without extra layers for any contents and with extra layers for homogeneous ones, refuted for extra layers of periods with inhomogeneous layers."
  },
  {
   "property": "C34",
   "status": "partial",
   "theorems": [
    "C34_jones",
    "C34_stokes_partial",
    "C34_undefined",
    "C34_unpolarised_refuted",
    "C34_round_trip",
    "C34_default"
   ],
   "note": "Proved for every Jones vector and every Stokes vector with polarised part and non-zero power, with round trip. Refuted for the documented unpolarised vector, which gives nan."
  },
  {
   "property": "C35",
   "status": "partial",
   "theorems": [
    "C35_snell",
    "C35_defined",
    "C35_rule",
    "C35_front",
    "C35_forward_partial",
    "C35_growing_refuted"
   ],
   "note": "n*sin(angle) proved for any complex indices, the half-space rule for any media, forward and decaying waves for passive back media. Refuted for evanescent waves with |Im(n cos)| up to the tolerance 1e-10, for which the growing wave is chosen."
  },
  {
   "property": "C36",
   "status": "proved",
   "theorems": [
    "C36_boundary",
    "C36_fresnel",
    "C36_jones",
    "C36_same_media",
    "C36_zero_thickness",
    "C36_split",
    "C36_branch"
   ],
   "note": "Solution and uniqueness of the wave matching problem; Fresnel coefficients with the exact cases without value. Splitting a layer preserves the whole result. Zero thickness and the other branch: equal wherever both structures have a result."
  },
  {
   "property": "C37",
   "status": "proved",
   "theorems": [
    "C37_energy",
    "C37_result",
    "C37_defined"
   ],
   "note": "Any real permittivities, also beyond total reflection; also proved where the result exists."
  },
  {
   "property": "C38",
   "status": "proved",
   "theorems": [
    "C38_agree",
    "C38_passive"
   ],
   "note": "For forward half-space waves, and in particular for a lossless front and a passive back medium, except in the band of 1e-10 in which Solver2x2 takes the growing wave (see C35)."
  },
  {
   "property": "C39",
   "status": "partial",
   "theorems": [
    "C39_expm",
    "C39_eig",
    "C39_eig_laws",
    "C39_defective",
    "C39_linear_zero",
    "C39_linear_tangent",
    "C39_linear_refuted",
    "C39_solver"
   ],
   "note": "Composition, zero thickness and equality proved for PropagatorExpm and PropagatorEig; with defective eigenvectors PropagatorEig has no result. PropagatorLinear does not compose (refuted)."
  },
  {
   "property": "C40",
   "status": "proved",
   "theorems": [
    "C40_inverse",
    "C40_defined"
   ],
   "note": "Both products; also exactly when the matrices exist."
  },
  {
   "property": "C41",
   "status": "proved",
   "theorems": [
    "C41_energy"
   ],
   "note": "Any Hermitian tensors; the back medium may be any real permittivity, also beyond total reflection; each column and every incident vector."
  },
  {
   "property": "C42",
   "status": "partial",
   "theorems": [
    "C42_reflection",
    "C42_phase_refuted",
    "C42_positive_refuted"
   ],
   "note": "The reflection is the same for any two complete sets of eigenvectors with two forward values, when both give a result. Refuted: the phase of an eigenvector can make the normalisation divide by zero, and the step that should make the component real and positive squares its phase."
  },
  {
   "property": "C43",
   "status": "proved",
   "theorems": [
    "C43_real",
    "C43_defined",
    "C43_normalised",
    "C43_nondepolarising",
    "C43_stokes",
    "C43_isotropic_table"
   ],
   "note": "Includes existence, reality, normalisation, non-depolarisation, Stokes action and the table for samples without polarisation conversion."
  },
  {
   "property": "C44",
   "status": "proved",
   "theorems": [
    "C44_reflection",
    "C44_transmission",
    "C44_power_per_handedness",
    "C44_total_power",
    "C44_normal_incidence"
   ],
   "note": "Action on circular vectors, power per handedness, total power, normal incidence."
  },
  {
   "property": "C45",
   "status": "partial",
   "theorems": [
    "C45_whole",
    "C45_element",
    "C45_only",
    "C45_attribute_error",
    "C45_error_class",
    "C45_undocumented_refuted",
    "C45_circular_refuted",
    "C45_order",
    "C45_order_refuted"
   ],
   "note": "Every documented name gives the array or element it stands for (C45_whole, C45_element), no other public name gives a value (C45_only), and the names that raise AttributeError are characterised (C45_attribute_error, C45_error_class). Refuted: undocumented names with a known prefix raise ValueError, IndexError or TypeError (C45_undocumented_refuted); r_LR is the linear coefficient r_ps (C45_circular_refuted); the letters are outgoing then incident polarisation, not 'from s to p' (C45_order, C45_order_refuted)."
  },
  {
   "property": "C46",
   "status": "partial",
   "theorems": [
    "C46_get_refuted",
    "C46_never"
   ],
   "note": "Refuted: Result has no __getitem__, so get raises TypeError for every name (C46_get_refuted, C46_never)."
  },
  {
   "property": "C47",
   "status": "partial",
   "theorems": [
    "C47_mean_partial",
    "C47_single",
    "C47_mean_refuted",
    "C47_scalar",
    "C47_rejected",
    "C47_stack"
   ],
   "note": "For two or more results of equal shape the mean is elementwise, with axes of length one dropped (C47_mean_partial). Refuted for a single result: the squeezed array is averaged over the wavelengths (C47_single, C47_mean_refuted, C47_scalar). Also: stacking without mean (C47_stack), rejected cases (C47_rejected)."
  },
  {
   "property": "C48",
   "status": "partial",
   "theorems": [
    "C48_maclaurin_partial",
    "C48_first_refuted",
    "C48_linear",
    "C48_parity",
    "C48_reject"
   ],
   "note": "Every output point but the first is Maclaurin's sum (C48_maclaurin_partial, which also gives the exact wrong first point: weight x_0 - h instead of h); refuted for the first point (C48_first_refuted). Linearity, independence of same parity values and the rejected lengths are proved on all axes (C48_linear, C48_parity, C48_reject)."
  },
  {
   "property": "C49",
   "status": "partial",
   "theorems": [
    "C49_bound",
    "C49_refinement",
    "C49_undo_partial",
    "C49_undo_refuted",
    "C49_revert",
    "C49_shared_refuted"
   ],
   "note": "Bounded history and refinement to an abstract undo stack proved for every operation list; undoing k tracked changes restores every value (C49_undo_partial). Refuted: a name added by tracked_add is not removed by pop; update_params shares the Parameter objects of the given object, so later changes reach through it (C49_shared_refuted)."
  },
  {
   "property": "C50",
   "status": "partial",
   "theorems": [
    "C50_change",
    "C50_undo_change",
    "C50_undo_changes",
    "C50_fit",
    "C50_redo",
    "C50_initial",
    "C50_fitted_partial",
    "C50_fitted_refuted",
    "C50_one_click_refuted",
    "C50_initial_refuted",
    "C50_redo_refuted"
   ],
   "note": "Proved for every click history: a widget changes its own parameter only, Undo restores the values before a change or a fit, n changes are undone by n clicks, Redo restores the undone values, the initial values never change. Refuted: after Fit two clicks on Undo are needed, a reset cannot be undone, an extra Undo loses Redo, and a widget change right after a fit changes the stored fit result (C50_fitted_refuted); without that sharing the stored result is safe (C50_fitted_partial)."
  },
  {
   "property": "C51",
   "status": "partial",
   "theorems": [
    "C51_formula",
    "C51_undefined",
    "C51_table_partial",
    "C51_several",
    "C51_with_k_partial",
    "C51_other",
    "C51_blanks",
    "C51_unpaired"
   ],
   "note": "Every dispersion formula with a complete list of coefficients yields the formula of the refractiveindex.info documentation, wherever that has a value, and no value where it divides by zero. Also proved: adding k from a table, the exceptions for other types, for two adjacent blanks between numbers and for entries without partner, and the combination of several data sets. Tables need at least two rows with distinct wavelengths; the conversion of texts to numbers is an argument of the model."
  },
  {
   "property": "C52",
   "status": "partial",
   "theorems": [
    "C52_catalog",
    "C52_no_pages",
    "C52_search_partial",
    "C52_fuzzy_partial",
    "C52_filter",
    "C52_column_error",
    "C52_missing_refuted",
    "C52_unknown_range_refuted"
   ],
   "note": "Proved: the catalog has exactly one row for each page, in the order of the library, with the shelf, the book and the last dividers before it; exact and approximate search return exactly the matching rows in their order, and the wavelength filter keeps the rows whose known range contains all wavelengths. Restrictions: no shelf has an empty name, and no missing values in the searched columns unless logical_or of true and missing is true. Refuted without the latter (C52_missing_refuted); rows without a range in their page name are removed by every filter (C52_unknown_range_refuted). Rapidfuzz, yaml and the regular expression for page names are arguments of the model."
  },
  {
   "property": "C53",
   "status": "partial",
   "theorems": [
    "C53_energy_partial",
    "C53_wavelength",
    "C53_no_unit",
    "C53_wavelength_refuted",
    "C53_comma_refuted",
    "C53_blank_refuted"
   ],
   "note": "Proved for files of photon energies: with one begin and one end marker, a line of three words for each row and a units line (with a comma, not the first line) exactly the rows between the markers are read, and energies are converted to wavelengths. Refuted: every file of wavelengths raises ValueError (C53_wavelength_refuted), without a comma in the units line wavelengths are taken for energies (C53_comma_refuted), and blank lines between the markers make the end marker a row (C53_blank_refuted). pandas.read_csv is modelled as stated in Model/TextTable.v."
  },
  {
   "property": "C54",
   "status": "partial",
   "theorems": [
    "C54_is_float",
    "C54_is_float_partial",
    "C54_is_float_refuted",
    "C54_wvase_partial",
    "C54_complete_ease_partial",
    "C54_no_table",
    "C54_trig",
    "C54_negative_refuted",
    "C54_all_negative_refuted",
    "C54_no_header_refuted"
   ],
   "note": "Proved for every WVASE file (any signs), and for CompleteEASE files whose first row has no negative number: all measurements appear, in order, scaled to nm, and other rows do not. is_float is true exactly for strings with a digit (C54_is_float); so floats are recognised, but other strings are, too (C54_is_float_refuted). Refuted: a first row of a CompleteEASE file with negative Delta is lost (C54_negative_refuted), a file of such rows is rejected (C54_all_negative_refuted). pandas.read_csv, Python's re and pint are modelled as stated in Model/TextTable.v, Model/Regex.v and Model/Woollam.v."
  },
  {
   "property": "C55",
   "status": "partial",
   "theorems": [
    "C55_file_partial",
    "C55_without_x",
    "C55_x_and_y",
    "C55_empty_group",
    "C55_two_tables",
    "C55_function_errors",
    "C55_x_y_refuted",
    "C55_tables_refuted",
    "C55_energy_table_refuted"
   ],
   "note": "Proved for every file whose entries have groups for x, for x and z, or for x, y and z, each with dispersions of one kind that do not begin with two tables: the materials get the class and along each axis the sum of the permittivities (or the square of the sum of the indices), also when later entries are read. Without x there is a ValueError. Refuted: x and y without z raise KeyError (C55_x_y_refuted), two tables are not added (C55_tables_refuted), tables over photon energies cannot be read (C55_energy_table_refuted). Formulas are an argument of the model; they are the subject of C22 to C24."
  },
  {
   "property": "C56",
   "status": "partial",
   "theorems": [
    "C56_x_partial",
    "C56_refuted"
   ],
   "note": "True for directions along x (C56_x_partial). Refuted for other directions: the elementwise product of the tensor with the direction leaves eps_xx times the square of the first component, so for y the profile is zero (C56_refuted)."
  },
  {
   "property": "C57",
   "status": "partial",
   "theorems": [
    "C57_columns_partial",
    "C57_rejects",
    "C57_model_data_partial",
    "C57_residual_partial",
    "C57_order_refuted",
    "C57_init",
    "C57_init_refuted"
   ],
   "note": "Proved for data frames whose columns are M11 to M44 in this order: labels, residual, and the rejection of other numbers of columns. Refuted for another order of columns (C57_order_refuted) and for the construction without display_single, sharex and full_scale (C57_init_refuted)."
  },
  {
   "property": "C58",
   "status": "partial",
   "theorems": [
    "C58_kind_outside",
    "C58_kind_rejected",
    "C58_kind_accepted",
    "C58_kind_tabulated",
    "C58_kind_meaning",
    "C58_polynomial",
    "C58_single_row",
    "C58_single_refuted",
    "C58_duplicate_refuted",
    "C58_cubic_refuted",
    "C58_accepted",
    "C58_rejected",
    "C58_between_partial",
    "C58_tabulated_partial",
    "C58_outside",
    "C58_order_partial"
   ],
   "note": "Proved for linear interpolation and at least two rows with distinct wavelengths: between two neighbouring wavelengths the value is the weighted mean, at a tabulated wavelength it is the tabulated value, outside there is no value, and the order of the rows does not matter. All other kinds of scipy.interpolate.interp1d: the tabulated values, the exceptions outside, what every kind means (C58_kind_meaning: nearest with its rule for ties, nearest-up, previous, next, zero, slinear, and the quadratic and cubic splines with the default knots for any number of rows, which exist and are unique), a value between the neighbours for all kinds that are not splines, and that splines reproduce polynomials of their degree (C58_polynomial). Refuted: a complex table of one row has no value at its only wavelength (C58_single_refuted), a repeated wavelength has different values in real and complex tables (C58_duplicate_refuted), cubic splines leave the interval of the neighbours (C58_cubic_refuted)."
  },
  {
   "property": "C59",
   "status": "partial",
   "theorems": [
    "C59_snapshot",
    "C59_old_objects",
    "C59_experiment",
    "C59_evaluate_pure",
    "C59_as_delta_range",
    "C59_presentation",
    "C59_delta_refuted",
    "C59_rho_refuted"
   ],
   "note": "No program that leaves the result's own objects alone changes anything readable from it, and result.experiment keeps the evaluated data (C59_snapshot, C59_old_objects, C59_experiment, C59_evaluate_pure), on a heap model with deepcopy. as_delta_range changes the object itself and only its range (C59_as_delta_range); psi never changes, Delta changes by twice the difference of the lower bounds (C59_presentation), so 'only the presentation' is refuted for (-90, 270) and, for rho, for (0, 180) (C59_delta_refuted, C59_rho_refuted)."
  },
  {
   "property": "C60",
   "status": "partial",
   "theorems": [
    "C60_R_unpolarised_partial",
    "C60_R_deficit",
    "C60_R_unpolarised_refuted"
   ],
   "note": "Proved for samples without polarisation conversion; refuted in general, with the exact deficit."
  },
  {
   "property": "C61",
   "status": "proved",
   "theorems": [
    "C61_passive",
    "C61_bruggeman_between"
   ],
   "note": "All four formulas; the Bruggeman result even lies in the cone between host and guest."
  },
  {
   "property": "C62",
   "status": "partial",
   "theorems": [
    "C62_looyenga_refuted",
    "C62_maxwell_garnett_refuted",
    "C62_bruggeman_refuted",
    "C62_isotropic_partial"
   ],
   "note": "Refuted for all three formulas; proved for isotropic constituents."
  },
  {
   "property": "C63",
   "status": "proved",
   "theorems": [
    "C63_reality"
   ],
   "note": "Lorentz (energy and wavelength), both Drude models and Gaussian, including where there is no value."
  },
  {
   "property": "C64",
   "status": "partial",
   "theorems": [
    "C64_unrotated_partial",
    "C64_rotated_refuted"
   ],
   "note": "Proved for unrotated materials, refuted for rotated ones (elementwise square root)."
  },
  {
   "property": "C65",
   "status": "partial",
   "theorems": [
    "C65_cauchy",
    "C65_powers",
    "C65_urbach",
    "C65_sellmeier",
    "C65_sellmeier_custom",
    "C65_poles",
    "C65_drude_energy",
    "C65_lorentz_lambda_refuted",
    "C65_lorentz_energy_partial",
    "C65_lorentz_energy_refuted",
    "C65_drude_resistivity_refuted",
    "C65_gaussian_width_partial",
    "C65_gaussian_refuted"
   ],
   "note": "Proved for Cauchy, CauchyCustomExponent, Polynomial, CauchyUrbach, Sellmeier, SellmeierCustomExponent, Poles and DrudeEnergy. Refuted for LorentzEnergy (documented sum has the opposite sign), LorentzLambda (opposite sign of the damping), DrudeResistivity and Gaussian."
  },
  {
   "property": "C66",
   "status": "proved",
   "theorems": [
    "C66_passive"
   ],
   "note": "Lossless front medium, any passive layers and back medium, both polarisations."
  },
  {
   "property": "C67",
   "status": "partial",
   "theorems": [
    "C67_interface_partial",
    "C67_power_refuted"
   ],
   "note": "Proved for s polarisation; the exact deficit is proved for p polarisation, where the claim is refuted."
  },
  {
   "property": "C68",
   "status": "proved",
   "theorems": [
    "C68_maxwell"
   ],
   "note": "For the exact propagators, isotropic half spaces and the normalisation of the wave amplitudes of Spec/Maxwell.v."
  },
  {
   "property": "C69",
   "status": "proved",
   "theorems": [
    "C69_defined",
    "C69_passive"
   ],
   "note": "Existence of the result and the inequality, for every incident vector; positive wavelength and thicknesses."
  },
  {
   "property": "C70",
   "status": "partial",
   "theorems": [
    "C70_deficit",
    "C70_unpolarized_refuted"
   ],
   "note": "Refuted for a half-wave plate, where R + T = 0; the exact deficit is proved."
  },
  {
   "property": "C71",
   "status": "partial",
   "theorems": [
    "C71_reflection",
    "C71_transmission_refuted"
   ],
   "note": "Proved for the reflection and every set of eigenvectors; refuted for the transmission with eigenvectors of unit length."
  },
  {
   "property": "C72",
   "status": "partial",
   "theorems": [
    "C72_roundtrip_sign",
    "C72_roundtrip_refuted"
   ],
   "note": "Refuted (C72_roundtrip_refuted): re2im has the opposite sign, so that the scalar product with the original is never positive (C72_roundtrip_sign, for all equidistant axes with x_0 >= h and a spectrum with zero first value)."
  },
  {
   "property": "C73",
   "status": "partial",
   "theorems": [
    "C73_orientation",
    "C73_orientation_refuted"
   ],
   "note": "Refuted (C73_orientation_refuted): the sign of the step enters, so that a descending axis gives the negated result at every inner point (C73_orientation)."
  },
  {
   "property": "C74",
   "status": "partial",
   "theorems": [
    "C74_plain_refuted"
   ],
   "note": "Refuted: fit_button_clicked calls update_params, which lmfit Parameters do not have; AttributeError after the fit."
  },
  {
   "property": "C75",
   "status": "proved",
   "theorems": [
    "C75_graph"
   ],
   "note": ""
  },
  {
   "property": "C76",
   "status": "partial",
   "theorems": [
    "C76_figure_partial",
    "C76_history_partial"
   ],
   "note": "Proved for data frames whose columns are M11 to M44 in this order, for every history of parameter changes and residual toggles."
  },
  {
   "property": "C77",
   "status": "partial",
   "theorems": [
    "C77_squares",
    "C77_lengths",
    "C77_zero_partial",
    "C77_range_refuted"
   ],
   "note": "Sum of squares proved for all spectra; the equivalence proved for the ranges starting at 0, -180, -360, the folded one included (C77_zero_partial). Refuted for the other accepted ranges (C77_range_refuted), whose delta is another angle (see C03)."
  },
  {
   "property": "C78",
   "status": "proved",
   "theorems": [
    "C78_figure",
    "C78_lengths"
   ],
   "note": "For simulations with one finite value for each measured row; the pseudo dielectric function has no point where rho = -1. C78_lengths: otherwise a step fails."
  },
  {
   "property": "C79",
   "status": "partial",
   "theorems": [
    "C79_get_model_data",
    "C79_to_csv",
    "C79_to_csv_refuted"
   ],
   "note": "get_model_data proved for all arguments. Refuted for to_csv: the flag append_exp_data is passed as the representation, so every call raises ValueError (C79_to_csv_refuted)."
  },
  {
   "property": "C80",
   "status": "partial",
   "theorems": [
    "C80_boxes_partial",
    "C80_typed_partial",
    "C80_mueller",
    "C80_rho_partial",
    "C80_rho_refuted"
   ],
   "note": "Proved for FitMuellerMatrix (C80_mueller) and for every window as long as the values are within the bounds of the boxes. Refuted for FitRho: the box of a parameter without a lower bound has sys.float_info.min, the smallest positive number, as its minimum, so that zero and negative values are neither shown nor accepted (C80_rho_refuted)."
  },
  {
   "property": "C81",
   "status": "partial",
   "theorems": [
    "C81_checkbox_partial",
    "C81_reset",
    "C81_last",
    "C81_undo_refuted"
   ],
   "note": "Proved for all histories without undo and redo, and for those that end with the reset button. Refuted in general: Undo brings back Parameter objects with the old flag and leaves the checkbox as it is (C81_undo_refuted)."
  },
  {
   "property": "C82",
   "status": "partial",
   "theorems": [
    "C82_present",
    "C82_legacy_partial",
    "C82_default",
    "C82_errors",
    "C82_sample_refuted",
    "C82_documented_refuted",
    "C82_repeated_refuted"
   ],
   "note": "Proved for the present layout with different angles (C82_present) and for the first layout if the sample group is named sample. Refuted: the data type of the first layout is looked up in the group sample whatever the name given (C82_sample_refuted), unknown data types raise NotImplementedError (C82_documented_refuted), repeated angles raise (C82_repeated_refuted)."
  },
  {
   "property": "C83",
   "status": "partial",
   "theorems": [
    "C83_psi_delta_partial",
    "C83_decimal_refuted",
    "C83_repeated_refuted"
   ],
   "note": "Proved for different angles that Python's float can read. Refuted: the angles of the first line are not read with the argument decimal, so that a file with decimal commas raises ValueError (C83_decimal_refuted); an angle that was measured twice raises (C83_repeated_refuted)."
  },
  {
   "property": "C84",
   "status": "partial",
   "theorems": [
    "C84_sums",
    "C84_distinct_partial",
    "C84_regions_refuted",
    "C84_missing_refuted",
    "C84_errors"
   ],
   "note": "Proved if no angle and wavelength occurs twice, with the error for fields that are no numbers (C84_errors); C84_sums says what the result is for all files. Refuted: the values of several regions at the same angle and wavelength are added up (C84_regions_refuted); a missing column gives zeros (C84_missing_refuted)."
  },
  {
   "property": "C85",
   "status": "partial",
   "theorems": [
    "C85_last",
    "C85_one_partial",
    "C85_first_refuted",
    "C85_names_refuted"
   ],
   "note": "Proved for files with one matrix; in general the last matrix of each line is read (C85_last). Refuted: the docstring says that the first entry is read (C85_first_refuted); a first line with a name for every column and no semicolon raises ValueError (C85_names_refuted)."
  },
  {
   "property": "C86",
   "status": "proved",
   "theorems": [
    "C86_material",
    "C86_euler",
    "C86_half_turn",
    "C86_half_turn_modes"
   ],
   "note": "For every stack of symmetric tensors (C86_material: all SingleMaterials have one) with isotropic back medium, and with any other back medium whose eigenvectors are complete and which has two forward modes. Exact propagators."
  },
  {
   "property": "C87",
   "status": "proved",
   "theorems": [
    "C87_mirror",
    "C87_no_conversion"
   ],
   "note": "For isotropic back media and exact propagators."
  },
  {
   "property": "C88",
   "status": "proved",
   "theorems": [
    "C88_turn"
   ],
   "note": "For isotropic back media and exact propagators."
  },
  {
   "property": "C89",
   "status": "proved",
   "theorems": [
    "C89_amplitudes",
    "C89_transmittance"
   ],
   "note": "For isotropic half spaces and exact propagators; both evaluations are assumed to have a result (C69 gives it for passive layers)."
  },
  {
   "property": "C90",
   "status": "proved",
   "theorems": [
    "C90_solver4",
    "C90_solver2"
   ],
   "note": "Solver2x2 and Solver4x4 with an exact propagator, any back medium; materials are given by their permittivity, which is kept."
  },
  {
   "property": "C91",
   "status": "proved",
   "theorems": [
    "C91_total",
    "C91_phase",
    "C91_brewster"
   ],
   "note": "Total reflection for all stacks of real permittivities in both polarisations (C91_total, for every amplitude that is returned), the phases beyond the tolerance band of 1e-10 of the forward rule (C91_phase), Brewster's angle with existence of the results (C91_brewster)."
  },
  {
   "property": "C92",
   "status": "proved",
   "theorems": [
    "C92_period",
    "C92_absentee",
    "C92_quarter",
    "C92_antireflection"
   ],
   "note": "Any real positive permittivity in front, any complex ones elsewhere; the layer is transparent, that is its wave propagates (C92_period, C92_absentee). C92_quarter and C92_antireflection at normal incidence, with existence of the results."
  },
  {
   "property": "C93",
   "status": "proved",
   "theorems": [
    "C93_amplitudes",
    "C93_transmittance",
    "C93_reflectance"
   ],
   "note": "C93_amplitudes for any complex permittivities, C93_transmittance (with existence) for positive permittivities of the half spaces and angles on both sides other than grazing, C93_reflectance for real layers."
  },
  {
   "property": "C94",
   "status": "proved",
   "theorems": [
    "C94_quarter_stack",
    "C94_bragg",
    "C94_perfect"
   ],
   "note": "Solver2x2 at normal incidence with existence of the results; C94_quarter_stack for any list of odd quarter wave layers, C94_bragg and C94_perfect through make_repeated and structure_profile."
  },
  {
   "property": "C95",
   "status": "proved",
   "theorems": [
    "C95_s",
    "C95_p",
    "C95_solver2"
   ],
   "note": "For every exact propagator (as in C38) and isotropic half spaces, for every pair of results that are returned; the results exist by C69_defined. C95_solver2 outside the tolerance band of 1e-10 of the forward rule, as in C38."
  },
  {
   "property": "C96",
   "status": "proved",
   "theorems": [
    "C96_psi",
    "C96_transparent",
    "C96_absorbing"
   ],
   "note": "Front medium air, light [a, a], default range; conditional on a returned rho as in C04 (C04_defined gives existence)."
  },
  {
   "property": "C97",
   "status": "proved",
   "theorems": [
    "C97_opaque",
    "C97_hidden",
    "C97_defined"
   ],
   "note": "Real positive permittivity in front, passive media behind the layer, anything in front of it. Provided that the limiting sample and the sample with some thickness have results (no division by zero at an interface), results then exist for every larger thickness; C97_defined gives the existence at normal incidence."
  },
  {
   "property": "C98",
   "status": "partial",
   "theorems": [
    "C98_float",
    "C98_same_partial",
    "C98_negative",
    "C98_negative_refuted",
    "C98_overflow_refuted"
   ],
   "note": "False in general: integer wavelengths and a negative integer exponent raise ValueError in CauchyCustomExponent and Polynomial (C98_negative, C98_negative_refuted), and the fourth power in Cauchy overflows from 55109 nm on (C98_overflow_refuted). Proved: wavelengths with a float among them always give the documented formula (C98_float), and integers give the same spectrum as floats for every dispersion if no exponent is negative and nothing exceeds 64 bits (C98_same_partial; for Cauchy that is |lambda| <= 55108)."
  },
  {
   "property": "C99",
   "status": "proved",
   "theorems": [
    "C99_pointwise",
    "C99_power",
    "C99_length",
    "C99_raises",
    "C99_concat",
    "C99_select"
   ],
   "note": "Solver2x2 with its arrays (broadcasting, stacking, masks) for a whole structure: every entry equals the one-wavelength model of Solver2.v, which C35-C37 and others are about (C99_pointwise, C99_power, wavelengths other than 0), exactly the wavelengths that raise alone make the spectrum raise (C99_raises), spectra can be concatenated (C99_concat) and selected (C99_select). Integer wavelengths are the subject of C98."
  },
  {
   "property": "C100",
   "status": "partial",
   "theorems": [
    "C100_pointwise",
    "C100_length",
    "C100_raises",
    "C100_concat",
    "C100_select",
    "C100_value",
    "C100_value_aniso",
    "C100_singular",
    "C100_nan_entry",
    "C100_nan_raises",
    "C100_refuted"
   ],
   "note": "The last part is false: one wavelength at which the inverted block is singular makes the whole spectrum raise LinAlgError although the other wavelengths have results (C100_refuted: a film with gain and PropagatorLinear), and with PropagatorEig or a back material that is not isotropic a nan permittivity at one wavelength does the same (C100_nan_raises). Proved: when the spectrum is computed every entry is that of the wavelength alone (C100_pointwise, C100_length, C100_concat, C100_select), it raises exactly if one wavelength raises alone (C100_raises), at one wavelength the program on stacks computes the one-wavelength models solver4 and solver4_aniso that C38-C42 and others are about (C100_value, C100_value_aniso), Linear and Expm raise exactly for a singular block (C100_singular) and turn a nan permittivity into nan amplitudes of this wavelength only (C100_nan_entry)."
  },
  {
   "property": "C101",
   "status": "partial",
   "theorems": [
    "C101_strength_dimension",
    "C101_below",
    "C101_gap",
    "C101_above",
    "C101_broadened",
    "C101_documented_refuted",
    "C101_conjugate",
    "C101_absorbs",
    "C101_passive",
    "C101_amplitude",
    "C101_strength",
    "C101_weak_binding"
   ],
   "note": "False with the documented ranges alone: if the ground state lies at energy zero (R = Eg ((d-1)/2)^2) there is no value at any wavelength, whatever the broadening (C101_documented_refuted). Proved for a ground state of positive energy: a value everywhere with broadening (C101_broadened), no value exactly at the bound states and at the gap without, real below the gap (C101_below, C101_gap), a value above (C101_above), poles with the stated strengths for d = 2, 3 (C101_strength) and with the factor of Gamma functions between (C101_strength_dimension), conjugation (C101_conjugate), positive imaginary part of g(xsi) and, with A > 0, of the whole dielectric function with broadening for d = 2, 3 (C101_absorbs, C101_passive), linearity in A (C101_amplitude), and for d = 2, 3 the limit of free pairs below the gap as the binding energy goes to zero (C101_weak_binding). Not proved: absorption for other d."
  },
  {
   "property": "C102",
   "status": "partial",
   "theorems": [
    "C102_continuous",
    "C102_three_dimensions",
    "C102_two_dimensions_refuted"
   ],
   "note": "False at d = 2: with Rb = 1, Eg = 16 there is an energy at which every dimension near 2 gives a value lower by at least 1 than d = 2 (C102_two_dimensions_refuted; the general formula tends to the two-dimensional one divided by pi). Proved at every d with 1 < d < 3, d not 2 (C102_continuous), and at d = 3, from both sides (C102_three_dimensions)."
  },
  {
   "property": "C103",
   "status": "partial",
   "theorems": [
    "C103_row",
    "C103_table",
    "C103_substrate",
    "C103_folded",
    "C103_nan",
    "C103_rejected",
    "C103_documented_refuted",
    "C103_normal_refuted"
   ],
   "note": "Proved for all angles other than normal incidence and delta ranges starting at 0, -180 or -360 degrees (C103_substrate; the folded range 0 to 180 for substrates without gain, C103_folded), with the spline and the exception outside (C103_table), agreement with calc_pseudo_diel (C103_row) and the rejected arguments (C103_rejected). Refuted: the formula in the documentation lacks the square of the quotient (C103_documented_refuted), at normal incidence all values are nan (C103_normal_refuted). One row with rho = -1 makes the values at all wavelengths nan (C103_nan)."
  },
  {
   "property": "C104",
   "status": "partial",
   "theorems": [
    "C104_reproduced",
    "C104_mirrored",
    "C104_spectrum",
    "C104_refuted"
   ],
   "note": "Proved for psi between 0 and 90 degrees and delta from 0 to 180 degrees, at one wavelength (C104_reproduced) and over a whole table (C104_spectrum); for psi of 45 degrees and more only where the solver can see the sign of the imaginary part of the wave number, which is more than 1e-10 then. For delta between 180 and 360 degrees the solver takes the other root: psi becomes 90 - psi and delta becomes -delta (C104_mirrored, C104_refuted)."
  },
  {
   "property": "C105",
   "status": "proved",
   "theorems": [
    "C105_converges",
    "C105_passive",
    "C105_twisted",
    "C105_varying"
   ],
   "note": "C105_converges for every profile of bounded rate of change whose zz component stays away from zero; C105_passive removes the condition on resonances for media without gain; C105_twisted and C105_varying show that the two inhomogeneous layers of the library are such profiles (the mixture for VCAMaterial). Half spaces are isotropic; propagators work in exact arithmetic, the eigenvalue one with any complete eigenvectors."
  },
  {
   "property": "C106",
   "status": "partial",
   "theorems": [
    "C106_converges",
    "C106_documented_refuted"
   ],
   "note": "Proved for all four transforms with the integrals of Spec/KK.v (C106_converges: error at most K h, spectra with a slope of bounded rate of change). For re2im, im2re and re2im_reciprocal these are the documented ones. Refuted for the documentation of im2re_reciprocal, which has x in the numerator instead of the denominator: on ever finer axes the result stays away from that integral (C106_documented_refuted)."
  },
  {
   "property": "C107",
   "status": "partial",
   "theorems": [
    "C107_loads_partial",
    "C107_unknown",
    "C107_twice",
    "C107_loads_refuted"
   ],
   "note": "Proved for every page whose pair of names occurs once in the library (C107_loads_partial: its own file is read), and for names that no page has (C107_unknown). Refuted: a pair of names that occurs twice, for example on two shelves, raises ValueError 'No entry found.' for both pages, although the search finds them (C107_twice, C107_loads_refuted)."
  },
  {
   "property": "C108",
   "status": "proved",
   "theorems": [
    "C108_converges",
    "C108_passive",
    "C108_mean",
    "C108_isotropic"
   ],
   "note": "Exponential and eigenvalue propagators, and the linear one if the structure has no thick homogeneous layer (C108_converges, C108_passive); existence and uniqueness of the mean tensor (C108_mean); isotropic layers (C108_isotropic). Between isotropic half spaces; the repeated layer has no partial period before or after."
  },
  {
   "property": "C109",
   "status": "proved",
   "theorems": [
    "C109_modes",
    "C109_waves",
    "C109_passive",
    "C109_stop_band"
   ],
   "note": "C109_waves (the four waves are all solutions), C109_modes (they exist unless one of two conditions holds: a vanishing product of the constants, or equal squares), C109_passive (the solver approaches the closed form; transparent front medium, no gain, isotropic half spaces, exact propagators and the linear one), C109_stop_band (band edges, for real indices)."
  },
  {
   "property": "C110",
   "status": "partial",
   "theorems": [
    "C110_profile",
    "C110_solver",
    "C110_turns",
    "C110_half_turns_refuted"
   ],
   "note": "Proved for full turns and any tensor, and for half turns exactly of the tensors with a principal axis along the normal (C110_turns with C110_profile and C110_solver; exact propagators). Refuted for half turns of a tilted director: the slices differ (C110_half_turns_refuted)."
  },
  {
   "property": "C111",
   "status": "partial",
   "theorems": [
    "C111_rows",
    "C111_index_rows",
    "C111_raises",
    "C111_square",
    "C111_branch",
    "C111_conjugate",
    "C111_default",
    "C111_table",
    "C111_lists",
    "C111_number",
    "C111_lists_refuted",
    "C111_shape_refuted",
    "C111_default_refuted"
   ],
   "note": "Proved: rows (C111_rows, C111_index_rows, C111_raises), squares (C111_square, C111_branch), sign convention (C111_conjugate), default range (C111_default, C111_table), numbers never give a frame (C111_number), and which dispersions accept lists (C111_lists: those made of constants and tables only). Refuted: lists raise TypeError with the formulas (C111_lists_refuted), a constant returns no axis for an array (C111_shape_refuted), a sum with a table shorter than 200-1000 nm raises ValueError without an argument although the table alone works (C111_default_refuted)."
  },
  {
   "property": "C112",
   "status": "partial",
   "theorems": [
    "C112_unique",
    "C112_lorentz_energy",
    "C112_lorentz_lambda",
    "C112_tauc_lorentz",
    "C112_gaussian",
    "C112_drude",
    "C112_drude_resistivity",
    "C112_drude_refuted"
   ],
   "note": "Proved for Lorentz oscillators of energy and wavelength with any positive damping (C112_lorentz_energy, C112_lorentz_lambda) and for Tauc-Lorentz with the formula of Jellison and Modine for broadening below twice the resonance (C112_tauc_lorentz; there is no value at the gap itself), and for Gaussian oscillators of positive width (C112_gaussian). Refuted for both Drude models: the transform is the real part with the opposite sign, and no constant repairs it (C112_drude, C112_drude_resistivity, C112_drude_refuted). The integral has one value only (C112_unique)."
  },
  {
   "property": "C113",
   "status": "proved",
   "theorems": [
    "C113_bounds",
    "C113_hashin_shtrikman",
    "C113_wiener",
    "C113_which",
    "C113_monotone",
    "C113_fraction",
    "C113_metal"
   ],
   "note": "C113_wiener, C113_hashin_shtrikman (with the order of the bounds in C113_bounds), C113_which, C113_monotone, C113_fraction. C113_metal shows that positive constants are needed."
  },
  {
   "property": "C114",
   "status": "partial",
   "theorems": [
    "C114_valid",
    "C114_accepted",
    "C114_setter",
    "C114_constructor",
    "C114_layers",
    "C114_profile",
    "C114_value",
    "C114_shared",
    "C114_cycle_refuted",
    "C114_append_refuted",
    "C114_nan_refuted"
   ],
   "note": "Proved: validity after every program, exactly the acceptable calls succeed, the lists in use hold layers if only layers are appended, profiles exist and are those of Model/Structure.v's values if RepeatedLayers only get older lists, setters change every occurrence of a shared layer and nothing else. Refuted in general: a RepeatedLayers can be put into its own list (no recursion depth suffices), objects appended to the list after construction are not checked (AttributeError in the profile), and a nan thickness is accepted."
  },
  {
   "property": "C115",
   "status": "proved",
   "theorems": [
    "C115_unique",
    "C115_lorentz_energy",
    "C115_lorentz_lambda",
    "C115_drude_energy",
    "C115_drude_resistivity",
    "C115_gaussian",
    "C115_tauc_lorentz",
    "C115_sum"
   ],
   "note": "For every list of oscillators; the integral is the limit of Riemann integrals over [0, M]. Tauc-Lorentz for broadening below twice the resonance energy, as in C112."
  },
  {
   "property": "C116",
   "status": "proved",
   "theorems": [
    "C116_film",
    "C116_riccati",
    "C116_rho",
    "C116_drude",
    "C116_angles",
    "C116_psi"
   ],
   "note": "C116_film (film on any sample), C116_riccati (any thickness of the uppermost layer), C116_rho, C116_drude, C116_angles (psi and delta) and C116_psi. First order means: for every eta there is a thickness below which the error is at most eta times the thickness."
  },
  {
   "property": "C117",
   "status": "partial",
   "theorems": [
    "C117_any_file",
    "C117_spectraray_partial",
    "C117_wvase_partial",
    "C117_complete_ease_partial",
    "C117_nexus",
    "C117_determined",
    "C117_errors"
   ],
   "note": "The files are those for which C54, C82 and C83 prove the psi/delta readers correct; the theorems with suffix _partial inherit the restrictions of those (decimal point in the angles, no negative number in the first CompleteEASE line, ...), where the readers are refuted."
  },
  {
   "property": "C118",
   "status": "proved",
   "theorems": [
    "C118_same_light",
    "C118_rho",
    "C118_default",
    "C118_polarimeter",
    "C118_history",
    "C118_no_light"
   ],
   "note": "The solver is arbitrary: any function from structure, angle and wavelength to a Jones matrix. Other ranges of delta are refuted in C03."
  },
  {
   "property": "C119",
   "status": "proved",
   "theorems": [
    "C119_split",
    "C119_waves",
    "C119_etalon"
   ],
   "note": "The layer in which waves go to and fro has a real permittivity and a real angle; the other layers are arbitrary, passive for the infinite sum."
  },
  {
   "property": "C120",
   "status": "partial",
   "theorems": [
    "C120_determined",
    "C120_layout",
    "C120_underline_refuted",
    "C120_headline_refuted"
   ],
   "note": "Proved under the conditions of the statement; without the condition on the name Oscillators it is refuted. Values are given by the text that Python's str prints for them; arrays (tables) print several lines and are not covered."
  },
  {
   "property": "C121",
   "status": "proved",
   "theorems": [
    "C121_mean",
    "C121_limit"
   ],
   "note": "The results in the list are the transmittances |t|^2 of the model of Solver2x2, as arrays with one entry; exact arithmetic."
  },
  {
   "property": "C122",
   "status": "proved",
   "theorems": [
    "C122_gap",
    "C122_width",
    "C122_critical"
   ],
   "note": "At the critical angle itself (kappa = 0) there is no result (C122_critical). Exact arithmetic."
  },
  {
   "property": "C123",
   "status": "proved",
   "theorems": [
    "C123_lorentz_energy",
    "C123_lorentz_lambda",
    "C123_unique"
   ],
   "note": "Exact arithmetic; the constants c and h are arbitrary positive numbers."
  },
  {
   "property": "C124",
   "status": "proved",
   "theorems": [
    "C124_sellmeier",
    "C124_sellmeier_index",
    "C124_cauchy",
    "C124_poles",
    "C124_across_refuted"
   ],
   "note": "Exact arithmetic. C124_across_refuted is the last sentence of the statement."
  },
  {
   "property": "C125",
   "status": "proved",
   "theorems": [
    "C125_stokes",
    "C125_quadrature",
    "C125_interface"
   ],
   "note": "Exact arithmetic; isotropic layers of Solver2x2. Evanescent layers and negative permittivities are included."
  }
 ]
}