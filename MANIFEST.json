{
 "claims": [
  {
   "property": "C01",
   "status": "proved",
   "theorems": [
    "C01_monostatic_exit_angles"
   ],
   "note": ""
  },
  {
   "property": "C02",
   "status": "proved",
   "theorems": [
    "C02_set_geometry_ok",
    "C02_set_geometry_raises"
   ],
   "note": ""
  },
  {
   "property": "C03",
   "status": "proved",
   "theorems": [
    "C03_fixed_angles_stay"
   ],
   "note": ""
  },
  {
   "property": "C04",
   "status": "proved",
   "theorems": [
    "C04_caches_are_transparent",
    "C04_caches_are_transparent_plain"
   ],
   "note": ""
  },
  {
   "property": "C05",
   "status": "partial",
   "theorems": [
    "C05_refuted",
    "C05_partial",
    "C05_set_geometry_again"
   ],
   "note": "Refuted: volume() combines the cached cosines of the old angles with the distribution function at the new ones. Proved: when every in-place change is followed by a geometry call that returns (on any object) before the next evaluation, all answers are those for the present contents of the arrays."
  },
  {
   "property": "C06",
   "status": "proved",
   "theorems": [
    "C06_latest_definition",
    "C06_string_definition"
   ],
   "note": "With symengine installed, expressions without any symbol are outside the model (functions without arguments)."
  },
  {
   "property": "C07",
   "status": "proved",
   "theorems": [
    "C07_parameters_persist",
    "C07_initial_param_dict"
   ],
   "note": ""
  },
  {
   "property": "C08",
   "status": "proved",
   "theorems": [
    "C08_signature",
    "C08_added_name_raises",
    "C08_added_name_calc_raises",
    "C08_by_name",
    "C12_interaction_partial"
   ],
   "note": "C08_signature holds for all histories; the other theorems for the admissible histories named in the quantifier."
  },
  {
   "property": "C09",
   "status": "partial",
   "theorems": [
    "C09_refuted",
    "C09_partial"
   ],
   "note": "Violated once the fn-functions are compiled (C09_refuted); holds with int_Q=False and before the first evaluation of the interaction term, for numbers as values."
  },
  {
   "property": "C10",
   "status": "partial",
   "theorems": [
    "C10_rejected_set_geometry_changes_object_refuted",
    "C10_rejected_set_monostatic_changes_object_refuted",
    "C10_rejected_single_keyword_partial",
    "C10_geometry_calls_touch_geometry_only_partial"
   ],
   "note": "The code violates the property (rejected calls are not atomic); proved: counterexamples and the fragment that holds."
  },
  {
   "property": "C11",
   "status": "partial",
   "theorems": [
    "C11_partial",
    "C11_refuted",
    "C11_pickle_succeeds"
   ],
   "note": "Proved: pickling always succeeds; afterwards every call on the original and on the copy, interleaved with anything on other objects, returns what the original would have returned without pickling (admissible histories as in C12; arguments existing at the time of pickling). Refuted in full: analyze()/analyze3d() of the live original raise TypeError after pickling, because __getstate__ writes None into the object's own __dict__."
  },
  {
   "property": "C12",
   "status": "partial",
   "theorems": [
    "C12_refuted",
    "C12_calc_partial",
    "C12_interaction_partial",
    "C12_direct"
   ],
   "note": "Violated if R.V or R.SRF is reassigned after an evaluation (C12_refuted); holds for all other histories."
  },
  {
   "property": "C13",
   "status": "proved",
   "theorems": [
    "C13_linear_sum",
    "C13_dB_power_sum"
   ],
   "note": ""
  },
  {
   "property": "C14",
   "status": "proved",
   "theorems": [
    "C14_rows_are_component_calls"
   ],
   "note": ""
  },
  {
   "property": "C15",
   "status": "proved",
   "theorems": [
    "C15_sigma0_independent_of_I0",
    "C15_intensity_proportional_to_I0"
   ],
   "note": ""
  },
  {
   "property": "C16",
   "status": "proved",
   "theorems": [
    "C16_tau_zero_direct",
    "C16_tau_zero_interaction",
    "C16_neighbours"
   ],
   "note": ""
  },
  {
   "property": "C17",
   "status": "proved",
   "theorems": [
    "C17_affine_in_bsf",
    "C17_bare_soil"
   ],
   "note": ""
  },
  {
   "property": "C18",
   "status": "proved",
   "theorems": [
    "C18_signs_and_bounds",
    "C18_monotone_in_tau"
   ],
   "note": ""
  },
  {
   "property": "C19",
   "status": "partial",
   "theorems": [
    "C19_refuted",
    "C19_exact",
    "C19_finite_partial",
    "C19_interaction_method"
   ],
   "note": "Violated at normal incidence or exit (cos = 1) with tau > 0: the interaction and total rows are NaN (C19_refuted), and then also at the positions with tau = 0. C19_exact says exactly which values are numbers; interaction() is NaN at tau = 0 (C19_interaction_method)."
  },
  {
   "property": "C20",
   "status": "proved",
   "theorems": [
    "C20_reciprocity"
   ],
   "note": ""
  },
  {
   "property": "C21",
   "status": "partial",
   "theorems": [
    "C21_refuted",
    "C21_stack_raises",
    "C21_silently_wrong",
    "C21_success_partial",
    "C21_success_direct_partial",
    "C16_neighbours"
   ],
   "note": "Violated: with sympy, constant fn-coefficients (isotropic V and SRF) and a two-dimensional t_0 calc raises ValueError (C21_refuted); if only NormBRDF has one value per time np.stack raises (C21_stack_raises); with t_0 of shape (2, n) calc returns a wrong interaction value without error (C21_silently_wrong). Proved: calc returns an array of the common shape when the common inputs carry the shape and the zenith angles lead, and elements agree with any other call having the same inputs at its position (C16_neighbours), whatever the shapes."
  },
  {
   "property": "C22",
   "status": "proved",
   "theorems": [
    "C22_isotropic_rayleigh_exact"
   ],
   "note": ""
  },
  {
   "property": "C23",
   "status": "proved",
   "theorems": [
    "C23_hg_converges",
    "C23_bound_vanishes",
    "C23_hg_nadirnorm_converges"
   ],
   "note": ""
  },
  {
   "property": "C24",
   "status": "proved",
   "theorems": [
    "C24_hgrayleigh_converges",
    "C24_bound_vanishes"
   ],
   "note": ""
  },
  {
   "property": "C25",
   "status": "partial",
   "theorems": [
    "C25_refuted",
    "C25_coslobe_partial"
   ],
   "note": "Holds for i >= 1; violated at i = 0 (C25_refuted)."
  },
  {
   "property": "C26",
   "status": "proved",
   "theorems": [
    "C26_nadir_reflectance_is_one"
   ],
   "note": ""
  },
  {
   "property": "C27",
   "status": "proved",
   "theorems": [
    "C27_volume_normalised"
   ],
   "note": ""
  },
  {
   "property": "C28",
   "status": "partial",
   "theorems": [
    "C28_refuted",
    "C28_phase_linear",
    "C28_expansion_linear_partial"
   ],
   "note": "phase_function is linear; the expansion is linear if members sharing a have the same ncoefs, otherwise violated (C28_refuted)."
  },
  {
   "property": "C29",
   "status": "proved",
   "theorems": [
    "C29_fn_azimuth_integral",
    "C29_length"
   ],
   "note": ""
  },
  {
   "property": "C30",
   "status": "partial",
   "theorems": [
    "C30_refuted",
    "C30_monostatic_partial",
    "C30_bistatic_value"
   ],
   "note": "Holds in monostatic mode; the code violates it in bistatic mode (C30_refuted), where the exact value is C30_bistatic_value."
  },
  {
   "property": "C31",
   "status": "partial",
   "theorems": [
    "C31_refuted",
    "C31_direct_partial",
    "C31_interaction_partial"
   ],
   "note": "Holds for surface and volume; the interaction row violates it (C31_refuted): monostatic equals bistatic with p_ex = p_0 instead."
  },
  {
   "property": "C32",
   "status": "partial",
   "theorems": [
    "C32_refuted",
    "C32_monostatic_partial",
    "C31_direct_partial"
   ],
   "note": "Holds in monostatic mode and for surface and volume; violated by the bistatic interaction row (C32_refuted)."
  },
  {
   "property": "C33",
   "status": "proved",
   "theorems": [
    "C33_p0_irrelevant"
   ],
   "note": ""
  },
  {
   "property": "C34",
   "status": "partial",
   "theorems": [
    "C34_refuted",
    "C34_partial",
    "C34_up_to_I0"
   ],
   "note": "Violated in linear sigma0 units unless I0=1 (C34_refuted): the code omits the division by I0. Exact value: C34_up_to_I0."
  },
  {
   "property": "C35",
   "status": "partial",
   "theorems": [
    "C35_refuted",
    "C35_partial",
    "C35_exact"
   ],
   "note": "Violated by _dvolume_dtau (1/mu_ex**(-1)) unless cos(t_ex)=1 or the volume term vanishes (C35_refuted). Exact value: C35_exact."
  },
  {
   "property": "C36",
   "status": "partial",
   "theorems": [
    "C36_refuted",
    "C36_partial",
    "C36_up_to_I0_partial"
   ],
   "note": "Violated if the symbol occurs in the definition of tau (C36_refuted) or in more than one of the factors; holds otherwise."
  },
  {
   "property": "C37",
   "status": "proved",
   "theorems": [
    "C37_one_entry_per_key",
    "C37_unknown_key",
    "C37_unknown_format"
   ],
   "note": ""
  },
  {
   "property": "C38",
   "status": "partial",
   "theorems": [
    "C38_refuted",
    "C38_partial"
   ],
   "note": "Violated when an entry is not broadcast to the full grid (C38_refuted); holds when it is."
  },
  {
   "property": "C39",
   "status": "proved",
   "theorems": [
    "C39_no_interaction_needs_no_ncoefs",
    "C39_surface_needs_no_ncoefs",
    "C39_volume_needs_no_ncoefs",
    "C39_missing_ncoefs_raises"
   ],
   "note": "ncoefs are compared after forget (all removed) resp. with_ncoefs n (missing ones set to n)."
  },
  {
   "property": "C40",
   "status": "proved",
   "theorems": [
    "C40_backend_selection_closed"
   ],
   "note": ""
  },
  {
   "property": "C41",
   "status": "partial",
   "theorems": [
    "C41_refuted",
    "C41_values_refuted",
    "C41_values_partial",
    "C41_direct",
    "C41_interaction_partial"
   ],
   "note": "Violated: t_0 of shape (3, 2) with isotropic V and SRF raises under sympy and not under symengine (C41_refuted); with shape (2, 2) both return, but under sympy the interaction contribution of the second row is 0 (C41_values_refuted). Proved: surface and volume always agree; calc and interaction agree whenever both return and the inputs have no more axes than the zenith angles (or one axis). The full agreement for the shapes of C60 is C65. Missing: tau given as an expression whose value has no axis."
  },
  {
   "property": "C42",
   "status": "partial",
   "theorems": [
    "C42_refuted",
    "C42_symbol_partial"
   ],
   "note": "Holds for every name except n (C42_refuted)."
  },
  {
   "property": "C43",
   "status": "partial",
   "theorems": [
    "C43_partial",
    "C43_never_a_value",
    "C43_refuted"
   ],
   "note": "Refuted for symbols of V and SRF (RuntimeError under symengine, NameError under sympy). Proved: calc never returns a value while a needed symbol is missing (unless tau is a number <= 0), and for a symbol of a string definition, when what is evaluated before it can be evaluated, the exception is the TypeError naming exactly the missing symbols."
  },
  {
   "property": "C44",
   "status": "partial",
   "theorems": [
    "C44_refuted",
    "C44_centre_partial",
    "C44_label_partial"
   ],
   "note": "Refuted: the start value is (max-min)/2 clipped to the range, and the 4th entry is ignored (label is always the parameter name). Proved: the start value is the centre exactly when min=0 or min=max; the label is the parameter name."
  },
  {
   "property": "C45",
   "status": "proved",
   "theorems": [
    "C45_restores",
    "C45_context"
   ],
   "note": ""
  },
  {
   "property": "C46",
   "status": "proved",
   "theorems": [
    "C46_docstrings",
    "C46_failure_unchanged"
   ],
   "note": "The numpydoc parser and printer are parameters of the theorems: the statements hold for every parser and printer."
  },
  {
   "property": "C47",
   "status": "proved",
   "theorems": [
    "C47_direct_contributions"
   ],
   "note": ""
  },
  {
   "property": "C48",
   "status": "proved",
   "theorems": [
    "C48_documented_phase_functions"
   ],
   "note": ""
  },
  {
   "property": "C49",
   "status": "proved",
   "theorems": [
    "C49_monostatic_interaction_exact"
   ],
   "note": ""
  },
  {
   "property": "C50",
   "status": "proved",
   "theorems": [
    "C50_bistatic_interaction_value"
   ],
   "note": ""
  },
  {
   "property": "C51",
   "status": "proved",
   "theorems": [
    "C51_direct_contributions_mode_independent"
   ],
   "note": ""
  },
  {
   "property": "C52",
   "status": "proved",
   "theorems": [
    "C52_coslobe_positive_powers"
   ],
   "note": ""
  },
  {
   "property": "C53",
   "status": "proved",
   "theorems": [
    "C28_phase_linear",
    "C53_lincomb_matching_ncoefs"
   ],
   "note": ""
  },
  {
   "property": "C54",
   "status": "proved",
   "theorems": [
    "C54_ordinary_symbols"
   ],
   "note": ""
  },
  {
   "property": "C55",
   "status": "partial",
   "theorems": [
    "C55_sympy_definition_like_string_refuted",
    "C55_sympy_definition_partial"
   ],
   "note": "Violated: reading a sympy-object definition that contains symbols always raises, whatever the history."
  },
  {
   "property": "C56",
   "status": "proved",
   "theorems": [
    "C34_up_to_I0",
    "C35_exact",
    "C56_tau_error_zero"
   ],
   "note": ""
  },
  {
   "property": "C57",
   "status": "proved",
   "theorems": [
    "C38_partial"
   ],
   "note": "Theorem C38_partial proves this property in full; it is partial only with respect to C38."
  },
  {
   "property": "C58",
   "status": "proved",
   "theorems": [
    "C58_objects_do_not_interfere"
   ],
   "note": "For every well-formed admissible history; nothing is written in place and the backend is not switched in between."
  },
  {
   "property": "C59",
   "status": "proved",
   "theorems": [
    "C19_exact",
    "C19_interaction_method"
   ],
   "note": ""
  },
  {
   "property": "C60",
   "status": "proved",
   "theorems": [
    "C60_accepted_shapes"
   ],
   "note": ""
  },
  {
   "property": "C61",
   "status": "proved",
   "theorems": [
    "C61_sliders",
    "C61_in_range"
   ],
   "note": ""
  },
  {
   "property": "C62",
   "status": "proved",
   "theorems": [
    "C62_path_independent",
    "C62_lines",
    "C62_session"
   ],
   "note": ""
  },
  {
   "property": "C63",
   "status": "partial",
   "theorems": [
    "C63_refuted",
    "C63_no_range_partial",
    "C63_range"
   ],
   "note": "Refuted when a range is selected: R keeps the (20,1) sample column of the selected parameter and columns of constants for the others (C63_range). Holds without a selected range."
  },
  {
   "property": "C64",
   "status": "partial",
   "theorems": [
    "C64_refuted",
    "C64_sections_lost",
    "C64_without_sections_partial"
   ],
   "note": "Refuted: the assignment to the parsed docstring raises inside the try block, and the docstring stays unchanged, so inherited parameters are lost as well."
  },
  {
   "property": "C65",
   "status": "proved",
   "theorems": [
    "C65_backend_agreement"
   ],
   "note": ""
  },
  {
   "property": "C66",
   "status": "proved",
   "theorems": [
    "C66_interaction_converges"
   ],
   "note": "CosineLobe is outside the property: its coefficient formula is wrong at some orders (C25)."
  },
  {
   "property": "C67",
   "status": "partial",
   "theorems": [
    "C67_refuted",
    "C67_no_azimuth_axis",
    "C68_hemreflect_converges"
   ],
   "note": "Violated: with the sympy backend a function that does not depend on the exit azimuth (e.g. Isotropic) yields an array without azimuth axis and hemreflect raises ValueError for every number of points (C67_no_azimuth_axis). C68 is the part that holds. Tuples of HG parameters given as arrays and a NormBRDF array with several elements are outside the statements."
  },
  {
   "property": "C68",
   "status": "proved",
   "theorems": [
    "C68_hemreflect_converges"
   ],
   "note": "scipy's simps is modelled for equidistant points (both generations); exact real arithmetic."
  },
  {
   "property": "C69",
   "status": "proved",
   "theorems": [
    "C69_energy_conserving_curve"
   ],
   "note": ""
  },
  {
   "property": "C70",
   "status": "proved",
   "theorems": [
    "C70_interaction_not_negative",
    "exact_expansions_positive"
   ],
   "note": ""
  },
  {
   "property": "C71",
   "status": "proved",
   "theorems": [
    "C71_interaction_size"
   ],
   "note": ""
  },
  {
   "property": "C72",
   "status": "proved",
   "theorems": [
    "C72_scaling"
   ],
   "note": ""
  },
  {
   "property": "C73",
   "status": "partial",
   "theorems": [
    "C73_refuted",
    "C73_single_number",
    "C74_polarplot_lines"
   ],
   "note": "Violated by the code: under the sympy backend a function (Isotropic) or expansion (one coefficient) that does not mention the exit zenith angle evaluates to a single number and plotting it raises ValueError. C74 is the exact domain."
  },
  {
   "property": "C74",
   "status": "proved",
   "theorems": [
    "C74_polarplot_lines"
   ],
   "note": ""
  },
  {
   "property": "C75",
   "status": "proved",
   "theorems": [
    "C75_approximation_converges"
   ],
   "note": ""
  },
  {
   "property": "C76",
   "status": "proved",
   "theorems": [
    "C76_missing_parameter"
   ],
   "note": ""
  },
  {
   "property": "C77",
   "status": "proved",
   "theorems": [
    "C77_rotation"
   ],
   "note": ""
  },
  {
   "property": "C78",
   "status": "proved",
   "theorems": [
    "C78_turns_and_mirror"
   ],
   "note": ""
  },
  {
   "property": "C79",
   "status": "proved",
   "theorems": [
    "C79_missing",
    "C79_shown"
   ],
   "note": ""
  },
  {
   "property": "C80",
   "status": "partial",
   "theorems": [
    "C80_refuted",
    "C80_partial"
   ],
   "note": "Violated by the code: the geometry is replaced before the parameters are checked, so a rejected call leaves R monostatic with 100 incidence angles. Proved: parameters, functions, flags and all other objects are kept."
  },
  {
   "property": "C81",
   "status": "proved",
   "theorems": [
    "C81_ready"
   ],
   "note": ""
  },
  {
   "property": "C82",
   "status": "proved",
   "theorems": [
    "C82_path_independent"
   ],
   "note": ""
  },
  {
   "property": "C83",
   "status": "proved",
   "theorems": [
    "C83_points"
   ],
   "note": "Assumes that R.calc() returns an array of shape (3 or 4, n, n); parameters with further axes are rejected or broadcast by numpy before that."
  },
  {
   "property": "C84",
   "status": "proved",
   "theorems": [
    "C84_ignores_int_Q"
   ],
   "note": ""
  },
  {
   "property": "C85",
   "status": "partial",
   "theorems": [
    "C85_refuted",
    "C85_partial",
    "C85_parameters"
   ],
   "note": "Violated by the code for a parameter named 'inc': its slider is replaced by the incidence-angle slider and the parameter is never set. Proved for all other names; C85_parameters gives the whole of R.param_dict after an update."
  },
  {
   "property": "C86",
   "status": "proved",
   "theorems": [
    "C86_contributions",
    "C86_missing",
    "C86_shown"
   ],
   "note": ""
  },
  {
   "property": "C87",
   "status": "proved",
   "theorems": [
    "C87_left"
   ],
   "note": ""
  },
  {
   "property": "C88",
   "status": "proved",
   "theorems": [
    "C88_one_handler",
    "C88_attached",
    "C88_users_untouched"
   ],
   "note": ""
  },
  {
   "property": "C89",
   "status": "partial",
   "theorems": [
    "C89_refuted",
    "C89_partial",
    "C89_exact",
    "C89_accepts"
   ],
   "note": "refuted for the level notset / 0: the logger then takes the level of the root logger (WARNING in a fresh process); proved for every other level, with the exact condition for level 0"
  },
  {
   "property": "C90",
   "status": "partial",
   "theorems": [
    "C90_refuted",
    "C90_partial",
    "C90_formats"
   ],
   "note": "refuted: a rejected format string raises after the levels were changed; proved: a rejected level changes nothing, a rejected format has the effect of the call without a format, and formats never change"
  },
  {
   "property": "C91",
   "status": "partial",
   "theorems": [
    "C91_refuted",
    "C91_default_refuted",
    "C91_partial",
    "C91_minimal",
    "C91_format_strings"
   ],
   "note": "refuted: the documented short-name basic is unknown (the code calls it minimal) and rejected with a ValueError, and the default is timed, not BASIC_FORMAT; proved for the other short-names and for all format strings with a field"
  },
  {
   "property": "C92",
   "status": "proved",
   "theorems": [
    "C92_last_call",
    "C92_keeps_format"
   ],
   "note": ""
  },
  {
   "property": "C93",
   "status": "proved",
   "theorems": [
    "C93_thin_layer"
   ],
   "note": "for sig0=False/True with dB=False, angles with cosines strictly between 0 and 1"
  },
  {
   "property": "C94",
   "status": "proved",
   "theorems": [
    "C94_thick_layer"
   ],
   "note": "as C93"
  },
  {
   "property": "C95",
   "status": "proved",
   "theorems": [
    "C95_total_without_interaction",
    "C95_no_effect"
   ],
   "note": "tau given as a plain number is excluded (then calc() replaces the volume contribution by 0 for tau <= 0, see C16)"
  },
  {
   "property": "C96",
   "status": "proved",
   "theorems": [
    "C96_scattered_power",
    "C96_energy_conserved",
    "C96_power_exists"
   ],
   "note": "the interaction contribution is not included"
  },
  {
   "property": "C97",
   "status": "proved",
   "theorems": [
    "C97_surface",
    "C97_surface_sigma0"
   ],
   "note": "the kernel of _surface at one position; exact_surface (Float.v) ties it, in exact arithmetic, to the kernel used by all other theorems"
  },
  {
   "property": "C98",
   "status": "partial",
   "theorems": [
    "C98_volume_partial",
    "C98_volume_relative_partial",
    "C98_volume_refuted"
   ],
   "note": "violated: the code computes 1 - exp(-T), so the volume contribution of every layer with T <= 2^-57 is 0 although it is positive; proved: the error is at most a multiple of eps of the contribution of an infinitely deep layer; for 2^-43 <= T <= 300 the relative error is at most 2*(35 + k + 4/T)*eps"
  },
  {
   "property": "C99",
   "status": "partial",
   "theorems": [
    "C99_interaction_refuted",
    "C99_interaction_partial"
   ],
   "note": "violated: if the optical depth along one of the directions is 1500 or more and the direction 60 degrees or more off nadir, exp underflows to 0, expi overflows to inf and 0*inf is NaN, although the exact value is finite; proved: the contribution is a finite number if both optical depths are at most 700, the cosines lie between 2^-10 and 1 - 2^-40 and there are at most 64 coefficients"
  },
  {
   "property": "C100",
   "status": "proved",
   "theorems": [
    "C100_threads"
   ],
   "note": "steps: attribute and property reads, one memoised lookup, dict.update, one key of jacobian(); each configuration call is one step; interpreter and library internals are assumed thread-safe"
  },
  {
   "property": "C101",
   "status": "partial",
   "theorems": [
    "C101_refuted",
    "C101_partial"
   ],
   "note": "violated: calc/surface/volume/interaction(**kwargs) store the parameters in param_dict first, so a second thread that passes other parameters before the first has evaluated changes the result of the first; proved: any number of threads that only evaluate (no parameters passed) shared objects whose interaction coefficients are already computed or not needed get the results they get alone, for every schedule"
  },
  {
   "property": "C102",
   "status": "proved",
   "theorems": [
    "C102_interrupted",
    "C102_retry"
   ],
   "note": "interruptions between the steps of Threads.v (inside one step only local variables and memoised results of that step exist); later calls: evaluations, update_params with known names, jacobian, reads, on any object"
  },
  {
   "property": "C103",
   "status": "partial",
   "theorems": [
    "C103_repeat",
    "C103_partial",
    "C103_setters_partial",
    "C103_fresh_partial",
    "C103_refuted",
    "sc_op"
   ],
   "note": "repeating the call works for all of them; the absence of stale values is proved for set_geometry and the setters and fails for set_monostatic/set_bistatic, which change the mode before they clear the cached cosines (_calc.py:335-340, 369-374): surface() then returns three values for one pair of angles; sc_op: without an interruption the steps are the call"
  },
  {
   "property": "C104",
   "status": "proved",
   "theorems": [
    "C104_sessions",
    "C104_transparent"
   ],
   "note": "interruptions between the steps of Threads.v and Config.v; interrupted set_monostatic/set_bistatic are excluded (C103_refuted)"
  },
  {
   "property": "C105",
   "status": "proved",
   "theorems": [
    "C105_conversion",
    "C105_surface"
   ],
   "note": "the platform's exp, cos and log10 are arbitrary functions of relative error at most eps; lg_ex_good shows that the correctly rounded log10 is one; rounding inside SRF.calc enters as k"
  },
  {
   "property": "C106",
   "status": "partial",
   "theorems": [
    "C106_volume_partial",
    "C106_volume_refuted"
   ],
   "note": "violated: for T <= 2^-57 the level is reported as -inf although it is finite (1 - exp(-T) is computed as 0); proved for 2^-43 <= T <= 300 with the bound (247 + 6k + 24/T + 3|level|)*eps; for T between 2^-57 and 2^-43 no bound is proved"
  },
  {
   "property": "C107",
   "status": "proved",
   "theorems": [
    "C107_total",
    "C107_all_depths"
   ],
   "note": "one position of the arrays; rounding inside V.calc and SRF.calc enters as k; thinner layers: C98, C106"
  },
  {
   "property": "C108",
   "status": "partial",
   "theorems": [
    "C108_tau",
    "C108_norm",
    "C108_bsf_partial",
    "C108_bsf_refuted"
   ],
   "note": "tau and NormBRDF: proved; bsf: violated, the derivative of every layer with T <= 2^-57 is computed as 0 although it is positive; proved for 2^-43 <= T <= 300 with the bound 2*(29 + k + 8/T)*eps; the derivatives are taken of the formulas of Spec.v, before the conversion of units"
  },
  {
   "property": "C109",
   "status": "partial",
   "theorems": [
    "C109_omega_partial",
    "C109_bsf_partial",
    "C109_all_depths",
    "C109_thin_refuted"
   ],
   "note": "violated: both derivatives of every layer with T <= 2^-57 are computed as 0 although they are not 0; proved for 2^-43 <= T <= 300 with the bounds 2*(34 + k + 4/T)*eps (omega) and 2*(33 + k + 4/T)*eps (bsf), and for all T <= 300 relative to the derivative of an infinitely deep layer (C109_all_depths); the derivatives are taken of the formulas of Spec.v, before the conversion of units; _dvolume_dtau is wrong already in exact arithmetic (C35)"
  },
  {
   "property": "C110",
   "status": "partial",
   "theorems": [
    "C110_surface",
    "C110_volume_partial",
    "C110_volume_refuted"
   ],
   "note": "surface: proved; volume: violated, the derivative of every layer with T <= 2^-57 is computed as 0 although it is not 0; proved for 2^-43 <= T <= 300 with the bound 2*(35 + k + 4/T)*eps; the error of the lambdified derivative of the distribution function is a hypothesis (k eps); before the conversion of units"
  }
 ]
}