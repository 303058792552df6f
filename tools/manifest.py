#!/usr/bin/env python3
"""Write MANIFEST.json from the table below."""
import json, re, glob
T = {}
def c(pid, status, theorems, note=""):
    T[pid] = dict(property=pid, status=status, theorems=theorems.split(), note=note)

c("C01", "proved", "C01_monostatic_exit_angles")
c("C02", "proved", "C02_set_geometry_ok C02_set_geometry_raises")
c("C03", "proved", "C03_fixed_angles_stay")
c("C04", "proved", "C04_caches_are_transparent C04_caches_are_transparent_plain")
c("C07", "proved", "C07_parameters_persist C07_initial_param_dict")
c("C10", "partial", "C10_rejected_set_geometry_changes_object_refuted C10_rejected_set_monostatic_changes_object_refuted C10_rejected_single_keyword_partial C10_geometry_calls_touch_geometry_only_partial",
  "The code violates the property (rejected calls are not atomic); proved: counterexamples and the fragment that holds.")
c("C13", "proved", "C13_linear_sum C13_dB_power_sum")
c("C14", "proved", "C14_rows_are_component_calls")
c("C15", "proved", "C15_sigma0_independent_of_I0 C15_intensity_proportional_to_I0")
c("C16", "proved", "C16_tau_zero_direct C16_tau_zero_interaction C16_neighbours")
c("C19", "partial", "C19_refuted C19_exact C19_finite_partial C19_interaction_method", "Violated at normal incidence or exit (cos = 1) with tau > 0: the interaction and total rows are NaN (C19_refuted), and then also at the positions with tau = 0. C19_exact says exactly which values are numbers; interaction() is NaN at tau = 0 (C19_interaction_method).")
c("C59", "proved", "C19_exact C19_interaction_method")
c("C17", "proved", "C17_affine_in_bsf C17_bare_soil")
c("C18", "proved", "C18_signs_and_bounds C18_monotone_in_tau")
c("C47", "proved", "C47_direct_contributions")
c("C48", "proved", "C48_documented_phase_functions")
c("C40", "proved", "C40_backend_selection_closed")

c("C20", "proved", "C20_reciprocity")
c("C21", "partial", "C21_refuted C21_stack_raises C21_silently_wrong C21_success_partial C21_success_direct_partial C16_neighbours", "Violated: with sympy, constant fn-coefficients (isotropic V and SRF) and a two-dimensional t_0 calc raises ValueError (C21_refuted); if only NormBRDF has one value per time np.stack raises (C21_stack_raises); with t_0 of shape (2, n) calc returns a wrong interaction value without error (C21_silently_wrong). Proved: calc returns an array of the common shape when the common inputs carry the shape and the zenith angles lead, and elements agree with any other call having the same inputs at its position (C16_neighbours), whatever the shapes.")
c("C60", "proved", "C60_accepted_shapes")
c("C30", "partial", "C30_refuted C30_monostatic_partial C30_bistatic_value",
  "Holds in monostatic mode; the code violates it in bistatic mode (C30_refuted), where the exact value is C30_bistatic_value.")
c("C31", "partial", "C31_refuted C31_direct_partial C31_interaction_partial",
  "Holds for surface and volume; the interaction row violates it (C31_refuted): monostatic equals bistatic with p_ex = p_0 instead.")
c("C32", "partial", "C32_refuted C32_monostatic_partial C31_direct_partial",
  "Holds in monostatic mode and for surface and volume; violated by the bistatic interaction row (C32_refuted).")
c("C33", "proved", "C33_p0_irrelevant")
c("C49", "proved", "C49_monostatic_interaction_exact")
c("C50", "proved", "C50_bistatic_interaction_value")
c("C51", "proved", "C51_direct_contributions_mode_independent")
c("C22", "proved", "C22_isotropic_rayleigh_exact")
c("C25", "partial", "C25_refuted C25_coslobe_partial", "Holds for i >= 1; violated at i = 0 (C25_refuted).")
c("C28", "partial", "C28_refuted C28_phase_linear C28_expansion_linear_partial",
  "phase_function is linear; the expansion is linear if members sharing a have the same ncoefs, otherwise violated (C28_refuted).")
c("C29", "proved", "C29_fn_azimuth_integral C29_length")
c("C42", "partial", "C42_refuted C42_symbol_partial", "Holds for every name except n (C42_refuted).")
c("C52", "proved", "C52_coslobe_positive_powers")
c("C53", "proved", "C28_phase_linear C53_lincomb_matching_ncoefs")
c("C54", "proved", "C54_ordinary_symbols")
c("C23", "proved", "C23_hg_converges C23_bound_vanishes C23_hg_nadirnorm_converges")
c("C24", "proved", "C24_hgrayleigh_converges C24_bound_vanishes")
c("C26", "proved", "C26_nadir_reflectance_is_one")
c("C27", "proved", "C27_volume_normalised")
c("C06", "proved", "C06_latest_definition C06_string_definition",
  "With symengine installed, expressions without any symbol are outside the model (functions without arguments).")
c("C55", "partial", "C55_sympy_definition_like_string_refuted C55_sympy_definition_partial",
  "Violated: reading a sympy-object definition that contains symbols always raises, whatever the history.")
c("C08", "proved", "C08_signature C08_added_name_raises C08_added_name_calc_raises C08_by_name C12_interaction_partial",
  "C08_signature holds for all histories; the other theorems for the admissible histories named in the quantifier.")
c("C09", "partial", "C09_refuted C09_partial",
  "Violated once the fn-functions are compiled (C09_refuted); holds with int_Q=False and before the first evaluation of the interaction term, for numbers as values.")
c("C12", "partial", "C12_refuted C12_calc_partial C12_interaction_partial C12_direct",
  "Violated if R.V or R.SRF is reassigned after an evaluation (C12_refuted); holds for all other histories.")
c("C34", "partial", "C34_refuted C34_partial C34_up_to_I0", "Violated in linear sigma0 units unless I0=1 (C34_refuted): the code omits the division by I0. Exact value: C34_up_to_I0.")
c("C35", "partial", "C35_refuted C35_partial C35_exact", "Violated by _dvolume_dtau (1/mu_ex**(-1)) unless cos(t_ex)=1 or the volume term vanishes (C35_refuted). Exact value: C35_exact.")
c("C36", "partial", "C36_refuted C36_partial C36_up_to_I0_partial", "Violated if the symbol occurs in the definition of tau (C36_refuted) or in more than one of the factors; holds otherwise.")
c("C37", "proved", "C37_one_entry_per_key C37_unknown_key C37_unknown_format")
c("C38", "partial", "C38_refuted C38_partial", "Violated when an entry is not broadcast to the full grid (C38_refuted); holds when it is.")
c("C56", "proved", "C34_up_to_I0 C35_exact C56_tau_error_zero")
c("C57", "proved", "C38_partial", "Theorem C38_partial proves this property in full; it is partial only with respect to C38.")
c("C11", "partial", "C11_partial C11_refuted C11_pickle_succeeds", "Proved: pickling always succeeds; afterwards every call on the original and on the copy, interleaved with anything on other objects, returns what the original would have returned without pickling (admissible histories as in C12; arguments existing at the time of pickling). Refuted in full: analyze()/analyze3d() of the live original raise TypeError after pickling, because __getstate__ writes None into the object's own __dict__.")
c("C58", "proved", "C58_objects_do_not_interfere", "For every well-formed admissible history; nothing is written in place and the backend is not switched in between.")
c("C39","proved","C39_no_interaction_needs_no_ncoefs C39_surface_needs_no_ncoefs C39_volume_needs_no_ncoefs C39_missing_ncoefs_raises","ncoefs are compared after forget (all removed) resp. with_ncoefs n (missing ones set to n).")
c("C05","partial","C05_refuted C05_partial C05_set_geometry_again","Refuted: volume() combines the cached cosines of the old angles with the distribution function at the new ones. Proved: when every in-place change is followed by a geometry call that returns (on any object) before the next evaluation, all answers are those for the present contents of the arrays.")
c("C43","partial","C43_partial C43_never_a_value C43_refuted","Refuted for symbols of V and SRF (RuntimeError under symengine, NameError under sympy). Proved: calc never returns a value while a needed symbol is missing (unless tau is a number <= 0), and for a symbol of a string definition, when what is evaluated before it can be evaluated, the exception is the TypeError naming exactly the missing symbols.")
c("C44","partial","C44_refuted C44_centre_partial C44_label_partial","Refuted: the start value is (max-min)/2 clipped to the range, and the 4th entry is ignored (label is always the parameter name). Proved: the start value is the centre exactly when min=0 or min=max; the label is the parameter name.")
c("C45","proved","C45_restores C45_context")
c("C46","proved","C46_docstrings C46_failure_unchanged","The numpydoc parser and printer are parameters of the theorems: the statements hold for every parser and printer.")
c("C61","proved","C61_sliders C61_in_range")
c("C62","proved","C62_path_independent C62_lines C62_session")
c("C63","partial","C63_refuted C63_no_range_partial C63_range","Refuted when a range is selected: R keeps the (20,1) sample column of the selected parameter and columns of constants for the others (C63_range). Holds without a selected range.")
c("C64","partial","C64_refuted C64_sections_lost C64_without_sections_partial","Refuted: the assignment to the parsed docstring raises inside the try block, and the docstring stays unchanged, so inherited parameters are lost as well.")
c("C41","partial","C41_refuted C41_values_refuted C41_values_partial C41_direct C41_interaction_partial","Violated: t_0 of shape (3, 2) with isotropic V and SRF raises under sympy and not under symengine (C41_refuted); with shape (2, 2) both return, but under sympy the interaction contribution of the second row is 0 (C41_values_refuted). Proved: surface and volume always agree; calc and interaction agree whenever both return and the inputs have no more axes than the zenith angles (or one axis). The full agreement for the shapes of C60 is C65. Missing: tau given as an expression whose value has no axis.")
c("C65","proved","C65_backend_agreement")
c("C66","proved","C66_interaction_converges","CosineLobe is outside the property: its coefficient formula is wrong at some orders (C25).")
c("C67","partial","C67_refuted C67_no_azimuth_axis C68_hemreflect_converges","Violated: with the sympy backend a function that does not depend on the exit azimuth (e.g. Isotropic) yields an array without azimuth axis and hemreflect raises ValueError for every number of points (C67_no_azimuth_axis). C68 is the part that holds. Tuples of HG parameters given as arrays and a NormBRDF array with several elements are outside the statements.")
c("C68","proved","C68_hemreflect_converges","scipy's simps is modelled for equidistant points (both generations); exact real arithmetic.")
c("C69","proved","C69_energy_conserving_curve","")
c("C70","proved","C70_interaction_not_negative exact_expansions_positive","")
c("C71","proved","C71_interaction_size","")
c("C72","proved","C72_scaling","")
c("C73","partial","C73_refuted C73_single_number C74_polarplot_lines","Violated by the code: under the sympy backend a function (Isotropic) or expansion (one coefficient) that does not mention the exit zenith angle evaluates to a single number and plotting it raises ValueError. C74 is the exact domain.")
c("C74","proved","C74_polarplot_lines","")
c("C75","proved","C75_approximation_converges","")
c("C76","proved","C76_missing_parameter","")
c("C77","proved","C77_rotation","")
c("C78","proved","C78_turns_and_mirror","")
c("C79","proved","C79_missing C79_shown","")
c("C80","partial","C80_refuted C80_partial","Violated by the code: the geometry is replaced before the parameters are checked, so a rejected call leaves R monostatic with 100 incidence angles. Proved: parameters, functions, flags and all other objects are kept.")
c("C81","proved","C81_ready","")
c("C82","proved","C82_path_independent","")
c("C83","proved","C83_points","Assumes that R.calc() returns an array of shape (3 or 4, n, n); parameters with further axes are rejected or broadcast by numpy before that.")
c("C84","proved","C84_ignores_int_Q","")
c("C85","partial","C85_refuted C85_partial C85_parameters","Violated by the code for a parameter named 'inc': its slider is replaced by the incidence-angle slider and the parameter is never set. Proved for all other names; C85_parameters gives the whole of R.param_dict after an update.")
c("C86","proved","C86_contributions C86_missing C86_shown","")
c("C87","proved","C87_left","")
c("C88","proved","C88_one_handler C88_attached C88_users_untouched","")
c("C89","partial","C89_refuted C89_partial C89_exact C89_accepts","refuted for the level notset / 0: the logger then takes the level of the root logger (WARNING in a fresh process); proved for every other level, with the exact condition for level 0")
c("C90","partial","C90_refuted C90_partial C90_formats","refuted: a rejected format string raises after the levels were changed; proved: a rejected level changes nothing, a rejected format has the effect of the call without a format, and formats never change")
c("C91","partial","C91_refuted C91_default_refuted C91_partial C91_minimal C91_format_strings","refuted: the documented short-name basic is unknown (the code calls it minimal) and rejected with a ValueError, and the default is timed, not BASIC_FORMAT; proved for the other short-names and for all format strings with a field")
c("C92","proved","C92_last_call C92_keeps_format","")
c("C93","proved","C93_thin_layer","for sig0=False/True with dB=False, angles with cosines strictly between 0 and 1")
c("C94","proved","C94_thick_layer","as C93")
c("C95","proved","C95_total_without_interaction C95_no_effect","tau given as a plain number is excluded (then calc() replaces the volume contribution by 0 for tau <= 0, see C16)")
c("C96","proved","C96_scattered_power C96_energy_conserved C96_power_exists","the interaction contribution is not included")
c("C97","proved","C97_surface C97_surface_sigma0","the kernel of _surface at one position; exact_surface (Float.v) ties it, in exact arithmetic, to the kernel used by all other theorems")
c("C98","partial","C98_volume_partial C98_volume_relative_partial C98_volume_refuted","violated: the code computes 1 - exp(-T), so the volume contribution of every layer with T <= 2^-57 is 0 although it is positive; proved: the error is at most a multiple of eps of the contribution of an infinitely deep layer; for 2^-43 <= T <= 300 the relative error is at most 2*(35 + k + 4/T)*eps")
c("C99","partial","C99_interaction_refuted C99_interaction_partial","violated: if the optical depth along one of the directions is 1500 or more and the direction 60 degrees or more off nadir, exp underflows to 0, expi overflows to inf and 0*inf is NaN, although the exact value is finite; proved: the contribution is a finite number if both optical depths are at most 700, the cosines lie between 2^-10 and 1 - 2^-40 and there are at most 64 coefficients")
c("C100","proved","C100_threads","steps: attribute and property reads, one memoised lookup, dict.update, one key of jacobian(); each configuration call is one step; interpreter and library internals are assumed thread-safe")
c("C101","partial","C101_refuted C101_partial","violated: calc/surface/volume/interaction(**kwargs) store the parameters in param_dict first, so a second thread that passes other parameters before the first has evaluated changes the result of the first; proved: any number of threads that only evaluate (no parameters passed) shared objects whose interaction coefficients are already computed or not needed get the results they get alone, for every schedule")
c("C102","proved","C102_interrupted C102_retry","interruptions between the steps of Threads.v (inside one step only local variables and memoised results of that step exist); later calls: evaluations, update_params with known names, jacobian, reads, on any object")
c("C103","partial","C103_repeat C103_partial C103_setters_partial C103_fresh_partial C103_refuted sc_op","repeating the call works for all of them; the absence of stale values is proved for set_geometry and the setters and fails for set_monostatic/set_bistatic, which change the mode before they clear the cached cosines (_calc.py:335-340, 369-374): surface() then returns three values for one pair of angles; sc_op: without an interruption the steps are the call")
c("C104","proved","C104_sessions C104_transparent","interruptions between the steps of Threads.v and Config.v; interrupted set_monostatic/set_bistatic are excluded (C103_refuted)")
c("C105","proved","C105_conversion C105_surface","the platform's exp, cos and log10 are arbitrary functions of relative error at most eps; lg_ex_good shows that the correctly rounded log10 is one; rounding inside SRF.calc enters as k")
c("C106","partial","C106_volume_partial C106_volume_refuted","violated: for T <= 2^-57 the level is reported as -inf although it is finite (1 - exp(-T) is computed as 0); proved for 2^-43 <= T <= 300 with the bound (247 + 6k + 24/T + 3|level|)*eps; for T between 2^-57 and 2^-43 no bound is proved")
c("C107","proved","C107_total C107_all_depths","one position of the arrays; rounding inside V.calc and SRF.calc enters as k; thinner layers: C98, C106")
c("C108","partial","C108_tau C108_norm C108_bsf_partial C108_bsf_refuted","tau and NormBRDF: proved; bsf: violated, the derivative of every layer with T <= 2^-57 is computed as 0 although it is positive; proved for 2^-43 <= T <= 300 with the bound 2*(29 + k + 8/T)*eps; the derivatives are taken of the formulas of Spec.v, before the conversion of units")
c("C109","partial","C109_omega_partial C109_bsf_partial C109_all_depths C109_thin_refuted","violated: both derivatives of every layer with T <= 2^-57 are computed as 0 although they are not 0; proved for 2^-43 <= T <= 300 with the bounds 2*(34 + k + 4/T)*eps (omega) and 2*(33 + k + 4/T)*eps (bsf), and for all T <= 300 relative to the derivative of an infinitely deep layer (C109_all_depths); the derivatives are taken of the formulas of Spec.v, before the conversion of units; _dvolume_dtau is wrong already in exact arithmetic (C35)")
c("C110","partial","C110_surface C110_volume_partial C110_volume_refuted","surface: proved; volume: violated, the derivative of every layer with T <= 2^-57 is computed as 0 although it is not 0; proved for 2^-43 <= T <= 300 with the bound 2*(35 + k + 4/T)*eps; the error of the lambdified derivative of the distribution function is a hypothesis (k eps); before the conversion of units")
ids = [json.loads(l)["id"] for l in open("/verif/properties.jsonl")]
names = set()
for f in glob.glob("/verif/rocq/theories/*.v"):
    names |= set(re.findall(r"^\s*(?:Theorem|Lemma|Corollary)\s+([\w']+)", open(f).read(), re.M))
for t in T.values():
    for n in t["theorems"]:
        assert n in names, n
claims = [T.get(i, dict(property=i, status="partial", theorems=[], note="Not proved yet.")) for i in ids]
json.dump({"claims": claims}, open("/verif/MANIFEST.json", "w"), indent=1)
print({s: sum(x["status"] == s for x in claims) for s in ("proved", "partial", "not_applicable")},
      "open:", [x["property"] for x in claims if not x["theorems"]])
