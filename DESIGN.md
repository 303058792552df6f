# Formal model of TUW-GEO/rt1_model in Coq 8.16

The model follows the Python sources function by function (every definition cites file and lines).
Properties are in `properties.jsonl`, their status and theorem names in `MANIFEST.json`
(both generated by `tools/props.py` and `tools/manifest.py`), tests of the theorems against wrong
programs in `seeded/LOG.jsonl`.

Reading `seeded/LOG.jsonl`: `failed_theorems` are the proofs at which Coq stopped, as `File.name`. Coq stops at the first error of a
file, often in a lemma. `not_reached` are the theorems of the claim in that file or in files that import it. They were not rebuilt,
so the log does not show that each of them fails by itself; some are still true of the edited program. A stopped proof shows that
the script no longer goes through, not by itself that the statement is false.

Build: `cd rocq && coq_makefile -f _CoqProject -o Makefile && make -j4` (about 6 minutes on 4 cores).

## 1. Modelling decisions

* **Numbers.** numpy doubles are *extended reals* `xr = Fin r | PInf | NInf | NaN` over Coq's `R`
  (`Xr.v`): exact real arithmetic (no rounding, overflow, signed zero; the kernels in IEEE double precision are in `Float.v`, C97-C99, C105-C110), with numpy's conventions for
  division by zero, `log(0)`, `expi(0)`, NaN propagation. Coefficients inside symbolic expressions are
  rational numbers (`Q`).
* **Arrays.** `nd` = reversed shape + index function (`NdArray.v`), with numpy's right-aligned
  broadcasting that raises `ValueError`.
* **Symbolic expressions.** sympy/symengine expressions are an AST `expr` (`Expr.v`) with evaluation,
  substitution, free symbols, `expand`, `xreplace`, differentiation.
* **Stateful core.** A `world` (`World.v`) holds the module-global backend, the nine class-level bounded
  LRU caches, a heap of caller-visible arrays, a heap of scattering objects and a heap of RT1 records.
  Every public method is a function `world -> world * result`; exceptions are values, partial effects
  before an exception are kept. A history is a list of operations (`Machine.v`: `op`, `step`, `run`).
* **Widgets and docstrings.** `Plot.v` models what the interactive analyzers do to the RT1 object,
  `Docs.v` the docstring merging with an arbitrary parser and printer.

## 2. Trusted base

1. **Coq's kernel** (8.16.1) with its standard library; `vm_compute` is used in some proofs.
2. **Axioms.** Only axioms of the standard library (classical reals, functional extensionality,
   excluded middle). The list per theorem is below. Coquelicot, Flocq and mathcomp's ssreflect are used as
   libraries; they add no axiom (the `Under_rel` / `RbaseSymbolsImpl` names a module-level scan shows are
   opaque module fields of the standard library, not axioms `Print Assumptions` reports).
   No axiom, `Admitted`, section-less `Variable`/`Hypothesis`, functor or module type is added here.
3. **The models of external libraries**, i.e. that these definitions describe what the program gets:
   numpy broadcasting and element-wise functions (`Xr.v`, `NdArray.v`), `scipy.special.expi/expn`
   (`Xr.v`, defined as the integrals), sympy/symengine expressions, `expand`, `xreplace`, `diff`,
   `legendre` (`Expr.v`, `Scatter.v`), `sympy.lambdify` and `symengine.LambdifyCSE` (`Lambdify.v`),
   `functools.lru_cache` (`World.v`), `pickle` (`Machine.v`: OPickle), matplotlib sliders clip to their range (`Plot.v`).
4. **The reading of the Python source** in the definitions of the model files listed in section 3.
5. **The specifications** `Spec.v`, `SpecScat.v`, `SpecExp.v`, `SpecInt.v`, `SpecJac.v`: the documented formulas
   over the real numbers. They do not mention the model of the program.

### Print Assumptions for the theorems named in MANIFEST.json

Generated by `tools/assumptions.py`.

<!-- assumptions -->
* **closed under the global context (no axiom)**: `C29_length`, `C45_context`, `C46_docstrings`, `C46_failure_unchanged`, `C64_refuted`, `C64_sections_lost`, `C64_without_sections_partial`, `C88_one_handler`, `C88_attached`, `C88_users_untouched`, `C89_refuted`, `C89_partial`, `C89_exact`, `C89_accepts`, `C90_refuted`, `C90_partial`, `C90_formats`, `C91_refuted`, `C91_default_refuted`, `C91_partial`, `C91_minimal`, `C91_format_strings`, `C92_last_call`, `C92_keeps_format`
* **`Classical_Prop.classic` + `FunctionalExtensionality.functional_extensionality_dep` + `ClassicalDedekindReals.sig_forall_dec` + `ClassicalDedekindReals.sig_not_dec`**: `C01_monostatic_exit_angles`, `C02_set_geometry_ok`, `C02_set_geometry_raises`, `C03_fixed_angles_stay`, `C04_caches_are_transparent`, `C04_caches_are_transparent_plain`, `C05_refuted`, `C05_partial`, `C05_set_geometry_again`, `C06_latest_definition`, `C06_string_definition`, `C07_parameters_persist`, `C07_initial_param_dict`, `C08_signature`, `C08_added_name_raises`, `C08_added_name_calc_raises`, `C08_by_name`, `C12_interaction_partial`, `C09_refuted`, `C09_partial`, `C10_rejected_set_geometry_changes_object_refuted`, `C10_rejected_set_monostatic_changes_object_refuted`, `C10_rejected_single_keyword_partial`, `C10_geometry_calls_touch_geometry_only_partial`, `C11_partial`, `C11_refuted`, `C11_pickle_succeeds`, `C12_refuted`, `C12_calc_partial`, `C12_direct`, `C13_linear_sum`, `C13_dB_power_sum`, `C14_rows_are_component_calls`, `C15_sigma0_independent_of_I0`, `C15_intensity_proportional_to_I0`, `C16_tau_zero_direct`, `C16_tau_zero_interaction`, `C16_neighbours`, `C17_affine_in_bsf`, `C17_bare_soil`, `C18_signs_and_bounds`, `C18_monotone_in_tau`, `C19_refuted`, `C19_exact`, `C19_finite_partial`, `C19_interaction_method`, `C20_reciprocity`, `C21_refuted`, `C21_stack_raises`, `C21_silently_wrong`, `C21_success_partial`, `C21_success_direct_partial`, `C22_isotropic_rayleigh_exact`, `C23_hg_converges`, `C23_bound_vanishes`, `C23_hg_nadirnorm_converges`, `C24_hgrayleigh_converges`, `C24_bound_vanishes`, `C25_refuted`, `C25_coslobe_partial`, `C26_nadir_reflectance_is_one`, `C27_volume_normalised`, `C28_refuted`, `C28_phase_linear`, `C28_expansion_linear_partial`, `C29_fn_azimuth_integral`, `C30_refuted`, `C30_monostatic_partial`, `C30_bistatic_value`, `C31_refuted`, `C31_direct_partial`, `C31_interaction_partial`, `C32_refuted`, `C32_monostatic_partial`, `C33_p0_irrelevant`, `C34_refuted`, `C34_partial`, `C34_up_to_I0`, `C35_refuted`, `C35_partial`, `C35_exact`, `C36_refuted`, `C36_partial`, `C36_up_to_I0_partial`, `C37_one_entry_per_key`, `C37_unknown_key`, `C37_unknown_format`, `C38_refuted`, `C38_partial`, `C39_no_interaction_needs_no_ncoefs`, `C39_surface_needs_no_ncoefs`, `C39_volume_needs_no_ncoefs`, `C39_missing_ncoefs_raises`, `C40_backend_selection_closed`, `C41_refuted`, `C41_values_refuted`, `C41_values_partial`, `C41_direct`, `C41_interaction_partial`, `C42_refuted`, `C42_symbol_partial`, `C43_partial`, `C43_never_a_value`, `C43_refuted`, `C45_restores`, `C47_direct_contributions`, `C48_documented_phase_functions`, `C49_monostatic_interaction_exact`, `C50_bistatic_interaction_value`, `C51_direct_contributions_mode_independent`, `C52_coslobe_positive_powers`, `C53_lincomb_matching_ncoefs`, `C54_ordinary_symbols`, `C55_sympy_definition_like_string_refuted`, `C55_sympy_definition_partial`, `C58_objects_do_not_interfere`, `C60_accepted_shapes`, `C62_path_independent`, `C62_lines`, `C62_session`, `C63_refuted`, `C63_no_range_partial`, `C63_range`, `C65_backend_agreement`, `C66_interaction_converges`, `C67_refuted`, `C67_no_azimuth_axis`, `C68_hemreflect_converges`, `C69_energy_conserving_curve`, `C70_interaction_not_negative`, `exact_expansions_positive`, `C71_interaction_size`, `C72_scaling`, `C73_refuted`, `C73_single_number`, `C74_polarplot_lines`, `C75_approximation_converges`, `C76_missing_parameter`, `C77_rotation`, `C78_turns_and_mirror`, `C79_missing`, `C79_shown`, `C80_refuted`, `C80_partial`, `C81_ready`, `C82_path_independent`, `C83_points`, `C84_ignores_int_Q`, `C85_refuted`, `C85_partial`, `C85_parameters`, `C86_contributions`, `C86_missing`, `C86_shown`, `C87_left`, `C93_thin_layer`, `C94_thick_layer`, `C95_total_without_interaction`, `C95_no_effect`, `C96_scattered_power`, `C96_energy_conserved`, `C96_power_exists`, `C97_surface`, `C97_surface_sigma0`, `C98_volume_partial`, `C98_volume_relative_partial`, `C98_volume_refuted`, `C99_interaction_refuted`, `C99_interaction_partial`, `C100_threads`, `C101_refuted`, `C101_partial`, `C102_interrupted`, `C102_retry`, `C103_repeat`, `C103_partial`, `C103_setters_partial`, `C103_fresh_partial`, `C103_refuted`, `sc_op`, `C104_sessions`, `C104_transparent`, `C105_conversion`, `C105_surface`, `C106_volume_partial`, `C106_volume_refuted`, `C107_total`, `C107_all_depths`, `C108_tau`, `C108_norm`, `C108_bsf_partial`, `C108_bsf_refuted`, `C109_omega_partial`, `C109_bsf_partial`, `C109_all_depths`, `C109_thin_refuted`, `C110_surface`, `C110_volume_partial`, `C110_volume_refuted`
* **`FunctionalExtensionality.functional_extensionality_dep` + `ClassicalDedekindReals.sig_forall_dec`**: `C44_refuted`, `C44_centre_partial`, `C44_label_partial`, `C61_sliders`, `C61_in_range`
* **`FunctionalExtensionality.functional_extensionality_dep` + `ClassicalDedekindReals.sig_forall_dec` + `ClassicalDedekindReals.sig_not_dec`**: `C56_tau_error_zero`
<!-- end assumptions -->

## 3. What is modelled

| source | model | modelled | not modelled |
|---|---|---|---|
| `_calc.py:60-260` RT1 construction, pickling, cache clearing, parameter properties | `World.v`, `Machine.v` | constructor, `__getstate__`/`__setstate__`, `_clear_cache*`, tau/omega/NormBRDF/bsf getters and setters, direct flags | `__init__` argument type errors beyond those listed in `World.v`; logging |
| `_calc.py:262-484` geometry and parameters | `World.v` | angles, cosines with caches, set_monostatic/bistatic/geometry, update_params, aliasing of caller arrays | |
| `_calc.py:486-730` calc, surface, volume, interaction, `_surface_volume`, unit conversion | `World.v`, `Kernels.v`, `SurfVol.v` | all branches, incl. NaN replacement and the exception handler for missing parameters | |
| `_calc.py:732-873` parameter functions, `_fn`, `_fnevals` | `World.v`, `Lambdify.v` | symbols, compilation, memoisation (names fixed at first use) | warnings, timing messages |
| `_calc.py:875-1065` fn-coefficient pipeline | `FnModel.v` | product, expansion, azimuth integration, collection by powers | collection of like terms (does not change values) |
| `_calc.py:1067-1141` interaction integral | `Kernels.v` | closed form with expi/expn, both orders |  |
| `_calc.py:585-703, 714-730, 1067-1141, 1167-1318, 1382-1392, 1453-1463` in double precision | `Float.v`, `Properties42.v` (`g_dB`), `Properties43.v` (`g_total`), `Properties44.v` - `Properties46.v` (derivatives of `_surface` and, except for tau, of `_volume`) | the kernels at one position, operations in program order, rounding, underflow, overflow | signed zeros; rounding in V.calc, SRF.calc and the fn-coefficients |
| `_calc.py:486-703, 1089-1141, 1496-1597`, `_scatter.py:149-175` under threads | `Threads.v` | every order of the steps: attribute and property reads, memoised lookups, dict.update, storing the interaction coefficients and the functions compiled from them, one key of jacobian() | steps inside lru_cache, the derivative for one key, set_geometry/set_monostatic/set_bistatic and the setters (one step each); the interpreter and libraries are taken to be thread-safe |
| `_calc.py:152-172, 222-260, 318-445` interrupted | `Config.v` | every assignment and cache_clear of set_geometry, set_monostatic, set_bistatic and the setters is a step; proved equal to the calls of `World.v` | interruption inside one assignment (atomic in CPython) |
| `_calc.py:1144-1597` jacobian | `Jacobian.v` | all derivative kernels, driver, list and scipy_least_squares formats | arrays with more than 2 axes in the sparse layout; derivatives containing `sign` |
| `_scatter.py`, `volume.py`, `surface.py` | `Scatter.v` | all distribution functions, linear combinations, expansions, scattering angle | polarplot/hemreflect hooks; `V.calc` keyword checks beyond lambdify |
| `helpers.py:10-92` | `Lambdify.v` | both backends | symengine functions without arguments |
| `helpers.py:95-170` | `Docs.v` | section handling, duplicates, failure | numpydoc's parser and printer (arbitrary functions) |
| `__init__.py:1-52` | `Machine.v` | backend selection, availability | |
| `__init__.py:5-9, 69-175` | `Logging.v` | set_loglevel, the cached handler, formats; logging's level names, format validation, effective level; user handlers | non-ASCII strings, logging.disable, rendering of records, unhashable fmt |
| `plot.py:20-250` polarplot | `Polar.v` | the parameter check, the two lines per incidence angle and parameter set, matplotlib's size check of a line | type checks of inc/multip/ax, decoration of the figure, a tuple for V_SRF |
| `plot.py:253-393` hemreflect | `Hem.v` | sampling, the two Simpson integrations, the returned array, `R=` and `SRF=` | the figure, the printed warning |
| `plot.py:396-480` | `PlotInit.v` | the parameter check and the constructor of Analyze up to the first update | figure, axes, widget layout |
| `plot.py:634-876` | `PlotInit.v`, `Plot.v` | Analyze3D: contributions, geometry, check, sliders, evaluation and the points of the drawn surfaces, as calls on R (`OClear` is `R._clear_cache()`, `OSymbs` reads `R._all_param_symbs`) | figure, axis limits, arrow, artists, warnings |
| `plot.py:427-876` | `Plot.v` | slider specifications, updates of Analyze and Analyze3D as calls on R | figures, artists, colours |
| `_numpydoc_docscrape.py` | | | third-party parser, arbitrary function in `Docs.v` |

Simplifications are stated in the comments of the definitions. The main ones: exact real arithmetic; a kernel
reads its inputs in program order and computes afterwards; values of expressions instead of their printed form.

## 4. Files

* Model: `Base Xr NdArray Expr Scatter FnModel Lambdify Kernels World Jacobian Machine Threads SurfVol Float Plot PlotInit Polar Hem Docs Logging`.
* Specification: `Spec SpecScat SpecExp SpecInt SpecJac SpecFig`, `is_sphere` (Sphere.v), `is_power` (Energy.v).
* Property theorems: `Properties1 ... Properties46`, `Validity`; `Print Assumptions` stands below each theorem and an
  `Example ..._nonvacuous` shows a concrete case meeting the hypotheses.
* Witness states: `Wit4 Wit19 Wit20 Wit23`. Everything else: proofs.

Vocabulary shared by many statements: `step w op` = one API call; `run w ops` = a history; `good w p` (Api.v) = `w` is the state after an
admissible history `ps` such that `ps` followed by the call `p` is admissible. Admissible (`adm`, SimHist.v): theta arrays that an object holds
are not changed in place, the backend is not switched, and for an object whose jacobian was asked for symbols no new parameter name is added and
V, SRF are not replaced; V and SRF are only replaced by functions with the same ncoefs. These are the conditions under which the class-level caches
are transparent (C04); C05 and C12 show what happens otherwise.

## 5. Properties: what is modelled, how it is proved

A property the code violates keeps its intended statement and the status `partial`: `..._refuted` proves the violation with a concrete
history, `..._partial` proves the fragment that holds. The exact validity domains are listed as properties of their own (C47-C110).

| id | model | proof |
|----|-------|-------|
| C01-C03 | world state machine | invariant / one-step lemmas lifted by induction over op lists |
| C04 | nine shared LRU caches | simulation: every cache entry equals recomputation, along all histories |
| C05 | array heap with aliasing | refuted by a history with an in-place change; consistent if a geometry call follows |
| C06, C07, C55 | parameter definitions, param_dict, caches | cache coherence after arbitrary histories; fold characterisation; C55 refuted |
| C08, C09 | compiled fn functions with recorded signature | invariant: compiled once with the names of that moment; C09 refuted |
| C10, C11 | failing calls, `__getstate__` | exact post-states; both refuted in full, valid fragments proved |
| C12 | whole evaluation | simulation of cached by cache-free evaluation; refuted after reassigning V/SRF |
| C13-C18, C47 | numeric kernels on `xr` | element-wise lemmas, algebra on reals, monotonicity of exp |
| C19, C59 | same | exact NaN set; nadir boundary refutes C19 |
| C20 | same | algebra, reciprocity of the interaction integral |
| C21, C60 | `nd` broadcasting, both backends | element-wise denotation and progress lemmas; general claim refuted |
| C22-C26, C52 | phase functions, Legendre polynomials | polynomial identities, generating function, integrals (Coquelicot) |
| C27, C48 | volume functions, V.calc | integrals over the sphere; evaluation of compiled functions |
| C28, C53 | LinComb | induction over lists; expansion refuted for unequal ncoefs |
| C29 | expand/xreplace pipeline | induction over monomials; integrals of cos^i sin^j over a period |
| C30, C49, C50 | closed form with expi/expn | recurrence + parametric integral |
| C31, C32, C51 | fn pipeline with geometry symbols | refuted in general; valid fragments proved |
| C33 | scattering angle | trigonometric identity |
| C34-C36, C56 | jacobian | `is_derive`; refuted, exact value proved |
| C37, C38, C57 | jacobian driver, sparse layout | induction over lists |
| C39, C40, C42, C43, C54 | world state machine / expr substitution | case analysis, substitution lemmas; C42, C43 refuted in part |
| C41, C65 | both backends | element-wise agreement of every intermediate result; C41 refuted twice (outcome, values), C65 for accepted shapes |
| C66 | closed form of the interaction term, Legendre expansions | continuity and uniform bounds of the distribution functions; expansion error uniform in the direction, carried through both integrals |
| C67-C69 | hemreflect as a run of the state machine, scipy's Simpson rule | error of the double Simpson sum from uniform continuity; C67 refuted for the sympy backend |
| C70-C72 | the documented double integral (any mode) with positive weights | monotonicity of the integrals; bounds of the exponential integral weight; uniqueness of the integrals for the scaling law |
| C77, C78 | azimuth symmetries of calc() | substitution in the azimuth integral of F over a full period (rotation, mirror image) |
| C79 - C81 | starting Analyze: parameter check, sliders shown, state left in R | the check evaluated at the configuration of R (no dependence on caches), then case analysis on the missing names; C80 refuted by a witness |
| C82 - C87, C62 | whole sessions with Analyze and Analyze3D: constructor, any slider moves, what is shown and what is left in R | `Sessions.v`, `Ref3.v`: the constructor state satisfies the invariant of `Plot3D.v` (only slider values and the incidence angle change), the evaluated configuration equals that of plain calls on R (C12); C85 refuted for a parameter named "inc" |
| C88 - C92 | logging configuration over all histories of calls and user actions | invariant: the cached handler is the only one the package made, handlers attached once; one-call effect lemma `call_cases`; C89, C90, C91 refuted by witnesses |
| C93, C94 | limits tau -> 0 and tau -> infinity of all three contributions | closed forms of C47, interaction bound C71, and a bound of every truncated expansion over all directions (induction on the Legendre recurrence) |
| C95 | `_surface_volume`, the dashed line of Analyze | simulation of the program without caches, and the configuration with int_Q=False |
| C96 | calc in intensity units for all exit directions; `is_power` (Energy.v) is the hemispherical integral | pointwise bound (concavity of 1 - exp(-u)) integrated over the hemisphere; existence by uniform continuity, the attenuation extended by 0 at pi/2 |
| C97 | the operations of `_surface` in program order over an arbitrary arithmetic, instantiated with IEEE double precision (`binary64`, Flocq's rounding) and arbitrary elementary functions of bounded error (`Float.v`) | error factors between exp(-d) and exp(d) are composed operation by operation; ranges exclude over- and underflow |
| C98 | the same for `_volume` | partial: the error relative to the infinitely deep layer; refuted: 1 - exp(-T) is computed as 0 |
| C99 | the same for `_S2_mu`, Fint and `_interaction` | refuted: exp(-746) < 2^-1076 and Ei(720) > 2^1024 are proved, so a correctly rounded library yields 0*inf; partial: bounds on Ei up to 701 and on every intermediate result; the product exp * expi stays bounded because tau/mu - tau <= tau/mu survives rounding |
| C100 | threads as sequences of atomic steps (`Threads.v`: the evaluation methods split step by step, proved equal to the calls of `World.v`/`Jacobian.v` when undisturbed), an arbitrary schedule | invariant over the schedule: the shared caches stay coherent with the heap (`Sim`), every step reads and writes only the record of its own object (`Local.v`), so each thread follows its solo run step by step |
| C101 | the same model, threads sharing an object | refuted: store a, store b, evaluate a (shape of the result is that of b); partial: evaluations leave the heap unchanged and are functions of it (`Stable.v`) |
| C102 | the same steps, stopped after any number of them (`stopped`) | every step keeps the object equal to the one after update_params() up to coefficients of the interaction term that are already computed (`kept`, `walk`), the caches stay coherent (`safe` of C100), and later evaluations cannot tell such objects apart (`Lazy.v`) |
| C103 | `Config.v`: the configuration calls, every assignment and every cache_clear one step; `stopped` | set_geometry: induction over the keywords (the heap is that of the call with a prefix of its keywords); set_monostatic/set_bistatic: an invariant of all stops (all caches but the cosines agree with the object; a complete call makes the same object of it), so the repeated call leads to the same state; refuted for stale values by a witness |
| C104 | sessions: lists of completed calls and calls stopped after n steps (`session`), histories without interruptions (`heard`, `explains`) | simulation between the broken session and the history: equal objects up to interaction coefficients already computed, caches that agree with the objects; one lemma per kind of interrupted call |
| C105 | the conversion to sigma0 units and decibels after `_surface` in IEEE double precision, with an arbitrary `log10` of bounded error | a relative error d becomes an absolute error 10 d / ln 10 of the level; the rounding of the product is bounded absolutely, since the level may be (nearly) zero |
| C106 | the same after `_volume` | partial: 1 - exp(-T) loses a factor 1/T, so the relative error is bounded for T >= 2^-43; refuted: -inf for T <= 2^-57 |
| C107 | the sum of `_surface` and `_volume`, then the conversion (`g_total`) | both summands are non-negative, so the error factors of C97 and C98 carry over to the sum and, as in C105, to the level |
| C108 | `_dsurface_dtau`, `_dsurface_dNormBRDF`, `_dsurface_dbsf` in IEEE double precision; `exact_dtau`, `exact_dnorm`, `exact_dbsf` tie them to `Jacobian.v` | error factors as in C97 against the derivative (`derivable_pt_lim`) of `surface_value`; bsf: the subtraction loses a factor 1/T (partial), and is 0 for T <= 2^-57 (refuted) |
| C109 | `_dvolume_domega`, `_dvolume_dbsf` in IEEE double precision; `exact_domega`, `exact_dvbsf` tie them to `Jacobian.v` | error factors as in C98 against the derivative (`derivable_pt_lim`) of `volume_value`: bound growing with 1/T (partial), relative to the deep layer for all T <= 300 (`C109_all_depths`), 0 for T <= 2^-57 (refuted) |
| C110 | direct dependence in `_d_surface_ddummy`, `_d_volume_ddummy` in IEEE double precision (`g_surface`, `g_volume` applied to the differentiated distribution function; `exact_sdirect`, `exact_vdirect` tie them to `Jacobian.v`) | C97 and C98 for non-negative values, symmetry of rounding for negative ones, linearity of the contributions for the derivative; refuted for thin layers by C98 |
| C73-C76 | polarplot as a run of the state machine | values of compiled functions point by point; uniform convergence of the expansions (as in C66); C73 refuted for the sympy backend |
| C44, C61 | slider specifications | direct; C44 refuted |
| C45 | int_Q context of Analyze3D | all outcomes of an arbitrary body |
| C46, C64 | docstring merge over parsed sections | induction over parameter lists; C64 refuted |
| C58 | several objects sharing class-level caches | interleaving theorem |
| C62, C63 | updates of Analyze as runs of the state machine | induction over events; C63 refuted with a selected range |

## 6. Violations found (all proved as `_refuted` theorems)

1. C05: np.atleast_1d keeps the caller's array; after an in-place change `volume()` mixes old cosines and new angles.
2. C09: parameter names added after the first evaluation of the interaction term raise.
3. C10: `set_geometry` assigns angle by angle and is not atomic when it raises.
4. C11: pickling an object breaks `analyze()` of the original (`__getstate__` writes into the live `__dict__`).
5. C12: reassigning `R.V` / `R.SRF` after an evaluation keeps the old fn-functions.
6. C19: cos = 1 (nadir) together with tau = 0 elsewhere gives NaN.
7. C21, C41: inputs with few axes are misaligned or rejected. Under sympy constant fn-coefficients are stacked on the first axis of t_0: calc raises, or
   (two rows) silently multiplies row k with coefficient k (`C21_silently_wrong`, `C41_values_refuted`); symengine is not affected.
8. C25: cosine-lobe expansion at i = 0. C28: linear combinations whose members have unequal ncoefs. C42: a parameter symbol called `n`.
   C30-C32: the interaction term in bistatic mode uses the wrong sense of p_ex.
9. C34: jacobian in sigma0 units misses the division by I0. C35: `_dvolume_dtau` has `1/mu_ex**(-1)`.
   C36: symbols in the definition of tau are ignored. C38: entries are not broadcast before the sparse layout.
10. C43: missing symbols of V and SRF raise RuntimeError / NameError instead of the documented TypeError.
11. C44: slider start value `(max-min)/2`, fourth entry ignored. C63: Analyze leaves sample columns in R.
12. C55: reading a sympy-object definition with symbols always raises.
13. C64: inherited References/Examples make the whole docstring merge fail silently.
14. C67: hemreflect of a function without exit azimuth (Isotropic) raises ValueError under sympy.
15. C73: polarplot of a function or expansion without exit zenith angle (Isotropic, or one coefficient) raises ValueError under sympy.
16. C80: Analyze replaces R's geometry before it checks the parameters; a call rejected with AssertionError leaves R monostatic with the plot's 100 incidence angles.
17. C85: Analyze3D stores the incidence-angle slider under the key "inc"; a parameter of that name has no slider and is never set.
18. C89: after `set_loglevel("notset")` (or 0) debug and info records are not written: the logger falls back to the root logger's level.
19. C90: `set_loglevel("error", fmt="basic")` raises a ValueError but has already changed both levels.
20. C91: the documented short-name "basic" does not exist (it is called "minimal"), and the documented default BASIC_FORMAT is not the default ("timed" is). The field documented as `<MODULE>` for "debug" is the logger's name, the same for all modules.
21. C98: thin layers: `1 - np.exp(-x)` (_calc.py:653) cancels, the volume contribution is computed as 0 for T <= 2^-57 (`np.expm1` would not); in decibels the result is -inf (C106).
22. C99: thick layers at slant angles: `np.exp(-tau/mu) * expi(tau/mu - tau)` (_calc.py:1072-1073) is 0*inf = NaN, so interaction() and the total are NaN although the value is finite (e.g. tau=200, 83 degrees).
23. C101: two threads calling calc(tau=a) and calc(tau=b) on one object: the parameters are stored in `param_dict` first (`update_params`, _calc.py:447-484), so the first call can return the result for b.
24. C103: `set_monostatic`/`set_bistatic` assign `_monostatic` before they clear the cached cosines (_calc.py:335-340, 369-374) and forget `_fn_`/`_fnevals_` last; if the call is interrupted in between (e.g. with Ctrl-C in a notebook), evaluations silently mix the old and the new geometry until the call is repeated.
25. C108: `_dsurface_dbsf` subtracts `I_bs - Isurf` (_calc.py:1318), which cancels for thin layers: 0 for T <= 2^-57 although the derivative is positive (the rounding counterpart of item 21 in the jacobian).
26. C109: `_dvolume_domega` and `_dvolume_dbsf` use `1 - np.exp(...)` (_calc.py:1179, 1197): 0 for T <= 2^-57 although the derivatives are not 0.
27. C110: the same for the derivatives with respect to parameters of V (_calc.py:1382-1392).
