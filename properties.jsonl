{"id": "C01", "title": "Monostatic exit angles always follow the incident angles", "statement": "At every point of every history of API calls, if the RT1 object is in monostatic mode then reading t_ex gives exactly what reading t_0 gives (value or error), and reading p_ex gives p_0 + pi (or the same error as p_0).", "quantifier": "every finite sequence of public calls (successful or raising) on any number of RT1 objects, every angle value and array shape", "why_tests_cant": "the mode is reached through unboundedly many histories of set_monostatic / set_bistatic / set_geometry / failed calls", "anchors": ["src/rt1_model/_calc.py:RT1.t_ex", "src/rt1_model/_calc.py:RT1.p_ex", "src/rt1_model/_calc.py:RT1.set_monostatic", "src/rt1_model/_calc.py:RT1.set_geometry"]}
{"id": "C02", "title": "set_geometry is last-write-wins and touches nothing else", "statement": "A successful set_geometry(...) makes every angle named in the call read back as the value passed (as an at-least-1-d array), leaves all angles not named, all parameters, all parameter definitions, the mode and every other RT1 object unchanged; it raises for an unknown angle name, for an exit angle in monostatic mode, for an angle that is fixed, and for None, and in the first two cases nothing changes.", "quantifier": "every state reachable by any history, every set of keyword arguments", "why_tests_cant": "needs all reachable states and all argument combinations", "anchors": ["src/rt1_model/_calc.py:RT1.set_geometry", "src/rt1_model/_calc.py:RT1._sanitize_geometry_parameter"]}
{"id": "C03", "title": "Fixed angles stay fixed", "statement": "After set_bistatic(ang=c) or set_monostatic(p_0=c), the fixed angle reads as c after every further sequence of calls up to the next set_monostatic/set_bistatic, and every attempt to change it through set_geometry raises.", "quantifier": "every continuation of calls without a further mode change", "why_tests_cant": "unbounded continuations", "anchors": ["src/rt1_model/_calc.py:RT1.set_bistatic", "src/rt1_model/_calc.py:RT1.set_monostatic", "src/rt1_model/_calc.py:RT1._sanitize_geometry_parameter"]}
{"id": "C04", "title": "Cached cosines are never stale", "statement": "After every history of API calls on any number of RT1 objects sharing the class-level bounded LRU caches, the cosine and cosine-power values used in an evaluation of an object equal those computed afresh from the angles that object currently reports, provided no geometry array is mutated in place by the caller and V/SRF are not reassigned.", "quantifier": "every interleaving of calls on any number of objects, every cache fill level (including evictions)", "why_tests_cant": "eviction and cross-object clearing orders cannot be enumerated", "anchors": ["src/rt1_model/_calc.py:RT1._mu_0", "src/rt1_model/_calc.py:RT1._mu_ex", "src/rt1_model/_calc.py:RT1._mu_0_x", "src/rt1_model/_calc.py:RT1._mu_ex_x", "src/rt1_model/_calc.py:RT1._clear_geom_cache"]}
{"id": "C05", "title": "In-place mutation of a geometry array is seen consistently", "statement": "If the caller changes in place an array that was passed to set_geometry, results afterwards are those for either the old or the new angles, never a mixture.", "quantifier": "every history that contains in-place mutations of arrays owned by the caller", "why_tests_cant": "requires aliasing-aware reasoning over histories", "anchors": ["src/rt1_model/_calc.py:RT1.set_geometry", "src/rt1_model/_calc.py:RT1._mu_0"]}
{"id": "C06", "title": "tau, omega, NormBRDF and bsf always evaluate their latest definition with the latest parameter values", "statement": "After every history, reading tau (omega, NormBRDF, bsf) returns the value of the definition (string expression, number or array) most recently assigned to it (default: the parameter of the same name), evaluated with the most recently supplied parameter values; caches are invisible. If a needed parameter was never supplied a TypeError naming exactly the missing ones is raised.", "quantifier": "every history of assignments, updates and evaluations on any number of objects, every expression", "why_tests_cant": "unbounded histories, all expressions", "anchors": ["src/rt1_model/_calc.py:RT1._eval_param", "src/rt1_model/_calc.py:RT1._get_param_funcs", "src/rt1_model/_calc.py:RT1._get_param_symbs", "src/rt1_model/_calc.py:RT1.tau"]}
{"id": "C07", "title": "Parameters persist, later values win, and bsf is always defined", "statement": "param_dict after any history maps each name to the value of the latest update_params/calc/surface/volume/interaction call (successful or not) that mentioned it, contains bsf always (0 until set), never forgets a name, and never reorders names.", "quantifier": "every history of calls with arbitrary keyword sets", "why_tests_cant": "unbounded histories", "anchors": ["src/rt1_model/_calc.py:RT1.update_params", "src/rt1_model/_calc.py:RT1.param_dict", "src/rt1_model/_calc.py:RT1.calc"]}
{"id": "C08", "title": "Compiled fn-functions never bind a parameter to another parameter's value", "statement": "Whenever the interaction term is evaluated after any history, either the call raises or each parameter symbol in the fn-coefficients is evaluated with the current value of the parameter with that name; it raises because of the compiled signature exactly if a parameter name was added after the functions were compiled.", "quantifier": "every history of updates and evaluations (no backend switch, no in-place change of an angle array, no new name after a jacobian with respect to another symbol)", "why_tests_cant": "positional binding after arbitrary dict histories", "anchors": ["src/rt1_model/_calc.py:RT1._fnevals", "src/rt1_model/_calc.py:RT1._calc_Fint_1", "src/rt1_model/_calc.py:RT1._calc_Fint_2"]}
{"id": "C09", "title": "Adding a parameter later does not break evaluation", "statement": "If calc() succeeds, then after update_params with additional, unused names calc() still succeeds with the same values.", "quantifier": "every state in which calc succeeds, every extra parameter", "why_tests_cant": "history property", "anchors": ["src/rt1_model/_calc.py:RT1._fnevals", "src/rt1_model/_calc.py:RT1.update_params"]}
{"id": "C10", "title": "A rejected call leaves the object unchanged", "statement": "If set_monostatic, set_bistatic or set_geometry raises, the object's observable configuration (mode, angles, fixed angles, interaction expansion) is what it was before.", "quantifier": "every reachable state, every failing call", "why_tests_cant": "must hold at every failure point", "anchors": ["src/rt1_model/_calc.py:RT1.set_monostatic", "src/rt1_model/_calc.py:RT1.set_bistatic", "src/rt1_model/_calc.py:RT1.set_geometry"]}
{"id": "C11", "title": "Pickling is neutral", "statement": "Pickling an RT1 object leaves the original's API behaviour unchanged and yields a copy with the same API behaviour.", "quantifier": "every reachable state", "why_tests_cant": "every state/history", "anchors": ["src/rt1_model/_calc.py:RT1.__getstate__"]}
{"id": "C12", "title": "calc is history-independent", "statement": "The result of calc() is a function of the current V, SRF, mode, angles, definitions, parameter values and flags only: two objects brought to the same configuration by different histories (no mutation, no backend switch, no name added after compilation) return the same result or raise the same exception.", "quantifier": "every pair of histories", "why_tests_cant": "unbounded pairs of histories", "anchors": ["src/rt1_model/_calc.py:RT1.calc"]}
{"id": "C13", "title": "Components add up in linear units and combine as powers in dB", "statement": "With dB=False the total returned by calc equals surface + volume + interaction (surface + volume if int_Q is False) element by element; with dB=True 10^(total/10) is the sum of 10^(component/10) over the non-zero components, whenever the components are finite and positive.", "quantifier": "every configuration for which calc succeeds, every shape", "why_tests_cant": "universally quantified numeric law", "anchors": ["src/rt1_model/_calc.py:RT1.calc", "src/rt1_model/_calc.py:RT1._convert_sig0_db"]}
{"id": "C14", "title": "calc() agrees with surface(), volume() and interaction()", "statement": "The component rows returned by calc equal the results of surface(), volume(), interaction() called in the same state, for array-valued tau without the tau=0 replacement.", "quantifier": "every reachable state", "why_tests_cant": "all states", "anchors": ["src/rt1_model/_calc.py:RT1.surface", "src/rt1_model/_calc.py:RT1.volume", "src/rt1_model/_calc.py:RT1.interaction"]}
{"id": "C15", "title": "sigma0 does not depend on I0; intensity is proportional to I0", "statement": "For sig0=True the returned values are the same for all I0 > 0; for sig0=False and linear units they are I0 times the values for I0=1.", "quantifier": "all I0 > 0, all configurations", "why_tests_cant": "universally quantified", "anchors": ["src/rt1_model/_calc.py:RT1._convert_sig0_db", "src/rt1_model/_calc.py:RT1._surface", "src/rt1_model/_calc.py:RT1._volume", "src/rt1_model/_calc.py:RT1._interaction"]}
{"id": "C16", "title": "tau=0 switches the covering layer off", "statement": "Where tau=0 the volume and interaction contributions are 0 (-inf dB) and the surface contribution is NormBRDF*I0*cos(t_0)*BRDF, for scalar and array tau, and elements with tau>0 are not affected by neighbouring zeros.", "quantifier": "every array of tau values with arbitrary zero pattern, all angles with 0<cos<1, all reachable states whose input arrays have no more axes than t_0 and t_ex (which have the same number), every position", "why_tests_cant": "every mask pattern", "anchors": ["src/rt1_model/_calc.py:RT1.calc"]}
{"id": "C17", "title": "bsf interpolates between covered and bare soil", "statement": "Every contribution is affine in bsf; bsf=0 gives the covered result, bsf=1 gives volume=interaction=0 and the surface value that tau=0 gives.", "quantifier": "all bsf, all configurations", "why_tests_cant": "universally quantified", "anchors": ["src/rt1_model/_calc.py:RT1._surface", "src/rt1_model/_calc.py:RT1._volume", "src/rt1_model/_calc.py:RT1._interaction"]}
{"id": "C18", "title": "Signs and bounds of the direct contributions", "statement": "For tau>=0, 0<=omega, 0<=bsf<=1, NormBRDF>=0, non-negative phase functions and cosines in (0,1], surface and volume are non-negative; surface is non-increasing and volume non-decreasing in tau; volume is bounded by its infinite-depth value and surface by the bare-soil value.", "quantifier": "all parameter values in these ranges", "why_tests_cant": "universally quantified inequality", "anchors": ["src/rt1_model/_calc.py:RT1._surface", "src/rt1_model/_calc.py:RT1._volume"]}
{"id": "C19", "title": "No NaN for admissible input", "statement": "For finite inputs with tau>=0 and cos(t_0), cos(t_ex) in (0,1] all returned linear values are finite numbers.", "quantifier": "all admissible inputs including the boundary", "why_tests_cant": "boundary and interior values of a continuum", "anchors": ["src/rt1_model/_calc.py:RT1._S2_mu", "src/rt1_model/_calc.py:RT1.calc"]}
{"id": "C20", "title": "Reciprocity", "statement": "In bistatic mode with no fixed angle, intensity/(I0 cos(t_0)) of every contribution is unchanged when incident and exit directions are exchanged.", "quantifier": "all reachable states, all V and SRF (any ncoefs), all parameter values with tau>0, all angles whose cosines lie in (0,1), inputs that are numbers, one-dimensional arrays, or arrays with no more axes than t_0 and t_ex (which have the same number), every position", "why_tests_cant": "universally quantified", "anchors": ["src/rt1_model/_calc.py:RT1._surface", "src/rt1_model/_calc.py:RT1._volume", "src/rt1_model/_calc.py:RT1._interaction", "src/rt1_model/_calc.py:RT1._calc_Fint_2"]}
{"id": "C21", "title": "Vectorised evaluation equals element-by-element evaluation", "statement": "For all broadcast-compatible shapes of angles and parameters, calc succeeds and each element of the result equals the scalar result for the corresponding elements of the inputs.", "quantifier": "all shapes of all inputs, both backends", "why_tests_cant": "all shapes and ranks", "anchors": ["src/rt1_model/_calc.py:RT1._mu_0_x", "src/rt1_model/_calc.py:RT1._S2_mu", "src/rt1_model/_calc.py:RT1._calc_Fint_1", "src/rt1_model/_calc.py:RT1.calc"]}
{"id": "C22", "title": "Isotropic and Rayleigh expansions are exact", "statement": "legendre_expansion of Isotropic (volume, surface) and Rayleigh equals the phase function at all angles and for every generalization parameter a.", "quantifier": "all angle expressions, all a given as numbers or symbols other than the reserved names (n and the four angles)", "why_tests_cant": "continuum", "anchors": ["src/rt1_model/volume.py:Isotropic", "src/rt1_model/volume.py:Rayleigh", "src/rt1_model/surface.py:Isotropic"]}
{"id": "C23", "title": "Henyey-Greenstein expansion converges to the phase function", "statement": "For |t|<1 and |a_i|<=1, the truncated legendre_expansion of the volume and surface Henyey-Greenstein functions converges to phase_function as ncoefs grows, at all angles, with an explicit error bound.", "quantifier": "all t in (-1,1), all angles, all ncoefs", "why_tests_cant": "infinite series", "anchors": ["src/rt1_model/volume.py:HenyeyGreenstein", "src/rt1_model/surface.py:HenyeyGreenstein"]}
{"id": "C24", "title": "HGRayleigh expansion converges to the phase function", "statement": "Same as C23 for HGRayleigh.", "quantifier": "all t in (-1,1), all angles, all ncoefs", "why_tests_cant": "infinite series", "anchors": ["src/rt1_model/volume.py:HGRayleigh"]}
{"id": "C25", "title": "CosineLobe coefficients are the Legendre projections of its phase function", "statement": "For every power i and order n the n-th Legendre coefficient equals (2n+1)/2 times the integral over [-1,1] of phase_function(x) P_n(x).", "quantifier": "all i >= 0, all n", "why_tests_cant": "two unbounded naturals", "anchors": ["src/rt1_model/surface.py:CosineLobe"]}
{"id": "C26", "title": "HG_nadirnorm has unit nadir hemispherical reflectance", "statement": "For 0<|t|<1, 0<|a_0|<=1 the integral of BRDF*cos*sin over the hemisphere at nadir incidence is 1.", "quantifier": "all t, a_0", "why_tests_cant": "continuum", "anchors": ["src/rt1_model/surface.py:HG_nadirnorm"]}
{"id": "C27", "title": "Volume phase functions are normalised", "statement": "The integral of the volume phase functions over the unit sphere is 1 for a=[-1,1,1], and weights summing to one preserve this in LinComb.", "quantifier": "all t in (-1,1), all incidence directions", "why_tests_cant": "continuum", "anchors": ["src/rt1_model/volume.py:Rayleigh", "src/rt1_model/volume.py:HenyeyGreenstein", "src/rt1_model/volume.py:HGRayleigh", "src/rt1_model/volume.py:Isotropic"]}
{"id": "C28", "title": "Linear combinations are linear", "statement": "phase_function/calc of LinComb is the weighted sum of those of its members; its legendre_expansion is the weighted sum of the members' expansions.", "quantifier": "all lists of weights and members, any a and ncoefs", "why_tests_cant": "all lists", "anchors": ["src/rt1_model/_scatter.py:_LinComb.phase_function", "src/rt1_model/_scatter.py:_LinComb.legendre_expansion"]}
{"id": "C29", "title": "fn-coefficients represent the azimuth integral", "statement": "sum_n f_n cos(theta)^n equals the integral over phi in [0,2pi] of the product of the volume expansion (from the refracted incidence direction) and the surface expansion (towards the exit direction, exit azimuth plus pi), for every theta, all angles, for every V and SRF and all ncoefs; the number of coefficients used is V.ncoefs+SRF.ncoefs-1.", "quantifier": "all V, SRF (linear combinations included), ncoefs >= 1, angles, parameters not called n, theta_s or phi_s", "why_tests_cant": "unbounded ncoefs and continuum", "anchors": ["src/rt1_model/_calc.py:RT1._calc_interaction_expansion", "src/rt1_model/_calc.py:RT1._integrate_0_2pi_phis", "src/rt1_model/_calc.py:RT1._extract_coefficients", "src/rt1_model/_calc.py:RT1._cosintegral"]}
{"id": "C30", "title": "The interaction term is the exact integral of its definition", "statement": "interaction() in linear intensity units equals I0 mu_0 omega NormBRDF (1-bsf) [exp(-tau/mu_ex) F(0,ex) + exp(-tau/mu_0) F(ex,0)] with F the double integral over the hemisphere of mu/(mu_0-mu)(exp(-tau/mu_0)-exp(-tau/mu)) times the two Legendre expansions.", "quantifier": "all tau>0, cosines in (0,1), all V, SRF, ncoefs", "why_tests_cant": "improper integrals for a continuum of inputs", "anchors": ["src/rt1_model/_calc.py:RT1._S2_mu", "src/rt1_model/_calc.py:RT1._calc_Fint_1", "src/rt1_model/_calc.py:RT1._interaction"]}
{"id": "C31", "title": "Monostatic mode agrees with bistatic mode at the same angles", "statement": "calc in monostatic mode equals calc in bistatic mode with t_ex=t_0 and p_ex=p_0+pi.", "quantifier": "all V, SRF, angles, parameters", "why_tests_cant": "continuum of inputs", "anchors": ["src/rt1_model/_calc.py:RT1._calc_interaction_expansion", "src/rt1_model/_calc.py:RT1.set_monostatic", "src/rt1_model/_calc.py:RT1.set_bistatic"]}
{"id": "C32", "title": "Fixing an angle does not change results", "statement": "For every angle value c, set_bistatic(ang=c) (set_monostatic(p_0=c)) gives the same calc result as leaving the angle dynamic and passing c to set_geometry.", "quantifier": "all fixed-angle subsets, all angle values, all V, SRF", "why_tests_cant": "all subsets and values", "anchors": ["src/rt1_model/_calc.py:RT1.set_bistatic", "src/rt1_model/_calc.py:RT1.set_monostatic", "src/rt1_model/_calc.py:RT1._calc_Fint_2"]}
{"id": "C33", "title": "p_0 is irrelevant in monostatic mode for azimuthally symmetric functions", "statement": "If a[1]==a[2] for all functions involved, monostatic results do not depend on p_0.", "quantifier": "all p_0 and t_0 (cosine in (0,1)), all V and SRF, ncoefs and parameter values with tau>0, inputs that are numbers, one-dimensional arrays, or arrays with no more axes than t_0 and t_ex (which have the same number), every position", "why_tests_cant": "continuum", "anchors": ["src/rt1_model/_calc.py:RT1.set_monostatic", "src/rt1_model/_scatter.py:_Scatter.calc_scattering_angle"]}
{"id": "C34", "title": "jacobian entries for omega, NormBRDF and bsf are the derivatives of surface+volume", "statement": "For keys omega, NormBRDF, bsf the entry of jacobian() is the partial derivative of the returned surface+volume value in the selected unit (linear or dB, intensity or sigma0).", "quantifier": "all parameter values and units", "why_tests_cant": "derivative at every point", "anchors": ["src/rt1_model/_calc.py:RT1.jacobian", "src/rt1_model/_calc.py:RT1._dvolume_domega", "src/rt1_model/_calc.py:RT1._dsurface_dNormBRDF", "src/rt1_model/_calc.py:RT1._dsurface_dbsf", "src/rt1_model/_calc.py:RT1._dvolume_dbsf"]}
{"id": "C35", "title": "jacobian entry for tau is the derivative of surface+volume", "statement": "As C34 for the key tau.", "quantifier": "all parameter values, all exit angles", "why_tests_cant": "derivative at every point", "anchors": ["src/rt1_model/_calc.py:RT1._dvolume_dtau", "src/rt1_model/_calc.py:RT1._dsurface_dtau"]}
{"id": "C36", "title": "jacobian entries for other symbols are the derivatives", "statement": "For every other name in param_dict the entry is the derivative of surface+volume with respect to that symbol, wherever it occurs (in the definitions of tau, omega, NormBRDF, bsf and in V and SRF).", "quantifier": "all definitions, all symbols", "why_tests_cant": "all expressions", "anchors": ["src/rt1_model/_calc.py:RT1._d_surface_ddummy", "src/rt1_model/_calc.py:RT1._d_volume_ddummy"]}
{"id": "C37", "title": "jacobian has one entry per requested key, in order", "statement": "jacobian(param_list) returns exactly one entry per key in the order requested, raises AssertionError for a name that is neither a model parameter nor in param_dict and TypeError for an unknown format.", "quantifier": "all lists of keys", "why_tests_cant": "all lists", "anchors": ["src/rt1_model/_calc.py:RT1.jacobian"]}
{"id": "C38", "title": "scipy_least_squares layout", "statement": "With format='scipy_least_squares' the result has one column per scalar parameter value and one row per measurement (row-major); a static parameter's column is its ravelled jacobian, a dynamic parameter's i-th column is the i-th row of its jacobian at the measurements of timestamp i and 0 elsewhere.", "quantifier": "all list-of-rows sizes, any mix of static and dynamic parameters", "why_tests_cant": "all sizes", "anchors": ["src/rt1_model/_calc.py:RT1.jacobian"]}
{"id": "C39", "title": "Without interaction term no ncoefs are needed", "statement": "With int_Q=False calc does not use ncoefs: its result is the same whatever ncoefs V and SRF (and the members of linear combinations) have, or none; the same holds for surface() and volume(). With int_Q=True and some ncoefs missing, calc raises AttributeError whenever it would return a value with the missing ncoefs given, unless tau is a number <= 0.", "quantifier": "all reachable states, all scattering functions including nested linear combinations; for int_Q=True histories without reassigned V or SRF and without backend switch, names not added after compilation", "why_tests_cant": "all states", "anchors": ["src/rt1_model/_scatter.py:_Scatter.ncoefs", "src/rt1_model/_calc.py:RT1.calc"]}
{"id": "C40", "title": "Backend selection is closed", "statement": "After any sequence of set_lambda_backend calls get_lambda_backend returns the last accepted value, which is 'sympy' or 'symengine'; other values raise AssertionError and change nothing.", "quantifier": "all strings, all sequences", "why_tests_cant": "all sequences", "anchors": ["src/rt1_model/__init__.py:set_lambda_backend", "src/rt1_model/__init__.py:get_lambda_backend"]}
{"id": "C41", "title": "Backends agree", "statement": "For the same configuration, whenever evaluation succeeds under both backends the values agree; evaluation succeeds under one backend iff it succeeds under the other.", "quantifier": "all configurations and shapes", "why_tests_cant": "all shapes", "anchors": ["src/rt1_model/helpers.py:_lambdify", "src/rt1_model/_calc.py:RT1.calc"]}
{"id": "C42", "title": "Parameter symbols are independent of the names the package uses internally", "statement": "The legendre expansion of a function whose parameter is given as a symbol is the expansion for the number, evaluated at that symbol, for every symbol name.", "quantifier": "all symbol names", "why_tests_cant": "all names", "anchors": ["src/rt1_model/volume.py:HenyeyGreenstein.legendre_coefficients", "src/rt1_model/_scatter.py:_Scatter.legendre_expansion"]}
{"id": "C43", "title": "Missing parameters are reported", "statement": "If calc() is called while a symbol used in the definitions or in V or SRF has no value, a TypeError naming the missing symbols is raised.", "quantifier": "all configurations with a missing symbol", "why_tests_cant": "all configurations", "anchors": ["src/rt1_model/_calc.py:RT1.calc", "src/rt1_model/_calc.py:RT1._eval_param"]}
{"id": "C44", "title": "Analyze sliders start in the centre", "statement": "For a parameter given as (min, max) without start value the slider's initial value is the centre of the range; an optional 4th entry is used as label.", "quantifier": "all ranges", "why_tests_cant": "continuum", "anchors": ["src/rt1_model/plot.py:Analyze._parse_parameters"]}
{"id": "C45", "title": "Analyze3D restores int_Q", "statement": "Every update of the 3D analyzer leaves R.int_Q at its previous value, whether or not evaluation raises.", "quantifier": "all outcomes of the inner evaluation", "why_tests_cant": "every failure point", "anchors": ["src/rt1_model/plot.py:Analyze3D._cx_set_intq", "src/rt1_model/plot.py:Analyze3D._getvals"]}
{"id": "C46", "title": "Docstring merging never loses or duplicates own parameters", "statement": "append_numpy_docstring keeps the decorated object's parameter descriptions, appends each inherited parameter whose name is not yet described exactly once, and on any failure leaves the docstring unchanged.", "quantifier": "all docstrings", "why_tests_cant": "all section contents", "anchors": ["src/rt1_model/helpers.py:append_numpy_docstring"]}
{"id": "C47", "title": "Direct contributions are the documented formulas", "statement": "At every position of the result where the inputs are finite, the cosines positive and tau >= 0, the surface and volume entries of calc() equal the documented formulas for attenuated surface scattering mixed with bare soil and for single volume scattering, converted to the chosen units.", "quantifier": "all reachable states, shapes, parameter values and positions", "why_tests_cant": "continuum of values and all shapes", "anchors": ["src/rt1_model/_calc.py:RT1._surface", "src/rt1_model/_calc.py:RT1._volume", "src/rt1_model/_calc.py:RT1._convert_sig0_db", "src/rt1_model/_calc.py:RT1.calc"]}
{"id": "C48", "title": "V.calc and SRF.calc are the documented distribution functions", "statement": "V.calc(t_0,t_ex,p_0,p_ex,**params) and SRF.calc(...) return at each position the documented phase function / BRDF (isotropic, Rayleigh, Henyey-Greenstein, HG-Rayleigh, cosine lobe, nadir-normalised HG, linear combinations) of the generalised scattering angle.", "quantifier": "all angles, all parameter values, all shapes, all nested combinations", "why_tests_cant": "continuum and recursive structure", "anchors": ["src/rt1_model/_scatter.py:_Scatter.calc", "src/rt1_model/volume.py:HenyeyGreenstein.phase_function", "src/rt1_model/surface.py:HenyeyGreenstein.phase_function"]}
{"id": "C49", "title": "The monostatic interaction term is the exact integral", "statement": "In monostatic mode, interaction() and the interaction row of calc() equal, in the chosen units, I0 mu_0 omega NormBRDF (1-bsf) [exp(-tau/mu_ex) F(0,ex) + exp(-tau/mu_0) F(ex,0)] with F the documented double integral over the hemisphere of the truncated Legendre expansions of V and SRF.", "quantifier": "all reachable monostatic states, all V, SRF, ncoefs, units, cosines in (0,1), tau>0, inputs that are numbers, one-dimensional arrays, or arrays with no more axes than t_0 and t_ex, every position", "why_tests_cant": "improper integrals for a continuum of inputs", "anchors": ["src/rt1_model/_calc.py:RT1._S2_mu", "src/rt1_model/_calc.py:RT1._calc_Fint_1", "src/rt1_model/_calc.py:RT1._calc_Fint_2", "src/rt1_model/_calc.py:RT1._interaction", "src/rt1_model/_calc.py:RT1._calc_interaction_expansion"]}
{"id": "C50", "title": "The bistatic interaction term, exactly", "statement": "In bistatic mode the interaction contribution equals the documented formula with the exit azimuth turned by pi in both integrals, where angles fixed by set_bistatic keep their own value in F(ex,0) instead of being exchanged.", "quantifier": "all reachable bistatic states, all subsets of fixed angles, all V, SRF, ncoefs, units, cosines in (0,1), tau>0, inputs that are numbers, one-dimensional arrays, or arrays with no more axes than t_0 and t_ex", "why_tests_cant": "improper integrals for a continuum of inputs", "anchors": ["src/rt1_model/_calc.py:RT1._calc_Fint_2", "src/rt1_model/_calc.py:RT1._calc_interaction_expansion", "src/rt1_model/_calc.py:RT1.set_bistatic"]}
{"id": "C51", "title": "Direct contributions do not depend on mode or fixed angles", "statement": "Surface and volume contributions are the same in monostatic and bistatic mode, and with any subset of the angles fixed, whenever the four angles read from the object are the same.", "quantifier": "all reachable states, both modes, all subsets of fixed angles", "why_tests_cant": "all histories and values", "anchors": ["src/rt1_model/_calc.py:RT1._surface", "src/rt1_model/_calc.py:RT1._volume", "src/rt1_model/_calc.py:RT1.set_bistatic", "src/rt1_model/_calc.py:RT1.set_monostatic"]}
{"id": "C52", "title": "CosineLobe coefficients for positive powers", "statement": "For every power i >= 1 and every order n the n-th Legendre coefficient of CosineLobe equals (2n+1)/2 times the integral over [-1,1] of the cosine-lobe BRDF times P_n.", "quantifier": "all i >= 1, all n", "why_tests_cant": "unbounded orders, integrals", "anchors": ["src/rt1_model/surface.py:CosineLobe"]}
{"id": "C53", "title": "Expansions of linear combinations with matching ncoefs", "statement": "phase_function of LinComb is the weighted sum of the members' phase functions; legendre_expansion of LinComb is the weighted sum of the members' expansions whenever members that share the generalization parameter a have the same ncoefs.", "quantifier": "all lists of weights and members, all angle expressions, all values", "why_tests_cant": "unbounded structures", "anchors": ["src/rt1_model/volume.py:LinComb", "src/rt1_model/surface.py:LinComb", "src/rt1_model/_scatter.py:_LinComb"]}
{"id": "C54", "title": "Ordinary parameter symbols behave like numbers", "statement": "For a symbol other than n, replacing it by a number in a distribution function gives a legendre_expansion with the same value as the symbolic expansion evaluated at that number.", "quantifier": "all distribution functions whose parameters are not called n (linear combinations with matching ncoefs), all numbers, all angles", "why_tests_cant": "all names and values", "anchors": ["src/rt1_model/_scatter.py:_Scatter.legendre_expansion", "src/rt1_model/volume.py:HenyeyGreenstein"]}
{"id": "C55", "title": "A definition given as a sympy expression behaves like the same expression given as a string", "statement": "Assigning a sympy expression to tau, omega, NormBRDF or bsf has the same effect as assigning the string with the same formula.", "quantifier": "all expressions, all histories", "why_tests_cant": "all expressions, histories", "anchors": ["src/rt1_model/_calc.py:RT1._get_param_symbs", "src/rt1_model/_calc.py:RT1._get_param_funcs", "src/rt1_model/_calc.py:RT1.tau"]}
{"id": "C56", "title": "Exact value of the jacobian entries for omega, NormBRDF, bsf and tau", "statement": "The entries for omega, NormBRDF and bsf are I0 times the derivative of surface+volume in linear sigma0 units and the derivative itself in all other units; the entry for tau is the same multiple of the derivative plus an explicit error term that vanishes iff cos(t_ex)=1, omega=0, bsf=1 or V=0.", "quantifier": "all reachable states, units, positions with positive cosines (and positive total in dB)", "why_tests_cant": "derivatives over a continuum of inputs", "anchors": ["src/rt1_model/_calc.py:RT1.jacobian", "src/rt1_model/_calc.py:RT1._dvolume_dtau", "src/rt1_model/_calc.py:RT1._dsurface_dtau"]}
{"id": "C57", "title": "scipy_least_squares layout when every entry has the full shape", "statement": "If every entry of the list format has the shape (n, m) of the grid, the scipy_least_squares format has, per key in order, one column if the parameter is static (size 1) and otherwise n columns, column r holding row r of the entry at the positions of row r and 0 elsewhere.", "quantifier": "all reachable states, keys, shapes n, m", "why_tests_cant": "unbounded shapes", "anchors": ["src/rt1_model/_calc.py:RT1.jacobian"]}
{"id": "C58", "title": "Objects do not interfere", "statement": "What the methods and attributes of one RT1 object return does not depend on what is done with other RT1 objects in between, although all objects share the class-level caches.", "quantifier": "all histories that build up any number of objects, followed by any interleaving of calls on one object with calls on the others, creation of objects and pickling", "why_tests_cant": "functools.lru_cache on methods is one cache per class with 128 slots, cleared for all objects at once; interference would need a particular interleaving", "anchors": ["src/rt1_model/_calc.py:RT1", "src/rt1_model/_scatter.py:_lambda_func"]}
{"id": "C59", "title": "Exactly which values are not numbers", "statement": "With tau>=0, cosines of t_0 and t_ex in (0,1] and finite inputs, in linear units: surface and volume rows of calc are always numbers; the interaction and total rows are NaN exactly at the positions with tau=0 or a cosine equal to 1, and only if some position of the same call has tau>0 and a cosine equal to 1; interaction() is a number exactly where tau>0 and both cosines are below 1, otherwise NaN.", "quantifier": "all reachable states, all shapes whose axes do not exceed those of t_0 and t_ex, every position", "why_tests_cant": "every pattern of zeros and of normal incidence in arrays of every size", "anchors": ["src/rt1_model/_calc.py:RT1.calc", "src/rt1_model/_calc.py:RT1.interaction", "src/rt1_model/_calc.py:RT1._S2_mu"]}
{"id": "C60", "title": "Which shapes calc accepts", "statement": "If all inputs can be broadcast to one shape T, the shapes of I0, t_0, t_ex, tau and bsf already amount to T and, with the interaction contribution, t_0 and t_ex have all axes of T and either T has one axis or the fn-functions are compiled by symengine or not all constant, calc returns an array whose rows have the shape T.", "quantifier": "all reachable states, all shapes, all V and SRF built from the predefined functions with ncoefs>0, both backends", "why_tests_cant": "all shapes and ranks", "anchors": ["src/rt1_model/_calc.py:RT1.calc", "src/rt1_model/_calc.py:RT1._calc_Fint_1", "src/rt1_model/_calc.py:RT1._S2_mu", "src/rt1_model/helpers.py:_lambdify"]}
{"id": "C61", "title": "Which sliders Analyze shows", "statement": "For the keyword arguments in use (see C79) Analyze shows exactly one slider each, in order, labelled with the parameter name; a given start value is used clipped to the range, without one the start value is (max-min)/2 clipped to the range; after any sequence of slider moves and range selections every slider value lies in its range.", "quantifier": "all parameter dictionaries, all sequences of events", "why_tests_cant": "all ranges and event sequences", "anchors": ["src/rt1_model/plot.py:Analyze._parse_parameters", "src/rt1_model/plot.py:Analyze._init_figure"]}
{"id": "C62", "title": "What Analyze shows depends only on the widgets' positions", "statement": "After any two sequences of slider moves and range selections that end with the same slider positions and the same selected range, the next update computes the same lines; if the update succeeds, the central line is R.calc at the slider values and the sample lines are R.calc at 20 equidistant values of the selected parameter.", "quantifier": "all event sequences on an RT1 object whose sliders are parameters in use", "why_tests_cant": "unbounded event sequences, caches in between", "anchors": ["src/rt1_model/plot.py:Analyze._update", "src/rt1_model/plot.py:Analyze._get_range_lines"]}
{"id": "C63", "title": "Analyze leaves the slider values in R", "statement": "After every update of the Analyze widget the parameters of R are the slider values.", "quantifier": "all slider positions and selected ranges", "why_tests_cant": "all event sequences", "anchors": ["src/rt1_model/plot.py:Analyze._update", "src/rt1_model/plot.py:Analyze._get_range_lines"]}
{"id": "C64", "title": "Inherited References and Examples are combined", "statement": "If both the decorated object and the inherited docstring have References or Examples, the resulting docstring contains both.", "quantifier": "all docstrings", "why_tests_cant": "all section contents", "anchors": ["src/rt1_model/helpers.py:append_numpy_docstring"]}
{"id": "C65", "title": "Both backends return the same array for accepted shapes", "statement": "For two objects with the same configuration (functions, parameter definitions and values, angles, geometry mode, flags, I0), set up in two processes by any histories and on any backends, whose input shapes are accepted in the sense of C60, calc returns arrays of the same shape with the same numbers.", "quantifier": "all pairs of reachable states, both backends, all shapes of C60, every element", "why_tests_cant": "all pairs of histories and shapes", "anchors": ["src/rt1_model/helpers.py:_lambdify", "src/rt1_model/_calc.py:RT1.calc", "src/rt1_model/_calc.py:RT1._fnevals"]}
{"id": "C66", "title": "Interaction term converges with ncoefs", "statement": "In monostatic geometry, as ncoefs of the distribution functions grows, the interaction contribution returned by calc() or interaction() converges to the first-order interaction integral of the documentation, evaluated with the distribution functions themselves (isotropic, Rayleigh, Henyey-Greenstein, nadir-normalised HG, HG-Rayleigh and linear combinations of them).", "quantifier": "all distribution functions of these families, all parameter values with |t| < 1, all angles strictly between nadir and the horizon, tau > 0, every tolerance, every history", "why_tests_cant": "limit statement over an unbounded number of coefficients", "anchors": ["src/rt1_model/_calc.py:RT1.interaction", "src/rt1_model/_calc.py:RT1._calc_Fint_1", "src/rt1_model/volume.py:HenyeyGreenstein", "src/rt1_model/surface.py:HG_nadirnorm"]}
{"id": "C67", "title": "Hemispherical reflectance for every surface function", "statement": "The array computed by hemreflect has one entry per incidence angle (from param_range's start, in the given steps, below the end), and with a growing number of sampling points each entry converges to NormBRDF times the hemispherical reflectance of the documentation (integral of BRDF*cos over the upper hemisphere), for every surface distribution function and both evaluation backends.", "quantifier": "all surface functions, parameter values, incidence and azimuth angles, tolerances, numbers of points, histories, backends and scipy versions", "why_tests_cant": "limit over the number of sampling points, every function", "anchors": ["src/rt1_model/plot.py:hemreflect", "src/rt1_model/_scatter.py:Scatter.calc"]}
{"id": "C68", "title": "Hemispherical reflectance where the BRDF depends on the exit azimuth or symengine is used", "statement": "Whenever the evaluation backend is symengine or the distribution function depends on the exit azimuth, hemreflect converges to NormBRDF times the hemispherical reflectance as the number of points grows, for odd and even numbers of points and both scipy generations, called with R or with SRF; the number of points that is enough depends only on the function, the angles and the tolerance.", "quantifier": "isotropic, HG, nadir-normalised HG and cosine-lobe functions and their linear combinations, all scalar parameter values in the domain, all angles and steps, every tolerance, every history", "why_tests_cant": "limit statement; bound uniform over histories", "anchors": ["src/rt1_model/plot.py:hemreflect", "src/rt1_model/_scatter.py:Scatter.calc", "src/rt1_model/_calc.py:RT1.NormBRDF"]}
{"id": "C69", "title": "Energy-conserving surfaces show a reflectance of NormBRDF", "statement": "For an Isotropic surface at every incidence angle, and for HG_nadirnorm at nadir incidence, the value shown by hemreflect converges to NormBRDF (hemispherical reflectance one).", "quantifier": "all parameter values in the domain, all angles, tolerances and histories, as for C68", "why_tests_cant": "limit statement, transcendental integral", "anchors": ["src/rt1_model/plot.py:hemreflect", "src/rt1_model/surface.py:HG_nadirnorm", "src/rt1_model/surface.py:Isotropic"]}
{"id": "C70", "title": "The interaction contribution is not negative", "statement": "If the truncated expansions of V and SRF are nowhere negative and I0 > 0, omega >= 0, NormBRDF >= 0, 0 <= bsf <= 1, the first-order interaction contribution returned by calc() or interaction() is a number >= 0, monostatic or bistatic.", "quantifier": "all volume and surface functions, parameters, angles, layer depths, histories, backends", "why_tests_cant": "universally quantified inequality on an infinite input space", "anchors": ["src/rt1_model/_calc.py:RT1.interaction", "src/rt1_model/_calc.py:RT1.calc"]}
{"id": "C71", "title": "Size of the interaction contribution", "statement": "The interaction contribution is bounded by NormBRDF (1-bsf) I0 mu_0 omega times 2 pi max|V| max|SRF| times (exp(-tau/mu_ex) min(tau/mu_0, 1/tau) + exp(-tau/mu_0) min(tau/mu_ex, 1/tau)), the maxima being those of the truncated expansions; in particular it vanishes as tau tends to 0.", "quantifier": "all functions, parameters, angles, layer depths, histories, backends", "why_tests_cant": "universally quantified inequality on an infinite input space", "anchors": ["src/rt1_model/_calc.py:RT1.interaction", "src/rt1_model/_calc.py:RT1.calc"]}
{"id": "C72", "title": "Scaling of the three contributions", "statement": "Multiplying NormBRDF by a and omega by b, with everything else unchanged, multiplies the surface contribution by a, the volume contribution by b and the interaction contribution by a b (no dB conversion).", "quantifier": "all factors, functions, parameters and angles, any two evaluations in any two histories; monostatic, or bistatic with no fixed angle", "why_tests_cant": "metamorphic relation between two evaluations over an infinite input space", "anchors": ["src/rt1_model/_calc.py:RT1.calc", "src/rt1_model/_calc.py:RT1.update_params"]}
{"id": "C73", "title": "polarplot draws the function and its approximation", "statement": "For every scattering distribution with numerical parameters, polarplot draws, for every parameter set and every incidence angle, the distribution function in the plane of incidence (solid) and, if ncoefs is known, its truncated Legendre expansion (dashed), under either evaluation backend.", "quantifier": "all functions, parameter sets, incidence angles, histories, backends", "why_tests_cant": "every function and parameter value; the failing combinations depend on the symbolic form of the function", "anchors": ["src/rt1_model/plot.py:polarplot", "src/rt1_model/_scatter.py:_Scatter.legendre_expansion"]}
{"id": "C74", "title": "polarplot draws the function and its approximation where these depend on the exit zenith angle, or with symengine", "statement": "If the backend is symengine, or the function and its expansion depend on the exit zenith angle, polarplot succeeds: for every parameter set and every incidence angle the solid line is the distribution function at (t_0, theta, 0, 0) for theta in steps of 0.01 over the upper half circle (surfaces) or the full circle (volumes), the dashed line is the truncated expansion at the same angles; the dashed line is missing exactly if aprox is False or ncoefs is not known.", "quantifier": "all functions, parameter sets, incidence angles, histories", "why_tests_cant": "every function and parameter value, any number of sets and angles", "anchors": ["src/rt1_model/plot.py:polarplot", "src/rt1_model/_scatter.py:_Scatter.calc", "src/rt1_model/_scatter.py:_Scatter.legendre_expansion"]}
{"id": "C75", "title": "The dashed line of polarplot approaches the solid line", "statement": "For Isotropic, Rayleigh, Henyey-Greenstein, HGRayleigh, HG_nadirnorm functions and their combinations, for every tolerance there is a number of coefficients from which on every point of the dashed line is within the tolerance of the same point of the solid line.", "quantifier": "all these functions, parameter values, incidence angles, tolerances", "why_tests_cant": "limit statement", "anchors": ["src/rt1_model/plot.py:polarplot", "src/rt1_model/_scatter.py:_Scatter.legendre_expansion"]}
{"id": "C76", "title": "polarplot reports missing parameters", "statement": "If one of the given parameter sets lacks a parameter of the distribution function, polarplot raises AssertionError, draws nothing and leaves every object unchanged.", "quantifier": "all functions, parameter sets, histories", "why_tests_cant": "all functions and all subsets of their parameters", "anchors": ["src/rt1_model/plot.py:polarplot"]}
{"id": "C77", "title": "Azimuthal rotation invariance in bistatic mode", "statement": "In bistatic mode without fixed angles, and with a[1] == a[2] in all phase functions, adding the same amount to p_0 and p_ex changes none of the surface, volume and interaction contributions.", "quantifier": "all histories, rotations, angles, parameters, units, sets of functions with a[1] == a[2]", "why_tests_cant": "the rotation is any real number and every set of functions is meant", "anchors": ["src/rt1_model/_calc.py:RT1.calc", "src/rt1_model/_calc.py:RT1._fnevals", "src/rt1_model/_scatter.py:scattering_angle_symbolic"]}
{"id": "C78", "title": "Full turns and mirroring of the azimuths", "statement": "Adding full turns to the azimuth angles, or changing the sign of both (mirroring the scene), changes none of the contributions, for all weights a, in monostatic mode and in bistatic mode without fixed angles.", "quantifier": "all histories, numbers of turns, angles, parameters, units, functions, weights", "why_tests_cant": "all integers and all functions are meant", "anchors": ["src/rt1_model/_calc.py:RT1.calc", "src/rt1_model/_calc.py:RT1._fnevals", "src/rt1_model/_scatter.py:scattering_angle_symbolic"]}
{"id": "C79", "title": "Analyze checks the parameters and shows sliders for those in use", "statement": "Analyze raises AssertionError exactly when some symbol that R needs (in a parameter definition or a phase function, not an angle) is neither given as keyword nor set in R; otherwise it shows one slider, in the order given, for each keyword that R needs and for no other.", "quantifier": "all reachable states of R, all functions, definitions and keyword arguments", "why_tests_cant": "all histories, functions and keyword sets are meant", "anchors": ["src/rt1_model/plot.py:_check_params", "src/rt1_model/plot.py:Analyze.__init__"]}
{"id": "C80", "title": "A rejected Analyze call leaves R unchanged", "statement": "If Analyze raises because of its arguments, R keeps its parameters, functions, flags, geometry and angles, and so do all other objects.", "quantifier": "all reachable states of R, all keyword arguments", "why_tests_cant": "all histories are meant", "anchors": ["src/rt1_model/plot.py:_check_params", "src/rt1_model/plot.py:Analyze.__init__"]}
{"id": "C81", "title": "What a started Analyze widget leaves in R", "statement": "After Analyze started successfully, R is monostatic, its incidence angles are the 100 values of the plot and p_0 is 0, each slider's start value is stored under its name, all other parameters are unchanged, and no parameter that R needs is missing.", "quantifier": "all reachable states of R, all keyword arguments", "why_tests_cant": "all histories, functions and keyword sets are meant", "anchors": ["src/rt1_model/plot.py:Analyze.__init__"]}
{"id": "C82", "title": "What Analyze3D shows depends only on the slider positions", "statement": "After creating Analyze3D for any R, two ways of moving its sliders that leave all of them at the same values show the same surfaces (or raise the same error).", "quantifier": "all histories of R, all contributions, sample counts and keyword arguments, all sequences of slider moves", "why_tests_cant": "every order of moves and every previous history of R is meant", "anchors": ["src/rt1_model/plot.py:Analyze3D._update", "src/rt1_model/plot.py:Analyze3D._getvals"]}
{"id": "C83", "title": "The surfaces of Analyze3D are R.calc() over the exit hemisphere", "statement": "For each selected contribution and each exit direction of the grid (polar angles 0 to 89 degrees, azimuths -180 to 180 degrees), the drawn point lies in that direction at the distance that R.calc() returns for that contribution when R is set by plain calls to bistatic geometry with p_0 = 0, the grid, the incidence angle of the slider, linear units, int_Q true exactly if 'i' is selected, and the slider values. If R.calc() raises, the update raises the same error.", "quantifier": "all histories of R, all contributions, sample counts, keyword arguments and sequences of slider moves, all grid positions", "why_tests_cant": "a relation between a stateful widget and plain use of the API, for all states", "anchors": ["src/rt1_model/plot.py:Analyze3D._getvals", "src/rt1_model/plot.py:Analyze3D._cx_set_intq", "src/rt1_model/_calc.py:RT1.calc"]}
{"id": "C84", "title": "Analyze3D does not depend on R.int_Q", "statement": "What Analyze3D shows is the same whether R.int_Q is True or False: the interaction is part of the Total exactly if 'i' is among the contributions.", "quantifier": "all histories of R, both values of int_Q, all contributions, keyword arguments and slider moves", "why_tests_cant": "needs two runs compared for every state", "anchors": ["src/rt1_model/plot.py:Analyze3D._cx_set_intq"]}
{"id": "C85", "title": "Every slider of Analyze3D sets its parameter", "statement": "For every parameter that was given to Analyze3D and that R needs there is a slider over the given range, and after an update R.param_dict holds its value; parameters without a slider keep their values.", "quantifier": "all histories of R, all parameter names and ranges, all slider moves", "why_tests_cant": "must hold for every parameter name", "anchors": ["src/rt1_model/plot.py:Analyze3D._init_figure", "src/rt1_model/plot.py:Analyze3D._update"]}
{"id": "C86", "title": "Analyze3D rejects unknown contributions and missing parameters", "statement": "Analyze3D raises ValueError for a contribution letter other than t, s, v, i, and AssertionError if a parameter that R needs is neither given nor stored; otherwise it shows sliders for exactly the given parameters that R needs, and one for the incidence angle from 0.1 to 89.9 degrees starting at 45.", "quantifier": "all reachable states of R, all contribution strings and keyword arguments", "why_tests_cant": "all histories, functions and keyword sets are meant", "anchors": ["src/rt1_model/plot.py:Analyze3D.__init__", "src/rt1_model/plot.py:_check_params"]}
{"id": "C87", "title": "What Analyze3D leaves in R", "statement": "After any slider moves, R is bistatic with p_0 = 0, the exit angles are the grid, all incidence angles are the slider's value, R.dB is False, and int_Q and sig0 are as before the widget was created.", "quantifier": "all histories of R, all contributions, sample counts, keyword arguments and slider moves", "why_tests_cant": "every history of the widget is meant", "anchors": ["src/rt1_model/plot.py:Analyze3D.__init__", "src/rt1_model/plot.py:Analyze3D._update"]}
{"id": "C88", "title": "set_loglevel attaches one handler and touches nothing of the user's", "statement": "However often set_loglevel is called, with accepted or rejected arguments, at most one handler of the package is attached to the logger, and exactly one after a call that returns if the user removed none; handlers attached by the user, their levels and formats, and the root logger are never changed.", "quantifier": "all histories of set_loglevel calls, user handlers attached or removed, level changes", "why_tests_cant": "duplicate output depends on the whole call history of the process", "anchors": ["src/rt1_model/__init__.py:set_loglevel", "src/rt1_model/__init__.py:_ensure_handler"]}
{"id": "C89", "title": "Records written after set_loglevel", "statement": "After set_loglevel(level, ...) returns, the package's handler writes a record exactly when its severity is at least the level; every documented level name, in any capitalisation, and every int is accepted.", "quantifier": "all histories, all levels, formats and severities", "why_tests_cant": "levels and severities are unbounded integers and the history decides what is already configured", "anchors": ["src/rt1_model/__init__.py:set_loglevel"]}
{"id": "C90", "title": "A rejected set_loglevel call changes nothing", "statement": "A set_loglevel call that raises leaves the set of records written and the formats as they were.", "quantifier": "all histories and all arguments", "why_tests_cant": "the crash point is inside the call and every previous configuration is meant", "anchors": ["src/rt1_model/__init__.py:set_loglevel", "src/rt1_model/__init__.py:_set_logfmt"]}
{"id": "C91", "title": "Documented log formats", "statement": "The documented short-names plain, basic, timed and debug are accepted and show the documented fields in order, any format string with a field is used as it stands, and without a format logging.BASIC_FORMAT is used.", "quantifier": "all histories, levels and format strings", "why_tests_cant": "all format strings are meant", "anchors": ["src/rt1_model/__init__.py:set_loglevel", "src/rt1_model/__init__.py:_log_format_presets"]}
{"id": "C92", "title": "Only the last set_loglevel call counts", "statement": "With a format given, the outcome of set_loglevel, the levels and the format it leaves do not depend on earlier calls; without a format the last one set is kept, BASIC_FORMAT in a fresh process.", "quantifier": "all pairs of histories and all arguments", "why_tests_cant": "it compares all histories", "anchors": ["src/rt1_model/__init__.py:set_loglevel", "src/rt1_model/__init__.py:_set_logfmt"]}
{"id": "C93", "title": "Thin-layer limit", "statement": "With everything but tau fixed, the contributions calc() returns approach those of bare soil as tau goes to 0: surface within K*tau of the bare-soil value, volume and interaction within K*tau of 0, with one K for all evaluations, modes and histories.", "quantifier": "all positive optical depths, phase functions, BRDFs, geometries, modes and histories", "why_tests_cant": "a limit cannot be tested by finitely many depths", "anchors": ["src/rt1_model/_calc.py:RT1.calc", "src/rt1_model/_calc.py:RT1._calc_Fint_1", "src/rt1_model/_calc.py:RT1._calc_Fint_2"]}
{"id": "C94", "title": "Thick-layer limit", "statement": "With everything but tau fixed, as tau grows the surface contribution approaches that of the uncovered fraction bsf, the volume contribution that of an infinitely deep layer and the interaction contribution 0, each within K/tau with one K for all evaluations, modes and histories.", "quantifier": "all positive optical depths, phase functions, BRDFs, geometries, modes and histories", "why_tests_cant": "a limit cannot be tested by finitely many depths", "anchors": ["src/rt1_model/_calc.py:RT1.calc", "src/rt1_model/_calc.py:RT1._calc_Fint_1", "src/rt1_model/_calc.py:RT1._calc_Fint_2"]}
{"id": "C95", "title": "The dashed line of Analyze is the total without interaction", "statement": "With int_Q=True Analyze also draws surface + volume; the values drawn are, in all units and modes, the total that calc() returns after int_Q is switched off, switching int_Q off changes neither the surface nor the volume contribution, and computing the line changes no object and no later result.", "quantifier": "all histories, objects, units and modes with tau not a plain number, all later calls", "why_tests_cant": "the line must agree with a second evaluation in every state", "anchors": ["src/rt1_model/_calc.py:RT1._surface_volume", "src/rt1_model/plot.py:Analyze._update"]}
{"id": "C96", "title": "The direct contributions conserve energy", "statement": "In intensity units, the power that the surface and volume contributions of calc() carry into the upper hemisphere (their integral over all exit directions, weighted with the cosine of the exit angle) exists and is at most the incident power I0 cos(t_0) times [NormBRDF * reflectance * ((1-bsf) exp(-tau/cos t_0) + bsf) + (1-bsf) omega (1 - exp(-tau/cos t_0))]; so it never exceeds the incident power if omega <= 1 and the surface does not reflect more than it receives.", "quantifier": "all normalised volume functions and BRDFs that are not negative, all incident directions, tau > 0, omega, NormBRDF, bsf in [0,1], all objects and histories used to sample the exit directions", "why_tests_cant": "an integral over a continuum of calls, with attenuation singular at grazing exit angles", "anchors": ["src/rt1_model/_calc.py:RT1.calc", "src/rt1_model/_calc.py:RT1.surface", "src/rt1_model/_calc.py:RT1.volume"]}
{"id": "C97", "title": "Rounding errors of the surface contribution", "statement": "Evaluated in IEEE double precision (round to nearest even, with underflow and overflow), the surface contribution has a relative error of at most 2 (9 + k + 6 T) 2^-52, where T is the optical depth along the two paths and k 2^-52 the relative error of the BRDF value (2 (15 + k + 6 T) 2^-52 in sigma0 units); no intermediate result over- or underflows.", "quantifier": "all parameters that are 0 or between 2^-60 and 2^60, bsf in [0,1], all directions above the horizon, T <= 300, every exp and cos with a relative error of at most 2^-52", "why_tests_cant": "tests compare a few values with a tolerance", "anchors": ["src/rt1_model/_calc.py:RT1._surface", "src/rt1_model/_calc.py:RT1.surface"]}
{"id": "C98", "title": "Rounding errors of the volume contribution", "statement": "Evaluated in IEEE double precision, the volume contribution has a relative error bounded by a multiple of 2^-52 (as C97 for the surface).", "quantifier": "all parameters in the range of C97, every exp and cos with a relative error of at most 2^-52", "why_tests_cant": "the error is largest for thin layers that tests do not use", "anchors": ["src/rt1_model/_calc.py:RT1._volume", "src/rt1_model/_calc.py:RT1.volume"]}
{"id": "C99", "title": "The interaction contribution is a number", "statement": "Evaluated in IEEE double precision, the interaction contribution (and so the total) is not NaN for valid parameters and directions strictly between nadir and the horizon.", "quantifier": "all optical depths, directions, fn-coefficients, every library whose exp, log and expi return the closest double", "why_tests_cant": "over- and underflow appear only in part of the parameter space", "anchors": ["src/rt1_model/_calc.py:RT1._interaction", "src/rt1_model/_calc.py:RT1._S2_mu", "src/rt1_model/_calc.py:RT1._calc_Fint_1", "src/rt1_model/_calc.py:RT1._calc_Fint_2"]}
{"id": "C100", "title": "Threads working on different objects do not disturb each other", "statement": "If several threads call methods of RT1 objects at the same time, each thread on an object of its own, every call returns what it would return if the thread ran alone, the objects end up as if their threads had run alone, and every thread that gets enough turns finishes. The objects may share V and SRF, and always share the class-level caches.", "quantifier": "all histories that build up the objects, all numbers of threads, all sequences of calls per thread (configuration, evaluation, Jacobian) and all schedules, i.e. orders in which the atomic steps of the threads are executed", "why_tests_cant": "the caches are shared by all objects and cleared for all of them by every set_geometry; interference would need a particular schedule", "anchors": ["src/rt1_model/_calc.py:RT1.calc", "src/rt1_model/_calc.py:RT1.surface", "src/rt1_model/_calc.py:RT1.volume", "src/rt1_model/_calc.py:RT1.interaction", "src/rt1_model/_calc.py:RT1.jacobian", "src/rt1_model/_calc.py:RT1.set_geometry", "src/rt1_model/_scatter.py:Scatter.calc"]}
{"id": "C101", "title": "Threads sharing an object", "statement": "If two threads call methods of the same RT1 object at the same time, each call returns what it returns when the calls are made one after the other in some order.", "quantifier": "all histories, all pairs of calls on one object and all schedules; the partial theorem: all numbers of threads that only evaluate, all schedules", "why_tests_cant": "parameters passed to calc, surface, volume and interaction are stored in the object before the evaluation starts, so a wrong result needs a particular schedule", "anchors": ["src/rt1_model/_calc.py:RT1.calc", "src/rt1_model/_calc.py:RT1.surface", "src/rt1_model/_calc.py:RT1.update_params", "src/rt1_model/_calc.py:RT1.param_dict"]}
{"id": "C102", "title": "Interrupted evaluations", "statement": "If a call of calc, surface, volume, interaction or jacobian is interrupted at any point (KeyboardInterrupt, MemoryError, ...), everything evaluated or read afterwards is as if only update_params() had been called with the parameters of the interrupted call (or, before that, as if nothing had been called); in particular, repeating the interrupted call returns what it would have returned.", "quantifier": "all histories that respect the documented restrictions, all interrupted calls, all points of interruption (between any two steps, also between computing, storing and compiling the interaction coefficients), all later sequences of evaluations that use known parameter names", "why_tests_cant": "the state left behind depends on the instant of the interruption; tests cannot enumerate them", "anchors": ["src/rt1_model/_calc.py:RT1.calc", "src/rt1_model/_calc.py:RT1.surface", "src/rt1_model/_calc.py:RT1.volume", "src/rt1_model/_calc.py:RT1.interaction", "src/rt1_model/_calc.py:RT1.jacobian", "src/rt1_model/_calc.py:RT1.update_params", "src/rt1_model/_calc.py:RT1._fn", "src/rt1_model/_calc.py:RT1._fnevals"]}
{"id": "C103", "title": "Interrupted configuration", "statement": "If set_geometry, set_monostatic, set_bistatic or an assignment to tau, omega, NormBRDF or bsf is interrupted at any point (KeyboardInterrupt, ...), no value computed before the call survives: later results are those of the settings the object then has. An interrupted set_geometry has assigned the first few of its angles, an interrupted assignment all or nothing, and repeating any of the calls gives the state and results of the uninterrupted call.", "quantifier": "all histories that respect the documented restrictions, all these calls with all their arguments, all points of interruption (between any two assignments or cache resets), all later histories", "why_tests_cant": "the state left behind depends on the instant of the interruption; tests cannot enumerate them", "anchors": ["src/rt1_model/_calc.py:RT1.set_geometry", "src/rt1_model/_calc.py:RT1.set_monostatic", "src/rt1_model/_calc.py:RT1.set_bistatic", "src/rt1_model/_calc.py:RT1.tau", "src/rt1_model/_calc.py:RT1.omega", "src/rt1_model/_calc.py:RT1.NormBRDF", "src/rt1_model/_calc.py:RT1.bsf", "src/rt1_model/_calc.py:RT1._clear_geom_cache", "src/rt1_model/_calc.py:RT1._clear_param_cache"]}
{"id": "C104", "title": "Sessions with interrupted calls", "statement": "In a session in which any number of calls (evaluations, jacobian, reads, update_params, set_geometry, assignments to tau, omega, NormBRDF, bsf) are interrupted at any points, the calls that were not interrupted return what they return in a history without interruptions, in which each interrupted call is left out or replaced by the part of its effect a user would expect: update_params() with its parameters, set_geometry() with the first few of its angles, or the assignment. Interrupted calls without parameters leave no trace at all.", "quantifier": "all histories that respect the documented restrictions, all later sessions on the existing objects with parameter names already in use (set_monostatic and set_bistatic, given numbers, may be called but not interrupted, see C103), all points of interruption of all interrupted calls", "why_tests_cant": "the number of combinations of interruption points is unbounded, and what a broken session leaves behind in caches and stored coefficients is not visible", "anchors": ["src/rt1_model/_calc.py:RT1.calc", "src/rt1_model/_calc.py:RT1.surface", "src/rt1_model/_calc.py:RT1.volume", "src/rt1_model/_calc.py:RT1.interaction", "src/rt1_model/_calc.py:RT1.jacobian", "src/rt1_model/_calc.py:RT1.update_params", "src/rt1_model/_calc.py:RT1.set_geometry", "src/rt1_model/_calc.py:RT1.set_monostatic", "src/rt1_model/_calc.py:RT1.set_bistatic", "src/rt1_model/_calc.py:RT1.tau", "src/rt1_model/_calc.py:RT1._fnevals"]}
{"id": "C105", "title": "Rounding errors of results in decibels", "statement": "In double precision, with sig0=True and dB=True (the defaults), the reported level of the surface contribution differs from 10*log10 of its exact value by at most (91 + 6k + 36T + 3|level|)*eps, where T is the optical depth along the two paths (up to 300), k*eps the relative error of SRF.calc and eps=2^-52; a contribution of exactly zero is reported as -inf. In general a result known up to a relative error d is reported in dB up to 6d + (1 + 3|level|)*eps: the absolute error stays of this size also near 0 dB.", "quantifier": "every angle below 90 degrees, parameter between 2^-60 and 2^60 (or 0), optical depth up to 300, surface value, and every exp, cos and log10 of relative error at most eps", "why_tests_cant": "tests compare with tolerances of their own choice at a few points; the bound holds for all inputs, including levels near 0 dB where the relative error of the level is unbounded", "anchors": ["src/rt1_model/_calc.py:RT1._convert_sig0_db", "src/rt1_model/_calc.py:RT1.surface"]}
{"id": "C106", "title": "Rounding errors of the volume contribution in decibels", "statement": "In double precision, with sig0=True and dB=True, a volume contribution that is positive is reported with a finite level that differs from the exact one by at most a multiple of eps*(1 + |level|).", "quantifier": "every angle below 90 degrees, parameter between 2^-60 and 2^60 (or 0), optical depth, volume value, and every exp, cos and log10 of relative error at most eps", "why_tests_cant": "whether 1 - exp(-T) keeps any digits depends on the optical depth; tests use moderate depths", "anchors": ["src/rt1_model/_calc.py:RT1._convert_sig0_db", "src/rt1_model/_calc.py:RT1.volume"]}
{"id": "C107", "title": "Rounding errors of the total without interaction", "statement": "In double precision the sum of the surface and the volume contribution (calc with int_Q=False, first row) in sigma0 units has a relative error of at most 2c*eps with c = 42 + k + max(6T, 4/T), where T is the optical depth along the two paths and k*eps the relative error of V.calc and SRF.calc; in decibels (the default) the error is at most (6c + 1 + 3|level|)*eps, and a total of exactly zero is reported as -inf. For thinner layers the error of the total intensity is still at most 2(20 + k + 6T)*eps times the surface contribution plus the contribution of an infinitely deep layer.", "quantifier": "every angle below 90 degrees, parameter between 2^-60 and 2^60 (or 0), optical depth between 2^-43 and 300 (last bound: 0 to 300), surface and volume value, and every exp, cos and log10 of relative error at most eps", "why_tests_cant": "tests compare with tolerances of their own choice at a few points", "anchors": ["src/rt1_model/_calc.py:RT1.calc", "src/rt1_model/_calc.py:RT1._surface_volume", "src/rt1_model/_calc.py:RT1._convert_sig0_db"]}
{"id": "C108", "title": "Rounding errors of the derivatives of the surface contribution", "statement": "In double precision the derivatives of the surface contribution with respect to tau, NormBRDF and bsf, from which jacobian() is built, agree with the derivatives of the exact surface contribution up to a relative error of a multiple of eps.", "quantifier": "every angle below 90 degrees, parameter between 2^-60 and 2^60 (or 0), optical depth up to 300, surface value, and every exp and cos of relative error at most eps", "why_tests_cant": "whether a difference keeps its digits depends on the optical depth; tests compare with finite differences at moderate depths", "anchors": ["src/rt1_model/_calc.py:RT1._dsurface_dtau", "src/rt1_model/_calc.py:RT1._dsurface_dNormBRDF", "src/rt1_model/_calc.py:RT1._dsurface_dbsf", "src/rt1_model/_calc.py:RT1.jacobian"]}
{"id": "C109", "title": "Rounding errors of the derivatives of the volume contribution", "statement": "In double precision the derivatives of the volume contribution with respect to omega and bsf, from which jacobian() is built, agree with the derivatives of the exact volume contribution up to a relative error of a multiple of eps.", "quantifier": "every angle below 90 degrees, parameter between 2^-60 and 2^60 (or 0), optical depth up to 300, volume phase function value, and every exp and cos of relative error at most eps", "why_tests_cant": "whether 1 - exp(-T) keeps its digits depends on the optical depth; tests compare with finite differences at moderate depths", "anchors": ["src/rt1_model/_calc.py:RT1._dvolume_domega", "src/rt1_model/_calc.py:RT1._dvolume_dbsf", "src/rt1_model/_calc.py:RT1.jacobian"]}
{"id": "C110", "title": "Rounding errors of the derivatives with respect to parameters of the distribution functions", "statement": "In double precision the derivatives of the surface and volume contributions with respect to a parameter of SRF or V, from which jacobian() is built, agree with the derivatives of the exact contributions up to a relative error of a multiple of eps.", "quantifier": "every differentiable dependence of the distribution function on the parameter, increasing or decreasing, every angle below 90 degrees, parameter between 2^-60 and 2^60 (or 0), optical depth up to 300, and every exp and cos of relative error at most eps", "why_tests_cant": "the distribution function and the sign of its derivative are the user's choice; tests compare with finite differences for a few of them", "anchors": ["src/rt1_model/_calc.py:RT1._d_surface_ddummy", "src/rt1_model/_calc.py:RT1._d_volume_ddummy", "src/rt1_model/_calc.py:RT1.jacobian"]}
