import json
P=[]
def p(id,title,statement,quant,why,anchors):
    P.append(dict(id=id,title=title,statement=statement,quantifier=quant,why_tests_cant=why,anchors=anchors))
C="src/rt1_model/_calc.py"; S="src/rt1_model/_scatter.py"; V="src/rt1_model/volume.py"; F="src/rt1_model/surface.py"; PL="src/rt1_model/plot.py"; H="src/rt1_model/helpers.py"; I="src/rt1_model/__init__.py"
p("C01","Monostatic exit angles always follow the incident angles",
 "At every point of every history of API calls, if the RT1 object is in monostatic mode then reading t_ex gives exactly what reading t_0 gives (value or error), and reading p_ex gives p_0 + pi (or the same error as p_0).",
 "every finite sequence of public calls (successful or raising) on any number of RT1 objects, every angle value and array shape",
 "the mode is reached through unboundedly many histories of set_monostatic / set_bistatic / set_geometry / failed calls", [C+":RT1.t_ex",C+":RT1.p_ex",C+":RT1.set_monostatic",C+":RT1.set_geometry"])
p("C02","set_geometry is last-write-wins and touches nothing else",
 "A successful set_geometry(...) makes every angle named in the call read back as the value passed (as an at-least-1-d array), leaves all angles not named, all parameters, all parameter definitions, the mode and every other RT1 object unchanged; it raises for an unknown angle name, for an exit angle in monostatic mode, for an angle that is fixed, and for None, and in the first two cases nothing changes.",
 "every state reachable by any history, every set of keyword arguments",
 "needs all reachable states and all argument combinations",[C+":RT1.set_geometry",C+":RT1._sanitize_geometry_parameter"])
p("C03","Fixed angles stay fixed",
 "After set_bistatic(ang=c) or set_monostatic(p_0=c), the fixed angle reads as c after every further sequence of calls up to the next set_monostatic/set_bistatic, and every attempt to change it through set_geometry raises.",
 "every continuation of calls without a further mode change","unbounded continuations",[C+":RT1.set_bistatic",C+":RT1.set_monostatic",C+":RT1._sanitize_geometry_parameter"])
p("C04","Cached cosines are never stale",
 "After every history of API calls on any number of RT1 objects sharing the class-level bounded LRU caches, the cosine and cosine-power values used in an evaluation of an object equal those computed afresh from the angles that object currently reports, provided no geometry array is mutated in place by the caller and V/SRF are not reassigned.",
 "every interleaving of calls on any number of objects, every cache fill level (including evictions)",
 "eviction and cross-object clearing orders cannot be enumerated",[C+":RT1._mu_0",C+":RT1._mu_ex",C+":RT1._mu_0_x",C+":RT1._mu_ex_x",C+":RT1._clear_geom_cache"])
p("C05","In-place mutation of a geometry array is seen consistently",
 "If the caller changes in place an array that was passed to set_geometry, results afterwards are those for either the old or the new angles, never a mixture.",
 "every history that contains in-place mutations of arrays owned by the caller","requires aliasing-aware reasoning over histories",[C+":RT1.set_geometry",C+":RT1._mu_0"])
p("C06","tau, omega, NormBRDF and bsf always evaluate their latest definition with the latest parameter values",
 "After every history, reading tau (omega, NormBRDF, bsf) returns the value of the definition (string expression, number or array) most recently assigned to it (default: the parameter of the same name), evaluated with the most recently supplied parameter values; caches are invisible. If a needed parameter was never supplied a TypeError naming exactly the missing ones is raised.",
 "every history of assignments, updates and evaluations on any number of objects, every expression","unbounded histories, all expressions",[C+":RT1._eval_param",C+":RT1._get_param_funcs",C+":RT1._get_param_symbs",C+":RT1.tau"])
p("C07","Parameters persist, later values win, and bsf is always defined",
 "param_dict after any history maps each name to the value of the latest update_params/calc/surface/volume/interaction call (successful or not) that mentioned it, contains bsf always (0 until set), never forgets a name, and never reorders names.",
 "every history of calls with arbitrary keyword sets","unbounded histories",[C+":RT1.update_params",C+":RT1.param_dict",C+":RT1.calc"])
p("C08","Compiled fn-functions never bind a parameter to another parameter's value",
 "Whenever the interaction term is evaluated after any history, either the call raises or each parameter symbol in the fn-coefficients is evaluated with the current value of the parameter with that name; it raises because of the compiled signature exactly if a parameter name was added after the functions were compiled.",
 "every history of updates and evaluations (no backend switch, no in-place change of an angle array, no new name after a jacobian with respect to another symbol)","positional binding after arbitrary dict histories",[C+":RT1._fnevals",C+":RT1._calc_Fint_1",C+":RT1._calc_Fint_2"])
p("C09","Adding a parameter later does not break evaluation",
 "If calc() succeeds, then after update_params with additional, unused names calc() still succeeds with the same values.",
 "every state in which calc succeeds, every extra parameter","history property",[C+":RT1._fnevals",C+":RT1.update_params"])
p("C10","A rejected call leaves the object unchanged",
 "If set_monostatic, set_bistatic or set_geometry raises, the object's observable configuration (mode, angles, fixed angles, interaction expansion) is what it was before.",
 "every reachable state, every failing call","must hold at every failure point",[C+":RT1.set_monostatic",C+":RT1.set_bistatic",C+":RT1.set_geometry"])
p("C11","Pickling is neutral",
 "Pickling an RT1 object leaves the original's API behaviour unchanged and yields a copy with the same API behaviour.",
 "every reachable state","every state/history",[C+":RT1.__getstate__"])
p("C12","calc is history-independent",
 "The result of calc() is a function of the current V, SRF, mode, angles, definitions, parameter values and flags only: two objects brought to the same configuration by different histories (no mutation, no backend switch, no name added after compilation) return the same result or raise the same exception.",
 "every pair of histories","unbounded pairs of histories",[C+":RT1.calc"])
p("C13","Components add up in linear units and combine as powers in dB",
 "With dB=False the total returned by calc equals surface + volume + interaction (surface + volume if int_Q is False) element by element; with dB=True 10^(total/10) is the sum of 10^(component/10) over the non-zero components, whenever the components are finite and positive.",
 "every configuration for which calc succeeds, every shape","universally quantified numeric law",[C+":RT1.calc",C+":RT1._convert_sig0_db"])
p("C14","calc() agrees with surface(), volume() and interaction()",
 "The component rows returned by calc equal the results of surface(), volume(), interaction() called in the same state, for array-valued tau without the tau=0 replacement.",
 "every reachable state","all states",[C+":RT1.surface",C+":RT1.volume",C+":RT1.interaction"])
p("C15","sigma0 does not depend on I0; intensity is proportional to I0",
 "For sig0=True the returned values are the same for all I0 > 0; for sig0=False and linear units they are I0 times the values for I0=1.",
 "all I0 > 0, all configurations","universally quantified",[C+":RT1._convert_sig0_db",C+":RT1._surface",C+":RT1._volume",C+":RT1._interaction"])
p("C16","tau=0 switches the covering layer off",
 "Where tau=0 the volume and interaction contributions are 0 (-inf dB) and the surface contribution is NormBRDF*I0*cos(t_0)*BRDF, for scalar and array tau, and elements with tau>0 are not affected by neighbouring zeros.",
 "every array of tau values with arbitrary zero pattern, all angles with 0<cos<1, all reachable states whose input arrays have no more axes than t_0 and t_ex (which have the same number), every position","every mask pattern",[C+":RT1.calc"])
p("C17","bsf interpolates between covered and bare soil",
 "Every contribution is affine in bsf; bsf=0 gives the covered result, bsf=1 gives volume=interaction=0 and the surface value that tau=0 gives.",
 "all bsf, all configurations","universally quantified",[C+":RT1._surface",C+":RT1._volume",C+":RT1._interaction"])
p("C18","Signs and bounds of the direct contributions",
 "For tau>=0, 0<=omega, 0<=bsf<=1, NormBRDF>=0, non-negative phase functions and cosines in (0,1], surface and volume are non-negative; surface is non-increasing and volume non-decreasing in tau; volume is bounded by its infinite-depth value and surface by the bare-soil value.",
 "all parameter values in these ranges","universally quantified inequality",[C+":RT1._surface",C+":RT1._volume"])
p("C19","No NaN for admissible input",
 "For finite inputs with tau>=0 and cos(t_0), cos(t_ex) in (0,1] all returned linear values are finite numbers.",
 "all admissible inputs including the boundary","boundary and interior values of a continuum",[C+":RT1._S2_mu",C+":RT1.calc"])
p("C20","Reciprocity",
 "In bistatic mode with no fixed angle, intensity/(I0 cos(t_0)) of every contribution is unchanged when incident and exit directions are exchanged.",
 "all reachable states, all V and SRF (any ncoefs), all parameter values with tau>0, all angles whose cosines lie in (0,1), inputs that are numbers, one-dimensional arrays, or arrays with no more axes than t_0 and t_ex (which have the same number), every position","universally quantified",[C+":RT1._surface",C+":RT1._volume",C+":RT1._interaction",C+":RT1._calc_Fint_2"])
p("C21","Vectorised evaluation equals element-by-element evaluation",
 "For all broadcast-compatible shapes of angles and parameters, calc succeeds and each element of the result equals the scalar result for the corresponding elements of the inputs.",
 "all shapes of all inputs, both backends","all shapes and ranks",[C+":RT1._mu_0_x",C+":RT1._S2_mu",C+":RT1._calc_Fint_1",C+":RT1.calc"])
p("C22","Isotropic and Rayleigh expansions are exact",
 "legendre_expansion of Isotropic (volume, surface) and Rayleigh equals the phase function at all angles and for every generalization parameter a.",
 "all angle expressions, all a given as numbers or symbols other than the reserved names (n and the four angles)","continuum",[V+":Isotropic",V+":Rayleigh",F+":Isotropic"])
p("C23","Henyey-Greenstein expansion converges to the phase function",
 "For |t|<1 and |a_i|<=1, the truncated legendre_expansion of the volume and surface Henyey-Greenstein functions converges to phase_function as ncoefs grows, at all angles, with an explicit error bound.",
 "all t in (-1,1), all angles, all ncoefs","infinite series",[V+":HenyeyGreenstein",F+":HenyeyGreenstein"])
p("C24","HGRayleigh expansion converges to the phase function",
 "Same as C23 for HGRayleigh.",
 "all t in (-1,1), all angles, all ncoefs","infinite series",[V+":HGRayleigh"])
p("C25","CosineLobe coefficients are the Legendre projections of its phase function",
 "For every power i and order n the n-th Legendre coefficient equals (2n+1)/2 times the integral over [-1,1] of phase_function(x) P_n(x).",
 "all i >= 0, all n","two unbounded naturals",[F+":CosineLobe"])
p("C26","HG_nadirnorm has unit nadir hemispherical reflectance",
 "For 0<|t|<1, 0<|a_0|<=1 the integral of BRDF*cos*sin over the hemisphere at nadir incidence is 1.",
 "all t, a_0","continuum",[F+":HG_nadirnorm"])
p("C27","Volume phase functions are normalised",
 "The integral of the volume phase functions over the unit sphere is 1 for a=[-1,1,1], and weights summing to one preserve this in LinComb.",
 "all t in (-1,1), all incidence directions","continuum",[V+":Rayleigh",V+":HenyeyGreenstein",V+":HGRayleigh",V+":Isotropic"])
p("C28","Linear combinations are linear",
 "phase_function/calc of LinComb is the weighted sum of those of its members; its legendre_expansion is the weighted sum of the members' expansions.",
 "all lists of weights and members, any a and ncoefs","all lists",[S+":_LinComb.phase_function",S+":_LinComb.legendre_expansion"])
p("C29","fn-coefficients represent the azimuth integral",
 "sum_n f_n cos(theta)^n equals the integral over phi in [0,2pi] of the product of the volume expansion (from the refracted incidence direction) and the surface expansion (towards the exit direction, exit azimuth plus pi), for every theta, all angles, for every V and SRF and all ncoefs; the number of coefficients used is V.ncoefs+SRF.ncoefs-1.",
 "all V, SRF (linear combinations included), ncoefs >= 1, angles, parameters not called n, theta_s or phi_s","unbounded ncoefs and continuum",[C+":RT1._calc_interaction_expansion",C+":RT1._integrate_0_2pi_phis",C+":RT1._extract_coefficients",C+":RT1._cosintegral"])
p("C30","The interaction term is the exact integral of its definition",
 "interaction() in linear intensity units equals I0 mu_0 omega NormBRDF (1-bsf) [exp(-tau/mu_ex) F(0,ex) + exp(-tau/mu_0) F(ex,0)] with F the double integral over the hemisphere of mu/(mu_0-mu)(exp(-tau/mu_0)-exp(-tau/mu)) times the two Legendre expansions.",
 "all tau>0, cosines in (0,1), all V, SRF, ncoefs","improper integrals for a continuum of inputs",[C+":RT1._S2_mu",C+":RT1._calc_Fint_1",C+":RT1._interaction"])
p("C31","Monostatic mode agrees with bistatic mode at the same angles",
 "calc in monostatic mode equals calc in bistatic mode with t_ex=t_0 and p_ex=p_0+pi.",
 "all V, SRF, angles, parameters","continuum of inputs",[C+":RT1._calc_interaction_expansion",C+":RT1.set_monostatic",C+":RT1.set_bistatic"])
p("C32","Fixing an angle does not change results",
 "For every angle value c, set_bistatic(ang=c) (set_monostatic(p_0=c)) gives the same calc result as leaving the angle dynamic and passing c to set_geometry.",
 "all fixed-angle subsets, all angle values, all V, SRF","all subsets and values",[C+":RT1.set_bistatic",C+":RT1.set_monostatic",C+":RT1._calc_Fint_2"])
p("C33","p_0 is irrelevant in monostatic mode for azimuthally symmetric functions",
 "If a[1]==a[2] for all functions involved, monostatic results do not depend on p_0.",
 "all p_0 and t_0 (cosine in (0,1)), all V and SRF, ncoefs and parameter values with tau>0, inputs that are numbers, one-dimensional arrays, or arrays with no more axes than t_0 and t_ex (which have the same number), every position","continuum",[C+":RT1.set_monostatic",S+":_Scatter.calc_scattering_angle"])
p("C34","jacobian entries for omega, NormBRDF and bsf are the derivatives of surface+volume",
 "For keys omega, NormBRDF, bsf the entry of jacobian() is the partial derivative of the returned surface+volume value in the selected unit (linear or dB, intensity or sigma0).",
 "all parameter values and units","derivative at every point",[C+":RT1.jacobian",C+":RT1._dvolume_domega",C+":RT1._dsurface_dNormBRDF",C+":RT1._dsurface_dbsf",C+":RT1._dvolume_dbsf"])
p("C35","jacobian entry for tau is the derivative of surface+volume",
 "As C34 for the key tau.",
 "all parameter values, all exit angles","derivative at every point",[C+":RT1._dvolume_dtau",C+":RT1._dsurface_dtau"])
p("C36","jacobian entries for other symbols are the derivatives",
 "For every other name in param_dict the entry is the derivative of surface+volume with respect to that symbol, wherever it occurs (in the definitions of tau, omega, NormBRDF, bsf and in V and SRF).",
 "all definitions, all symbols","all expressions",[C+":RT1._d_surface_ddummy",C+":RT1._d_volume_ddummy"])
p("C37","jacobian has one entry per requested key, in order",
 "jacobian(param_list) returns exactly one entry per key in the order requested, raises AssertionError for a name that is neither a model parameter nor in param_dict and TypeError for an unknown format.",
 "all lists of keys","all lists",[C+":RT1.jacobian"])
p("C38","scipy_least_squares layout",
 "With format='scipy_least_squares' the result has one column per scalar parameter value and one row per measurement (row-major); a static parameter's column is its ravelled jacobian, a dynamic parameter's i-th column is the i-th row of its jacobian at the measurements of timestamp i and 0 elsewhere.",
 "all list-of-rows sizes, any mix of static and dynamic parameters","all sizes",[C+":RT1.jacobian"])
p("C39","Without interaction term no ncoefs are needed",
 "With int_Q=False calc does not use ncoefs: its result is the same whatever ncoefs V and SRF (and the members of linear combinations) have, or none; the same holds for surface() and volume(). With int_Q=True and some ncoefs missing, calc raises AttributeError whenever it would return a value with the missing ncoefs given, unless tau is a number <= 0.",
 "all reachable states, all scattering functions including nested linear combinations; for int_Q=True histories without reassigned V or SRF and without backend switch, names not added after compilation","all states",[S+":_Scatter.ncoefs",C+":RT1.calc"])
p("C40","Backend selection is closed",
 "After any sequence of set_lambda_backend calls get_lambda_backend returns the last accepted value, which is 'sympy' or 'symengine'; other values raise AssertionError and change nothing.",
 "all strings, all sequences","all sequences",[I+":set_lambda_backend",I+":get_lambda_backend"])
p("C41","Backends agree",
 "For the same configuration, whenever evaluation succeeds under both backends the values agree; evaluation succeeds under one backend iff it succeeds under the other.",
 "all configurations and shapes","all shapes",[H+":_lambdify",C+":RT1.calc"])
p("C42","Parameter symbols are independent of the names the package uses internally",
 "The legendre expansion of a function whose parameter is given as a symbol is the expansion for the number, evaluated at that symbol, for every symbol name.",
 "all symbol names","all names",[V+":HenyeyGreenstein.legendre_coefficients",S+":_Scatter.legendre_expansion"])
p("C43","Missing parameters are reported",
 "If calc() is called while a symbol used in the definitions or in V or SRF has no value, a TypeError naming the missing symbols is raised.",
 "all configurations with a missing symbol","all configurations",[C+":RT1.calc",C+":RT1._eval_param"])
p("C44","Analyze sliders start in the centre",
 "For a parameter given as (min, max) without start value the slider's initial value is the centre of the range; an optional 4th entry is used as label.",
 "all ranges","continuum",[PL+":Analyze._parse_parameters"])
p("C45","Analyze3D restores int_Q",
 "Every update of the 3D analyzer leaves R.int_Q at its previous value, whether or not evaluation raises.",
 "all outcomes of the inner evaluation","every failure point",[PL+":Analyze3D._cx_set_intq",PL+":Analyze3D._getvals"])
p("C46","Docstring merging never loses or duplicates own parameters",
 "append_numpy_docstring keeps the decorated object's parameter descriptions, appends each inherited parameter whose name is not yet described exactly once, and on any failure leaves the docstring unchanged.",
 "all docstrings","all section contents",[H+":append_numpy_docstring"])
p("C47","Direct contributions are the documented formulas",
 "At every position of the result where the inputs are finite, the cosines positive and tau >= 0, the surface and volume entries of calc() equal the documented formulas for attenuated surface scattering mixed with bare soil and for single volume scattering, converted to the chosen units.",
 "all reachable states, shapes, parameter values and positions","continuum of values and all shapes",[C+":RT1._surface",C+":RT1._volume",C+":RT1._convert_sig0_db",C+":RT1.calc"])
p("C48","V.calc and SRF.calc are the documented distribution functions",
 "V.calc(t_0,t_ex,p_0,p_ex,**params) and SRF.calc(...) return at each position the documented phase function / BRDF (isotropic, Rayleigh, Henyey-Greenstein, HG-Rayleigh, cosine lobe, nadir-normalised HG, linear combinations) of the generalised scattering angle.",
 "all angles, all parameter values, all shapes, all nested combinations","continuum and recursive structure",[S+":_Scatter.calc",V+":HenyeyGreenstein.phase_function",F+":HenyeyGreenstein.phase_function"])
p("C49","The monostatic interaction term is the exact integral",
 "In monostatic mode, interaction() and the interaction row of calc() equal, in the chosen units, I0 mu_0 omega NormBRDF (1-bsf) [exp(-tau/mu_ex) F(0,ex) + exp(-tau/mu_0) F(ex,0)] with F the documented double integral over the hemisphere of the truncated Legendre expansions of V and SRF.",
 "all reachable monostatic states, all V, SRF, ncoefs, units, cosines in (0,1), tau>0, inputs that are numbers, one-dimensional arrays, or arrays with no more axes than t_0 and t_ex, every position","improper integrals for a continuum of inputs",[C+":RT1._S2_mu",C+":RT1._calc_Fint_1",C+":RT1._calc_Fint_2",C+":RT1._interaction",C+":RT1._calc_interaction_expansion"])
p("C50","The bistatic interaction term, exactly",
 "In bistatic mode the interaction contribution equals the documented formula with the exit azimuth turned by pi in both integrals, where angles fixed by set_bistatic keep their own value in F(ex,0) instead of being exchanged.",
 "all reachable bistatic states, all subsets of fixed angles, all V, SRF, ncoefs, units, cosines in (0,1), tau>0, inputs that are numbers, one-dimensional arrays, or arrays with no more axes than t_0 and t_ex","improper integrals for a continuum of inputs",[C+":RT1._calc_Fint_2",C+":RT1._calc_interaction_expansion",C+":RT1.set_bistatic"])
p("C51","Direct contributions do not depend on mode or fixed angles",
 "Surface and volume contributions are the same in monostatic and bistatic mode, and with any subset of the angles fixed, whenever the four angles read from the object are the same.",
 "all reachable states, both modes, all subsets of fixed angles","all histories and values",[C+":RT1._surface",C+":RT1._volume",C+":RT1.set_bistatic",C+":RT1.set_monostatic"])
p("C52","CosineLobe coefficients for positive powers",
 "For every power i >= 1 and every order n the n-th Legendre coefficient of CosineLobe equals (2n+1)/2 times the integral over [-1,1] of the cosine-lobe BRDF times P_n.",
 "all i >= 1, all n","unbounded orders, integrals",[F+":CosineLobe"])
p("C53","Expansions of linear combinations with matching ncoefs",
 "phase_function of LinComb is the weighted sum of the members' phase functions; legendre_expansion of LinComb is the weighted sum of the members' expansions whenever members that share the generalization parameter a have the same ncoefs.",
 "all lists of weights and members, all angle expressions, all values","unbounded structures",[V+":LinComb",F+":LinComb",S+":_LinComb"])
p("C54","Ordinary parameter symbols behave like numbers",
 "For a symbol other than n, replacing it by a number in a distribution function gives a legendre_expansion with the same value as the symbolic expansion evaluated at that number.",
 "all distribution functions whose parameters are not called n (linear combinations with matching ncoefs), all numbers, all angles","all names and values",[S+":_Scatter.legendre_expansion",V+":HenyeyGreenstein"])
p("C55","A definition given as a sympy expression behaves like the same expression given as a string",
 "Assigning a sympy expression to tau, omega, NormBRDF or bsf has the same effect as assigning the string with the same formula.",
 "all expressions, all histories","all expressions, histories",[C+":RT1._get_param_symbs",C+":RT1._get_param_funcs",C+":RT1.tau"])
p("C56","Exact value of the jacobian entries for omega, NormBRDF, bsf and tau",
 "The entries for omega, NormBRDF and bsf are I0 times the derivative of surface+volume in linear sigma0 units and the derivative itself in all other units; the entry for tau is the same multiple of the derivative plus an explicit error term that vanishes iff cos(t_ex)=1, omega=0, bsf=1 or V=0.",
 "all reachable states, units, positions with positive cosines (and positive total in dB)","derivatives over a continuum of inputs",[C+":RT1.jacobian",C+":RT1._dvolume_dtau",C+":RT1._dsurface_dtau"])
p("C57","scipy_least_squares layout when every entry has the full shape",
 "If every entry of the list format has the shape (n, m) of the grid, the scipy_least_squares format has, per key in order, one column if the parameter is static (size 1) and otherwise n columns, column r holding row r of the entry at the positions of row r and 0 elsewhere.",
 "all reachable states, keys, shapes n, m","unbounded shapes",[C+":RT1.jacobian"])
p("C58","Objects do not interfere",
 "What the methods and attributes of one RT1 object return does not depend on what is done with other RT1 objects in between, although all objects share the class-level caches.",
 "all histories that build up any number of objects, followed by any interleaving of calls on one object with calls on the others, creation of objects and pickling",
 "functools.lru_cache on methods is one cache per class with 128 slots, cleared for all objects at once; interference would need a particular interleaving",
 ["src/rt1_model/_calc.py:RT1", "src/rt1_model/_scatter.py:_lambda_func"])
p("C59","Exactly which values are not numbers",
 "With tau>=0, cosines of t_0 and t_ex in (0,1] and finite inputs, in linear units: surface and volume rows of calc are always numbers; the interaction and total rows are NaN exactly at the positions with tau=0 or a cosine equal to 1, and only if some position of the same call has tau>0 and a cosine equal to 1; interaction() is a number exactly where tau>0 and both cosines are below 1, otherwise NaN.",
 "all reachable states, all shapes whose axes do not exceed those of t_0 and t_ex, every position","every pattern of zeros and of normal incidence in arrays of every size",[C+":RT1.calc",C+":RT1.interaction",C+":RT1._S2_mu"])
p("C60","Which shapes calc accepts",
 "If all inputs can be broadcast to one shape T, the shapes of I0, t_0, t_ex, tau and bsf already amount to T and, with the interaction contribution, t_0 and t_ex have all axes of T and either T has one axis or the fn-functions are compiled by symengine or not all constant, calc returns an array whose rows have the shape T.",
 "all reachable states, all shapes, all V and SRF built from the predefined functions with ncoefs>0, both backends","all shapes and ranks",[C+":RT1.calc",C+":RT1._calc_Fint_1",C+":RT1._S2_mu",H+":_lambdify"])
p("C61","Which sliders Analyze shows",
 "For the keyword arguments in use (see C79) Analyze shows exactly one slider each, in order, labelled with the parameter name; a given start value is used clipped to the range, without one the start value is (max-min)/2 clipped to the range; after any sequence of slider moves and range selections every slider value lies in its range.",
 "all parameter dictionaries, all sequences of events","all ranges and event sequences",[PL+":Analyze._parse_parameters",PL+":Analyze._init_figure"])
p("C62","What Analyze shows depends only on the widgets' positions",
 "After any two sequences of slider moves and range selections that end with the same slider positions and the same selected range, the next update computes the same lines; if the update succeeds, the central line is R.calc at the slider values and the sample lines are R.calc at 20 equidistant values of the selected parameter.",
 "all event sequences on an RT1 object whose sliders are parameters in use","unbounded event sequences, caches in between",[PL+":Analyze._update",PL+":Analyze._get_range_lines"])
p("C63","Analyze leaves the slider values in R",
 "After every update of the Analyze widget the parameters of R are the slider values.",
 "all slider positions and selected ranges","all event sequences",[PL+":Analyze._update",PL+":Analyze._get_range_lines"])
p("C64","Inherited References and Examples are combined",
 "If both the decorated object and the inherited docstring have References or Examples, the resulting docstring contains both.",
 "all docstrings","all section contents",[H+":append_numpy_docstring"])
p("C65","Both backends return the same array for accepted shapes",
 "For two objects with the same configuration (functions, parameter definitions and values, angles, geometry mode, flags, I0), set up in two processes by any histories and on any backends, whose input shapes are accepted in the sense of C60, calc returns arrays of the same shape with the same numbers.",
 "all pairs of reachable states, both backends, all shapes of C60, every element","all pairs of histories and shapes",[H+":_lambdify",C+":RT1.calc",C+":RT1._fnevals"])
p("C66","Interaction term converges with ncoefs",
 "In monostatic geometry, as ncoefs of the distribution functions grows, the interaction contribution returned by calc() or interaction() converges to the first-order interaction integral of the documentation, evaluated with the distribution functions themselves (isotropic, Rayleigh, Henyey-Greenstein, nadir-normalised HG, HG-Rayleigh and linear combinations of them).",
 "all distribution functions of these families, all parameter values with |t| < 1, all angles strictly between nadir and the horizon, tau > 0, every tolerance, every history","limit statement over an unbounded number of coefficients",[C+":RT1.interaction",C+":RT1._calc_Fint_1",V+":HenyeyGreenstein",F+":HG_nadirnorm"])
p("C67","Hemispherical reflectance for every surface function",
 "The array computed by hemreflect has one entry per incidence angle (from param_range's start, in the given steps, below the end), and with a growing number of sampling points each entry converges to NormBRDF times the hemispherical reflectance of the documentation (integral of BRDF*cos over the upper hemisphere), for every surface distribution function and both evaluation backends.",
 "all surface functions, parameter values, incidence and azimuth angles, tolerances, numbers of points, histories, backends and scipy versions","limit over the number of sampling points, every function",[PL+":hemreflect",S+":Scatter.calc"])
p("C68","Hemispherical reflectance where the BRDF depends on the exit azimuth or symengine is used",
 "Whenever the evaluation backend is symengine or the distribution function depends on the exit azimuth, hemreflect converges to NormBRDF times the hemispherical reflectance as the number of points grows, for odd and even numbers of points and both scipy generations, called with R or with SRF; the number of points that is enough depends only on the function, the angles and the tolerance.",
 "isotropic, HG, nadir-normalised HG and cosine-lobe functions and their linear combinations, all scalar parameter values in the domain, all angles and steps, every tolerance, every history","limit statement; bound uniform over histories",[PL+":hemreflect",S+":Scatter.calc",C+":RT1.NormBRDF"])
p("C69","Energy-conserving surfaces show a reflectance of NormBRDF",
 "For an Isotropic surface at every incidence angle, and for HG_nadirnorm at nadir incidence, the value shown by hemreflect converges to NormBRDF (hemispherical reflectance one).",
 "all parameter values in the domain, all angles, tolerances and histories, as for C68","limit statement, transcendental integral",[PL+":hemreflect",F+":HG_nadirnorm",F+":Isotropic"])
p("C70","The interaction contribution is not negative",
 "If the truncated expansions of V and SRF are nowhere negative and I0 > 0, omega >= 0, NormBRDF >= 0, 0 <= bsf <= 1, the first-order interaction contribution returned by calc() or interaction() is a number >= 0, monostatic or bistatic.",
 "all volume and surface functions, parameters, angles, layer depths, histories, backends","universally quantified inequality on an infinite input space",[C+":RT1.interaction",C+":RT1.calc"])
p("C71","Size of the interaction contribution",
 "The interaction contribution is bounded by NormBRDF (1-bsf) I0 mu_0 omega times 2 pi max|V| max|SRF| times (exp(-tau/mu_ex) min(tau/mu_0, 1/tau) + exp(-tau/mu_0) min(tau/mu_ex, 1/tau)), the maxima being those of the truncated expansions; in particular it vanishes as tau tends to 0.",
 "all functions, parameters, angles, layer depths, histories, backends","universally quantified inequality on an infinite input space",[C+":RT1.interaction",C+":RT1.calc"])
p("C72","Scaling of the three contributions",
 "Multiplying NormBRDF by a and omega by b, with everything else unchanged, multiplies the surface contribution by a, the volume contribution by b and the interaction contribution by a b (no dB conversion).",
 "all factors, functions, parameters and angles, any two evaluations in any two histories; monostatic, or bistatic with no fixed angle","metamorphic relation between two evaluations over an infinite input space",[C+":RT1.calc",C+":RT1.update_params"])
p("C73","polarplot draws the function and its approximation",
 "For every scattering distribution with numerical parameters, polarplot draws, for every parameter set and every incidence angle, the distribution function in the plane of incidence (solid) and, if ncoefs is known, its truncated Legendre expansion (dashed), under either evaluation backend.",
 "all functions, parameter sets, incidence angles, histories, backends","every function and parameter value; the failing combinations depend on the symbolic form of the function",[PL+":polarplot",S+":_Scatter.legendre_expansion"])
p("C74","polarplot draws the function and its approximation where these depend on the exit zenith angle, or with symengine",
 "If the backend is symengine, or the function and its expansion depend on the exit zenith angle, polarplot succeeds: for every parameter set and every incidence angle the solid line is the distribution function at (t_0, theta, 0, 0) for theta in steps of 0.01 over the upper half circle (surfaces) or the full circle (volumes), the dashed line is the truncated expansion at the same angles; the dashed line is missing exactly if aprox is False or ncoefs is not known.",
 "all functions, parameter sets, incidence angles, histories","every function and parameter value, any number of sets and angles",[PL+":polarplot",S+":_Scatter.calc",S+":_Scatter.legendre_expansion"])
p("C75","The dashed line of polarplot approaches the solid line",
 "For Isotropic, Rayleigh, Henyey-Greenstein, HGRayleigh, HG_nadirnorm functions and their combinations, for every tolerance there is a number of coefficients from which on every point of the dashed line is within the tolerance of the same point of the solid line.",
 "all these functions, parameter values, incidence angles, tolerances","limit statement",[PL+":polarplot",S+":_Scatter.legendre_expansion"])
p("C76","polarplot reports missing parameters",
 "If one of the given parameter sets lacks a parameter of the distribution function, polarplot raises AssertionError, draws nothing and leaves every object unchanged.",
 "all functions, parameter sets, histories","all functions and all subsets of their parameters",[PL+":polarplot"])
p("C77","Azimuthal rotation invariance in bistatic mode",
 "In bistatic mode without fixed angles, and with a[1] == a[2] in all phase functions, adding the same amount to p_0 and p_ex changes none of the surface, volume and interaction contributions.",
 "all histories, rotations, angles, parameters, units, sets of functions with a[1] == a[2]","the rotation is any real number and every set of functions is meant",[C+":RT1.calc",C+":RT1._fnevals",S+":scattering_angle_symbolic"])
p("C78","Full turns and mirroring of the azimuths",
 "Adding full turns to the azimuth angles, or changing the sign of both (mirroring the scene), changes none of the contributions, for all weights a, in monostatic mode and in bistatic mode without fixed angles.",
 "all histories, numbers of turns, angles, parameters, units, functions, weights","all integers and all functions are meant",[C+":RT1.calc",C+":RT1._fnevals",S+":scattering_angle_symbolic"])
p("C79","Analyze checks the parameters and shows sliders for those in use",
 "Analyze raises AssertionError exactly when some symbol that R needs (in a parameter definition or a phase function, not an angle) is neither given as keyword nor set in R; otherwise it shows one slider, in the order given, for each keyword that R needs and for no other.",
 "all reachable states of R, all functions, definitions and keyword arguments","all histories, functions and keyword sets are meant",[PL+":_check_params",PL+":Analyze.__init__"])
p("C80","A rejected Analyze call leaves R unchanged",
 "If Analyze raises because of its arguments, R keeps its parameters, functions, flags, geometry and angles, and so do all other objects.",
 "all reachable states of R, all keyword arguments","all histories are meant",[PL+":_check_params",PL+":Analyze.__init__"])
p("C81","What a started Analyze widget leaves in R",
 "After Analyze started successfully, R is monostatic, its incidence angles are the 100 values of the plot and p_0 is 0, each slider's start value is stored under its name, all other parameters are unchanged, and no parameter that R needs is missing.",
 "all reachable states of R, all keyword arguments","all histories, functions and keyword sets are meant",[PL+":Analyze.__init__"])
p("C82","What Analyze3D shows depends only on the slider positions",
 "After creating Analyze3D for any R, two ways of moving its sliders that leave all of them at the same values show the same surfaces (or raise the same error).",
 "all histories of R, all contributions, sample counts and keyword arguments, all sequences of slider moves","every order of moves and every previous history of R is meant",[PL+":Analyze3D._update",PL+":Analyze3D._getvals"])
p("C83","The surfaces of Analyze3D are R.calc() over the exit hemisphere",
 "For each selected contribution and each exit direction of the grid (polar angles 0 to 89 degrees, azimuths -180 to 180 degrees), the drawn point lies in that direction at the distance that R.calc() returns for that contribution when R is set by plain calls to bistatic geometry with p_0 = 0, the grid, the incidence angle of the slider, linear units, int_Q true exactly if 'i' is selected, and the slider values. If R.calc() raises, the update raises the same error.",
 "all histories of R, all contributions, sample counts, keyword arguments and sequences of slider moves, all grid positions","a relation between a stateful widget and plain use of the API, for all states",[PL+":Analyze3D._getvals",PL+":Analyze3D._cx_set_intq",C+":RT1.calc"])
p("C84","Analyze3D does not depend on R.int_Q",
 "What Analyze3D shows is the same whether R.int_Q is True or False: the interaction is part of the Total exactly if 'i' is among the contributions.",
 "all histories of R, both values of int_Q, all contributions, keyword arguments and slider moves","needs two runs compared for every state",[PL+":Analyze3D._cx_set_intq"])
p("C85","Every slider of Analyze3D sets its parameter",
 "For every parameter that was given to Analyze3D and that R needs there is a slider over the given range, and after an update R.param_dict holds its value; parameters without a slider keep their values.",
 "all histories of R, all parameter names and ranges, all slider moves","must hold for every parameter name",[PL+":Analyze3D._init_figure",PL+":Analyze3D._update"])
p("C86","Analyze3D rejects unknown contributions and missing parameters",
 "Analyze3D raises ValueError for a contribution letter other than t, s, v, i, and AssertionError if a parameter that R needs is neither given nor stored; otherwise it shows sliders for exactly the given parameters that R needs, and one for the incidence angle from 0.1 to 89.9 degrees starting at 45.",
 "all reachable states of R, all contribution strings and keyword arguments","all histories, functions and keyword sets are meant",[PL+":Analyze3D.__init__",PL+":_check_params"])
p("C87","What Analyze3D leaves in R",
 "After any slider moves, R is bistatic with p_0 = 0, the exit angles are the grid, all incidence angles are the slider's value, R.dB is False, and int_Q and sig0 are as before the widget was created.",
 "all histories of R, all contributions, sample counts, keyword arguments and slider moves","every history of the widget is meant",[PL+":Analyze3D.__init__",PL+":Analyze3D._update"])
p("C88","set_loglevel attaches one handler and touches nothing of the user's",
 "However often set_loglevel is called, with accepted or rejected arguments, at most one handler of the package is attached to the logger, and exactly one after a call that returns if the user removed none; handlers attached by the user, their levels and formats, and the root logger are never changed.",
 "all histories of set_loglevel calls, user handlers attached or removed, level changes","duplicate output depends on the whole call history of the process",[I+":set_loglevel",I+":_ensure_handler"])
p("C89","Records written after set_loglevel",
 "After set_loglevel(level, ...) returns, the package's handler writes a record exactly when its severity is at least the level; every documented level name, in any capitalisation, and every int is accepted.",
 "all histories, all levels, formats and severities","levels and severities are unbounded integers and the history decides what is already configured",[I+":set_loglevel"])
p("C90","A rejected set_loglevel call changes nothing",
 "A set_loglevel call that raises leaves the set of records written and the formats as they were.",
 "all histories and all arguments","the crash point is inside the call and every previous configuration is meant",[I+":set_loglevel",I+":_set_logfmt"])
p("C91","Documented log formats",
 "The documented short-names plain, basic, timed and debug are accepted and show the documented fields in order, any format string with a field is used as it stands, and without a format logging.BASIC_FORMAT is used.",
 "all histories, levels and format strings","all format strings are meant",[I+":set_loglevel",I+":_log_format_presets"])
p("C92","Only the last set_loglevel call counts",
 "With a format given, the outcome of set_loglevel, the levels and the format it leaves do not depend on earlier calls; without a format the last one set is kept, BASIC_FORMAT in a fresh process.",
 "all pairs of histories and all arguments","it compares all histories",[I+":set_loglevel",I+":_set_logfmt"])
p("C93","Thin-layer limit",
 "With everything but tau fixed, the contributions calc() returns approach those of bare soil as tau goes to 0: surface within K*tau of the bare-soil value, volume and interaction within K*tau of 0, with one K for all evaluations, modes and histories.",
 "all positive optical depths, phase functions, BRDFs, geometries, modes and histories","a limit cannot be tested by finitely many depths",[C+":RT1.calc",C+":RT1._calc_Fint_1",C+":RT1._calc_Fint_2"])
p("C94","Thick-layer limit",
 "With everything but tau fixed, as tau grows the surface contribution approaches that of the uncovered fraction bsf, the volume contribution that of an infinitely deep layer and the interaction contribution 0, each within K/tau with one K for all evaluations, modes and histories.",
 "all positive optical depths, phase functions, BRDFs, geometries, modes and histories","a limit cannot be tested by finitely many depths",[C+":RT1.calc",C+":RT1._calc_Fint_1",C+":RT1._calc_Fint_2"])
p("C95","The dashed line of Analyze is the total without interaction",
 "With int_Q=True Analyze also draws surface + volume; the values drawn are, in all units and modes, the total that calc() returns after int_Q is switched off, switching int_Q off changes neither the surface nor the volume contribution, and computing the line changes no object and no later result.",
 "all histories, objects, units and modes with tau not a plain number, all later calls","the line must agree with a second evaluation in every state",[C+":RT1._surface_volume",PL+":Analyze._update"])
p("C96","The direct contributions conserve energy",
 "In intensity units, the power that the surface and volume contributions of calc() carry into the upper hemisphere (their integral over all exit directions, weighted with the cosine of the exit angle) exists and is at most the incident power I0 cos(t_0) times [NormBRDF * reflectance * ((1-bsf) exp(-tau/cos t_0) + bsf) + (1-bsf) omega (1 - exp(-tau/cos t_0))]; so it never exceeds the incident power if omega <= 1 and the surface does not reflect more than it receives.",
 "all normalised volume functions and BRDFs that are not negative, all incident directions, tau > 0, omega, NormBRDF, bsf in [0,1], all objects and histories used to sample the exit directions","an integral over a continuum of calls, with attenuation singular at grazing exit angles",[C+":RT1.calc",C+":RT1.surface",C+":RT1.volume"])
p("C97","Rounding errors of the surface contribution",
 "Evaluated in IEEE double precision (round to nearest even, with underflow and overflow), the surface contribution has a relative error of at most 2 (9 + k + 6 T) 2^-52, where T is the optical depth along the two paths and k 2^-52 the relative error of the BRDF value (2 (15 + k + 6 T) 2^-52 in sigma0 units); no intermediate result over- or underflows.",
 "all parameters that are 0 or between 2^-60 and 2^60, bsf in [0,1], all directions above the horizon, T <= 300, every exp and cos with a relative error of at most 2^-52","tests compare a few values with a tolerance",[C+":RT1._surface",C+":RT1.surface"])
p("C98","Rounding errors of the volume contribution",
 "Evaluated in IEEE double precision, the volume contribution has a relative error bounded by a multiple of 2^-52 (as C97 for the surface).",
 "all parameters in the range of C97, every exp and cos with a relative error of at most 2^-52","the error is largest for thin layers that tests do not use",[C+":RT1._volume",C+":RT1.volume"])
p("C99","The interaction contribution is a number",
 "Evaluated in IEEE double precision, the interaction contribution (and so the total) is not NaN for valid parameters and directions strictly between nadir and the horizon.",
 "all optical depths, directions, fn-coefficients, every library whose exp, log and expi return the closest double","over- and underflow appear only in part of the parameter space",[C+":RT1._interaction",C+":RT1._S2_mu",C+":RT1._calc_Fint_1",C+":RT1._calc_Fint_2"])
p("C100","Threads working on different objects do not disturb each other",
 "If several threads call methods of RT1 objects at the same time, each thread on an object of its own, every call returns what it would return if the thread ran alone, the objects end up as if their threads had run alone, and every thread that gets enough turns finishes. The objects may share V and SRF, and always share the class-level caches.",
 "all histories that build up the objects, all numbers of threads, all sequences of calls per thread (configuration, evaluation, Jacobian) and all schedules, i.e. orders in which the atomic steps of the threads are executed",
 "the caches are shared by all objects and cleared for all of them by every set_geometry; interference would need a particular schedule",
 [C+":RT1.calc", C+":RT1.surface", C+":RT1.volume", C+":RT1.interaction", C+":RT1.jacobian", C+":RT1.set_geometry", S+":Scatter.calc"])
p("C101","Threads sharing an object",
 "If two threads call methods of the same RT1 object at the same time, each call returns what it returns when the calls are made one after the other in some order.",
 "all histories, all pairs of calls on one object and all schedules; the partial theorem: all numbers of threads that only evaluate, all schedules",
 "parameters passed to calc, surface, volume and interaction are stored in the object before the evaluation starts, so a wrong result needs a particular schedule",
 [C+":RT1.calc", C+":RT1.surface", C+":RT1.update_params", C+":RT1.param_dict"])
p("C102","Interrupted evaluations",
 "If a call of calc, surface, volume, interaction or jacobian is interrupted at any point (KeyboardInterrupt, MemoryError, ...), everything evaluated or read afterwards is as if only update_params() had been called with the parameters of the interrupted call (or, before that, as if nothing had been called); in particular, repeating the interrupted call returns what it would have returned.",
 "all histories that respect the documented restrictions, all interrupted calls, all points of interruption (between any two steps, also between computing, storing and compiling the interaction coefficients), all later sequences of evaluations that use known parameter names",
 "the state left behind depends on the instant of the interruption; tests cannot enumerate them",
 [C+":RT1.calc", C+":RT1.surface", C+":RT1.volume", C+":RT1.interaction", C+":RT1.jacobian", C+":RT1.update_params", C+":RT1._fn", C+":RT1._fnevals"])
p("C103","Interrupted configuration",
 "If set_geometry, set_monostatic, set_bistatic or an assignment to tau, omega, NormBRDF or bsf is interrupted at any point (KeyboardInterrupt, ...), no value computed before the call survives: later results are those of the settings the object then has. An interrupted set_geometry has assigned the first few of its angles, an interrupted assignment all or nothing, and repeating any of the calls gives the state and results of the uninterrupted call.",
 "all histories that respect the documented restrictions, all these calls with all their arguments, all points of interruption (between any two assignments or cache resets), all later histories",
 "the state left behind depends on the instant of the interruption; tests cannot enumerate them",
 [C+":RT1.set_geometry", C+":RT1.set_monostatic", C+":RT1.set_bistatic", C+":RT1.tau", C+":RT1.omega", C+":RT1.NormBRDF", C+":RT1.bsf", C+":RT1._clear_geom_cache", C+":RT1._clear_param_cache"])
p("C104","Sessions with interrupted calls",
 "In a session in which any number of calls (evaluations, jacobian, reads, update_params, set_geometry, assignments to tau, omega, NormBRDF, bsf) are interrupted at any points, the calls that were not interrupted return what they return in a history without interruptions, in which each interrupted call is left out or replaced by the part of its effect a user would expect: update_params() with its parameters, set_geometry() with the first few of its angles, or the assignment. Interrupted calls without parameters leave no trace at all.",
 "all histories that respect the documented restrictions, all later sessions on the existing objects with parameter names already in use (set_monostatic and set_bistatic, given numbers, may be called but not interrupted, see C103), all points of interruption of all interrupted calls",
 "the number of combinations of interruption points is unbounded, and what a broken session leaves behind in caches and stored coefficients is not visible",
 [C+":RT1.calc", C+":RT1.surface", C+":RT1.volume", C+":RT1.interaction", C+":RT1.jacobian", C+":RT1.update_params", C+":RT1.set_geometry", C+":RT1.set_monostatic", C+":RT1.set_bistatic", C+":RT1.tau", C+":RT1._fnevals"])
p("C105","Rounding errors of results in decibels",
 "In double precision, with sig0=True and dB=True (the defaults), the reported level of the surface contribution differs from 10*log10 of its exact value by at most (91 + 6k + 36T + 3|level|)*eps, where T is the optical depth along the two paths (up to 300), k*eps the relative error of SRF.calc and eps=2^-52; a contribution of exactly zero is reported as -inf. In general a result known up to a relative error d is reported in dB up to 6d + (1 + 3|level|)*eps: the absolute error stays of this size also near 0 dB.",
 "every angle below 90 degrees, parameter between 2^-60 and 2^60 (or 0), optical depth up to 300, surface value, and every exp, cos and log10 of relative error at most eps",
 "tests compare with tolerances of their own choice at a few points; the bound holds for all inputs, including levels near 0 dB where the relative error of the level is unbounded",
 [C+":RT1._convert_sig0_db",C+":RT1.surface"])
p("C106","Rounding errors of the volume contribution in decibels",
 "In double precision, with sig0=True and dB=True, a volume contribution that is positive is reported with a finite level that differs from the exact one by at most a multiple of eps*(1 + |level|).",
 "every angle below 90 degrees, parameter between 2^-60 and 2^60 (or 0), optical depth, volume value, and every exp, cos and log10 of relative error at most eps",
 "whether 1 - exp(-T) keeps any digits depends on the optical depth; tests use moderate depths",
 [C+":RT1._convert_sig0_db",C+":RT1.volume"])
p("C107","Rounding errors of the total without interaction",
 "In double precision the sum of the surface and the volume contribution (calc with int_Q=False, first row) in sigma0 units has a relative error of at most 2c*eps with c = 42 + k + max(6T, 4/T), where T is the optical depth along the two paths and k*eps the relative error of V.calc and SRF.calc; in decibels (the default) the error is at most (6c + 1 + 3|level|)*eps, and a total of exactly zero is reported as -inf. For thinner layers the error of the total intensity is still at most 2(20 + k + 6T)*eps times the surface contribution plus the contribution of an infinitely deep layer.",
 "every angle below 90 degrees, parameter between 2^-60 and 2^60 (or 0), optical depth between 2^-43 and 300 (last bound: 0 to 300), surface and volume value, and every exp, cos and log10 of relative error at most eps",
 "tests compare with tolerances of their own choice at a few points",
 [C+":RT1.calc",C+":RT1._surface_volume",C+":RT1._convert_sig0_db"])
p("C108","Rounding errors of the derivatives of the surface contribution",
 "In double precision the derivatives of the surface contribution with respect to tau, NormBRDF and bsf, from which jacobian() is built, agree with the derivatives of the exact surface contribution up to a relative error of a multiple of eps.",
 "every angle below 90 degrees, parameter between 2^-60 and 2^60 (or 0), optical depth up to 300, surface value, and every exp and cos of relative error at most eps",
 "whether a difference keeps its digits depends on the optical depth; tests compare with finite differences at moderate depths",
 [C+":RT1._dsurface_dtau",C+":RT1._dsurface_dNormBRDF",C+":RT1._dsurface_dbsf",C+":RT1.jacobian"])
p("C109","Rounding errors of the derivatives of the volume contribution",
 "In double precision the derivatives of the volume contribution with respect to omega and bsf, from which jacobian() is built, agree with the derivatives of the exact volume contribution up to a relative error of a multiple of eps.",
 "every angle below 90 degrees, parameter between 2^-60 and 2^60 (or 0), optical depth up to 300, volume phase function value, and every exp and cos of relative error at most eps",
 "whether 1 - exp(-T) keeps its digits depends on the optical depth; tests compare with finite differences at moderate depths",
 [C+":RT1._dvolume_domega",C+":RT1._dvolume_dbsf",C+":RT1.jacobian"])
p("C110","Rounding errors of the derivatives with respect to parameters of the distribution functions",
 "In double precision the derivatives of the surface and volume contributions with respect to a parameter of SRF or V, from which jacobian() is built, agree with the derivatives of the exact contributions up to a relative error of a multiple of eps.",
 "every differentiable dependence of the distribution function on the parameter, increasing or decreasing, every angle below 90 degrees, parameter between 2^-60 and 2^60 (or 0), optical depth up to 300, and every exp and cos of relative error at most eps",
 "the distribution function and the sign of its derivative are the user's choice; tests compare with finite differences for a few of them",
 [C+":RT1._d_surface_ddummy",C+":RT1._d_volume_ddummy",C+":RT1.jacobian"])
json_lines="\n".join(json.dumps(x) for x in P)+"\n"
open("/verif/properties.jsonl","w").write(json_lines)
print(len(P))
