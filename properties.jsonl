{"id": "C01", "title": "Announced (l,k) paths solve the piecewise-linear model", "statement": "If preprocessing succeeds, then for every announced pair (l,k) in the table and every initial state, the path obtained by applying the stored transition of (l,k), then of the pair with one period less to go, and so on forever, satisfies the unconstrained equations in periods 0..l-1, the constrained equations in periods l..l+k-1 and the unconstrained equations in every later period.", "quantifier": "all system matrices for which the inverses exist, all dimensions, all (l,k) with 0<=l<=l_max, 0<=k<=k_max, all initial states, all periods (unbounded)", "why_tests_cant": "A test fixes one model and one (l,k); the claim is an identity over all matrices, states and an infinite horizon.", "anchors": ["pydsge/engine.py:get_lam", "pydsge/engine.py:get_omg", "pydsge/engine.py:preprocess_jittable"]}
{"id": "C02", "title": "The announced path is the only one", "statement": "Any path that obeys the (l,k) regime schedule from the given state and is on the linear saddle path p = omg q from period l+k on coincides, period by period, with the path computed from the stored matrices.", "quantifier": "all matrices, states, (l,k), all candidate paths", "why_tests_cant": "Uniqueness quantifies over all alternative paths, which cannot be enumerated.", "anchors": ["pydsge/engine.py:get_lam", "pydsge/engine.py:get_omg", "pydsge/engine.py:preprocess_jittable"]}
{"id": "C03", "title": "Constraint checks are the notional rate on the announced path", "statement": "The value consulted by the equilibrium search at check point 0..4 for the pair (l,k) equals the notional (unconstrained-rule) value of the constrained variable on the announced (l,k) path in period 0, l-1, l, l+k-1 and l+k respectively; the table behind traj/k_map holds the same quantity for every period 0..l_max+k_max+1.", "quantifier": "all matrices, states, (l,k), check points for which the period exists", "why_tests_cant": "Index arithmetic over a two-dimensional recursion; tests only hit a few (l,k).", "anchors": ["pydsge/engine.py:preprocess_jittable", "pydsge/engine.py:preprocess_tmats_jit", "pydsge/engine.py:check_cnst"]}
{"id": "C04", "title": "No uninitialised or out-of-range table entry is ever used", "statement": "With k_max >= 1, preprocessing writes every transition entry before reading it and the equilibrium search never reads a check entry that was not written or lies outside the tables, whatever the state. With k_max = 0 this fails: as soon as the constraint is predicted to bind the search reads outside the table.", "quantifier": "all table sizes, all states", "why_tests_cant": "np.empty garbage and unchecked numba indexing make a wrong read invisible in a run.", "anchors": ["pydsge/engine.py:preprocess_jittable", "pydsge/engine.py:find_lk", "pydsge/engine.py:bruite_wrapper"]}
{"id": "C05", "title": "(0,0) is selected exactly when the linear path never reaches the bound", "statement": "The endogenous search returns k=0 if and only if the notional rate on the linear path is strictly above x_bar in each of the periods 0..l_max (the length of the search table), and then it returns (0,0) with flag 0.", "quantifier": "all states, all models, all l_max,k_max", "why_tests_cant": "An equivalence over all states.", "anchors": ["pydsge/engine.py:find_lk"]}
{"id": "C06", "title": "The lexicographically first admissible (l,k) is selected", "statement": "If the linear path hits the bound and some pair (l,k), k>=1, passes the end-point checks (not below the bound in periods 0, l-1 and l+k where these are slack; not above it in periods l and l+k-1), the search returns flag 0 and the first such pair in (l,k) lexicographic order; it never returns flag 0 with an inadmissible k>=1.", "quantifier": "all states, all models, tables with at most 999 values of l", "why_tests_cant": "Minimality over all pairs for all states.", "anchors": ["pydsge/engine.py:bruite_wrapper", "pydsge/engine.py:find_lk"]}
{"id": "C07", "title": "Meaning of the error flags", "statement": "flag 1 or 2 is returned if and only if the linear path hits the bound and no pair passes the end-point checks; then l=0, and with flag 1 the returned k is the first duration after the first one whose end value is below the bound whose end value is above the bound again; with flag 2 no such duration below k_max exists and k=k_max.", "quantifier": "all states, all models", "why_tests_cant": "Equivalence over all states; error paths are rarely hit by tests.", "anchors": ["pydsge/engine.py:find_lk"]}
{"id": "C08", "title": "Search results index the tables; sentinel is unambiguous up to 999", "statement": "Whatever the state, the returned pair satisfies l<=l_max and k<=k_max, so the transition function never indexes outside its tables, and every run of the search terminates. The failure sentinel 999 is never confused with a result as long as at most 999 values of l are tabulated; with 1000 values a genuine solution l=999 is reported as 'no solution'.", "quantifier": "all states, all table sizes", "why_tests_cant": "Termination and range for every input; the sentinel collision needs an unusual size.", "anchors": ["pydsge/engine.py:find_lk", "pydsge/engine.py:bruite_wrapper"]}
{"id": "C09", "title": "flag 0 is an end-point test, not a proof of equilibrium", "statement": "flag 0 guarantees the constraint inequalities only at the tested periods. It does not guarantee them on the whole announced path: there is a model and a state for which the search returns flag 0 although the notional rate on the announced path is below x_bar in a period in which the path assumes the constraint to be slack.", "quantifier": "all states and models (refutation by witness)", "why_tests_cant": "A run reports flag 0 and looks fine; only the equations reveal the violation.", "anchors": ["pydsge/engine.py:bruite_wrapper", "pydsge/engine.py:find_lk"]}
{"id": "C10", "title": "Parallel preprocessing equals sequential preprocessing", "statement": "Executing the iterations over k of the second preprocessing stage in any order (parallel=True) yields the same tables as the sequential order.", "quantifier": "all matrices and all permutations of the iteration space", "why_tests_cant": "Schedules cannot be enumerated by tests.", "anchors": ["pydsge/engine.py:preprocess_jit_parallel", "pydsge/engine.py:preprocess_jittable"]}
{"id": "C11", "title": "k=0 entries are the linear solution", "statement": "For every l, the stored transition for (l,0) is exactly the linear solution (omg, lam) with zero constant terms; in particular the (1,0) entry used by the Kalman filter equals the (0,0) entry used by the linear transition function.", "quantifier": "all l, all matrices with a valid linear solution", "why_tests_cant": "Induction over l, exact equality.", "anchors": ["pydsge/engine.py:preprocess_jittable", "pydsge/filtering.py:run_filter", "pydsge/filtering.py:get_p_init_lyapunov"]}
{"id": "C12", "title": "The compressed system has exactly the user's solutions", "statement": "The (q,p) system handed to the solver is satisfied by the paths of q and p if and only if the corresponding path of the model variables satisfies every model equation and the constraint equation, and every path of (q,p) comes from a path of the model variables. Provisos: no variable that appears with a lead also appears with a lag in the constraint equation; the constraint is of a form that is encoded as written (C13); every variable in the constraint occurs in some model equation; every coefficient is zero or at least as large as the zero tolerance. Without the first proviso the lead terms are silently dropped and false solutions appear.", "quantifier": "all coefficient matrices, all dimensions, all paths", "why_tests_cant": "All matrices, infinite paths.", "anchors": ["pydsge/gensys.py:gen_sys"]}
{"id": "C13", "title": "Sign of lagged terms in the constraint", "statement": "For a model read from YAML the encoded constraint row equals the user's constraint r = a*x + c*eps for contemporaneous variables and shocks. For a lagged term b*x(-1) the encoded coefficient is -b: the user's constraint is encoded faithfully if and only if it has no lagged terms. For hand-made systems with a shock row: if and only if there are no lagged terms and either the shock row is zero or the constrained variable has coefficient one; without a shock row always.", "quantifier": "all coefficients", "why_tests_cant": "All coefficients.", "anchors": ["pydsge/gensys.py:gen_sys_from_yaml", "pydsge/gensys.py:gen_sys"]}
{"id": "C14", "title": "Variables are partitioned, none twice and none lost", "statement": "The reported variable list vv consists of the controls followed by the states; no variable (including automatically added _lag variables, whose names must not clash with declared ones) appears twice, and one is missing only if all its coefficients in all equations, and its lag in the constraint, are numerically zero. If a variable is missing in a model with one equation less than variables, solving raises ValueError; otherwise the square system is built.", "quantifier": "all coefficient matrices", "why_tests_cant": "All matrices.", "anchors": ["pydsge/gensys.py:gen_sys"]}
{"id": "C15", "title": "Orthogonal rotation preserves the solutions", "statement": "Replacing both sides of the system by their RQ-rotated versions (and then normalising the lower block) leaves the set of solution paths unchanged and makes the upper right block of the right-hand side zero and its lower right block the identity.", "quantifier": "all matrices with the stated factorisation", "why_tests_cant": "Equivalence over all paths.", "anchors": ["pydsge/gensys.py:gen_sys", "pydsge/engine.py:preprocess_jittable"]}
{"id": "C16", "title": "Horizon defaults are sticky and idempotent", "statement": "Once horizons have been set, re-solving without l_max/k_max keeps them, any number of times. An explicit l_max is stored as l_max+1, with l_max<2 corrected to 2 when k_max>0. Hence the undocumented default (stored 3) differs from explicitly passing the documented default l_max=3 (stored 4); and l_max<2 without k_max raises TypeError.", "quantifier": "all histories of set_par/gen_sys calls and arguments", "why_tests_cant": "History property; arithmetic corner cases.", "anchors": ["pydsge/gensys.py:gen_sys"]}
{"id": "C17", "title": "A failed re-solve is not atomic", "statement": "If solving raises, the parameters, x_bar, variable order, dimensions and observation matrices already have their new values while the transition tables are still those of the last successful solve; so after a failed set_par, get_par() reports parameters that the transition function does not use. Before any of these assignments (failure in evaluating the parameters) only par has changed.", "quantifier": "all models, all failing parameter vectors, all failure points", "why_tests_cant": "Crash-point property.", "anchors": ["pydsge/gensys.py:gen_sys_from_yaml", "pydsge/gensys.py:gen_sys", "pydsge/mpile.py:set_par"]}
{"id": "C18", "title": "Shock columns must load", "statement": "The last neps entries of the state block are the shocks, in declared order, if and only if every shock has a coefficient above tolerance in some equation or the constraint; a shock whose loading evaluates to zero is moved to the controls and the state/shock layout assumed by the transition function no longer holds.", "quantifier": "all coefficient matrices", "why_tests_cant": "Depends on parameter values (e.g. a zero loading), not on code paths tests exercise.", "anchors": ["pydsge/gensys.py:gen_sys"]}
{"id": "C19", "title": "The transition depends only on the state block; degenerate case without states", "statement": "With at least one endogenous state, t_func reads exactly the last dimq-neps entries of the given vector: two vectors that agree there give the same result, and passing the full vector or the state block alone is equivalent. With no endogenous state (dimq = neps) the slice selects the whole vector and every call with a non-empty full state fails.", "quantifier": "all states, models, dimensions", "why_tests_cant": "The degenerate -0 slice only occurs for special parameter values.", "anchors": ["pydsge/tools.py:t_func", "pydsge/tools.py:irfs"]}
{"id": "C20", "title": "set_k decoding", "statement": "linear=True forces (0,0); None or a bool requests the endogenous search; a tuple (l,k) is used as is; an integer n is used as (0,n) for n<>0 and as (1,0) for n=0; any k equal to -1 requests the search. A forced pair always returns flag 0 and is returned unchanged.", "quantifier": "all set_k arguments, states, models", "why_tests_cant": "All argument shapes.", "anchors": ["pydsge/tools.py:t_func", "pydsge/engine.py:t_func_jit"]}
{"id": "C21", "title": "Observables from the transition equal observables of the new state", "statement": "For every state, shock and regime choice, the observables returned by t_func(get_obs=True) equal o_func applied to the new state returned by t_func without get_obs, and q, (l,k) and the flag are the same.", "quantifier": "all states, shocks, regime choices, models", "why_tests_cant": "Identity over all inputs; the two code paths are never compared by tests.", "anchors": ["pydsge/tools.py:t_func", "pydsge/tools.py:o_func", "pydsge/engine.py:t_func_jit"]}
{"id": "C22", "title": "The linear simulation is linear", "statement": "With linear=True the transition, and any simulated path, is additive and homogeneous in (initial state, shocks) jointly, given zero terms at (0,0).", "quantifier": "all states, shock sequences of any length, scalars", "why_tests_cant": "Superposition over all inputs and horizons.", "anchors": ["pydsge/tools.py:t_func", "pydsge/tools.py:simulate", "pydsge/tools.py:irfs"]}
{"id": "C23", "title": "irfs with a given set_k reproduces the announced path", "statement": "With set_k=(l,k) and no shock after period 0, the regime used in period t is (l-t,k) for t<=l and (0,max(k+l-t,0)) afterwards, so the simulated path is exactly the announced (l,k) path of the first period; likewise set_k=n for the announced (0,n) path. With shocks in any periods the same durations are used and reported in each period, with no error flag.", "quantifier": "all models, states, horizons T, (l,k)", "why_tests_cant": "Any horizon and pair.", "anchors": ["pydsge/tools.py:irfs"]}
{"id": "C24", "title": "force_init_equil holds the equilibrium between shocks - but only if some shock has a nonzero period", "statement": "When forcing is active, in a period without shocks the regime is the previous one with one period elapsed, so between two shocks the simulated path is the announced path of the last shock period. The documented default (forcing on) is inactive when every shock is in period 0: then the equilibrium is recalculated each period. When active, periods before the first shock are simulated with (0,0) even if the initial state makes the constraint bind. The flag for multiple equilibria is set exactly if in some held period the search would find other durations.", "quantifier": "all shock lists, states, models, horizons", "why_tests_cant": "Needs multiplicity of equilibria or non-zero initial states to be visible.", "anchors": ["pydsge/tools.py:irfs"]}
{"id": "C25", "title": "Normalisation of the shock list", "statement": "A bare name is (name,1,0), a pair gets period 0, triples are unchanged. The shock vector of period t contains, for each shock, the size of the last listed entry for that name and period, zero otherwise. An unknown shock name raises ValueError if and only if its period lies within the horizon.", "quantifier": "all shock lists, all periods", "why_tests_cant": "All lists of any length.", "anchors": ["pydsge/tools.py:irfs"]}
{"id": "C26", "title": "simulate: shape, composition and masking", "statement": "The result has one state more than shocks, starts at the initial state, and simulating a concatenation of shock sequences equals simulating the second from the last state of the first. A NaN mask entry leaves the shock unchanged; with the default operation any other entry m multiplies it (so it replaces the shock, as documented, only if m=0 or the shock is 1).", "quantifier": "all shock sequences, masks, models", "why_tests_cant": "All lengths and masks.", "anchors": ["pydsge/tools.py:simulate"]}
{"id": "C27", "title": "The variable-order guard in simulate can never fire", "statement": "simulate promises to raise if the variable ordering changes with the parameters. The guard compares the new order with itself: for every model and parameter vector it passes, also when the order differs from the order used to label the results.", "quantifier": "all models and parameter vectors", "why_tests_cant": "A guard that never fires is invisible in passing tests.", "anchors": ["pydsge/tools.py:simulate", "pydsge/mpile.py:set_par"]}
{"id": "C28", "title": "simulate without source always fails", "statement": "Calling simulate with pars, resid and init but without source raises TypeError although all inputs are given.", "quantifier": "all inputs", "why_tests_cant": "Error on every input of a documented call shape.", "anchors": ["pydsge/tools.py:simulate"]}
{"id": "C29", "title": "traj reports the path of a different duration", "statement": "traj(state,l,k) returns for k>=1 the constraint values of the announced (l,k-1) path, and for k=0 those of (l,k_max), not those of (l,k).", "quantifier": "all states, models, (l,k)", "why_tests_cant": "Plausible-looking output.", "anchors": ["pydsge/tools.py:traj"]}
{"id": "C30", "title": "traj and k_map use the system of their first call", "statement": "The trajectory tables are computed at the first traj/k_map call and never refreshed: after any later parameter change the tables are still those of the parameters at that first call, while x_bar and the search use the new ones.", "quantifier": "all histories of set_par/traj/k_map calls", "why_tests_cant": "History property.", "anchors": ["pydsge/tools.py:traj", "pydsge/tools.py:k_map"]}
{"id": "C31", "title": "k_map layout", "statement": "k_map(state,l,k) returns, relative to x_bar, the constraint value in period i+k of the announced (i,k) path for every i<l_max and in period l+i of the announced (l,i) path for every i<k_max.", "quantifier": "all states, models, (l,k)", "why_tests_cant": "Index arithmetic.", "anchors": ["pydsge/tools.py:k_map", "pydsge/engine.py:preprocess_tmats_jit"]}
{"id": "C32", "title": "shock2state sets exactly one entry", "statement": "shock2state returns the zero state of length dimq except for the given size at the position of the named shock; an unknown name raises.", "quantifier": "all shock names and sizes, dimensions", "why_tests_cant": "All positions.", "anchors": ["pydsge/tools.py:shock2state"]}
{"id": "C33", "title": "Lags of any order are expanded faithfully", "statement": "After expansion of lags, a path of the original variables satisfies the original equations if and only if the path extended by the auxiliary _LAG variables satisfies the expanded equations; no symbol with a lag below -1 remains.", "quantifier": "all equation systems, all lags, all paths", "why_tests_cant": "Any lag length and any path.", "anchors": ["pydsge/parser.py:DSGE.parse"]}
{"id": "C34", "title": "Leads up to two are expanded faithfully, longer leads are not", "statement": "The same holds for leads of at most two periods. A lead of three or more is expanded to an auxiliary variable whose equation refers to the base variable one period ahead, so x(+3) is treated as x(+2): there is a system and a path for which the equivalence fails.", "quantifier": "all equation systems, all leads, all paths", "why_tests_cant": "Shipped models have leads of one.", "anchors": ["pydsge/parser.py:DSGE.parse"]}
{"id": "C35", "title": "Lagged shocks are expanded faithfully", "statement": "A shock appearing with lags is replaced by an auxiliary variable equal to the shock; equivalence of solutions as for lags, and no lagged shock remains.", "quantifier": "all equation systems, all shock lags, all paths", "why_tests_cant": "Any lag length.", "anchors": ["pydsge/parser.py:DSGE.parse"]}
{"id": "C36", "title": "Expansion keeps the system square", "statement": "If the declared equations number one less than the declared variables (otherwise SyntaxError), then after every expansion step the equations still number one less than the variables.", "quantifier": "all models", "why_tests_cant": "Counting over loops of unbounded length.", "anchors": ["pydsge/parser.py:DSGE.parse"]}
{"id": "C37", "title": "The coefficient matrices are the model equations", "statement": "For equations affine in variables and shocks, evaluating an equation on any path equals its constant plus AA*x(t+1)+BB*x(t)+CC*x(t-1)-PSI*eps(t) with the compiled matrices: the matrices lose nothing but the constant term.", "quantifier": "all affine equations and all parameter values and paths", "why_tests_cant": "Identity over all equations.", "anchors": ["pydsge/parser.py:DSGE.get_matrices"]}
{"id": "C38", "title": "Observation equations: lagged terms are dropped silently", "statement": "The compiled observation equals the declared expression for every state if the expression involves only contemporaneous variables; terms with lags are dropped without an error.", "quantifier": "all observation equations", "why_tests_cant": "Silent.", "anchors": ["pydsge/parser.py:DSGE.get_matrices"]}
{"id": "C39", "title": "parafunc definitions resolve in any order, circular ones raise", "statement": "The resolution loop terminates for every set of definitions. If each definition only refers to known names and to definitions that are (transitively) non-circular, all are resolved whatever the declaration order, and to values independent of that order; otherwise NameError is raised.", "quantifier": "all sets of definitions and all orders", "why_tests_cant": "Termination and order independence.", "anchors": ["pydsge/parser.py:DSGE.get_matrices"]}
{"id": "C40", "title": "The shock covariance is symmetric and cross-covariances cannot be declared", "statement": "The compiled covariance matrix is symmetric; its entry for each declared shock is the declared value. A key naming two shocks ('e_a, e_b') makes parsing raise SyntaxError because the key itself is taken as a shock name.", "quantifier": "all covariance sections", "why_tests_cant": "The two-shock code path looks supported.", "anchors": ["pydsge/parser.py:DSGE.parse"]}
{"id": "C41", "title": "Reading a model through the cache equals parsing it - except path and functions file", "statement": "A read with a cache hit returns a model parsed from the same YAML text, and - if the file has a functions file - the same functions text, as the file. But it keeps the path of the file first read with that text, and if the file has no functions file it may return a model compiled with the functions of another file.", "quantifier": "all histories of reads and file contents", "why_tests_cant": "History property of a process-global cache.", "anchors": ["pydsge/parser.py:crawl_cached_models", "pydsge/parser.py:DSGE.read"]}
{"id": "C42", "title": "Models obtained by read are isolated, models obtained from a dict are shared", "statement": "Modifying a model returned by DSGE.read never changes the result of a later read. Two calls of gen_sys_from_dict with equal dicts return the same object, so a modification through one is visible through the other.", "quantifier": "all histories of read/modify operations", "why_tests_cant": "History and aliasing.", "anchors": ["pydsge/parser.py:DSGE.read", "pydsge/gensys.py:gen_sys_from_dict"]}
{"id": "C43", "title": "Saved models need data to be loadable", "statement": "Loading a file written by save succeeds if and only if data had been loaded into the model before saving; then name, data, YAML text and stored estimation results are those saved, and the model belongs to the directory of the file.", "quantifier": "all models/histories", "why_tests_cant": "Round-trip over histories.", "anchors": ["pydsge/clsmethods.py:save_meta", "pydsge/clsmethods.py:load_data", "pydsge/parser.py:DSGE.load"]}
{"id": "C44", "title": "Every load/save cycle grows the file", "statement": "Each load stores in the metadata a dump that contains the previous dump, so the size of the stored dump strictly increases with every load/save cycle.", "quantifier": "all models and numbers of cycles", "why_tests_cant": "Unbounded history.", "anchors": ["pydsge/parser.py:DSGE.load", "pydsge/clsmethods.py:save_meta"]}
{"id": "C45", "title": "set_par/get_par round trip for a single parameter", "statement": "After a successful set_par(name,value), get_par(name) is value and every other parameter is unchanged; setting two different parameters commutes; setting a derived parameter or an unknown name raises and changes nothing. A derived parameter is always that of the current (or given) parameters and follows every assignment.", "quantifier": "all models, parameter vectors, names, values, histories", "why_tests_cant": "Round trip over all inputs.", "anchors": ["pydsge/mpile.py:set_par", "pydsge/mpile.py:get_par"]}
{"id": "C46", "title": "Strings are mistaken for vectors when their length matches", "statement": "set_par(name_of_set) selects the documented parameter set unless the length of the string equals the number of parameters or of priors; in those cases (e.g. 'mode' or 'init' with four priors) the string is taken for a parameter vector and the call fails.", "quantifier": "all numbers of parameters and priors, all set names", "why_tests_cant": "Depends on a coincidence of lengths.", "anchors": ["pydsge/mpile.py:set_par"]}
{"id": "C47", "title": "get_par is not read-only", "statement": "get_par() without arguments and get_par(name) leave the model unchanged. get_par with a parameter set ('calib','mode','prior_mean',...; 'prior' only if the model is not used for the draws, see C134) leaves the current parameters reset to the calibration, so a following get_par() differs although no set_par was called and the transition tables are unchanged.", "quantifier": "all models, histories", "why_tests_cant": "Hidden state change.", "anchors": ["pydsge/mpile.py:get_par"]}
{"id": "C48", "title": "'best' is not 'mode' for edited calibrations", "statement": "get_par('best') and get_par('mode') agree on the estimated parameters whenever a mode exists; on all other parameters 'best' keeps current edits while 'mode' returns the calibration.", "quantifier": "all models, edits", "why_tests_cant": "Only visible after edits.", "anchors": ["pydsge/mpile.py:get_par"]}
{"id": "C49", "title": "set_par on a given vector is pure", "statement": "set_par(name,value,npar=v) returns a copy of v that differs exactly at the position of name and changes neither v (contrary to its documentation) nor the model. If v has as many entries as there are priors, the position is that in the prior list - also when that number equals the number of all parameters.", "quantifier": "all vectors, names, models", "why_tests_cant": "All inputs; aliasing.", "anchors": ["pydsge/mpile.py:set_par"]}
{"id": "C50", "title": "get_par(vector) ignores the non-estimated entries", "statement": "For a full-length vector, get_par(vector) returns the vector's estimated entries and the model's current values elsewhere; it returns the vector itself if and only if these coincide. set_par(vector) uses all entries.", "quantifier": "all vectors and models", "why_tests_cant": "All inputs.", "anchors": ["pydsge/mpile.py:get_par", "pydsge/mpile.py:set_par"]}
{"id": "C51", "title": "Models without priors cannot select parameter sets", "statement": "For a model without an estimation section set_par('calib') (and every other set name whose length differs from the number of parameters) raises TypeError.", "quantifier": "all models without priors", "why_tests_cant": "Shipped examples have priors.", "anchors": ["pydsge/mpile.py:set_par", "pydsge/parser.py:DSGE.parse"]}
{"id": "C52", "title": "get_cov changes the model", "statement": "get_cov(npar=v) returns the covariance at v and leaves the model solved at v instead of at its previous parameters.", "quantifier": "all models, vectors", "why_tests_cant": "Hidden state change.", "anchors": ["pydsge/mpile.py:get_cov", "pydsge/mpile.py:get_par"]}
{"id": "C53", "title": "box_check reports exactly the violations - of the vector it is given", "statement": "box_check(v) reports a lower (upper) violation for prior i if and only if v[i] is below (above) its bound, in order. Without an argument it applies the i-th bound to the i-th entry of the full parameter vector, so it reports correctly only if the priors are the first parameters in declaration order.", "quantifier": "all vectors and bounds", "why_tests_cant": "All inputs; misalignment.", "anchors": ["pydsge/mpile.py:box_check"]}
{"id": "C54", "title": "Observables for several parameter vectors leave the model inconsistent", "statement": "o_func(states, pars=...) evaluates each block of states with the observation matrices of its own parameters, and afterwards leaves the model with the last parameter vector but the transition tables of the original one.", "quantifier": "all models and lists of parameter vectors", "why_tests_cant": "Hidden state change.", "anchors": ["pydsge/tools.py:o_func", "pydsge/gensys.py:gen_sys"]}
{"id": "C55", "title": "Posterior draws come from the tail of the chain", "statement": "Every vector returned by get_par('posterior') consists, in its estimated entries, of one row of the last `tune` steps of the chain, and of the calibration elsewhere.", "quantifier": "all chains, tunes, random draws", "why_tests_cant": "All random draws.", "anchors": ["pydsge/mpile.py:posterior_sampler", "pydsge/mpile.py:get_par"]}
{"id": "C56", "title": "The initial covariance is stationary", "statement": "The initial covariance assigned for the Kalman filter and the ensemble filters satisfies P = F P F' + Q for the transition matrix F and shock covariance Q of the linear model, given that the Lyapunov solver solves its equation on the state block.", "quantifier": "all models, matrices, dimensions", "why_tests_cant": "Matrix identity.", "anchors": ["pydsge/filtering.py:run_filter", "pydsge/filtering.py:get_p_init_lyapunov"]}
{"id": "C57", "title": "Repeated filtering does not change the shock covariance - unless dimx equals neps", "statement": "Running the Kalman filter any number of times after setting parameters uses the same state covariance E Q E' each time, provided the number of variables differs from the number of shocks; if they are equal each run transforms the covariance again.", "quantifier": "all models, any number of runs", "why_tests_cant": "History property; dimension coincidence.", "anchors": ["pydsge/filtering.py:run_filter"]}
{"id": "C58", "title": "Shocks are recovered from consecutive states", "statement": "If x = F xp + E eps and the pseudo-inverse is a left inverse of E, get_eps_lin(x, xp) = eps; for the Kalman filter F and E are those of the linear transition function, so get_eps_lin(t_func(xp,eps,linear=True), xp) = eps.", "quantifier": "all states, shocks, models", "why_tests_cant": "Identity over all inputs.", "anchors": ["pydsge/filtering.py:get_eps_lin", "pydsge/tools.py:t_func"]}
{"id": "C59", "title": "extract and simulate are inverse for the linear filter", "statement": "For the Kalman filter, simulating (linear=True) from the extracted initial state with the extracted shocks reproduces exactly the path that extract built while extracting.", "quantifier": "all data lengths, models, filter results", "why_tests_cant": "Any sample length.", "anchors": ["pydsge/filtering.py:extract", "pydsge/tools.py:simulate"]}
{"id": "C60", "title": "Filtering guards", "statement": "run_filter raises NotImplementedError if the data has exactly one column or a number of columns different from the number of shocks, whatever the filter; the likelihood returned by get_ll is never NaN. Without get_ll the states are returned.", "quantifier": "all data shapes, filters", "why_tests_cant": "All inputs.", "anchors": ["pydsge/filtering.py:run_filter", "pydsge/filtering.py:get_ll"]}
{"id": "C61", "title": "Filter selection", "statement": "Long and short names select the same filter; every other name, including misspelt ones, silently selects the ensemble filter. The inversion filter and both particle filters cannot be created by any argument set, and running the ensemble filter with dispatch=True always raises. The default ensemble size is half the square of the number of states, rounded down, plus one.", "quantifier": "all filter names and arguments", "why_tests_cant": "All strings.", "anchors": ["pydsge/filtering.py:create_filter", "pydsge/filtering.py:run_filter"]}
{"id": "C62", "title": "All extraction attempts use the same seed", "statement": "extract retries a failing sample up to nattemps times, but every attempt is made with the same seed and inputs (documented: a different seed). A success is returned as such; if all attempts fail, the result is None if failures are accepted, and the exception is raised otherwise; interrupts are always raised.", "quantifier": "all seeds, numbers of attempts, failures", "why_tests_cant": "Retry histories.", "anchors": ["pydsge/filtering.py:extract"]}
{"id": "C63", "title": "The log-probability does not depend on call history", "statement": "lprob(par) returns the same value whatever lprob calls were made before, and leaves the global random state as it found it, both when the likelihood evaluation succeeds and when it raises an ordinary exception (with verbose at most 1, or as long as the verbose report itself does not fail).", "quantifier": "all histories of calls, all parameters, all failures", "why_tests_cant": "History and exception paths.", "anchors": ["pydsge/estimation.py:prep_estim"]}
{"id": "C64", "title": "The log-probability is tempered likelihood plus prior", "statement": "lprob is -inf (or the infinite prior value) when the prior is infinite, without evaluating the likelihood; -inf when the likelihood evaluation fails or is -inf and temp>0; otherwise temp*ll + lprior; with temp=0 it is the prior and the likelihood is not evaluated.", "quantifier": "all parameters, temperatures", "why_tests_cant": "All inputs, infinite values.", "anchors": ["pydsge/estimation.py:prep_estim"]}
{"id": "C65", "title": "Remembered linear estimation uses different horizons", "statement": "prep_estim(linear=True) uses horizons (1,0); a later prep_estim() that remembers linear=True uses the given l_max,k_max (3,16) instead.", "quantifier": "all histories", "why_tests_cant": "History property.", "anchors": ["pydsge/estimation.py:prep_estim"]}
{"id": "C66", "title": "Pool bookkeeping", "statement": "mapper is sequential iff no pool attribute exists or debug is set. After an operation that leaves pool=None (prep_estim with debug or ncores=0, mcmc in debug mode), every later irfs/simulate/extract/create_pool call raises AttributeError; with a pool present they all keep the number of workers.", "quantifier": "all histories of operations", "why_tests_cant": "History property.", "anchors": ["pydsge/estimation.py:create_pool", "pydsge/estimation.py:mapper", "pydsge/tools.py:irfs", "pydsge/tools.py:simulate", "pydsge/filtering.py:extract", "pydsge/mcmc.py:mcmc"]}
{"id": "C67", "title": "mcmc with default tune fails after sampling; nwalks is ignored for p0", "statement": "With tune=None and temp=1, mcmc raises TypeError after the sampler has run, so the mode is not stored; with p0=None the initial ensemble is a single vector for every nwalks because the sample size is passed under an unknown keyword.", "quantifier": "all arguments", "why_tests_cant": "Needs a full sampling run.", "anchors": ["pydsge/mcmc.py:mcmc", "pydsge/mpile.py:get_par"]}
{"id": "C68", "title": "Result dictionaries round-trip only for names without extension", "statement": "load_rdict(path,suffix) reads the file written by save_rdict(path,suffix) if the path has at least four characters together with the suffix and neither it nor the suffix makes the name end in .npz; with a path that ends in .npz, or a suffix that completes that extension, load_rdict does not see what save_rdict wrote (it finds whatever was there before); and a path+suffix of fewer than four characters raises IndexError.", "quantifier": "all path strings and suffixes", "why_tests_cant": "All strings.", "anchors": ["pydsge/clsmethods.py:save_rdict", "pydsge/clsmethods.py:load_rdict"]}
{"id": "C69", "title": "load_data is atomic and complete", "statement": "load_data either stores exactly the observable columns in declared order for the rows of the requested range, or raises (missing column, NaN, wrong type) and leaves the model's data unchanged.", "quantifier": "all data frames", "why_tests_cant": "All inputs.", "anchors": ["pydsge/clsmethods.py:load_data"]}
{"id": "C70", "title": "get_sample draws from one walker and ignores its chain argument", "statement": "get_sample picks rows of a single walker's full history rather than recent rows of all walkers, ignores the chain argument, and fails when the history is shorter than the index range it draws from. With w walkers and r = 60/w rounded up it is walker w-r, and the call fails exactly if the history has less than r steps, there are fewer than r walkers, more than r*w draws are requested, or a step drawn from 0..r*w-1 lies beyond the history.", "quantifier": "all chains, sizes, draws", "why_tests_cant": "Random draws.", "anchors": ["pydsge/clsmethods.py:get_sample"]}
{"id": "C71", "title": "Index lookup", "statement": "vix returns for each name its (first) position in vv in order, raising on unknown names or skipping them with dontfail; a single string is treated as one name. oix likewise for observables without skipping.", "quantifier": "all lists", "why_tests_cant": "All lists.", "anchors": ["pydsge/clsmethods.py:vix", "pydsge/clsmethods.py:oix"]}
{"id": "C72", "title": "Where chains are read from", "statement": "get_chain reads the given backend file if one is given, else the sampler in memory, else the backend recorded in the metadata, else the default file; a missing file raises NameError.", "quantifier": "all states", "why_tests_cant": "All combinations.", "anchors": ["pydsge/clsmethods.py:get_chain"]}
{"id": "C73", "title": "sort_nhd splits contributions without loss", "statement": "For any list of contributions, the stacked positive bands and negative bands are contiguous, each starting where the previous one ended, positives are nondecreasing from 0 and negatives nonincreasing from 0, and the last positive level plus the last negative level equals the sum of all contributions.", "quantifier": "all lists of contributions", "why_tests_cant": "Any length.", "anchors": ["pydsge/stats.py:sort_nhd"]}
{"id": "C74", "title": "The historical decomposition adds up", "statement": "In every period the contributions returned by nhd sum over shocks to the simulated state, provided that whenever a constrained regime (k>0) is in force the summed constraint contributions are nonzero; with linear=True always.", "quantifier": "all models, residual series of any length", "why_tests_cant": "Any length, any regimes.", "anchors": ["pydsge/stats.py:nhd"]}
{"id": "C75", "title": "Variance shares", "statement": "Every column of the gfevd result whose variable responds to at least one shock consists of numbers in [0,1] summing to one. The function cannot be applied to the result of extract, which has no 'means' entry.", "quantifier": "all responses", "why_tests_cant": "All inputs.", "anchors": ["pydsge/stats.py:gfevd", "pydsge/filtering.py:extract"]}
{"id": "C76", "title": "The business-cycle index only works without endogenous states", "statement": "mbcs_index raises a dimension error whenever the model has at least one endogenous state.", "quantifier": "all models", "why_tests_cant": "Shape argument.", "anchors": ["pydsge/stats.py:mbcs_index"]}
{"id": "C77", "title": "Dated symbols", "statement": "Shifting a symbol by a then b equals shifting it by a+b, by 0 gives the symbol at the same date, and shifting drops the expectation date; two symbols of a class are equal iff name, date and expectation date agree; the printed form determines name and date for identifiers.", "quantifier": "all names, dates", "why_tests_cant": "All integers and strings.", "anchors": ["pydsge/symbols.py:TSymbol"]}
{"id": "C78", "title": "Announced paths solve the user's own model", "statement": "For every regime pair (l,k) and every initial state, the path generated by the stored decision rules is the image of a path of the model variables that satisfies all the equations the user wrote, the user's constraint in the slack periods and variable = bound in periods l..l+k-1 (provisos of C12).", "quantifier": "all models meeting the provisos, all l, k, all initial states", "why_tests_cant": "All matrices, infinite paths.", "anchors": ["pydsge/gensys.py:gen_sys", "pydsge/engine.py:preprocess"]}
{"id": "C79", "title": "The value compared with the bound is the user's", "statement": "The value the equilibrium search compares with the bound is the value of the constrained variable that solves the user's constraint equation given all other variables on the announced path.", "quantifier": "all models meeting the provisos of C12, all periods", "why_tests_cant": "All matrices, all periods.", "anchors": ["pydsge/gensys.py:gen_sys", "pydsge/engine.py:preprocess"]}
{"id": "C80", "title": "Impulse responses exist", "statement": "On every solved model with at least one endogenous state, irfs without fixed expectations returns exactly T rows for every shock list whose names are known; a name that is not a shock of the model raises ValueError if and only if its period lies within the horizon.", "quantifier": "all solved models, shock lists, horizons, initial states, forcing options", "why_tests_cant": "All models and shock lists; the search must never leave the tables.", "anchors": ["pydsge/tools.py:irfs", "pydsge/engine.py:t_func_jit"]}
{"id": "C81", "title": "Unused and undeclared names are rejected", "statement": "A declared shock or variable that occurs in none of the model equations makes parsing raise SyntaxError, even if it occurs in the constraint or in an observable; so does a name that occurs in a model equation but is not declared, and a parameter with a date.", "quantifier": "all model files and names", "why_tests_cant": "All files.", "anchors": ["pydsge/parser.py:DSGE.parse"]}
{"id": "C82", "title": "The constraint equation may only be dated at t and t-1", "statement": "Unlike model equations, the constraint is not expanded with auxiliary variables: compiling a model whose constraint contains a variable dated t+1 or later raises NotImplementedError, and one dated t-2 or earlier raises as well, instead of being silently ignored.", "quantifier": "all model files, all parameter values", "why_tests_cant": "All files and dates.", "anchors": ["pydsge/parser.py:DSGE.get_matrices"]}
{"id": "C83", "title": "Random parameter sets cannot be assigned", "statement": "set_par('prior') and set_par('posterior') never succeed, whatever the model, the chain and the number of parameters: the draws come as a list of vectors, which is taken for one vector.", "quantifier": "all models with an estimation section, all chains", "why_tests_cant": "All models and chains.", "anchors": ["pydsge/mpile.py:set_par", "pydsge/mpile.py:get_par"]}
{"id": "C84", "title": "Shocks cannot be recovered with the ensemble filter", "statement": "get_eps_lin with any filter but the linear one raises ValueError for every pair of states of a solved model with at least one shock and fewer shocks than states-plus-shocks: the shapes it combines never agree. With the shapes it expects (states of the period before, states and shocks of the period) it returns shocks that reproduce the observed change.", "quantifier": "all solved models, all pairs of states", "why_tests_cant": "All models and dimensions.", "anchors": ["pydsge/filtering.py:get_eps_lin"]}
{"id": "C85", "title": "Default measurement-error covariance", "statement": "create_obs_cov returns a diagonal, positive semi-definite matrix whose j-th diagonal entry is scale squared times the (population) variance of the j-th observable; it is singular exactly if the scale is zero or an observable is constant.", "quantifier": "all data sets and scales", "why_tests_cant": "All data sets.", "anchors": ["pydsge/filtering.py:create_obs_cov"]}
{"id": "C86", "title": "Debug mode is permanent", "statement": "After any call with debug=True (prep_estim, irfs, simulate, prior_sampler) every later batch of tasks of this model runs sequentially, whatever the debug argument of later calls. Extraction with the linear filter ignores its debug argument; it restores the flag if it succeeds and leaves debug mode on if it raises.", "quantifier": "all histories of operations", "why_tests_cant": "History property.", "anchors": ["pydsge/tools.py:irfs", "pydsge/tools.py:simulate", "pydsge/filtering.py:extract", "pydsge/estimation.py:mapper"]}
{"id": "C87", "title": "Settings of prep_estim are remembered", "statement": "The number of ensemble members, linear, the seed and use_prior_transform are those given in the call, else the last ones given in an earlier call (even one that raised), else the defaults (300, False, 0, False). Hence after prep_estim(linear='IF'), which always raises, every later prep_estim call that does not set linear raises too. Without an explicit seed prep_estim itself starts from an unseeded random state.", "quantifier": "all histories of calls and arguments", "why_tests_cant": "History property.", "anchors": ["pydsge/estimation.py:prep_estim"]}
{"id": "C88", "title": "The stored mode is the best recent draw", "statement": "With temp=1 and an explicit tune, mcmc stores the position with the highest log-probability among the last tune steps of all walkers together with that log-probability; it stores one whenever there is at least one draw.", "quantifier": "all chains, numbers of walkers, tune", "why_tests_cant": "All chains.", "anchors": ["pydsge/mcmc.py:mcmc"]}
{"id": "C89", "title": "With a prior transform the stored mode is in sampler coordinates", "statement": "If use_prior_transform is set, get_chain shows the transformed draw at the place of the mode, while the stored mode (and get_par('mode')) is the untransformed one.", "quantifier": "all chains and transforms", "why_tests_cant": "All chains.", "anchors": ["pydsge/mcmc.py:mcmc", "pydsge/clsmethods.py:get_chain"]}
{"id": "C90", "title": "lprob agrees with setting parameters by hand", "statement": "With temp=1, lprob(par) equals the likelihood get_ll returns after the same parameters, horizons, filter covariance and seed have been set by hand, plus the log prior.", "quantifier": "all parameters and models", "why_tests_cant": "All inputs.", "anchors": ["pydsge/estimation.py:prep_estim", "pydsge/filtering.py:get_ll"]}
{"id": "C91", "title": "A covariance passed once is kept", "statement": "init_cov passed to run_filter or extract is stored in the filter and used by all later filter runs, extractions and likelihood evaluations of this filter, whatever is set, extracted or evaluated in between.", "quantifier": "all histories", "why_tests_cant": "History property.", "anchors": ["pydsge/filtering.py:run_filter", "pydsge/filtering.py:extract"]}
{"id": "C92", "title": "Marginal data density: draws and probabilities belong together", "statement": "If neither is passed, mdd pairs every parameter draw of the last tune steps with its own log-probability, in the same order; tune=0 means the recorded tune. A chain passed without log-probabilities is combined with the recorded log-probabilities. The accepted methods are exactly laplace (or lp), hess and mhm; any other name raises NotImplementedError.", "quantifier": "all chains, log-probabilities, tune values and method names", "why_tests_cant": "All chains.", "anchors": ["pydsge/stats.py:mdd"]}
{"id": "C93", "title": "Posterior mean", "statement": "post_mean without a chain is the mean over all walkers of the last tune steps of the recorded chain; a chain passed to it is rejected with ValueError as soon as it contains two numbers.", "quantifier": "all chains and tune values", "why_tests_cant": "All chains.", "anchors": ["pydsge/stats.py:post_mean"]}
{"id": "C94", "title": "Decompositions change the model", "statement": "After nhd, and after gfevd with recorded parameters, the model object is set to the parameters of the last draw processed, not to those it had before the call.", "quantifier": "all draws", "why_tests_cant": "History property.", "anchors": ["pydsge/stats.py:nhd", "pydsge/stats.py:gfevd"]}
{"id": "C95", "title": "From the model file to simulated paths and back", "statement": "For a linear model file, every path generated with the rules stored for a binding spell (l,k) satisfies, from the first period on, all equations exactly as written in the file (lags of any order, leads up to two periods as in C34, no constant terms, constraint encoded as written as in C12), the constraint equation whenever the constraint does not bind, and the bound whenever it does. Conversely every path that satisfies the equations of the file in this sense, with shocks in the first period only and returning to the linear solution after the spell, is the path those rules generate.", "quantifier": "all linear model files, parameters, spells and paths", "why_tests_cant": "Relates the text of arbitrary files to all simulated paths.", "anchors": ["pydsge/parser.py:DSGE.read", "pydsge/gensys.py:gen_sys_from_yaml", "pydsge/gensys.py:gen_sys", "pydsge/engine.py:preprocess_jittable"]}
{"id": "C96", "title": "Observables are the declared expressions", "statement": "In a solved linear model, the observables computed from the reported states and controls of any period equal, for every path, the expression declared for them in the file, evaluated at that path. This also holds when only the observation matrices are computed, provided every variable used is among the reported ones.", "quantifier": "all linear model files, parameters and paths", "why_tests_cant": "All models and paths.", "anchors": ["pydsge/gensys.py:gen_sys", "pydsge/parser.py:get_matrices", "pydsge/tools.py:t_func"]}
{"id": "C97", "title": "What a run does to stored chains", "statement": "A call of mcmc changes at most one chain file: none if backend is false, else the file named in the call, else the one named in an earlier call, else the one given by model name and suffix. With resume or append the run continues from the content of that file. Otherwise it starts from a chain reset to the number of walkers; an unnamed file is deleted before. A call that is rejected because the number of walkers is missing raises TypeError; it leaves a named file alone but has already deleted the chain in an unnamed one.", "quantifier": "all objects, files, arguments, samplers", "why_tests_cant": "Depends on files and earlier calls.", "anchors": ["pydsge/mcmc.py:mcmc"]}
{"id": "C98", "title": "Which chain is read after a run", "statement": "In the same session get_chain reads the sampler of the last run that ended, even if mcmc raised afterwards. After saving the metadata, a later session reads the stored chain if its file was named or has the standard name. With another suffix it reads the file of standard name: an older chain, or NameError. A run without backend leaves later sessions as they were.", "quantifier": "all objects, files, arguments, samplers", "why_tests_cant": "Spans sessions.", "anchors": ["pydsge/mcmc.py:mcmc", "pydsge/clsmethods.py:get_chain", "pydsge/clsmethods.py:save_meta"]}
{"id": "C99", "title": "Every call of mcmc sets the window of later statistics", "statement": "After any call of mcmc, also one that raises at any point after the seed was set, the window (tune) is the given one, or the number of steps divided by five, rounded down.", "quantifier": "all objects and arguments, all failures", "why_tests_cant": "All failures.", "anchors": ["pydsge/mcmc.py:mcmc", "pydsge/clsmethods.py:get_tune"]}
{"id": "C100", "title": "Reports on chains use one window", "statement": "Without arguments mcmc_summary uses the last tune steps (all if there are fewer) of chain and log-probabilities of the same run. A chain passed by the caller is combined with the log-probabilities of the model's own chain, which must exist and may differ in length. posterior2csv writes one row for each parameter, labelled in the order of the prior, with the values in the last tune steps ordered by step and walker; it succeeds only if there are as many labels as parameters.", "quantifier": "all chains, windows, numbers of walkers and parameters", "why_tests_cant": "All chains.", "anchors": ["pydsge/clsmethods.py:mcmc_summary", "pydsge/clsmethods.py:posterior2csv"]}
{"id": "C101", "title": "Longer horizons", "statement": "If a model can be solved for some l_max and k_max, it can be solved for all smaller ones, and the stored rules for the spells that both contain are the same. Raising l_max never changes a spell that was found with error flag 0. Raising k_max too can only replace it by a spell that starts earlier and lasts longer than the old k_max; spells that start at once are kept, and so is the result that the constraint is slack if l_max is kept.", "quantifier": "all models, horizons and states", "why_tests_cant": "All models and horizons.", "anchors": ["pydsge/engine.py:preprocess_jittable", "pydsge/engine.py:find_lk"]}
{"id": "C102", "title": "Equilibria are found and stay equilibria", "statement": "If within the horizons there is a spell (l,k) whose announced path is an equilibrium (unconstrained value of the constrained variable at or above the bound before the spell, at or below it during the spell, above it ever after), the search ends with error flag 0 and returns this spell or one before it in the order of the search. In all later periods of that path, without new shocks, the search ends with error flag 0 too and returns the rest of the spell or one before it.", "quantifier": "all models, horizons, states, paths and later periods", "why_tests_cant": "All models and states.", "anchors": ["pydsge/engine.py:find_lk", "pydsge/engine.py:bruite_wrapper", "pydsge/tools.py:t_func"]}
{"id": "C103", "title": "Name clashes are never silent", "statement": "If a name occurs twice among the declared variables and the auxiliary variables for lags, leads and lagged shocks, building the matrices raises, provided every model equation contains a variable or shock. So a file that is accepted is expanded faithfully, as in C33-C35, whatever names it uses. An equation of constants only can hide a variable that was declared twice.", "quantifier": "all model files", "why_tests_cant": "All files.", "anchors": ["pydsge/parser.py:DSGE.parse", "pydsge/parser.py:DSGE.get_matrices"]}
{"id": "C104", "title": "Intervals of observables", "statement": "With covariances, o_func returns for each state the 95% interval: centred at the state, ends 1.96 standard deviations away. For an observable that loads on one variable with a nonnegative coefficient the interval is its 95% interval, and for nonnegative loadings it contains it. For an observable with a negative loading on a single variable the two ends are swapped: the lower end lies above the upper end whenever the variance is positive.", "quantifier": "all observation matrices, states and covariances", "why_tests_cant": "All covariances.", "anchors": ["pydsge/tools.py:o_func"]}
{"id": "C105", "title": "Responses and simulations for other parameters", "statement": "irfs and simulate with parameter vectors leave the model as it was. The result for each vector does not depend on the others and, if the number of variables and the horizons are the same, equals that of calling set_par with it and then irfs without vectors. If set_par raises ValueError, irfs returns a result marked as failed for this vector only; any other exception ends the call. Exception: irfs ignores a vector of zeros and returns responses for the current parameters, even if the model has no solution at zero; simulate does not. The first irfs call on a new object solves it at the calibrated parameters; if that fails, later calls do not try again but raise AttributeError.", "quantifier": "all models, batches of vectors, shock lists, horizons and settings", "why_tests_cant": "All batches.", "anchors": ["pydsge/tools.py:irfs", "pydsge/tools.py:simulate", "pydsge/mpile.py:set_par"]}
{"id": "C106", "title": "Extraction for several parameter vectors", "statement": "extract with the linear filter and vectors of equal length (all parameters or the estimated ones) gives for each vector the result of extracting with this vector alone, and fails with the error of the first vector that fails. Unlike irfs it works on the model itself: afterwards the model, its tables and its filter are those of the last vector. A shock covariance assigned to the filter by the user is discarded, also when extracting with the current parameters.", "quantifier": "all models, batches, solvers and filters", "why_tests_cant": "All batches.", "anchors": ["pydsge/filtering.py:extract", "pydsge/filtering.py:run_filter", "pydsge/mpile.py:set_par"]}
{"id": "C107", "title": "Units", "statement": "If all variables and shocks are measured in other units (multiplied by a positive number), and the bound with them, the model has the same solution: a period, impulse responses and simulations give the multiplied values with the same durations and flags. In the solved system only the constant of the constrained regime changes.", "quantifier": "all models, units, states, shocks and settings", "why_tests_cant": "All states and units.", "anchors": ["pydsge/engine.py:t_func_jit", "pydsge/gensys.py:gen_sys", "pydsge/tools.py:irfs", "pydsge/tools.py:simulate"]}
{"id": "C108", "title": "Clear of the bound the model is linear", "statement": "If, without the bound, the constrained variable stays above it for the l_max+1 periods that are checked, a period is the same as that of the linear model; and a period is reported with duration 0 only in this case. So impulse responses and simulations whose linear versions stay clear of the bound in this sense equal their linear versions, including flags.", "quantifier": "all models, states, shock lists, horizons", "why_tests_cant": "All states and shocks.", "anchors": ["pydsge/engine.py:find_lk", "pydsge/tools.py:irfs", "pydsge/tools.py:simulate"]}
{"id": "C109", "title": "Mixtures", "statement": "With given durations, the result of a period for a mixture of two states and shocks is the mixture of the results. If the same durations are an equilibrium from two states, then they are one from every state between them, and from there the search succeeds with these durations or a pair before them.", "quantifier": "all models, states, durations and weights", "why_tests_cant": "All states.", "anchors": ["pydsge/engine.py:t_func_jit", "pydsge/engine.py:find_lk"]}
{"id": "C110", "title": "No effects from the future", "statement": "Impulse responses up to a period do not depend on shocks after it, nor on the number of periods asked for, if expectations are recalculated in each period, or if both lists contain a shock after period 0, or neither does. With the default settings a shock added for a later period can change the durations and responses before it.", "quantifier": "all models, shock lists, initial states, horizons and settings", "why_tests_cant": "All lists.", "anchors": ["pydsge/tools.py:irfs"]}
{"id": "C111", "title": "Rest and shifts in time", "statement": "A model at rest without shocks stays there, with durations 0, if the bound is negative. Shocks that come d periods later, from rest, give d periods at rest and then the original responses, durations and flags. With a bound of zero, which is accepted, the model at rest is reported to be at the bound for one period.", "quantifier": "all models, shock lists, shifts and horizons", "why_tests_cant": "All shock lists.", "anchors": ["pydsge/tools.py:irfs", "pydsge/tools.py:t_func", "pydsge/gensys.py:gen_sys"]}
{"id": "C112", "title": "Named parameter sets", "statement": "Asking get_par for a set gives, for the estimated parameters: 'calib' the calibration; 'prior_mean' the midpoint of uniform priors and the location given for the others; 'adj_prior_mean' the same, ten times that number for inv_gamma_dynare; 'mode' and its synonyms the stored mode; 'post_mean' and 'posterior_mean' the averages over the walkers and the last steps of the chain; 'init' the initial values and, where there is none, the calibrated value. In the full vector all other parameters are calibrated. 'init' also stores the calibrated values as initial values.", "quantifier": "all models, priors, chains, stored values", "why_tests_cant": "All models and chains.", "anchors": ["pydsge/mpile.py:get_par", "pydsge/stats.py:post_mean"]}
{"id": "C113", "title": "What a model file declares", "statement": "A file is accepted exactly if its variable names contain no spaces, it has one constraint of the form `variable = expression`, every equation has at most one equality sign (none means `= 0`) and the model so declared is accepted; the declared model is unique. An accepted file that is changed in one place is rejected: a name with a space, a malformed constraint, another number of equations or text that is no equation with SyntaxError, two constraints with NotImplementedError, none in the list with IndexError, a second equality sign with ValueError.", "quantifier": "all files as loaded from YAML, all grammars of expressions", "why_tests_cant": "All files.", "anchors": ["pydsge/parser.py:DSGE.parse"]}
{"id": "C114", "title": "Layout of a model file", "statement": "`^` means power and semicolons are ignored wherever they stand; `@` at the end of a line joins it with the next one, with a space between; `~` after at least one space at the beginning of a line is a list marker like `-`. A file without these characters is passed to the YAML loader as it is. Without a space before it, `~` is not converted; inside a line, `~` after three spaces becomes a minus.", "quantifier": "all texts before and after the place in question", "why_tests_cant": "All texts.", "anchors": ["pydsge/parser.py:DSGE.parse"]}
{"id": "C115", "title": "Parameters and priors of a model file", "statement": "After loading, every parameter has the number given in the file, the priors are those of the file in their order, each at the position of its parameter. A file is rejected, with ValueError, exactly if there is a prior for a name which is not a parameter (a derived parameter, say). Without an estimation section there are no priors.", "quantifier": "all files", "why_tests_cant": "All files.", "anchors": ["pydsge/parser.py:DSGE.parse", "pydsge/parser.py:DSGE.p0"]}
{"id": "C116", "title": "A simulated period solves the model file", "statement": "After a file has been loaded and solved, every period reported by t_func, simulate or irfs, from any state, with any shocks and settings, has this meaning: there is a path of the file's variables, with these shocks now and none later and with the lagged values of the state it started from, that satisfies the equations of the file from now on; the constrained variable is at the bound in the periods l, ..., l+k-1 of the reported durations and the file's constraint equation holds in all others; the report gives the values of this period under the reported names, further periods without shocks give those of the next periods, and o_func gives the values of the observables' expressions.", "quantifier": "all files with linear equations and a constraint without lagged terms (which the code gets wrong, C13) that meet the conditions listed, all parameters, states, shock sequences, horizons and settings", "why_tests_cant": "All files, states and shocks.", "anchors": ["pydsge/parser.py:DSGE.parse", "pydsge/gensys.py:gen_sys_from_yaml", "pydsge/gensys.py:gen_sys", "pydsge/tools.py:t_func", "pydsge/tools.py:simulate", "pydsge/tools.py:irfs", "pydsge/tools.py:o_func"]}
{"id": "C117", "title": "Impulse responses are simulations", "statement": "irfs with durations left to the search gives the same states, durations, error flag and errors as simulate for the corresponding sequence of shock vectors, and no multiplicity, unless a shock arrives after period 0 and force_init_equil is in effect.", "quantifier": "all models, shock lists, initial states, horizons, linear or not", "why_tests_cant": "All shock lists.", "anchors": ["pydsge/tools.py:irfs", "pydsge/tools.py:simulate"]}
{"id": "C118", "title": "How the equations are written does not matter", "statement": "Two model files that differ only in the order of the model equations, or in which side of an equation is written first, give the same model object (tables, names, observation matrices), or none of them is accepted; the choice of the factorisation routine does not matter either. More generally, gen_sys gives the same object or the same error for every invertible combination of the equations that does not make a column of coefficients numerically zero or nonzero. If a variable is declared twice, the order can decide whether the file is accepted. Without the condition on zeros this is false: coefficients are compared with an absolute tolerance, and for every model with a variable that has no lag in the constraint, multiplying all equations by a small number makes gen_sys raise ValueError.", "quantifier": "all files with distinct variables, all orders, parameters and horizons; all invertible combinations", "why_tests_cant": "All orders and combinations.", "anchors": ["pydsge/parser.py:DSGE.parse", "pydsge/gensys.py:gen_sys", "pydsge/engine.py:preprocess_jittable"]}
{"id": "C119", "title": "What is reported is determined by the model file", "statement": "For given states, given shocks and given durations (l,k) within the limits, the model file has a solution that does not explode in which the constraint binds in the periods l, ..., l+k-1, and the values of all variables of the file in it are unique. t_func reports its values for the reported durations. Without set_k, the durations and the error flag are those which the documented search gives for the values that the file's constraint equation would give to the constrained variable in these solutions.", "quantifier": "all files as in C116 whose linear system has a stable solution, all states, shocks, durations and settings", "why_tests_cant": "All files, states and shocks.", "anchors": ["pydsge/parser.py:DSGE.parse", "pydsge/gensys.py:gen_sys_from_yaml", "pydsge/gensys.py:gen_sys", "pydsge/tools.py:t_func", "pydsge/engine.py:find_lk", "pydsge/engine.py:t_func_jit"]}
{"id": "C120", "title": "Only the meaning of the model file matters", "statement": "Two files that declare the same variables and shocks in any order, constrain the same variable and have equations with the same solutions and equivalent constraint equations, solved with the same bound and limits, report the same durations, error flags and values of all variables in every period of a simulation or impulse response, if they start from the steady state or from states of one past and the shocks are given by name. Observables with the same meaning have the same values.", "quantifier": "all pairs of files as in C119 (different orders of declaration, different auxiliary variables, rewritten equations), all shock sequences and horizons", "why_tests_cant": "All pairs of files.", "anchors": ["pydsge/parser.py:DSGE.parse", "pydsge/gensys.py:gen_sys", "pydsge/tools.py:t_func", "pydsge/tools.py:simulate", "pydsge/tools.py:irfs", "pydsge/tools.py:o_func"]}
{"id": "C121", "title": "From the text of a model file to reports", "statement": "Loading the text of a model file and solving it at given parameters (or at its own calibration) gives every parameter its number and every derived parameter the value of its text, and these values are unique; derived parameters defined in a circle or by unknown names raise NameError when the file is read, a list of parameters of another length ValueError, a file without constraint or with a positive bound NotImplementedError when it is solved. In every period reported for a solved model the lines of the text are true at these values from this period on: each model line always, the constraint line in all periods in which it does not bind, and when it binds the variable on its left is at x_bar (-1 if the file does not give it). Observables have the values of their texts. Conversely, a path that makes the lines true and does not explode is what is reported.", "quantifier": "all texts, YAML loaders, grammars and parameter functions with distinct names and the conditions of C116 (for the converse C119), all parameters, horizons, states, shocks", "why_tests_cant": "All texts and parameters.", "anchors": ["pydsge/parser.py:DSGE.parse", "pydsge/parser.py:DSGE.get_matrices", "pydsge/gensys.py:gen_sys_from_yaml", "pydsge/tools.py:t_func", "pydsge/tools.py:simulate", "pydsge/tools.py:irfs"]}
{"id": "C122", "title": "In which coordinates chains are read", "statement": "Whatever was done before, a chain returned by get_chain consists of the stored draws, transformed by the prior transform if use_prior_transform is in force: the last value passed to prep_estim, and after loading the one in force at the last saving, provided that no call which passed a value has raised. So a chain reads the same in a later session. After such a call has raised it may read differently there, and passing another value later changes how chains sampled before are read.", "quantifier": "all histories of prep_estim, runs, reads, saving, loading and parameter changes", "why_tests_cant": "Spans sessions and histories.", "anchors": ["pydsge/clsmethods.py:get_chain", "pydsge/estimation.py:prep_estim", "pydsge/clsmethods.py:save_meta", "pydsge/parser.py:DSGE.load"]}
{"id": "C123", "title": "Reading a chain can change the model", "statement": "Reading log-probabilities or acceptance rates changes nothing. Reading a chain, or calling info, changes nothing once prep_estim has returned in the session. Before that, reading a stored chain is a call of prep_estim(): it fails with its errors, and it moves the estimated parameters to the prior mean and all others to the calibration, whatever the user has set. Once a chain has been read, reading it again gives the same and changes nothing.", "quantifier": "all objects and histories", "why_tests_cant": "History property.", "anchors": ["pydsge/clsmethods.py:get_chain", "pydsge/clsmethods.py:info_m", "pydsge/estimation.py:prep_estim"]}
{"id": "C124", "title": "Which measurement covariance is used after prep_estim", "statement": "After prep_estim the filter has the measurement covariance that was in the filter when the metadata was last saved, in this session and in later ones, whether load_R is set or not and whatever was assigned since; without a saved one it has that of a new filter, so that an assigned covariance is lost. With load_R and none saved the call raises, but settings, parameters and filter have been replaced; so does a run in a session without prep_estim.", "quantifier": "all histories between saving and the call", "why_tests_cant": "History property.", "anchors": ["pydsge/estimation.py:prep_estim", "pydsge/clsmethods.py:save_meta", "pydsge/mcmc.py:mcmc"]}
{"id": "C125", "title": "Information about a model", "statement": "info shows name, date, description and, if a chain can be read, its numbers of parameters, walkers and steps and the window. A session that loads what was saved shows the same name, date, description and window. A successful run of mcmc brings back the description of the metadata, whatever was assigned before. For a model that was read from a file and never sampled it raises NameError, whatever else was done, unless there is a chain in the file of standard name. In a loaded session the starting values get_par('init') raise AttributeError until prep_estim has run, although they are in the metadata.", "quantifier": "all histories", "why_tests_cant": "History property.", "anchors": ["pydsge/clsmethods.py:info_m", "pydsge/clsmethods.py:get_chain", "pydsge/mpile.py:get_par"]}
{"id": "C126", "title": "Models with ten parameters cannot be estimated", "statement": "If a model has exactly ten parameters, or exactly ten estimated ones, every call of prep_estim raises, so that no sampling is possible and no stored chain can be read, whatever is done: the name prior_mean of the parameter set has ten letters and is taken for a parameter vector.", "quantifier": "all models and histories", "why_tests_cant": "Depends on a coincidence of lengths; all histories.", "anchors": ["pydsge/estimation.py:prep_estim", "pydsge/mpile.py:set_par", "pydsge/clsmethods.py:get_chain", "pydsge/mcmc.py:mcmc"]}
{"id": "C127", "title": "The bound only sets the scale", "statement": "If the bound of a model file is multiplied by a positive number, loading and solving the file ends in the same way, with the same names and observables or the same exception, and t_func, irfs and simulate give, for states and shocks multiplied by this number, the multiplied results with the same durations, flags and exceptions. For any two bounds that are not positive, zero included, loading ends in the same way and all linear runs are the same. A positive bound is rejected with NotImplementedError.", "quantifier": "all model files, parameters, limits, bounds, states, shocks, horizons and masks", "why_tests_cant": "All files and bounds.", "anchors": ["pydsge/gensys.py:gen_sys_from_yaml", "pydsge/gensys.py:gen_sys", "pydsge/engine.py:preprocess_jittable", "pydsge/tools.py:t_func", "pydsge/tools.py:irfs", "pydsge/tools.py:simulate"]}
{"id": "C128", "title": "Names do not matter", "statement": "If all variables, shocks and parameters of a model file are consistently renamed, with different new names for different names and such that the copies which the program makes of a variable or shock (x_LAG1, x_LEAD1, e_VAR, x_lag) are renamed with it, the file is rejected with the same error or solved with the same numbers under the new names. t_func, observables, irfs to the renamed shocks, shock2state and simulate give the same results. Names without underscores can be exchanged freely.", "quantifier": "all model files, renamings, parameters, bounds, limits, states, shocks and horizons", "why_tests_cant": "All files and renamings.", "anchors": ["pydsge/parser.py:DSGE.parse", "pydsge/parser.py:DSGE.get_matrices", "pydsge/gensys.py:gen_sys_from_yaml", "pydsge/gensys.py:gen_sys", "pydsge/tools.py:t_func", "pydsge/tools.py:irfs", "pydsge/tools.py:simulate"]}
{"id": "C129", "title": "write_yaml never writes a model", "statement": "write_yaml raises AttributeError for every model and file name, and before that it empties the file it should write to (with .yaml appended if missing); no other file changes. If this is the file of the model itself, the model is lost: reading it again reads an empty text. If the attribute raw_yaml has been set by hand to the text of the model, the call writes this text, and reading the file gives the model back; if it has been set to something that is no text, TypeError is raised and the file is empty.", "quantifier": "all models, file names and contents of the file system", "why_tests_cant": "All file systems and histories.", "anchors": ["pydsge/clsmethods.py:write_yaml", "pydsge/parser.py:DSGE.read"]}
{"id": "C130", "title": "The table for changing shocks", "statement": "If data have been loaded and the model has as many shocks as observables, mask is a table without values with one column per shock, in order, and one row per date of the data except the last. Passed to simulate as it is, it changes nothing. A value entered for a date and a shock is combined with this shock in the period of this position and changes no other shock or period. Observables beyond the number of shocks keep their own names. With several observables and several shocks in different numbers simulate raises ValueError when the table is used; without data mask raises AttributeError.", "quantifier": "all data, distinct names of observables, shock sequences, dates and operations", "why_tests_cant": "All tables and shocks.", "anchors": ["pydsge/tools.py:mask", "pydsge/tools.py:simulate", "pydsge/clsmethods.py:load_data"]}
{"id": "C131", "title": "Models given as a dict of matrices", "statement": "gen_sys_from_dict, given the matrices of a model file, ends as loading and solving the file does, with the same model or error. For any dict that can be solved, each period that t_func or simulate reports comes from a path along which AA x(t+1) + BB x(t) + CC x(t-1) + DD e(t) = 0 holds from this period on, the constrained variable is at x_bar (-1 if the dict has none) while the constraint binds and fb x(t) + fc x(t-1) + fd e(t) = 0 otherwise; with lags in the constraint this needs a dict without the entry fd, since an entry fd of zeros turns the sign of fc. Parameters passed to simulate are ignored, irfs with parameters raises TypeError. A solution gx, hx is used if both are given; hx alone is ignored and gx alone fails. A positive bound, which files must not have, is accepted. Without ZZ0, or with names in a list, no dict can be solved.", "quantifier": "all dicts of matrices, all states, shocks, horizons and settings", "why_tests_cant": "All matrices and shock histories.", "anchors": ["pydsge/gensys.py:gen_sys_from_dict", "pydsge/gensys.py:gen_sys", "pydsge/tools.py:simulate", "pydsge/tools.py:irfs", "pydsge/tools.py:t_func"]}
{"id": "C132", "title": "Two texts that say the same model are simulated alike", "statement": "Take two model files as texts, each with values for its own parameters. Suppose they list the same variables and shocks (in any order), the paths that make all model lines of one true are those that make all model lines of the other true, their constraints are for the same variable and true in the same periods, and their bounds are equal. Names and number of parameters, derived parameters, line breaks and the way equations are written may differ. Then simulations and impulse responses from the steady state with the same named shocks give the same durations, flags and values of all variables in all periods, and the same observations if the observables mean the same.", "quantifier": "all pairs of texts accepted by the YAML loader that say the same model, all calibrations of both, all horizons, all lists of named shocks of any length, with the search for durations or in linear mode", "why_tests_cant": "tests compare one rewriting of one model; the claim is about every rewriting, including reordering of variables, renaming of parameters and algebraic changes of equations", "anchors": ["pydsge/parser.py:DSGE.parse", "pydsge/parser.py:DSGE.read", "pydsge/gensys.py:gen_sys", "pydsge/tools.py:simulate", "pydsge/tools.py:irfs", "pydsge/engine.py:find_lk"]}
{"id": "C133", "title": "Measurement errors declared in a file", "statement": "If a file declares measurement errors, it is accepted only if their calibration is given and every entry with one or two names refers to declared errors among the first as many as there are observables and has a value written as text that can be evaluated. Then the matrix of measurement errors is symmetric, has for each pair of names the value of the last entry about the pair, in either order and with any blanks around the names, and is zero elsewhere. A value written as a number raises TypeError (the covariance section accepts numbers), a name beyond the number of observables IndexError, and entries with more than two names are ignored. The model read from the file is the same with and without measurement errors.", "quantifier": "all lists of distinct declared names, all calibration entries (keys as texts, values of any YAML type), all numbers of observables, all files", "why_tests_cant": "Keys are arbitrary texts and there may be any number of entries.", "anchors": ["pydsge/parser.py:DSGE.parse"]}
{"id": "C134", "title": "Draws from the prior that have a solution", "statement": "prior_sampler(n) returns n vectors, each the first candidate drawn for its sample at which set_par succeeds, that is, for which the model with the other parameters at their current values has a solution; exceptions only reject a candidate, and the draws end if every sample has a candidate with a solution. With and without a pool the draws are the same. Without a pool the model itself is changed: afterwards it is solved at the last draw, with the tables and observation matrices belonging to it; with a pool, or with try_parameter=False, it stays as it was. get_par('prior', nsamples=n) returns the calibration with the draws put in; without a pool the model is solved at the last of them afterwards, and get_par() returns it. If all parameters are estimated and the prior section lists them in another order than the parameters, this fails: a draw without solution can be returned, and a draw with a solution can be thrown away.", "quantifier": "all models with priors, candidate sequences, states of the model and sample sizes", "why_tests_cant": "All sequences of random candidates and all models.", "anchors": ["pydsge/mpile.py:prior_sampler", "pydsge/mpile.py:get_par", "pydsge/mpile.py:set_par"]}
{"id": "C135", "title": "Parameters as dicts, and several samples", "statement": "For a single vector, get_par(..., asdict=True) says the same as without asdict: one dict with the rounded value of every parameter and one with the derived parameters at this vector, or with full=False the estimated ones only; no other names occur. Single parameters and the covariance are returned as they are, and the model changes as without asdict. For draws ('prior', 'posterior') this fails: with full=True the call raises ValueError unless there are as many draws as parameters, and then, as always with full=False, the i-th name gets the whole i-th draw. Without asdict, nsamples>1 for a single vector matters only with full=False: the result has nsamples rows, and each entry is multiplied by 1+0.001z with the drawn z, so that zeros stay zero and no sign changes for |z|<1000.", "quantifier": "all models, states, arguments, sample sizes and draws", "why_tests_cant": "All models and sample sizes; the wrong case needs a coincidence of sizes.", "anchors": ["pydsge/mpile.py:get_par"]}
{"id": "C136", "title": "The numbers that describe a model", "statement": "For every accepted file npara, neps and nobs are the numbers of declared parameters, shocks and observables, and neq is one less than the number of variables, since the constraint is not counted (a variable that is declared twice counts twice). If variables have at most one lead or lag and shocks none, the variables are the declared ones, neq is the number of lines of the model section, and neta the number of variables that are written with a lead. With longer leads and lags, if shocks have no leads and no variable is written with leads only or with lags only, variables and equations grow by one for each lead and each lag of a variable beyond the first and for each lag of a shock. neq_fort is neq+neta and not, as documented, the number of model and measurement equations. A variable that is written with lags of two and more periods only gets a copy x_LEAD1, although there is no lead.", "quantifier": "all model files", "why_tests_cant": "All files.", "anchors": ["pydsge/parser.py:DSGE.neq", "pydsge/parser.py:DSGE.neta", "pydsge/parser.py:DSGE.neq_fort", "pydsge/parser.py:DSGE.parse"]}
{"id": "C137", "title": "Printing a model", "statement": "dump() prints a nested object as an outline: a line with the key and the opening bracket for every dict, list, tuple and set, its elements in order, moved to the right by four blanks, and a line with the closing bracket; one line 'key : text' for everything else. It returns unless some dict has a key that is neither a text nor None (YAML reads unquoted numbers, no, off and dates as such); then it raises TypeError, after printing the beginning of the outline. If no text of an object ends with an opening bracket, the lines determine nesting, order and labels, and so does the text on the screen if no key and no text has line breaks. Sets and dicts can look alike, and texts with line breaks, as the file that a model contains, can look like several entries.", "quantifier": "all finite nested objects", "why_tests_cant": "All nestings, keys and texts.", "anchors": ["pydsge/parser.py:DSGE.dump", "pydsge/utils.py:_dumper"]}
{"id": "C138", "title": "The table of the current best guess", "statement": "With a terminal of more than eight columns and as many values as estimated parameters, pmdm_report prints every name exactly once, in order, with its value below it. With names and values of at most eight characters a line is at most seven characters wider than the terminal, and not wider if the width is a multiple of eight; otherwise lines can be too wide. Without a terminal it raises IndexError, with eight columns ZeroDivisionError and with fewer ValueError. With more values than parameters it prints some values below wrong names and drops others.", "quantifier": "all lists of names and values and all widths of the terminal", "why_tests_cant": "All numbers of parameters and all widths.", "anchors": ["pydsge/stats.py:pmdm_report"]}
