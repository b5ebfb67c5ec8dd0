# Source of /verif/properties.jsonl: run `python3 tools_src/props.py > properties.jsonl`
import json
P = []
def p(title, statement, quantifier, why, anchors):
    P.append(dict(id="C%02d" % (len(P)+1), title=title, statement=statement,
                  quantifier=quantifier, why_tests_cant=why, anchors=anchors))

E='pydsge/engine.py'; G='pydsge/gensys.py'; T='pydsge/tools.py'; PA='pydsge/parser.py'; M='pydsge/mpile.py'
FI='pydsge/filtering.py'; ES='pydsge/estimation.py'; MC='pydsge/mcmc.py'; CL='pydsge/clsmethods.py'; ST='pydsge/stats.py'; SY='pydsge/symbols.py'

# ---------------------------------------------------------------- engine
p("Announced (l,k) paths solve the piecewise-linear model",
  "If preprocessing succeeds, then for every announced pair (l,k) in the table and every initial state, the path obtained by applying the stored transition of (l,k), then of the pair with one period less to go, and so on forever, satisfies the unconstrained equations in periods 0..l-1, the constrained equations in periods l..l+k-1 and the unconstrained equations in every later period.",
  "all system matrices for which the inverses exist, all dimensions, all (l,k) with 0<=l<=l_max, 0<=k<=k_max, all initial states, all periods (unbounded)",
  "A test fixes one model and one (l,k); the claim is an identity over all matrices, states and an infinite horizon.",
  [E+":get_lam", E+":get_omg", E+":preprocess_jittable"])
p("The announced path is the only one",
  "Any path that obeys the (l,k) regime schedule from the given state and is on the linear saddle path p = omg q from period l+k on coincides, period by period, with the path computed from the stored matrices.",
  "all matrices, states, (l,k), all candidate paths",
  "Uniqueness quantifies over all alternative paths, which cannot be enumerated.",
  [E+":get_lam", E+":get_omg", E+":preprocess_jittable"])
p("Constraint checks are the notional rate on the announced path",
  "The value consulted by the equilibrium search at check point 0..4 for the pair (l,k) equals the notional (unconstrained-rule) value of the constrained variable on the announced (l,k) path in period 0, l-1, l, l+k-1 and l+k respectively; the table behind traj/k_map holds the same quantity for every period 0..l_max+k_max+1.",
  "all matrices, states, (l,k), check points for which the period exists",
  "Index arithmetic over a two-dimensional recursion; tests only hit a few (l,k).",
  [E+":preprocess_jittable", E+":preprocess_tmats_jit", E+":check_cnst"])
p("No uninitialised or out-of-range table entry is ever used",
  "With k_max >= 1, preprocessing writes every transition entry before reading it and the equilibrium search never reads a check entry that was not written or lies outside the tables, whatever the state. With k_max = 0 this fails: as soon as the constraint is predicted to bind the search reads outside the table.",
  "all table sizes, all states",
  "np.empty garbage and unchecked numba indexing make a wrong read invisible in a run.",
  [E+":preprocess_jittable", E+":find_lk", E+":bruite_wrapper"])
p("(0,0) is selected exactly when the linear path never reaches the bound",
  "The endogenous search returns k=0 if and only if the notional rate on the linear path is strictly above x_bar in each of the periods 0..l_max (the length of the search table), and then it returns (0,0) with flag 0.",
  "all states, all models, all l_max,k_max",
  "An equivalence over all states.",
  [E+":find_lk"])
p("The lexicographically first admissible (l,k) is selected",
  "If the linear path hits the bound and some pair (l,k), k>=1, passes the end-point checks (not below the bound in periods 0, l-1 and l+k where these are slack; not above it in periods l and l+k-1), the search returns flag 0 and the first such pair in (l,k) lexicographic order; it never returns flag 0 with an inadmissible k>=1.",
  "all states, all models, tables with at most 999 values of l",
  "Minimality over all pairs for all states.",
  [E+":bruite_wrapper", E+":find_lk"])
p("Meaning of the error flags",
  "flag 1 or 2 is returned if and only if the linear path hits the bound and no pair passes the end-point checks; then l=0, and with flag 1 the returned k is the first duration after the first one whose end value is below the bound whose end value is above the bound again; with flag 2 no such duration below k_max exists and k=k_max.",
  "all states, all models",
  "Equivalence over all states; error paths are rarely hit by tests.",
  [E+":find_lk"])
p("Search results index the tables; sentinel is unambiguous up to 999",
  "Whatever the state, the returned pair satisfies l<=l_max and k<=k_max, so the transition function never indexes outside its tables, and every run of the search terminates. The failure sentinel 999 is never confused with a result as long as at most 999 values of l are tabulated; with 1000 values a genuine solution l=999 is reported as 'no solution'.",
  "all states, all table sizes",
  "Termination and range for every input; the sentinel collision needs an unusual size.",
  [E+":find_lk", E+":bruite_wrapper"])
p("flag 0 is an end-point test, not a proof of equilibrium",
  "flag 0 guarantees the constraint inequalities only at the tested periods. It does not guarantee them on the whole announced path: there is a model and a state for which the search returns flag 0 although the notional rate on the announced path is below x_bar in a period in which the path assumes the constraint to be slack.",
  "all states and models (refutation by witness)",
  "A run reports flag 0 and looks fine; only the equations reveal the violation.",
  [E+":bruite_wrapper", E+":find_lk"])
p("Parallel preprocessing equals sequential preprocessing",
  "Executing the iterations over k of the second preprocessing stage in any order (parallel=True) yields the same tables as the sequential order.",
  "all matrices and all permutations of the iteration space",
  "Schedules cannot be enumerated by tests.",
  [E+":preprocess_jit_parallel", E+":preprocess_jittable"])
p("k=0 entries are the linear solution",
  "For every l, the stored transition for (l,0) is exactly the linear solution (omg, lam) with zero constant terms; in particular the (1,0) entry used by the Kalman filter equals the (0,0) entry used by the linear transition function.",
  "all l, all matrices with a valid linear solution",
  "Induction over l, exact equality.",
  [E+":preprocess_jittable", FI+":run_filter", FI+":get_p_init_lyapunov"])
# ---------------------------------------------------------------- gen_sys
p("The compressed system has exactly the user's solutions",
  "The (q,p) system handed to the solver is satisfied by the paths of q and p if and only if the corresponding path of the model variables satisfies every model equation and the constraint equation, and every path of (q,p) comes from a path of the model variables. Provisos: no variable that appears with a lead also appears with a lag in the constraint equation; the constraint is of a form that is encoded as written (C13); every variable in the constraint occurs in some model equation; every coefficient is zero or at least as large as the zero tolerance. Without the first proviso the lead terms are silently dropped and false solutions appear.",
  "all coefficient matrices, all dimensions, all paths", "All matrices, infinite paths.", [G+":gen_sys"])
p("Sign of lagged terms in the constraint",
  "For a model read from YAML the encoded constraint row equals the user's constraint r = a*x + c*eps for contemporaneous variables and shocks. For a lagged term b*x(-1) the encoded coefficient is -b: the user's constraint is encoded faithfully if and only if it has no lagged terms. For hand-made systems with a shock row: if and only if there are no lagged terms and either the shock row is zero or the constrained variable has coefficient one; without a shock row always.",
  "all coefficients", "All coefficients.", [G+":gen_sys_from_yaml", G+":gen_sys"])
p("Variables are partitioned, none twice and none lost",
  "The reported variable list vv consists of the controls followed by the states; no variable (including automatically added _lag variables, whose names must not clash with declared ones) appears twice, and one is missing only if all its coefficients in all equations, and its lag in the constraint, are numerically zero. If a variable is missing in a model with one equation less than variables, solving raises ValueError; otherwise the square system is built.",
  "all coefficient matrices", "All matrices.", [G+":gen_sys"])
p("Orthogonal rotation preserves the solutions",
  "Replacing both sides of the system by their RQ-rotated versions (and then normalising the lower block) leaves the set of solution paths unchanged and makes the upper right block of the right-hand side zero and its lower right block the identity.",
  "all matrices with the stated factorisation",
  "Equivalence over all paths.",
  [G+":gen_sys", E+":preprocess_jittable"])
p("Horizon defaults are sticky and idempotent",
  "Once horizons have been set, re-solving without l_max/k_max keeps them, any number of times. An explicit l_max is stored as l_max+1, with l_max<2 corrected to 2 when k_max>0. Hence the undocumented default (stored 3) differs from explicitly passing the documented default l_max=3 (stored 4); and l_max<2 without k_max raises TypeError.",
  "all histories of set_par/gen_sys calls and arguments",
  "History property; arithmetic corner cases.",
  [G+":gen_sys"])
p("A failed re-solve is not atomic",
  "If solving raises, the parameters, x_bar, variable order, dimensions and observation matrices already have their new values while the transition tables are still those of the last successful solve; so after a failed set_par, get_par() reports parameters that the transition function does not use. Before any of these assignments (failure in evaluating the parameters) only par has changed.",
  "all models, all failing parameter vectors, all failure points",
  "Crash-point property.",
  [G+":gen_sys_from_yaml", G+":gen_sys", M+":set_par"])
p("Shock columns must load",
  "The last neps entries of the state block are the shocks, in declared order, if and only if every shock has a coefficient above tolerance in some equation or the constraint; a shock whose loading evaluates to zero is moved to the controls and the state/shock layout assumed by the transition function no longer holds.",
  "all coefficient matrices",
  "Depends on parameter values (e.g. a zero loading), not on code paths tests exercise.",
  [G+":gen_sys"])
# ---------------------------------------------------------------- tools
p("The transition depends only on the state block; degenerate case without states",
  "With at least one endogenous state, t_func reads exactly the last dimq-neps entries of the given vector: two vectors that agree there give the same result, and passing the full vector or the state block alone is equivalent. With no endogenous state (dimq = neps) the slice selects the whole vector and every call with a non-empty full state fails.",
  "all states, models, dimensions",
  "The degenerate -0 slice only occurs for special parameter values.",
  [T+":t_func", T+":irfs"])
p("set_k decoding",
  "linear=True forces (0,0); None or a bool requests the endogenous search; a tuple (l,k) is used as is; an integer n is used as (0,n) for n<>0 and as (1,0) for n=0; any k equal to -1 requests the search. A forced pair always returns flag 0 and is returned unchanged.",
  "all set_k arguments, states, models",
  "All argument shapes.",
  [T+":t_func", E+":t_func_jit"])
p("Observables from the transition equal observables of the new state",
  "For every state, shock and regime choice, the observables returned by t_func(get_obs=True) equal o_func applied to the new state returned by t_func without get_obs, and q, (l,k) and the flag are the same.",
  "all states, shocks, regime choices, models",
  "Identity over all inputs; the two code paths are never compared by tests.",
  [T+":t_func", T+":o_func", E+":t_func_jit"])
p("The linear simulation is linear",
  "With linear=True the transition, and any simulated path, is additive and homogeneous in (initial state, shocks) jointly, given zero terms at (0,0).",
  "all states, shock sequences of any length, scalars",
  "Superposition over all inputs and horizons.",
  [T+":t_func", T+":simulate", T+":irfs"])
p("irfs with a given set_k reproduces the announced path",
  "With set_k=(l,k) and no shock after period 0, the regime used in period t is (l-t,k) for t<=l and (0,max(k+l-t,0)) afterwards, so the simulated path is exactly the announced (l,k) path of the first period; likewise set_k=n for the announced (0,n) path. With shocks in any periods the same durations are used and reported in each period, with no error flag.",
  "all models, states, horizons T, (l,k)",
  "Any horizon and pair.",
  [T+":irfs"])
p("force_init_equil holds the equilibrium between shocks - but only if some shock has a nonzero period",
  "When forcing is active, in a period without shocks the regime is the previous one with one period elapsed, so between two shocks the simulated path is the announced path of the last shock period. The documented default (forcing on) is inactive when every shock is in period 0: then the equilibrium is recalculated each period. When active, periods before the first shock are simulated with (0,0) even if the initial state makes the constraint bind. The flag for multiple equilibria is set exactly if in some held period the search would find other durations.",
  "all shock lists, states, models, horizons",
  "Needs multiplicity of equilibria or non-zero initial states to be visible.",
  [T+":irfs"])
p("Normalisation of the shock list",
  "A bare name is (name,1,0), a pair gets period 0, triples are unchanged. The shock vector of period t contains, for each shock, the size of the last listed entry for that name and period, zero otherwise. An unknown shock name raises ValueError if and only if its period lies within the horizon.",
  "all shock lists, all periods",
  "All lists of any length.",
  [T+":irfs"])
p("simulate: shape, composition and masking",
  "The result has one state more than shocks, starts at the initial state, and simulating a concatenation of shock sequences equals simulating the second from the last state of the first. A NaN mask entry leaves the shock unchanged; with the default operation any other entry m multiplies it (so it replaces the shock, as documented, only if m=0 or the shock is 1).",
  "all shock sequences, masks, models",
  "All lengths and masks.",
  [T+":simulate"])
p("The variable-order guard in simulate can never fire",
  "simulate promises to raise if the variable ordering changes with the parameters. The guard compares the new order with itself: for every model and parameter vector it passes, also when the order differs from the order used to label the results.",
  "all models and parameter vectors",
  "A guard that never fires is invisible in passing tests.",
  [T+":simulate", M+":set_par"])
p("simulate without source always fails",
  "Calling simulate with pars, resid and init but without source raises TypeError although all inputs are given.",
  "all inputs", "Error on every input of a documented call shape.", [T+":simulate"])
p("traj reports the path of a different duration",
  "traj(state,l,k) returns for k>=1 the constraint values of the announced (l,k-1) path, and for k=0 those of (l,k_max), not those of (l,k).",
  "all states, models, (l,k)", "Plausible-looking output.", [T+":traj"])
p("traj and k_map use the system of their first call",
  "The trajectory tables are computed at the first traj/k_map call and never refreshed: after any later parameter change the tables are still those of the parameters at that first call, while x_bar and the search use the new ones.",
  "all histories of set_par/traj/k_map calls", "History property.", [T+":traj", T+":k_map"])
p("k_map layout",
  "k_map(state,l,k) returns, relative to x_bar, the constraint value in period i+k of the announced (i,k) path for every i<l_max and in period l+i of the announced (l,i) path for every i<k_max.",
  "all states, models, (l,k)", "Index arithmetic.", [T+":k_map", E+":preprocess_tmats_jit"])
p("shock2state sets exactly one entry",
  "shock2state returns the zero state of length dimq except for the given size at the position of the named shock; an unknown name raises.",
  "all shock names and sizes, dimensions", "All positions.", [T+":shock2state"])
# ---------------------------------------------------------------- parser
p("Lags of any order are expanded faithfully",
  "After expansion of lags, a path of the original variables satisfies the original equations if and only if the path extended by the auxiliary _LAG variables satisfies the expanded equations; no symbol with a lag below -1 remains.",
  "all equation systems, all lags, all paths", "Any lag length and any path.", [PA+":DSGE.parse"])
p("Leads up to two are expanded faithfully, longer leads are not",
  "The same holds for leads of at most two periods. A lead of three or more is expanded to an auxiliary variable whose equation refers to the base variable one period ahead, so x(+3) is treated as x(+2): there is a system and a path for which the equivalence fails.",
  "all equation systems, all leads, all paths", "Shipped models have leads of one.", [PA+":DSGE.parse"])
p("Lagged shocks are expanded faithfully",
  "A shock appearing with lags is replaced by an auxiliary variable equal to the shock; equivalence of solutions as for lags, and no lagged shock remains.",
  "all equation systems, all shock lags, all paths", "Any lag length.", [PA+":DSGE.parse"])
p("Expansion keeps the system square",
  "If the declared equations number one less than the declared variables (otherwise SyntaxError), then after every expansion step the equations still number one less than the variables.",
  "all models", "Counting over loops of unbounded length.", [PA+":DSGE.parse"])
p("The coefficient matrices are the model equations",
  "For equations affine in variables and shocks, evaluating an equation on any path equals its constant plus AA*x(t+1)+BB*x(t)+CC*x(t-1)-PSI*eps(t) with the compiled matrices: the matrices lose nothing but the constant term.",
  "all affine equations and all parameter values and paths", "Identity over all equations.", [PA+":DSGE.get_matrices"])
p("Observation equations: lagged terms are dropped silently",
  "The compiled observation equals the declared expression for every state if the expression involves only contemporaneous variables; terms with lags are dropped without an error.",
  "all observation equations", "Silent.", [PA+":DSGE.get_matrices"])
p("parafunc definitions resolve in any order, circular ones raise",
  "The resolution loop terminates for every set of definitions. If each definition only refers to known names and to definitions that are (transitively) non-circular, all are resolved whatever the declaration order, and to values independent of that order; otherwise NameError is raised.",
  "all sets of definitions and all orders", "Termination and order independence.", [PA+":DSGE.get_matrices"])
p("The shock covariance is symmetric and cross-covariances cannot be declared",
  "The compiled covariance matrix is symmetric; its entry for each declared shock is the declared value. A key naming two shocks ('e_a, e_b') makes parsing raise SyntaxError because the key itself is taken as a shock name.",
  "all covariance sections", "The two-shock code path looks supported.", [PA+":DSGE.parse"])
p("Reading a model through the cache equals parsing it - except path and functions file",
  "A read with a cache hit returns a model parsed from the same YAML text, and - if the file has a functions file - the same functions text, as the file. But it keeps the path of the file first read with that text, and if the file has no functions file it may return a model compiled with the functions of another file.",
  "all histories of reads and file contents", "History property of a process-global cache.", [PA+":crawl_cached_models", PA+":DSGE.read"])
p("Models obtained by read are isolated, models obtained from a dict are shared",
  "Modifying a model returned by DSGE.read never changes the result of a later read. Two calls of gen_sys_from_dict with equal dicts return the same object, so a modification through one is visible through the other.",
  "all histories of read/modify operations", "History and aliasing.", [PA+":DSGE.read", G+":gen_sys_from_dict"])
p("Saved models need data to be loadable",
  "Loading a file written by save succeeds if and only if data had been loaded into the model before saving; then name, data, YAML text and stored estimation results are those saved, and the model belongs to the directory of the file.",
  "all models/histories", "Round-trip over histories.", [CL+":save_meta", CL+":load_data", PA+":DSGE.load"])
p("Every load/save cycle grows the file",
  "Each load stores in the metadata a dump that contains the previous dump, so the size of the stored dump strictly increases with every load/save cycle.",
  "all models and numbers of cycles", "Unbounded history.", [PA+":DSGE.load", CL+":save_meta"])
# ---------------------------------------------------------------- parameters
p("set_par/get_par round trip for a single parameter",
  "After a successful set_par(name,value), get_par(name) is value and every other parameter is unchanged; setting two different parameters commutes; setting a derived parameter or an unknown name raises and changes nothing. A derived parameter is always that of the current (or given) parameters and follows every assignment.",
  "all models, parameter vectors, names, values, histories", "Round trip over all inputs.", [M+":set_par", M+":get_par"])
p("Strings are mistaken for vectors when their length matches",
  "set_par(name_of_set) selects the documented parameter set unless the length of the string equals the number of parameters or of priors; in those cases (e.g. 'mode' or 'init' with four priors) the string is taken for a parameter vector and the call fails.",
  "all numbers of parameters and priors, all set names", "Depends on a coincidence of lengths.", [M+":set_par"])
p("get_par is not read-only",
  "get_par() without arguments and get_par(name) leave the model unchanged. get_par with a parameter set ('calib','mode','prior_mean',...; 'prior' only if the model is not used for the draws, see C134) leaves the current parameters reset to the calibration, so a following get_par() differs although no set_par was called and the transition tables are unchanged.",
  "all models, histories", "Hidden state change.", [M+":get_par"])
p("'best' is not 'mode' for edited calibrations",
  "get_par('best') and get_par('mode') agree on the estimated parameters whenever a mode exists; on all other parameters 'best' keeps current edits while 'mode' returns the calibration.",
  "all models, edits", "Only visible after edits.", [M+":get_par"])
p("set_par on a given vector is pure",
  "set_par(name,value,npar=v) returns a copy of v that differs exactly at the position of name and changes neither v (contrary to its documentation) nor the model. If v has as many entries as there are priors, the position is that in the prior list - also when that number equals the number of all parameters.",
  "all vectors, names, models", "All inputs; aliasing.", [M+":set_par"])
p("get_par(vector) ignores the non-estimated entries",
  "For a full-length vector, get_par(vector) returns the vector's estimated entries and the model's current values elsewhere; it returns the vector itself if and only if these coincide. set_par(vector) uses all entries.",
  "all vectors and models", "All inputs.", [M+":get_par", M+":set_par"])
p("Models without priors cannot select parameter sets",
  "For a model without an estimation section set_par('calib') (and every other set name whose length differs from the number of parameters) raises TypeError.",
  "all models without priors", "Shipped examples have priors.", [M+":set_par", PA+":DSGE.parse"])
p("get_cov changes the model",
  "get_cov(npar=v) returns the covariance at v and leaves the model solved at v instead of at its previous parameters.",
  "all models, vectors", "Hidden state change.", [M+":get_cov", M+":get_par"])
p("box_check reports exactly the violations - of the vector it is given",
  "box_check(v) reports a lower (upper) violation for prior i if and only if v[i] is below (above) its bound, in order. Without an argument it applies the i-th bound to the i-th entry of the full parameter vector, so it reports correctly only if the priors are the first parameters in declaration order.",
  "all vectors and bounds", "All inputs; misalignment.", [M+":box_check"])
p("Observables for several parameter vectors leave the model inconsistent",
  "o_func(states, pars=...) evaluates each block of states with the observation matrices of its own parameters, and afterwards leaves the model with the last parameter vector but the transition tables of the original one.",
  "all models and lists of parameter vectors", "Hidden state change.", [T+":o_func", G+":gen_sys"])
p("Posterior draws come from the tail of the chain",
  "Every vector returned by get_par('posterior') consists, in its estimated entries, of one row of the last `tune` steps of the chain, and of the calibration elsewhere.",
  "all chains, tunes, random draws", "All random draws.", [M+":posterior_sampler", M+":get_par"])
# ---------------------------------------------------------------- filtering
p("The initial covariance is stationary",
  "The initial covariance assigned for the Kalman filter and the ensemble filters satisfies P = F P F' + Q for the transition matrix F and shock covariance Q of the linear model, given that the Lyapunov solver solves its equation on the state block.",
  "all models, matrices, dimensions", "Matrix identity.", [FI+":run_filter", FI+":get_p_init_lyapunov"])
p("Repeated filtering does not change the shock covariance - unless dimx equals neps",
  "Running the Kalman filter any number of times after setting parameters uses the same state covariance E Q E' each time, provided the number of variables differs from the number of shocks; if they are equal each run transforms the covariance again.",
  "all models, any number of runs", "History property; dimension coincidence.", [FI+":run_filter"])
p("Shocks are recovered from consecutive states",
  "If x = F xp + E eps and the pseudo-inverse is a left inverse of E, get_eps_lin(x, xp) = eps; for the Kalman filter F and E are those of the linear transition function, so get_eps_lin(t_func(xp,eps,linear=True), xp) = eps.",
  "all states, shocks, models", "Identity over all inputs.", [FI+":get_eps_lin", T+":t_func"])
p("extract and simulate are inverse for the linear filter",
  "For the Kalman filter, simulating (linear=True) from the extracted initial state with the extracted shocks reproduces exactly the path that extract built while extracting.",
  "all data lengths, models, filter results", "Any sample length.", [FI+":extract", T+":simulate"])
p("Filtering guards",
  "run_filter raises NotImplementedError if the data has exactly one column or a number of columns different from the number of shocks, whatever the filter; the likelihood returned by get_ll is never NaN. Without get_ll the states are returned.",
  "all data shapes, filters", "All inputs.", [FI+":run_filter", FI+":get_ll"])
p("Filter selection",
  "Long and short names select the same filter; every other name, including misspelt ones, silently selects the ensemble filter. The inversion filter and both particle filters cannot be created by any argument set, and running the ensemble filter with dispatch=True always raises. The default ensemble size is half the square of the number of states, rounded down, plus one.",
  "all filter names and arguments", "All strings.", [FI+":create_filter", FI+":run_filter"])
p("All extraction attempts use the same seed",
  "extract retries a failing sample up to nattemps times, but every attempt is made with the same seed and inputs (documented: a different seed). A success is returned as such; if all attempts fail, the result is None if failures are accepted, and the exception is raised otherwise; interrupts are always raised.",
  "all seeds, numbers of attempts, failures", "Retry histories.", [FI+":extract"])
# ---------------------------------------------------------------- estimation
p("The log-probability does not depend on call history",
  "lprob(par) returns the same value whatever lprob calls were made before, and leaves the global random state as it found it, both when the likelihood evaluation succeeds and when it raises an ordinary exception (with verbose at most 1, or as long as the verbose report itself does not fail).",
  "all histories of calls, all parameters, all failures", "History and exception paths.", [ES+":prep_estim"])
p("The log-probability is tempered likelihood plus prior",
  "lprob is -inf (or the infinite prior value) when the prior is infinite, without evaluating the likelihood; -inf when the likelihood evaluation fails or is -inf and temp>0; otherwise temp*ll + lprior; with temp=0 it is the prior and the likelihood is not evaluated.",
  "all parameters, temperatures", "All inputs, infinite values.", [ES+":prep_estim"])
p("Remembered linear estimation uses different horizons",
  "prep_estim(linear=True) uses horizons (1,0); a later prep_estim() that remembers linear=True uses the given l_max,k_max (3,16) instead.",
  "all histories", "History property.", [ES+":prep_estim"])
p("Pool bookkeeping",
  "mapper is sequential iff no pool attribute exists or debug is set. After an operation that leaves pool=None (prep_estim with debug or ncores=0, mcmc in debug mode), every later irfs/simulate/extract/create_pool call raises AttributeError; with a pool present they all keep the number of workers.",
  "all histories of operations", "History property.", [ES+":create_pool", ES+":mapper", T+":irfs", T+":simulate", FI+":extract", MC+":mcmc"])
p("mcmc with default tune fails after sampling; nwalks is ignored for p0",
  "With tune=None and temp=1, mcmc raises TypeError after the sampler has run, so the mode is not stored; with p0=None the initial ensemble is a single vector for every nwalks because the sample size is passed under an unknown keyword.",
  "all arguments", "Needs a full sampling run.", [MC+":mcmc", M+":get_par"])
# ---------------------------------------------------------------- misc
p("Result dictionaries round-trip only for names without extension",
  "load_rdict(path,suffix) reads the file written by save_rdict(path,suffix) if the path has at least four characters together with the suffix and neither it nor the suffix makes the name end in .npz; with a path that ends in .npz, or a suffix that completes that extension, load_rdict does not see what save_rdict wrote (it finds whatever was there before); and a path+suffix of fewer than four characters raises IndexError.",
  "all path strings and suffixes", "All strings.", [CL+":save_rdict", CL+":load_rdict"])
p("load_data is atomic and complete",
  "load_data either stores exactly the observable columns in declared order for the rows of the requested range, or raises (missing column, NaN, wrong type) and leaves the model's data unchanged.",
  "all data frames", "All inputs.", [CL+":load_data"])
p("get_sample draws from one walker and ignores its chain argument",
  "get_sample picks rows of a single walker's full history rather than recent rows of all walkers, ignores the chain argument, and fails when the history is shorter than the index range it draws from. With w walkers and r = 60/w rounded up it is walker w-r, and the call fails exactly if the history has less than r steps, there are fewer than r walkers, more than r*w draws are requested, or a step drawn from 0..r*w-1 lies beyond the history.",
  "all chains, sizes, draws", "Random draws.", [CL+":get_sample"])
p("Index lookup",
  "vix returns for each name its (first) position in vv in order, raising on unknown names or skipping them with dontfail; a single string is treated as one name. oix likewise for observables without skipping.",
  "all lists", "All lists.", [CL+":vix", CL+":oix"])
p("Where chains are read from",
  "get_chain reads the given backend file if one is given, else the sampler in memory, else the backend recorded in the metadata, else the default file; a missing file raises NameError.",
  "all states", "All combinations.", [CL+":get_chain"])
p("sort_nhd splits contributions without loss",
  "For any list of contributions, the stacked positive bands and negative bands are contiguous, each starting where the previous one ended, positives are nondecreasing from 0 and negatives nonincreasing from 0, and the last positive level plus the last negative level equals the sum of all contributions.",
  "all lists of contributions", "Any length.", [ST+":sort_nhd"])
p("The historical decomposition adds up",
  "In every period the contributions returned by nhd sum over shocks to the simulated state, provided that whenever a constrained regime (k>0) is in force the summed constraint contributions are nonzero; with linear=True always.",
  "all models, residual series of any length", "Any length, any regimes.", [ST+":nhd"])
p("Variance shares",
  "Every column of the gfevd result whose variable responds to at least one shock consists of numbers in [0,1] summing to one. The function cannot be applied to the result of extract, which has no 'means' entry.",
  "all responses", "All inputs.", [ST+":gfevd", FI+":extract"])
p("The business-cycle index only works without endogenous states",
  "mbcs_index raises a dimension error whenever the model has at least one endogenous state.",
  "all models", "Shape argument.", [ST+":mbcs_index"])
p("Dated symbols",
  "Shifting a symbol by a then b equals shifting it by a+b, by 0 gives the symbol at the same date, and shifting drops the expectation date; two symbols of a class are equal iff name, date and expectation date agree; the printed form determines name and date for identifiers.",
  "all names, dates", "All integers and strings.", [SY+":TSymbol"])

p("Announced paths solve the user's own model",
  "For every regime pair (l,k) and every initial state, the path generated by the stored decision rules is the image of a path of the model variables that satisfies all the equations the user wrote, the user's constraint in the slack periods and variable = bound in periods l..l+k-1 (provisos of C12).",
  "all models meeting the provisos, all l, k, all initial states", "All matrices, infinite paths.", [G+":gen_sys", E+":preprocess"])
p("The value compared with the bound is the user's",
  "The value the equilibrium search compares with the bound is the value of the constrained variable that solves the user's constraint equation given all other variables on the announced path.",
  "all models meeting the provisos of C12, all periods", "All matrices, all periods.", [G+":gen_sys", E+":preprocess"])

p("Impulse responses exist",
  "On every solved model with at least one endogenous state, irfs without fixed expectations returns exactly T rows for every shock list whose names are known; a name that is not a shock of the model raises ValueError if and only if its period lies within the horizon.",
  "all solved models, shock lists, horizons, initial states, forcing options", "All models and shock lists; the search must never leave the tables.", [T+":irfs", E+":t_func_jit"])

p("Unused and undeclared names are rejected",
  "A declared shock or variable that occurs in none of the model equations makes parsing raise SyntaxError, even if it occurs in the constraint or in an observable; so does a name that occurs in a model equation but is not declared, and a parameter with a date.",
  "all model files and names", "All files.", [PA+":DSGE.parse"])
p("The constraint equation may only be dated at t and t-1",
  "Unlike model equations, the constraint is not expanded with auxiliary variables: compiling a model whose constraint contains a variable dated t+1 or later raises NotImplementedError, and one dated t-2 or earlier raises as well, instead of being silently ignored.",
  "all model files, all parameter values", "All files and dates.", [PA+":DSGE.get_matrices"])

p("Random parameter sets cannot be assigned",
  "set_par('prior') and set_par('posterior') never succeed, whatever the model, the chain and the number of parameters: the draws come as a list of vectors, which is taken for one vector.",
  "all models with an estimation section, all chains", "All models and chains.", [M+":set_par", M+":get_par"])

p("Shocks cannot be recovered with the ensemble filter",
  "get_eps_lin with any filter but the linear one raises ValueError for every pair of states of a solved model with at least one shock and fewer shocks than states-plus-shocks: the shapes it combines never agree. With the shapes it expects (states of the period before, states and shocks of the period) it returns shocks that reproduce the observed change.",
  "all solved models, all pairs of states", "All models and dimensions.", [FI+":get_eps_lin"])
p("Default measurement-error covariance",
  "create_obs_cov returns a diagonal, positive semi-definite matrix whose j-th diagonal entry is scale squared times the (population) variance of the j-th observable; it is singular exactly if the scale is zero or an observable is constant.",
  "all data sets and scales", "All data sets.", [FI+":create_obs_cov"])

p("Debug mode is permanent",
  "After any call with debug=True (prep_estim, irfs, simulate, prior_sampler) every later batch of tasks of this model runs sequentially, whatever the debug argument of later calls. Extraction with the linear filter ignores its debug argument; it restores the flag if it succeeds and leaves debug mode on if it raises.",
  "all histories of operations", "History property.", [T+":irfs", T+":simulate", FI+":extract", ES+":mapper"])
p("Settings of prep_estim are remembered",
  "The number of ensemble members, linear, the seed and use_prior_transform are those given in the call, else the last ones given in an earlier call (even one that raised), else the defaults (300, False, 0, False). Hence after prep_estim(linear='IF'), which always raises, every later prep_estim call that does not set linear raises too. Without an explicit seed prep_estim itself starts from an unseeded random state.",
  "all histories of calls and arguments", "History property.", [ES+":prep_estim"])
p("The stored mode is the best recent draw",
  "With temp=1 and an explicit tune, mcmc stores the position with the highest log-probability among the last tune steps of all walkers together with that log-probability; it stores one whenever there is at least one draw.",
  "all chains, numbers of walkers, tune", "All chains.", [MC+":mcmc"])
p("With a prior transform the stored mode is in sampler coordinates",
  "If use_prior_transform is set, get_chain shows the transformed draw at the place of the mode, while the stored mode (and get_par('mode')) is the untransformed one.",
  "all chains and transforms", "All chains.", [MC+":mcmc", CL+":get_chain"])
p("lprob agrees with setting parameters by hand",
  "With temp=1, lprob(par) equals the likelihood get_ll returns after the same parameters, horizons, filter covariance and seed have been set by hand, plus the log prior.",
  "all parameters and models", "All inputs.", [ES+":prep_estim", FI+":get_ll"])
p("A covariance passed once is kept",
  "init_cov passed to run_filter or extract is stored in the filter and used by all later filter runs, extractions and likelihood evaluations of this filter, whatever is set, extracted or evaluated in between.",
  "all histories", "History property.", [FI+":run_filter", FI+":extract"])

p("Marginal data density: draws and probabilities belong together",
  "If neither is passed, mdd pairs every parameter draw of the last tune steps with its own log-probability, in the same order; tune=0 means the recorded tune. A chain passed without log-probabilities is combined with the recorded log-probabilities. The accepted methods are exactly laplace (or lp), hess and mhm; any other name raises NotImplementedError.",
  "all chains, log-probabilities, tune values and method names", "All chains.", [ST+":mdd"])

p("Posterior mean",
  "post_mean without a chain is the mean over all walkers of the last tune steps of the recorded chain; a chain passed to it is rejected with ValueError as soon as it contains two numbers.",
  "all chains and tune values", "All chains.", [ST+":post_mean"])
p("Decompositions change the model",
  "After nhd, and after gfevd with recorded parameters, the model object is set to the parameters of the last draw processed, not to those it had before the call.",
  "all draws", "History property.", [ST+":nhd", ST+":gfevd"])

p("From the model file to simulated paths and back",
  "For a linear model file, every path generated with the rules stored for a binding spell (l,k) satisfies, from the first period on, all equations exactly as written in the file (lags of any order, leads up to two periods as in C34, no constant terms, constraint encoded as written as in C12), the constraint equation whenever the constraint does not bind, and the bound whenever it does. Conversely every path that satisfies the equations of the file in this sense, with shocks in the first period only and returning to the linear solution after the spell, is the path those rules generate.",
  "all linear model files, parameters, spells and paths", "Relates the text of arbitrary files to all simulated paths.", [PA+":DSGE.read", G+":gen_sys_from_yaml", G+":gen_sys", E+":preprocess_jittable"])
p("Observables are the declared expressions",
  "In a solved linear model, the observables computed from the reported states and controls of any period equal, for every path, the expression declared for them in the file, evaluated at that path. This also holds when only the observation matrices are computed, provided every variable used is among the reported ones.",
  "all linear model files, parameters and paths", "All models and paths.", [G+":gen_sys", PA+":get_matrices", T+":t_func"])

p("What a run does to stored chains",
  "A call of mcmc changes at most one chain file: none if backend is false, else the file named in the call, else the one named in an earlier call, else the one given by model name and suffix. With resume or append the run continues from the content of that file. Otherwise it starts from a chain reset to the number of walkers; an unnamed file is deleted before. A call that is rejected because the number of walkers is missing raises TypeError; it leaves a named file alone but has already deleted the chain in an unnamed one.",
  "all objects, files, arguments, samplers", "Depends on files and earlier calls.", [MC+":mcmc"])
p("Which chain is read after a run",
  "In the same session get_chain reads the sampler of the last run that ended, even if mcmc raised afterwards. After saving the metadata, a later session reads the stored chain if its file was named or has the standard name. With another suffix it reads the file of standard name: an older chain, or NameError. A run without backend leaves later sessions as they were.",
  "all objects, files, arguments, samplers", "Spans sessions.", [MC+":mcmc", CL+":get_chain", CL+":save_meta"])
p("Every call of mcmc sets the window of later statistics",
  "After any call of mcmc, also one that raises at any point after the seed was set, the window (tune) is the given one, or the number of steps divided by five, rounded down.",
  "all objects and arguments, all failures", "All failures.", [MC+":mcmc", CL+":get_tune"])
p("Reports on chains use one window",
  "Without arguments mcmc_summary uses the last tune steps (all if there are fewer) of chain and log-probabilities of the same run. A chain passed by the caller is combined with the log-probabilities of the model's own chain, which must exist and may differ in length. posterior2csv writes one row for each parameter, labelled in the order of the prior, with the values in the last tune steps ordered by step and walker; it succeeds only if there are as many labels as parameters.",
  "all chains, windows, numbers of walkers and parameters", "All chains.", [CL+":mcmc_summary", CL+":posterior2csv"])
p("Longer horizons",
  "If a model can be solved for some l_max and k_max, it can be solved for all smaller ones, and the stored rules for the spells that both contain are the same. Raising l_max never changes a spell that was found with error flag 0. Raising k_max too can only replace it by a spell that starts earlier and lasts longer than the old k_max; spells that start at once are kept, and so is the result that the constraint is slack if l_max is kept.",
  "all models, horizons and states", "All models and horizons.", [E+":preprocess_jittable", E+":find_lk"])
p("Equilibria are found and stay equilibria",
  "If within the horizons there is a spell (l,k) whose announced path is an equilibrium (unconstrained value of the constrained variable at or above the bound before the spell, at or below it during the spell, above it ever after), the search ends with error flag 0 and returns this spell or one before it in the order of the search. In all later periods of that path, without new shocks, the search ends with error flag 0 too and returns the rest of the spell or one before it.",
  "all models, horizons, states, paths and later periods", "All models and states.", [E+":find_lk", E+":bruite_wrapper", T+":t_func"])
p("Name clashes are never silent",
  "If a name occurs twice among the declared variables and the auxiliary variables for lags, leads and lagged shocks, building the matrices raises, provided every model equation contains a variable or shock. So a file that is accepted is expanded faithfully, as in C33-C35, whatever names it uses. An equation of constants only can hide a variable that was declared twice.",
  "all model files", "All files.", [PA+":DSGE.parse", PA+":DSGE.get_matrices"])
p("Intervals of observables",
  "With covariances, o_func returns for each state the 95% interval: centred at the state, ends 1.96 standard deviations away. For an observable that loads on one variable with a nonnegative coefficient the interval is its 95% interval, and for nonnegative loadings it contains it. For an observable with a negative loading on a single variable the two ends are swapped: the lower end lies above the upper end whenever the variance is positive.",
  "all observation matrices, states and covariances", "All covariances.", [T+":o_func"])
p("Responses and simulations for other parameters",
  "irfs and simulate with parameter vectors leave the model as it was. The result for each vector does not depend on the others and, if the number of variables and the horizons are the same, equals that of calling set_par with it and then irfs without vectors. If set_par raises ValueError, irfs returns a result marked as failed for this vector only; any other exception ends the call. Exception: irfs ignores a vector of zeros and returns responses for the current parameters, even if the model has no solution at zero; simulate does not. The first irfs call on a new object solves it at the calibrated parameters; if that fails, later calls do not try again but raise AttributeError.",
  "all models, batches of vectors, shock lists, horizons and settings", "All batches.", [T+":irfs", T+":simulate", M+":set_par"])
p("Extraction for several parameter vectors",
  "extract with the linear filter and vectors of equal length (all parameters or the estimated ones) gives for each vector the result of extracting with this vector alone, and fails with the error of the first vector that fails. Unlike irfs it works on the model itself: afterwards the model, its tables and its filter are those of the last vector. A shock covariance assigned to the filter by the user is discarded, also when extracting with the current parameters.",
  "all models, batches, solvers and filters", "All batches.", [FI+":extract", FI+":run_filter", M+":set_par"])
p("Units",
  "If all variables and shocks are measured in other units (multiplied by a positive number), and the bound with them, the model has the same solution: a period, impulse responses and simulations give the multiplied values with the same durations and flags. In the solved system only the constant of the constrained regime changes.",
  "all models, units, states, shocks and settings", "All states and units.", [E+":t_func_jit", G+":gen_sys", T+":irfs", T+":simulate"])
p("Clear of the bound the model is linear",
  "If, without the bound, the constrained variable stays above it for the l_max+1 periods that are checked, a period is the same as that of the linear model; and a period is reported with duration 0 only in this case. So impulse responses and simulations whose linear versions stay clear of the bound in this sense equal their linear versions, including flags.",
  "all models, states, shock lists, horizons", "All states and shocks.", [E+":find_lk", T+":irfs", T+":simulate"])
p("Mixtures",
  "With given durations, the result of a period for a mixture of two states and shocks is the mixture of the results. If the same durations are an equilibrium from two states, then they are one from every state between them, and from there the search succeeds with these durations or a pair before them.",
  "all models, states, durations and weights", "All states.", [E+":t_func_jit", E+":find_lk"])
p("No effects from the future",
  "Impulse responses up to a period do not depend on shocks after it, nor on the number of periods asked for, if expectations are recalculated in each period, or if both lists contain a shock after period 0, or neither does. With the default settings a shock added for a later period can change the durations and responses before it.",
  "all models, shock lists, initial states, horizons and settings", "All lists.", [T+":irfs"])
p("Rest and shifts in time",
  "A model at rest without shocks stays there, with durations 0, if the bound is negative. Shocks that come d periods later, from rest, give d periods at rest and then the original responses, durations and flags. With a bound of zero, which is accepted, the model at rest is reported to be at the bound for one period.",
  "all models, shock lists, shifts and horizons", "All shock lists.", [T+":irfs", T+":t_func", G+":gen_sys"])
p("Named parameter sets",
  "Asking get_par for a set gives, for the estimated parameters: 'calib' the calibration; 'prior_mean' the midpoint of uniform priors and the location given for the others; 'adj_prior_mean' the same, ten times that number for inv_gamma_dynare; 'mode' and its synonyms the stored mode; 'post_mean' and 'posterior_mean' the averages over the walkers and the last steps of the chain; 'init' the initial values and, where there is none, the calibrated value. In the full vector all other parameters are calibrated. 'init' also stores the calibrated values as initial values.",
  "all models, priors, chains, stored values", "All models and chains.", [M+":get_par", ST+":post_mean"])
p("What a model file declares",
  "A file is accepted exactly if its variable names contain no spaces, it has one constraint of the form `variable = expression`, every equation has at most one equality sign (none means `= 0`) and the model so declared is accepted; the declared model is unique. An accepted file that is changed in one place is rejected: a name with a space, a malformed constraint, another number of equations or text that is no equation with SyntaxError, two constraints with NotImplementedError, none in the list with IndexError, a second equality sign with ValueError.",
  "all files as loaded from YAML, all grammars of expressions", "All files.", [PA+":DSGE.parse"])
p("Layout of a model file",
  "`^` means power and semicolons are ignored wherever they stand; `@` at the end of a line joins it with the next one, with a space between; `~` after at least one space at the beginning of a line is a list marker like `-`. A file without these characters is passed to the YAML loader as it is. Without a space before it, `~` is not converted; inside a line, `~` after three spaces becomes a minus.",
  "all texts before and after the place in question", "All texts.", [PA+":DSGE.parse"])
p("Parameters and priors of a model file",
  "After loading, every parameter has the number given in the file, the priors are those of the file in their order, each at the position of its parameter. A file is rejected, with ValueError, exactly if there is a prior for a name which is not a parameter (a derived parameter, say). Without an estimation section there are no priors.",
  "all files", "All files.", [PA+":DSGE.parse", PA+":DSGE.p0"])
p("A simulated period solves the model file",
  "After a file has been loaded and solved, every period reported by t_func, simulate or irfs, from any state, with any shocks and settings, has this meaning: there is a path of the file's variables, with these shocks now and none later and with the lagged values of the state it started from, that satisfies the equations of the file from now on; the constrained variable is at the bound in the periods l, ..., l+k-1 of the reported durations and the file's constraint equation holds in all others; the report gives the values of this period under the reported names, further periods without shocks give those of the next periods, and o_func gives the values of the observables' expressions.",
  "all files with linear equations and a constraint without lagged terms (which the code gets wrong, C13) that meet the conditions listed, all parameters, states, shock sequences, horizons and settings", "All files, states and shocks.", [PA+":DSGE.parse", G+":gen_sys_from_yaml", G+":gen_sys", T+":t_func", T+":simulate", T+":irfs", T+":o_func"])
p("Impulse responses are simulations",
  "irfs with durations left to the search gives the same states, durations, error flag and errors as simulate for the corresponding sequence of shock vectors, and no multiplicity, unless a shock arrives after period 0 and force_init_equil is in effect.",
  "all models, shock lists, initial states, horizons, linear or not", "All shock lists.", [T+":irfs", T+":simulate"])
p("How the equations are written does not matter",
  "Two model files that differ only in the order of the model equations, or in which side of an equation is written first, give the same model object (tables, names, observation matrices), or none of them is accepted; the choice of the factorisation routine does not matter either. More generally, gen_sys gives the same object or the same error for every invertible combination of the equations that does not make a column of coefficients numerically zero or nonzero. If a variable is declared twice, the order can decide whether the file is accepted. Without the condition on zeros this is false: coefficients are compared with an absolute tolerance, and for every model with a variable that has no lag in the constraint, multiplying all equations by a small number makes gen_sys raise ValueError.",
  "all files with distinct variables, all orders, parameters and horizons; all invertible combinations", "All orders and combinations.", [PA+":DSGE.parse", G+":gen_sys", E+":preprocess_jittable"])
p("What is reported is determined by the model file",
  "For given states, given shocks and given durations (l,k) within the limits, the model file has a solution that does not explode in which the constraint binds in the periods l, ..., l+k-1, and the values of all variables of the file in it are unique. t_func reports its values for the reported durations. Without set_k, the durations and the error flag are those which the documented search gives for the values that the file's constraint equation would give to the constrained variable in these solutions.",
  "all files as in C116 whose linear system has a stable solution, all states, shocks, durations and settings", "All files, states and shocks.", [PA+":DSGE.parse", G+":gen_sys_from_yaml", G+":gen_sys", T+":t_func", E+":find_lk", E+":t_func_jit"])
p("Only the meaning of the model file matters",
  "Two files that declare the same variables and shocks in any order, constrain the same variable and have equations with the same solutions and equivalent constraint equations, solved with the same bound and limits, report the same durations, error flags and values of all variables in every period of a simulation or impulse response, if they start from the steady state or from states of one past and the shocks are given by name. Observables with the same meaning have the same values.",
  "all pairs of files as in C119 (different orders of declaration, different auxiliary variables, rewritten equations), all shock sequences and horizons", "All pairs of files.", [PA+":DSGE.parse", G+":gen_sys", T+":t_func", T+":simulate", T+":irfs", T+":o_func"])
p("From the text of a model file to reports",
  "Loading the text of a model file and solving it at given parameters (or at its own calibration) gives every parameter its number and every derived parameter the value of its text, and these values are unique; derived parameters defined in a circle or by unknown names raise NameError when the file is read, a list of parameters of another length ValueError, a file without constraint or with a positive bound NotImplementedError when it is solved. In every period reported for a solved model the lines of the text are true at these values from this period on: each model line always, the constraint line in all periods in which it does not bind, and when it binds the variable on its left is at x_bar (-1 if the file does not give it). Observables have the values of their texts. Conversely, a path that makes the lines true and does not explode is what is reported.",
  "all texts, YAML loaders, grammars and parameter functions with distinct names and the conditions of C116 (for the converse C119), all parameters, horizons, states, shocks", "All texts and parameters.", [PA+":DSGE.parse", PA+":DSGE.get_matrices", G+":gen_sys_from_yaml", T+":t_func", T+":simulate", T+":irfs"])
p("In which coordinates chains are read",
  "Whatever was done before, a chain returned by get_chain consists of the stored draws, transformed by the prior transform if use_prior_transform is in force: the last value passed to prep_estim, and after loading the one in force at the last saving, provided that no call which passed a value has raised. So a chain reads the same in a later session. After such a call has raised it may read differently there, and passing another value later changes how chains sampled before are read.",
  "all histories of prep_estim, runs, reads, saving, loading and parameter changes", "Spans sessions and histories.", [CL+":get_chain", ES+":prep_estim", CL+":save_meta", PA+":DSGE.load"])
p("Reading a chain can change the model",
  "Reading log-probabilities or acceptance rates changes nothing. Reading a chain, or calling info, changes nothing once prep_estim has returned in the session. Before that, reading a stored chain is a call of prep_estim(): it fails with its errors, and it moves the estimated parameters to the prior mean and all others to the calibration, whatever the user has set. Once a chain has been read, reading it again gives the same and changes nothing.",
  "all objects and histories", "History property.", [CL+":get_chain", CL+":info_m", ES+":prep_estim"])
p("Which measurement covariance is used after prep_estim",
  "After prep_estim the filter has the measurement covariance that was in the filter when the metadata was last saved, in this session and in later ones, whether load_R is set or not and whatever was assigned since; without a saved one it has that of a new filter, so that an assigned covariance is lost. With load_R and none saved the call raises, but settings, parameters and filter have been replaced; so does a run in a session without prep_estim.",
  "all histories between saving and the call", "History property.", [ES+":prep_estim", CL+":save_meta", MC+":mcmc"])
p("Information about a model",
  "info shows name, date, description and, if a chain can be read, its numbers of parameters, walkers and steps and the window. A session that loads what was saved shows the same name, date, description and window. A successful run of mcmc brings back the description of the metadata, whatever was assigned before. For a model that was read from a file and never sampled it raises NameError, whatever else was done, unless there is a chain in the file of standard name. In a loaded session the starting values get_par('init') raise AttributeError until prep_estim has run, although they are in the metadata.",
  "all histories", "History property.", [CL+":info_m", CL+":get_chain", M+":get_par"])
p("Models with ten parameters cannot be estimated",
  "If a model has exactly ten parameters, or exactly ten estimated ones, every call of prep_estim raises, so that no sampling is possible and no stored chain can be read, whatever is done: the name prior_mean of the parameter set has ten letters and is taken for a parameter vector.",
  "all models and histories", "Depends on a coincidence of lengths; all histories.", [ES+":prep_estim", M+":set_par", CL+":get_chain", MC+":mcmc"])
p("The bound only sets the scale",
  "If the bound of a model file is multiplied by a positive number, loading and solving the file ends in the same way, with the same names and observables or the same exception, and t_func, irfs and simulate give, for states and shocks multiplied by this number, the multiplied results with the same durations, flags and exceptions. For any two bounds that are not positive, zero included, loading ends in the same way and all linear runs are the same. A positive bound is rejected with NotImplementedError.",
  "all model files, parameters, limits, bounds, states, shocks, horizons and masks", "All files and bounds.", [G+":gen_sys_from_yaml", G+":gen_sys", E+":preprocess_jittable", T+":t_func", T+":irfs", T+":simulate"])
p("Names do not matter",
  "If all variables, shocks and parameters of a model file are consistently renamed, with different new names for different names and such that the copies which the program makes of a variable or shock (x_LAG1, x_LEAD1, e_VAR, x_lag) are renamed with it, the file is rejected with the same error or solved with the same numbers under the new names. t_func, observables, irfs to the renamed shocks, shock2state and simulate give the same results. Names without underscores can be exchanged freely.",
  "all model files, renamings, parameters, bounds, limits, states, shocks and horizons", "All files and renamings.", [PA+":DSGE.parse", PA+":DSGE.get_matrices", G+":gen_sys_from_yaml", G+":gen_sys", T+":t_func", T+":irfs", T+":simulate"])
p("write_yaml never writes a model",
  "write_yaml raises AttributeError for every model and file name, and before that it empties the file it should write to (with .yaml appended if missing); no other file changes. If this is the file of the model itself, the model is lost: reading it again reads an empty text. If the attribute raw_yaml has been set by hand to the text of the model, the call writes this text, and reading the file gives the model back; if it has been set to something that is no text, TypeError is raised and the file is empty.",
  "all models, file names and contents of the file system", "All file systems and histories.", [CL+":write_yaml", PA+":DSGE.read"])
p("The table for changing shocks",
  "If data have been loaded and the model has as many shocks as observables, mask is a table without values with one column per shock, in order, and one row per date of the data except the last. Passed to simulate as it is, it changes nothing. A value entered for a date and a shock is combined with this shock in the period of this position and changes no other shock or period. Observables beyond the number of shocks keep their own names. With several observables and several shocks in different numbers simulate raises ValueError when the table is used; without data mask raises AttributeError.",
  "all data, distinct names of observables, shock sequences, dates and operations", "All tables and shocks.", [T+":mask", T+":simulate", CL+":load_data"])
p("Models given as a dict of matrices",
  "gen_sys_from_dict, given the matrices of a model file, ends as loading and solving the file does, with the same model or error. For any dict that can be solved, each period that t_func or simulate reports comes from a path along which AA x(t+1) + BB x(t) + CC x(t-1) + DD e(t) = 0 holds from this period on, the constrained variable is at x_bar (-1 if the dict has none) while the constraint binds and fb x(t) + fc x(t-1) + fd e(t) = 0 otherwise; with lags in the constraint this needs a dict without the entry fd, since an entry fd of zeros turns the sign of fc. Parameters passed to simulate are ignored, irfs with parameters raises TypeError. A solution gx, hx is used if both are given; hx alone is ignored and gx alone fails. A positive bound, which files must not have, is accepted. Without ZZ0, or with names in a list, no dict can be solved.",
  "all dicts of matrices, all states, shocks, horizons and settings", "All matrices and shock histories.", [G+":gen_sys_from_dict", G+":gen_sys", T+":simulate", T+":irfs", T+":t_func"])
p("Two texts that say the same model are simulated alike",
  "Take two model files as texts, each with values for its own parameters. Suppose they list the same variables and shocks (in any order), the paths that make all model lines of one true are those that make all model lines of the other true, their constraints are for the same variable and true in the same periods, and their bounds are equal. Names and number of parameters, derived parameters, line breaks and the way equations are written may differ. Then simulations and impulse responses from the steady state with the same named shocks give the same durations, flags and values of all variables in all periods, and the same observations if the observables mean the same.",
  "all pairs of texts accepted by the YAML loader that say the same model, all calibrations of both, all horizons, all lists of named shocks of any length, with the search for durations or in linear mode",
  "tests compare one rewriting of one model; the claim is about every rewriting, including reordering of variables, renaming of parameters and algebraic changes of equations",
  [PA+":DSGE.parse", PA+":DSGE.read", G+":gen_sys", T+":simulate", T+":irfs", E+":find_lk"])

p("Measurement errors declared in a file",
  "If a file declares measurement errors, it is accepted only if their calibration is given and every entry with one or two names refers to declared errors among the first as many as there are observables and has a value written as text that can be evaluated. Then the matrix of measurement errors is symmetric, has for each pair of names the value of the last entry about the pair, in either order and with any blanks around the names, and is zero elsewhere. A value written as a number raises TypeError (the covariance section accepts numbers), a name beyond the number of observables IndexError, and entries with more than two names are ignored. The model read from the file is the same with and without measurement errors.",
  "all lists of distinct declared names, all calibration entries (keys as texts, values of any YAML type), all numbers of observables, all files",
  "Keys are arbitrary texts and there may be any number of entries.", [PA+":DSGE.parse"])

p("Draws from the prior that have a solution",
  "prior_sampler(n) returns n vectors, each the first candidate drawn for its sample at which set_par succeeds, that is, for which the model with the other parameters at their current values has a solution; exceptions only reject a candidate, and the draws end if every sample has a candidate with a solution. With and without a pool the draws are the same. Without a pool the model itself is changed: afterwards it is solved at the last draw, with the tables and observation matrices belonging to it; with a pool, or with try_parameter=False, it stays as it was. get_par('prior', nsamples=n) returns the calibration with the draws put in; without a pool the model is solved at the last of them afterwards, and get_par() returns it. If all parameters are estimated and the prior section lists them in another order than the parameters, this fails: a draw without solution can be returned, and a draw with a solution can be thrown away.",
  "all models with priors, candidate sequences, states of the model and sample sizes", "All sequences of random candidates and all models.", [M+":prior_sampler", M+":get_par", M+":set_par"])

p("Parameters as dicts, and several samples",
  "For a single vector, get_par(..., asdict=True) says the same as without asdict: one dict with the rounded value of every parameter and one with the derived parameters at this vector, or with full=False the estimated ones only; no other names occur. Single parameters and the covariance are returned as they are, and the model changes as without asdict. For draws ('prior', 'posterior') this fails: with full=True the call raises ValueError unless there are as many draws as parameters, and then, as always with full=False, the i-th name gets the whole i-th draw. Without asdict, nsamples>1 for a single vector matters only with full=False: the result has nsamples rows, and each entry is multiplied by 1+0.001z with the drawn z, so that zeros stay zero and no sign changes for |z|<1000.",
  "all models, states, arguments, sample sizes and draws", "All models and sample sizes; the wrong case needs a coincidence of sizes.", [M+":get_par"])

p("The numbers that describe a model",
  "For every accepted file npara, neps and nobs are the numbers of declared parameters, shocks and observables, and neq is one less than the number of variables, since the constraint is not counted (a variable that is declared twice counts twice). If variables have at most one lead or lag and shocks none, the variables are the declared ones, neq is the number of lines of the model section, and neta the number of variables that are written with a lead. With longer leads and lags, if shocks have no leads and no variable is written with leads only or with lags only, variables and equations grow by one for each lead and each lag of a variable beyond the first and for each lag of a shock. neq_fort is neq+neta and not, as documented, the number of model and measurement equations. A variable that is written with lags of two and more periods only gets a copy x_LEAD1, although there is no lead.",
  "all model files", "All files.", [PA+":DSGE.neq", PA+":DSGE.neta", PA+":DSGE.neq_fort", PA+":DSGE.parse"])

p("Printing a model",
  "dump() prints a nested object as an outline: a line with the key and the opening bracket for every dict, list, tuple and set, its elements in order, moved to the right by four blanks, and a line with the closing bracket; one line 'key : text' for everything else. It returns unless some dict has a key that is neither a text nor None (YAML reads unquoted numbers, no, off and dates as such); then it raises TypeError, after printing the beginning of the outline. If no text of an object ends with an opening bracket, the lines determine nesting, order and labels, and so does the text on the screen if no key and no text has line breaks. Sets and dicts can look alike, and texts with line breaks, as the file that a model contains, can look like several entries.",
  "all finite nested objects", "All nestings, keys and texts.", [PA+":DSGE.dump", "pydsge/utils.py:_dumper"])

p("The table of the current best guess",
  "With a terminal of more than eight columns and as many values as estimated parameters, pmdm_report prints every name exactly once, in order, with its value below it. With names and values of at most eight characters a line is at most seven characters wider than the terminal, and not wider if the width is a multiple of eight; otherwise lines can be too wide. Without a terminal it raises IndexError, with eight columns ZeroDivisionError and with fewer ValueError. With more values than parameters it prints some values below wrong names and drops others.",
  "all lists of names and values and all widths of the terminal", "All numbers of parameters and all widths.", ["pydsge/stats.py:pmdm_report"])

import sys
for q in P: sys.stdout.write(json.dumps(q)+"\n")
