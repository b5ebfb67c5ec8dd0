# Formal model of gboehl/pydsge in Rocq

## Layout

Everything is under `rocq/theories` (logical name `Verif`). Per area there are four kinds of file:

* `M_*.v`  – the model: one Gallina definition per Python function (or per loop of it), each with a comment
  citing the file and lines it models and every simplification made. No proofs.
* `S_*.v`  – the specification: a small set of definitions in the vocabulary of the property (regime schedules,
  paths, admissible pairs, equations, …). Never refers to the model.
* `P_*.v`  – the proofs (lemmas), free to use helper notions.
* `T_*.v`  – the property theorems: only `Theorem … Proof. exact lemma. Qed.`, a non-trivial `Example` meeting the
  hypotheses, and `Print Assumptions`.

`properties.jsonl` is generated by `tools_src/props.py`; `MANIFEST.json` maps properties to theorem names.

## Modelling conventions

* **Numbers.** Floating point numbers are modelled by an arbitrary ordered field (`F : realFieldType`, or `fieldType`
  where no order is used; `rat`/`Q`/`Z` in concrete witnesses). Rounding, NaN and overflow are not modelled unless a property is
  about NaN (then values are an inductive type with an explicit NaN/infinity).
* **Arrays.** Linear algebra uses mathcomp matrices over `F` with symbolic dimensions. `np.empty` tables are partial
  functions (`None` = never written); a read of `None` is an error result, so "never reads garbage" is a theorem.
* **Exceptions** are values: `res A := Ok a | Err e` with `e` a Python exception class. Every function that may raise returns `res`.
* **Loops** are folds/structural recursion; `while` loops take fuel, running out of fuel is an error value and the theorems exclude it.
* **Mutable objects** (a model object, caches, the pool, the random state) are records threaded through the functions.
  Aliasing is modelled explicitly only where a property is about it.
* **External code** (`klein`, `scipy.linalg.rq`, `solve_discrete_lyapunov`, `pinv`, `sympy`, `random.choices`, emcee,
  filters of econsieve) is a Section variable or function argument; its contract, where needed, is an explicit
  hypothesis of the theorem. No axioms are declared.

## Plan per property

| id | model | proof |
|---|---|---|
| C01 | `get_lam`, `get_omg`, normalisation and first double loop of `preprocess_jittable` over matrices | regime schedule spec; induction on the (l,k) recursion, block-matrix algebra |
| C02 | same | backward induction from l+k using the inverses the code computes |
| C03 | second double loop, `preprocess_tmats_jit`, `check_cnst` | loop invariant: (lam, xi) is the s-step transition |
| C04 | tables with `None`; `find_lk` on partial tables | invariant of the double loop; fall-back loop for k_max=0 refuted |
| C05–C08 | `find_lk`, `bruite_wrapper` over an arbitrary partial check function | loop characterisations (first index satisfying …) |
| C09 | `find_lk` on the tables of a concrete 1x1 model | witness (`_refuted`) |
| C10 | second stage as fold over an arbitrary permutation of k | commutation of writes to different cells |
| C11 | first stage | induction on l, uniqueness of inverse |
| C12–C15, C18 | `gen_sys` lines 247–350: aux variables, y-space, masks, PU/MU/PR/MR/gg, RQ rotation | column-selection algebra; witness for the excluded case |
| C16 | l_max/k_max defaulting | case analysis, induction over call histories |
| C17 | order of attribute assignments in `gen_sys_from_yaml`/`gen_sys` with failing oracles | state machine with a failure point |
| C19–C22 | `t_func`, `t_func_jit`, `o_func` | slicing lemmas, linearity |
| C23–C25 | `irfs` runner | induction over t with the time-consistency lemma of C01 |
| C26–C28 | `simulate` | induction on the shock list; guard unfolding |
| C29–C31 | `traj`, `k_map`, `precalc_tmat` cache | index lemmas on C03, history machine |
| C32 | `shock2state` | list update lemmas |
| C33–C36 | expansion loops of `DSGE.parse` on an expression AST with dated symbols | semantic equivalence over paths `Z -> F` |
| C37, C38 | `get_matrices` differentiation and substitution on the AST | induction on affine expressions |
| C39 | parafunc resolution loop | measure on unresolved definitions; confluence |
| C40 | covariance section of `parse` | symmetric update lemma; key lookup |
| C41–C44 | `crawl_cached_models`, `read`, `gen_sys_from_dict`, `load`, `save_meta` as state machines | invariants over histories |
| C45–C55 | `get_par` (with dicts and jitter: M_AsDict.v), `set_par`, `get_cov`, `box_check`, `o_func(pars)`, samplers over a model record and a solver oracle | case analysis, list update lemmas, witnesses |
| C56–C62 | `run_filter`, `create_filter`, `get_p_init_lyapunov`, `get_eps_lin`, `extract` | block-matrix algebra, state machine, retry loop |
| C63–C67 | `prep_estim` (`llike`,`lprior`,`lprob`), `create_pool`, `mapper`, `mcmc` post-processing | state machines with RNG state and failing oracle |
| C68–C72 | `save_rdict`/`load_rdict`, `load_data`, `get_sample`, `vix`/`oix`, `get_chain` | string/list lemmas |
| C73–C76 | `sort_nhd`, `nhd`, `gfevd`, `mbcs_index` | induction over lists and periods |
| C77 | `TSymbol` | integer/string lemmas |
| C78, C79 | composition of `gen_sys` (M_GenSys) and `preprocess` (M_Engine) | C12, C15 and C01/C03 composed: solver output as a path of the user's variables |
| C80 | `irfs` on a solved model | totality: every index lies in the tables (C04, C08), induction over the horizon |
| C81, C82 | declaration checks of `parse`, dating check of `get_matrices` | membership lemmas on the free symbols of the AST |
| C83 | `set_par('prior'/'posterior')` | case analysis |
| C84, C85 | `get_eps_lin` for the other filters, `create_obs_cov` | shape analysis; diagonal matrices, sums of squares |
| C86 | debug flag | invariant over operation histories |
| C87 | settings of `prep_estim` | induction over histories of calls |
| C88–C91 | `mcmc` post-processing, `llike`/`lprob`, `init_cov` | argmax lemmas, state machines |
| C92, C93 | inputs of `mdd`, `post_mean` | slicing lemmas |
| C94 | attributes after `nhd`, `gfevd` | fold over the draws |
| C95 | parser, `gen_sys` and engine together: `usys_of_file` is the composition of `get_matrices` with the arguments of `gen_sys` | C37 (matrices reproduce the equations), C78 (compressed schedule = uncompressed one), C01/C02 (rules); the auxiliary variables added by the parser are eliminated in both directions |
| C96 | observation matrices after padding and selection of columns | C38 and the partition of the variables |
| C97–C99 | `mcmc` as a transition on (metadata, files, sampler, tune); the sampler is an oracle | case analysis over the place of the chain |
| C100 | inputs of `mcmc_summary`, table of `posterior2csv` | lemmas on the last rows and on flattening |
| C101 | `preprocess` for two pairs of horizons; search on both tables | the recursion of a cell only uses cells with smaller indices; first-admissible characterisation (C06) |
| C102 | search at all periods of an announced path | an equilibrium is admissible; the rest of an announced path is the path announced by the rest of the spell |
| C103 | removal of repeated names and number of rows in `get_matrices` | an expanded equation still contains a variable or shock; counting |
| C104 | intervals of `o_func(covs)` over a real closed field | Cauchy-Schwarz for covariance matrices |
| C105 | `irfs` and `simulate` as operations on the object, with copies for each vector | case analysis, induction on the batch |
| C106 | `extract` with the linear filter as a transition on parameters, tables and filter | states that agree in what the next `set_par` keeps give the same results |
| C107 | two models that differ in the bound by a positive factor | relation between the two tables kept by every loop (`P_Meta.v`) |
| C108 | linear and nonlinear runs | the search returns (0, 0) iff the linear path is clear of the bound; induction on the run |
| C109 | mixtures of inputs, with given durations; mixtures of announced paths | rules are affine; the announced paths are unique |
| C110 | two runs of `irfs` with lists that agree before a period | induction on the run; refutation with a concrete model |
| C111 | runs from rest, runs with shifted shocks | the zero path is an announced path; induction on the run |
| C112 | `get_par` with the name of a set, priors, chain and stored values | case analysis; sums over the chain by induction |
| C113 | the front end of `parse` on a loaded file; the expression grammar is an arbitrary function | relation between file and declared model; both directions; changed files by position of the change |
| C114 | the text replacements of `parse` as functions on character sequences; YAML is an arbitrary function | non-overlapping occurrences by induction over the text |
| C115 | the tables of parameters and priors built at the end of `parse` | induction over the sections |
| C116 | the whole way from the parsed file to a reported period: `solve_file` puts together parse, get_matrices, gen_sys and preprocess; `klein` and `rq` are external with contracts | C95 (rules and file), the layout of the state vector (names, lag copies, shocks last), inversion of t_func; induction over the loop of irfs |
| C117 | the loops of irfs and simulate | induction over the periods, exact equality including errors |
| C118 | `solve_file` and `gen_sys` on recombined equations | the tables solve equations that have the same solutions for both files; the external `klein` is assumed not to depend on the combination (shown satisfiable); the masks and enumerations agree |
| C119 | `solve_file`, `t_func`, `find_lk` | uniqueness of bounded solutions of the compressed system, for a `klein` whose solution is stable (assumed, shown satisfiable); a path of the file is mapped to a path of the system and back |
| C120 | two files, their models and simulations | by C119 the reports are functions of the meaning of the file; induction over the periods, with "states of one past" as the invariant |
| C121 | `solve_text`: text replacements, loader, front end, derived parameters as functions of the parameter list, bound, horizons, `gen_sys` | C113 (declared model), C39 (derived parameters) and C116/C119; the resolved equations have the value of the written lines, by induction over expressions |
| C122–C125 | `prep_estim`, `mcmc`, `get_chain`, `get_log_prob`, `info_m`, `save_meta`, `load` as operations on object, metadata and files (M_Session) | invariants over arbitrary histories of operations; solving, filter, priors and sampler are oracles |
| C126 | the same with `set_par` of M_Params | `set_par` with a text of ten letters always raises; induction over histories |
| C127 | `solve_file` with two bounds | the bound enters only the constant of the constrained regime (C107); the tables are related entry by entry |
| C128 | `solve_file` on a renamed file | every step of reading (context, expansion of leads and lags, derivatives, matrices) and of solving commutes with an injective renaming; no condition on the file or on `klein` |
| C129 | `write_yaml` on a file system | case analysis; the attribute it reads is never set in the package, and the file is opened for writing first |
| C130 | `mask`, with `load_data` and `simulate` | the dictionary of names on distinct observables is position by position; the rows of the table have the shape of the shocks |
| C131 | `gen_sys_from_dict` without its cache, on top of the model of `gen_sys` | the path of C116 at the level of matrices; the row of the constraint is the only place where `fd` enters, so that equal rows give equal models; bounds by C107 |
| C132 | two texts of model files, read, calibrated and solved (C121) | the lines of a text are the equations of the declared model, so that the texts declare files of the same meaning; then C120 from the steady state, and for observations C120 period by period |
| C133 | the sections about measurement errors: keys split at commas and stripped, positions, evaluation of texts, symmetric assignment | loop invariant over the entries: acceptance and the value of every position are decided by the entries about it |
| C134 | `prior_sampler` and `get_par('prior')` with the candidates as given sequences; `set_par` in the main process or on a copy in a worker | invariant over the candidates: the parameters that are not estimated never change, so each check decides solvability of the completed vector |
| C135 | the last part of `get_par`: dicts by zipping names with entries or rows, rounding as a function, jitter with the normal draws given | case analysis over the results of `get_par`; lookups in zipped lists; full vectors have one entry per parameter |
| C136 | `neq`, `neta`, `neq_fort`, `nobs`, `neps`, `npara` of a parsed file | the expansion adds as many equations as variables; for files without long leads and lags it is the identity, and the led symbols are in bijection with the led variables; otherwise the copies are counted by the longest lead and lag of each variable and the longest lag of each shock, following the dates through the replacement of lagged shocks |
| C137 | `_dumper` as a function from nested objects to the printed lines and an exception | induction over objects: the lines are the layout of an outline; the layout is a prefix code, because closing brackets are not indented like elements and headings end with brackets |
| C138 | `pmdm_report` with `numpy.array_split` and the format of cells | the chunks of names and values are the chunks of the pairs; the size of chunks is bounded by the formula for their number |

Where the code violates the natural property, the statement in `properties.jsonl` gives the exact boundary; there is one
theorem for the guarded part and one `_refuted` theorem with a witness for the rest.


## Trusted base

1. **Coq 8.16.1's kernel** (with `vm_compute`), and `coqchk`.
2. **Axioms: none.** `Print Assumptions` is run beneath every theorem of every `T_*.v` file and prints
   `Closed under the global context` for each of them: no classical axiom, no functional extensionality, no
   proof irrelevance, no primitive integers or floats. (Functions that are compared are compared pointwise.)
   No `Axiom`, `Parameter`, `Conjecture`, section-less `Variable`/`Hypothesis`, `Admitted`, functor, module type or kernel switch
   is used; every `Variable`/`Hypothesis` lives in a `Section` and becomes a quantifier or premise of the theorem.
   `coqchk -o` and `vcheck` list 38 fields of sealed mathcomp modules (`mathcomp.ssreflect.finset.SetDef.*`,
   `mathcomp.algebra.…`, and the like): these are defined constants hidden behind mathcomp's own module signatures, with a
   definition inside the sealed module; no theorem here depends on them as axioms.
3. **Libraries**: Coq's standard library and mathcomp 1.x (ssreflect, algebra). Nothing else is imported.
4. **The reading of the code.** The theorems are about the model; the code was not run. Every definition in an `M_*.v` file cites
   the lines it models; its comment names the simplifications.
5. **Contracts of external code**, always visible as premises of the theorem that uses them:
   * `scipy.linalg.rq(M)` returns `R`, `Q` with `M = R Q`, `Q` orthogonal, `R` upper triangular (C15, C78, C79);
   * `klein` returns a solution of its matrix equation (C01, C02, C78: the premise that `(omg, lam)` solves the unconstrained system);
   * `numpy.linalg.inv` inverts or raises (`nl_inv`);
   * `solve_discrete_lyapunov` solves its equation (C56); `pinv` is a left inverse (C58, C59);
   * `sympy` expressions: substitution and differentiation of syntax trees (C33–C38), equality of symbols is equality of their
     hashable content (C77);
   * `random.choices`, `np.random`, emcee, econsieve filters, prior densities: arbitrary functions (no contract);
   * `fast0` of grgrlib: a column is zero if every entry is below the tolerance in absolute value.

### Modelled

| file | modelled | not modelled |
|---|---|---|
| engine.py | everything except `preprocess`'s printing: `get_lam`, `get_omg`, both double loops (sequential and `prange` schedules), `preprocess_tmats_jit`, `t_func_jit`, `find_lk`, `bruite_wrapper`, `check_cnst` | numba compilation, floating-point rounding, the conditioning warning |
| gensys.py | `gen_sys` as a whole (`M_Full.v`; from the text of a file: `M_Whole.v`) and its parts (dimension reduction, rotation, names, horizons, observation matrices, order of assignments), `gen_sys_from_yaml`, `gen_sys_from_dict` (`M_Dict.v`, its cache: `M_Cache.v`) | `klein`, `speed_kills`, printing |
| tools.py | `t_func`, `o_func`, `irfs`, `shock2state`, `simulate`, `traj`, `k_map`, `mask` | labels of data frames other than those of `mask` |
| parser.py | equation expansion, checks, `get_matrices`, parameter functions, covariance section, measurement errors (`M_Meas.v`), `read`/`load`/caches, derived parameters, the numbers of equations etc. (`M_Counts.v`), front end (text replacements, equality signs, constraint, priors) | the YAML loader and Python's expression grammar (arbitrary functions), sympy simplification, `lambdify` |
| symbols.py | `TSymbol`, `Variable`, `Shock`: dating, equality, printing | pickling, `LaggedExpectation` (never used) |
| mpile.py | `get_par` (with dicts and jitter: M_AsDict.v), `set_par`, `get_cov`, `box_check`, `posterior_sampler`, `prior_sampler` (candidates given; check by `set_par`; the pool in M_Pool) | `prior_sampler(check_likelihood=True)`, printing, densities |
| filtering.py | matrices handed to the Kalman filter, initial covariance, `get_eps_lin`, `create_obs_cov`, `create_filter`, guards of `run_filter`, retry loop and KF branch of `extract`, batches | the filters and smoothers themselves |
| estimation.py, mcmc.py | `prep_estim`, `llike`, `lprob`, `create_pool`, `mapper`, `mcmc`: storage of chains, window, mode | emcee, process pools as processes |
| clsmethods.py | `vix`, `oix`, `get_tune`, `get_chain`, `save_meta`, `save_rdict`, `load_rdict`, `load_data`, `get_sample`, inputs of `mcmc_summary`, `posterior2csv`, `info_m`, `write_yaml` | plots, the statistics in summaries, HDF5/npz encodings |
| stats.py | `gfevd`, `mbcs_index`, `nhd`, inputs and method choice of `mdd`, `post_mean`, `sort_nhd`, `pmdm_report` (`M_Report.v`) | densities |
| utils.py, `__init__.py` | `_dumper` (`M_Dump.v`) | cyclic objects, imports |

## Findings

Places where the unchanged code violates what its documentation or a caller would expect; each is a theorem.

* C04: with `k_max=0` the search reads outside its tables as soon as the constraint is predicted to bind.
* C08: with 1000 or more values of `l` a solution with `l=999` is reported as a failure.
* C09: flag 0 does not mean that the announced path respects the constraint in every period.
* C12, C13: a variable with a lead that also appears lagged in the constraint loses its lead terms; lagged terms of the constraint
  are encoded with the wrong sign.
* C16: the default `l_max` is 3 in storage, an explicit `l_max=3` is stored as 4; `l_max<2` without `k_max` is a TypeError.
* C17: a failed re-solve leaves new parameters with old tables.
* C18: a shock with zero loading breaks the state layout.
* C19: `t_func` cannot be applied to the full vector in a model without endogenous states.
* C20: `set_k=0` means (1,0), not (0,0).
* C24: the documented default of `force_init_equil` is inactive when all shocks are in period 0.
* C26–C28: the mask multiplies although documented as replacing; the variable-order guard compares a value with itself;
  `simulate` without `source` fails although all inputs are given.
* C29, C30: `traj` is off by one in `k`; the trajectory tables are never refreshed after a parameter change.
* C34: `x(+3)` and longer leads are treated as `x(+2)`.
* C38: lagged terms of observation equations are dropped silently.
* C40: cross-covariances cannot be declared.
* C41: a cache hit may return a model compiled with the functions file of another model; with no functions file the on-disk
  signature is the text "None".
* C42: models from equal dicts are one shared object.
* C43, C44: saved models without data cannot be loaded; the stored dump grows with every load/save cycle.
* C46: set names whose length equals the number of parameters are taken for vectors.
* C47, C52, C54, C94: `get_par(set)`, `get_cov(npar)`, `o_func(pars)`, `nhd`, `gfevd` change the model.
* C49: `set_par(..., npar=v)` is documented to change `v` but does not.
* C51, C83: set names fail for models without priors; `set_par('prior')`/`('posterior')` never succeed.
* C53: `box_check()` without argument compares bounds with the wrong parameters unless the priors come first.
* C57: with as many variables as shocks each Kalman filter run transforms the covariance again.
* C61: misspelt filter names select the ensemble filter; the inversion and particle filters cannot be created.
* C62: all extraction attempts use the same seed.
* C65, C87: a remembered `linear=True` uses other horizons than an explicit one; a failed `prep_estim(linear='IF')` poisons
  later calls; `prep_estim` without a seed starts unseeded.
* C66, C86: `pool=None` is absorbing and makes later calls fail; debug mode is permanent.
* C67: `mcmc` with default `tune` fails after sampling; `nwalks` is ignored for the initial ensemble.
* C68: result files with extension `.npz` or very short names cannot be read back.
* C70: `get_sample` ignores its chain argument and reads one walker only.
* C75, C76: `gfevd` does not accept the result of `extract`; `mbcs_index` fails for models with states.
* C74: `nhd` loses the constant part of a constrained regime if the constraint contributions cancel.
* C84: `get_eps_lin` fails for all filters but the linear one.
* C89: with a prior transform the stored mode is in sampler coordinates.
* C91: a covariance passed once is kept.
* C93: `post_mean(chain)` is rejected.
* C97: a call of `mcmc` that is rejected for lack of `nwalks` has already deleted the chain in the default file.
* C98: a chain stored with a suffix is not found in a later session; an older chain may be read instead.
* C99: a rejected call changes the window of later statistics.
* C100: `mcmc_summary(chain)` mixes the passed chain with other log-probabilities.
* C103: an equation of constants (`1 = 0`) fills no row and is dropped silently; it can also hide a variable that was declared twice.
* C104: intervals of observables with negative loadings are reversed (and for sums the standard deviations are added, so they are too wide).
* C105: `irfs` silently ignores a parameter vector of zeros.  If the first call on an unsolved model fails, later calls raise
  AttributeError instead of solving the model.
* C106: `extract` leaves the model at the last parameter vector, and discards a shock covariance assigned to the filter.
* C110: with the default `force_init_equil`, adding a shock in a late period changes the responses before it.
* C111: a bound of zero is accepted; the model at rest is then reported to be at the bound.
* C112: asking for 'init' writes calibrated values into the stored initial values; a later change of the calibration does not reach them.
* C113: an equation with two equality signs ends in a bare ValueError about unpacking instead of the parser's SyntaxError; an empty constraint
  list in an IndexError.
* C114: a `~` after three spaces inside an equation or value is silently turned into a minus; a list with unindented `~` is not converted.
* C118: with a variable declared twice and an equation of constants, the order of the equations decides whether the file is accepted.
* C118: coefficients are compared with an absolute tolerance, so units matter: every model with a variable without lag in the constraint is
  rejected with ValueError once its equations are multiplied by a small enough number.
* C129: `write_yaml` never works: it empties the target file, possibly the source of the model, and raises AttributeError.
* C130: the columns of `mask` are the observables renamed to shocks; with other numbers of shocks and observables it cannot be used.
* C131: a dict with `fd` of zeros is another model than one without `fd` if the constraint has lags; dicts without `ZZ0` always raise; the bound is not checked.
* C101: raising `k_max` alone can change the spell that is found, even when the old one had error flag 0: longer spells that start earlier
  come first in the search.
- `prep_estim` calls `set_par("prior_mean")`. The text has ten letters, so with exactly ten parameters, or ten estimated ones, it is
  taken for a vector and the call always raises: such models cannot be estimated (C126).
- `get_chain` in a new session calls `prep_estim()`, which moves the current parameters to the prior mean; so do `info` and everything
  else that reads a chain (C123).
- `info` on a model that was never sampled raises NameError: only AttributeError and KeyError are caught (C125).
- A `prep_estim` call that raises after storing `use_prior_transform` makes stored chains read differently in the next session (C122).
- `neq_fort` does not count measurement equations; variables with long lags only get a useless copy for leads (C136_refuted, C136_useless_copy_refuted).
- `dump()` raises TypeError if a section of the file has keys that YAML does not read as texts (C137_fails); sets look like dicts, and texts with line breaks like several entries (C137_refuted, C137_breaks_refuted).
- `pmdm_report` fails without a terminal, prints lines that are wider than the terminal, and misplaces values if there are too many (C138_fails, C138_refuted, C138_values_refuted).
- `get_par('prior', asdict=True)` pairs names with draws instead of values, or raises (C135_refuted).
- `get_par('prior')` without a pool leaves the model solved at the last draw instead of the calibration. If all parameters are estimated and listed in another order in the prior section, draws are checked at permuted values: unsolvable draws are returned (C134_refuted).
- Measurement errors calibrated as numbers raise TypeError; as texts they are accepted, but no filter reads them (C133).
- A measurement covariance in the saved metadata is put back by every `prep_estim` call, also with `load_R=False` (C124).

## Wrong programs

`seeded/LOG.jsonl` lists edits of the model that imitate realistic bugs, the theorems that stopped proving, and the theorems that were
tightened as a consequence. The edits are applied by `tools_src/mut.py` to a scratch copy; a theorem counts as failing if its own proof or any
lemma it rests on no longer compiles.
The log has 569 edits. 32 of them led to new or tightened theorems, because at first no theorem, or only an example, failed. Six have no
failing theorem in the log: three change no result, two break lemmas that the theorem of the claim rests on, and one edited a definition
that was not used and has been removed. Edits marked as corrected programs remove a violation; there the refutation has to fail, and does.
