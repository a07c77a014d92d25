# Formal model of mealpy in Rocq (Coq 8.16.1)

Source: `/repo` (thieu1995/mealpy, version 3.1.0), read as text. Nothing was run.
Build: `cd rocq && coq_makefile -f _CoqProject -o Makefile && make -j4`.

`properties.jsonl` holds the English properties, `MANIFEST.json` maps each to its theorems. A theorem belongs to
property `Cnn` exactly when its name starts with `Cnn_`. A theorem named `..._refuted` proves that an expectation a user
may have is false, with a witness checked by the kernel; its property's statement says what holds instead.

## Shape of the development (`rocq/theories`)

| file | contents |
|---|---|
| `Prelude.v` | result type with exceptions as values, Python list operations |
| `Fl.v`, `FlArith.v`, `FlInt.v`, `FlRound.v`, `FlPart.v`, `FlShare.v`, `FlOcc.v`, `FlQueue.v`, `FlSpark.v`, `FlEnergy.v` | IEEE binary64 numbers (Flocq `BinarySingleNaN`), comparison, rounding and integer lemmas |
| `MCore.v` | optimizer.py: solve, initialization, epochs, history, termination; target.py; agent.py; helpers for selection |
| `MAgent.v` | Target and Agent at the level of Python values: constructor checks, copies, `==`, hash, ordering |
| `MConc.v` | thread/process pools: completion orders, unsynchronised `nfe_counter += 1` |
| `MHelp.v` | index sampling, roulette wheel, tournament, crossover, opposition, Levy step, grouping, improved_ms |
| `MReal.v` | transfer functions, chaotic maps, fuzzy weights, roulette probabilities, percentages in exact real arithmetic |
| `MSpace.v` | the decision variables of utils/space.py and utils/problem.py |
| `MValid.v` | utils/validator.py, termination.py construction, set_parameters |
| `MTune.v` | tuner.py (ParameterGrid, Tuner), multitask.py, the execution-mode rule |
| `MMisc.v` | metadata, class lookup, loggers, trajectory series, model files |
| `MHeap.v` | objects and references: which parts share an array or an agent (aliasing), HBO and WOA on that heap; `MHeap2.v`: OriginalBeesA and ProbBeesA on it; `MHeap3.v`: OriginalTHRO, EnhancedTWO and OriginalICA on it |
| `MGA.v` | GA.py on that heap: BaseGA, SingleGA, MultiGA and the elitist variants, whose crossover and mutation write into shared arrays |
| `MAlg.v`, `MAlg2.v` ... `MAlg8.v` | code fragments shared by the algorithm classes (propose/correct/evaluate, greedy batches, trimming, merging, lists that replace the population) |
| `MMath.v`, `MClass1.v` ... | the algorithm classes |
| `Spec*.v` | the vocabulary of the theorem statements: best, sorted, feasible, `run_spec`, `sound_run`, `sound_when` (the same for the runs that return), `sound_save` (classes that update the best inside an epoch) |
| `P*.v` (not `Prop*`) | proofs: `PLogic` (total correctness), `PPart` (partial correctness), `PSolve`/`PRun` (solve from contracts), `PAny` (any algorithm), `PAlg` ... `PAlg14` (steps that keep the best, one file per `MAlg` file plus attributes, held agents, extended initialization), `PFree` (steps that may lose it), `PClass` (attributes), `PRef` and `PElse` (runs that return, by refinement), `PFail` (runs that always raise), `PHeap` |
| `Demo.v` | a concrete environment, problem and algorithm used by the examples |
| `Prop*.v`, `AMath.v`, `AClass*.v` | the property theorems, examples meeting their hypotheses, `Print Assumptions` |

Every definition of an `M*` file cites the file and lines it models; `tools/citefix.py` compares the citations with the
syntax tree of the sources.

## Modelling decisions

* **Numbers.** A Python/NumPy float is a Flocq binary64 value (`binary_float 53 1024`, one NaN), so NaN, infinities,
  signed zeros and rounding are in the model wherever a definition uses `f64`. `MReal.v` uses exact reals and says so:
  properties C31, C44 (probabilities), C46 (between), C53, C54 are about exact arithmetic; where rounding changes the
  answer there is a binary64 counterexample (C46_rounding_refuted) or a binary64 theorem (C10, C28).
* **Exceptions** are values (`Err ValueError` ...). A theorem that says an operation succeeds says `= Ok ...`. A `while`
  loop without a bound of its own runs on a number of steps given to the model; `Err Endless` means the call is still
  running after them, and C64-C65 theorems about such a class say that this does not happen, or assume a bound.
* **Randomness** (NumPy generators) is an oracle: the environment record holds arbitrary functions from a draw counter
  to values. No range is assumed of real-valued draws; integer draws and choices are reduced into the documented range.
  A theorem for all environments covers every seed.
* **Update formulas** of the individual algorithms: where a candidate position is a closed arithmetic expression it is
  an abstract function (`rform name reads`) of the values the expression reads and of the draws; the result is an
  arbitrary binary64 vector (NaN and infinities included). This over-approximates every formula, so a theorem for all
  environments covers the real one. Control flow, which values are read at which time, correction, evaluation,
  selection, population bookkeeping and attribute updates are modelled statement by statement. Branch conditions that
  depend on such arithmetic are abstract tests (`rtest`).
* **argsort / sorted**: `np.argsort` (unstable) is any function returning a sorting permutation with NaN last; theorems
  quantify over all such functions. Python's `sorted` is stable insertion sort.
* **Objective function**: an arbitrary total function from vectors to a number or sequence of numbers (pure, not
  raising). `np.dot` is a left-to-right sum of products.
* **Parallelism**: thread pools complete in any order; process workers act on copies of the optimizer, so their counter
  increments are lost, as with pickling; the counter race is modelled as interleaved reads and writes (C21).
* **Aliasing**: `MCore` keeps agents as values; an in-place update of `self.pop[i]` is written as replacing the entry,
  and history lists hold the values at the time of recording. `MHeap` models references: C51/C52 say under which
  conditions the value reading is right (`C51_refines`), and give classes where it is not.
* **NumPy shapes**: positions are vectors of `n_dims` numbers; shape errors of broadcasting are not modelled.
* **Ghost state**: `s_log`, the list of evaluated solutions in order; it exists in no Python object and nothing reads it.

## What the class theorems say (C64, C65)

`sound_run E P md al XP elite kmin kmax` (SpecAlg.v): for every environment, problem, direction, mode, termination,
starting solutions and earlier state, `solve` raises nothing and ends as `run_spec` (SpecRun.v) says: every history list
has one entry per epoch, recorded agents are evaluated admissible solutions with the target of their own position, the
returned agent is the best of the recorded generation bests, the number of evaluations per epoch is within
`kmin..kmax`, the counter counts them, the stop reason is right; and for `elite` the returned agent is at least as good
as every solution evaluated during the run. `problem_ok P feas` is the only assumption on the problem: correction and
generation yield solutions in `feas` (for the real variables this is C22/C28).
`sound_run_gen` adds a hypothesis (`any_array`: evaluating any array is admissible, for classes that evaluate uncorrected
positions; `wheel_ok`: the roulette weights are usable; `opposite_ok`, `field_ok`, `bower_ok`: see their definitions next
to the classes that need them).
`wheel_ok`, `bower_ok` and `mongoose_ok` speak about at most pop_size values; PropWheel and PropWheel2 derive them from bounds
on the objective (between -2^860 and 2^860), on the draws and on the population (at most 2^20) by a rounding-error analysis
of the sums and quotients (FlWheel), and give a concrete problem meeting each of these conditions, `field_ok`, `moderate`,
`clip_ok`, `opposite_ok` and `any_array` included.

## Not modelled

Plotting, log output, pandas/CSV writing, tqdm, the file system (except file names, C59), wall-clock behaviour (clock
readings are arbitrary inputs), the numeric quality of the search (convergence), NumPy's bit generators, pickling
failures, SciPy's global generator (JADE and others draw from it; abstract draws do not distinguish it). Algorithm
classes without a theorem in C64-C65 or MHeap are covered only by the theorems about an arbitrary algorithm
(C01, C03, C04, C06-C09, C60: any `evolve`).

## How each property is proved

* C01-C03: case analysis on options; C03 by induction over the list from the right.
* C04-C09, C60: `solve` over an arbitrary `evolve`; invariants by induction on epochs (`PSolve`, `PAny`, `PPart`).
* C10: Flocq rounding monotonicity. C11-C17: order lemmas on binary64 and permutations, for every argsort.
* C18-C21: evaluation as a state machine; permutations of completions; interleaving semantics of `+=`.
* C22-C30, C32, C61, C66: each variable class as a case of a sum type; by cases, C26-C28 with Flocq.
* C31, C53: real analysis (Coq Reals, Coquelicot). C54: reals.
* C33-C36: records; C35 by explicit binary64 witnesses.
* C37, C38, C41, C42, C55-C59, C62, C63: decision logic over small models of Python values and dictionaries.
* C39: mixed radix. C40: model of pandas `rank`. C43-C49: index arithmetic, list partition.
* C50: two runs related draw by draw. C51, C52: heap invariants, a logic of "writes only new objects".
* OriginalTHRO, EnhancedTWO, OriginalICA (C65): a logic of "every target on the heap is the value of the objective somewhere"
  (`PropHeap3`) and computed runs that spoil agents.
* C67: the heap of `MGA` keeps "the target of every agent is the one of the values in its array at the time it was
  evaluated" only under conditions; the theorem and its refutations are in `PropGA`.
* C68: a logic of computations that never return normally (`stops`, `PropNever`), for settings the constructors accept.
* C69: the Levy step over binary64.
* C70: `solve` for algorithms whose epoch is a sequence of blocks with a best-solution update between them (`PSave`); a
  block keeps the best as in C64, an update improves the last history entries in place.
* C71: a logic of computations that keep a predicate of the population (`kq`, `PropSwarm`), and of pairs of computations that
  agree on such populations.
* C64, C65: per class, a Hoare-style derivation of the `evolve` contract from block lemmas, then `solve_run`.

## Where the code disagrees with what one would expect

Each is a `_refuted` theorem (or a hypothesis a class theorem needs), see the properties' statements: NaN fitness freezes
or replaces the global best (C06); agent `==` is not symmetric and its hash disagrees (C35); `Tuner` with "max" ranks the
wrong way (C40); generated integers can leave the range below zero (C27); duplicated labels or variable names collide
(C29, C32); `PermutationVar.correct` is not idempotent (C23); HBO, OriginalBeesA and ProbBeesA write into arrays shared with
other agents (C51, C52), so that solve can return an agent out of the bounds whose stored fitness is not its own; counter increments are lost in thread mode (C21); starting solutions are not checked (C18); the genetic algorithms
other than OriginalGA return agents whose target is not the one of their position (C67); several classes can never finish
with settings their constructors accept (C68: JADE, DE strategy 3 with five agents, CA, DS_GWO, SOO in parallel modes, ESO
in many dimensions, GSKA, DOA with more agents than variables, DandelionO, AO and AAO with one epoch, SquirrelSA, OrcaOA without removals, BSA with
starting solutions, CleverBookBeesA with one variable, NRO with a variable that has one value, DevSSpiderA in
parallel modes, SRSR, CL_PSO and ModifiedSLO with starting solutions in a parallel mode, OriginalBeesA when a ratio rounds the bees of a site to none, EFO with few agents, COA
with packs of two, MA with an odd number of agents, EHO with clans of unequal size, OppoTWO with an odd number of agents, BSO with
clusters of unequal size, BFO with an odd number of agents, ABFO with N_adapt zero, the coral reefs with one variable, AAA with one or two variables, PSS with Monte Carlo sampling, QleSCA on a problem with a single admissible solution, DevSMO when the last group has a single agent (for example 13 agents), SFO with its default settings, OriginalICA with an objective that is zero everywhere, FOA and DevFOA with a negative upper bound); OriginalSBO in single mode
returns targets of other positions (C65_OriginalSBO_refuted), and so do OriginalWHO (C65_OriginalWHO_refuted) and
OriginalArchOA (C65_OriginalArchOA_refuted), OriginalAAA, which moves an array in place after storing it in an agent and so leaves the bounds too (C65_OriginalAAA_refuted), OriginalTHRO and OriginalICA, which do the same through a copy of an agent (C65_OriginalTHRO_refuted, C65_OriginalICA_refuted; the stored fitness is still that of some feasible position, C65_OriginalTHRO_fitness, C65_OriginalICA_fitness), EnhancedTWO, which also loses the best solution because its copy of the population holds the same agents (C65_EnhancedTWO_refuted, C64_EnhancedTWO_refuted), OriginalBCO (C65_OriginalBCO_refuted), LevyTWO and OppoTWO (C64_LevyTWO_refuted, C64_OppoTWO_refuted), OriginalFOA and WhaleFOA, which also
leave the bounds, as DevFOA does (C65_OriginalFOA_refuted, C65_OriginalFOA_bounds_refuted, C65_DevFOA_bounds_refuted). The theorems
named `_returning` are about classes that raise for some draws or fitness values (NRO, WSO, BRO, EOA, SRSR, CHIO, SFO, CMA-ES, SHADE, CSO, QSA, IWO, ABFO, FA, HCO, WCA, TS, QleSCA, SAP_DE, DevSMO): they describe the runs that
return. The queue search classes raise when the three fitness values are zero or infinite (C64_DevQSA_refuted). The classes with a C65 theorem instead of a C64 theorem
are those for which we could not show that the best solution evaluated is returned; for most of them a computed run loses it (PropLost and PropLost2,
41 theorems `C65_<Class>_refuted`, and C65_OriginalWOAmM_refuted, C64_DevTPO_refuted, C65_ModifiedSLO_refuted, C65_ImprovedSLO_refuted). OCRO, HI_WOA and OriginalEFO keep the best solution
(AClass29 and AClass30: C64_OCRO, C64_HI_WOA, C64_OriginalEFO, with restart limits of at least one, as their constructors require). No such
run was found for COA, SARO, HCO, ETLBO and ESO; CCO compares without the direction of the problem, and IMODE too, so their C64 theorems are
about minimization only. The classes of C70 record best fitness values that are not those of the recorded best agents
(C70_OriginalGTO_refuted, C70_OriginalMRFO_refuted). The local best of a particle is always its present position, so the
coefficient c1 of OriginalPSO has no effect (C71_OriginalPSO); in CL_PSO this holds when minimising only
(C71_CL_PSO_memory_refuted, `PropSwarm3`); a bird of OriginalBSA never updates what it remembers.

## Testing the theorems against wrong programs

`tools/mutate.py` applies a textual edit to a scratch copy of the model, rebuilds and records which files fail;
`seeded/LOG.jsonl` has one line per edit. Survivors were examined: theorems were tightened (field `tightened`) or the edit
was found not to change any claim.

## Trusted base

Coq's kernel (including the VM used by `vm_compute`); the axioms printed by `Print Assumptions`, all of Coq's standard
library: `sig_forall_dec`, `sig_not_dec` (Coq.Reals.ClassicalDedekindReals), `functional_extensionality_dep`
(Coq.Logic.FunctionalExtensionality), `classic` (Coq.Logic.Classical_Prop); and the reading of the Python source embodied
in the `M*` files. No axioms are added, nothing is admitted, no kernel check is switched off. By theorem:

<!-- assumptions begin -->
**no axioms (closed under the global context)** (71 theorems): C34_kw_ok, C36_nan, C29_round_trip, C29_bijection, C29_out_of_range, C29_sorted, C66_n_vars, C66_n_vars_error, C66_permutation, C66_transfer, C66_positive, C66_bounds, C66_bounds_errors, C19_thread_order_irrelevant, C20_single_noop, C20_any_schedule, C21_thread_never_overcounts, C21_thread_lost_refuted, C55_metadata, C56_all, C56_by_class, C56_by_name, C56_unknown, C57_first_handler, C57_second_file_refuted, C57_parent_handler, C58_trajectory, C59_same_file, C59_other_files, C59_extension, C43_exclude_one, C43_exclude_one_error, C43_exclude_one_reach, C43_exclude_list, C43_exclude_list_reach, C43_exclude_list_error, C11_sorted_population, C11_no_target, C16_sort_and_trim, C15_length_error, C39_iteration_order, C39_iteration, C39_getitem, C39_getitem_range, C39_getitem_order_refuted, C39_init, C40_problem_object_refused, C41_none, C41_one, C41_per_problem, C41_per_algorithm_refuted, C41_per_pair_refuted, C41_other_sizes, C41_modes_per_pair_refuted, C42_jobs, C42_one_job_refuted, C62_mode, C62_workers, C62_unsupported, C63_convergence_table, C63_fitness_table, C38_in_bound_nan, C38_bool_is_number, C38_infinite, C38_check_str, C38_check_bool, C38_check_tuple, C38_tuple_unchecked_refuted, C02_nested_ignored, C37_set_parameters, C37_unvalidated_refuted

**`ClassicalDedekindReals.sig_forall_dec`, `FunctionalExtensionality.functional_extensionality_dep`** (12 theorems): C53_singer_refuted, C53_singer, C54_degrees, C54_weights, C54_ends, C44_probabilities, C44_uniform, C44_max_worst_positive, C46_between, C38_in_bound, C38_check_int, C38_check_int_in_range

**`ClassicalDedekindReals.sig_forall_dec`, `ClassicalDedekindReals.sig_not_dec`, `FunctionalExtensionality.functional_extensionality_dep`** (2 theorems): C31_erf_shaped, C31_s_shaped_strict

**`ClassicalDedekindReals.sig_forall_dec`, `ClassicalDedekindReals.sig_not_dec`, `Classical_Prop.classic`, `FunctionalExtensionality.functional_extensionality_dep`** (549 theorems): C64_OriginalBMO, C64_OriginalServalOA, C64_OriginalTSA, C64_OriginalPOA, C64_OriginalFFO, C64_OriginalWaOA, C64_OriginalNGO, C64_OriginalSSO, C64_OriginalMFO, C64_OriginalSTO, C64_OriginalOOA, C64_OriginalRIME, C64_OriginalSCSO, C64_OriginalEAO, C64_OriginalFPA, C64_OriginalOSA, C64_OriginalGOA, C64_OriginalMGOA, C64_OriginalACOR, C64_OriginalGJO, C65_OriginalCoatiOA, C65_OriginalTOA, C64_OriginalALO, C64_DevALO, C64_OriginalAO, C64_AAO, C64_OriginalNO, C64_OriginalNWOA, C64_OriginalEEFO, C64_OriginalKOA, C65_OriginalOrcaPA, C64_OriginalOrcaOA, C64_OriginalPO, C65_OriginalDMOA, C65_DevDMOA, C65_OriginalWHO_parallel, C65_OriginalWHO_refuted, C68_OriginalOrcaOA_no_removal, C64_OriginalBSA, C68_OriginalBSA_starting, C64_DevVCS, C64_OriginalVCS, C64_DevFBIO, C64_OriginalFBIO, C64_OriginalLSO, C64_DevLSO, C64_OriginalMSO, C64_OriginalHGS, C64_OriginalNRO_returning, C64_OriginalNRO_one_variable, C68_OriginalNRO, C64_CleverBookBeesA, C64_OriginalWSO_returning, C65_DevBRO_returning, C65_OriginalBRO_returning, C64_OriginalASO, C64_OriginalESOA, C64_OriginalEOA_returning, C64_OriginalFLA, C64_OriginalSLO, C64_OriginalFDO, C64_OriginalMShOA, C64_DevMShOA, C65_OriginalGRSA, C64_OriginalILA, C64_OriginalBWOA, C65_OriginalCCO, C64_OriginalCCO_minimization, C65_OriginalSRSR_returning, C68_OriginalSRSR_starting, C64_DevSSpiderA, C64_OriginalArchOA_parallel, C65_OriginalArchOA_refuted, C65_OriginalCHIO_returning, C65_DevCHIO_returning, C70_OriginalAGTO, C70_MGTO, C70_OriginalGTO, C70_Matlab102GTO, C70_OriginalMRFO, C70_WMQIMRFO, C70_Matlab101GTO, C70_OriginalGTO_refuted, C70_OriginalMRFO_refuted, C65_OriginalFOA_refuted, C65_WhaleFOA_refuted, C65_OriginalFOA_bounds_refuted, C65_DevFOA_bounds_refuted, C64_OriginalDBO, C64_DevEFO, C65_OriginalEFO, C65_OriginalHGSO, C65_OriginalCOA, C65_ImprovedSFO, C65_OriginalSFO_returning, C65_DevSARO, C65_OriginalSARO, C65_OriginalBCO_refuted, C65_OriginalEP, C65_LevyEP, C64_OriginalES, C64_LevyES, C64_CMA_ES_returning, C64_Simple_CMA_ES_returning, C64_OriginalMA, C64_OriginalSHADE_returning, C64_L_SHADE_returning, C65_OriginalDO, C65_OriginalCSO_returning, C65_OriginalCSO, C65_OriginalFFA, C65_MLFA_GD, C64_OriginalSA, C64_GaussianSA, C65_SwarmSA, C64_OriginalEHO, C64_OriginalWDO, C64_OriginalWarSO, C64_OriginalAFT, C64_OriginalDSO, C65_OriginalABC, C65_OriginalCA, C64_OriginalCSA, C64_OriginalPFA, C64_OriginalTSeedA, C64_OriginalTLO, C64_DevQSA_returning, C64_DevQSA, C64_OppoQSA_returning, C64_OppoQSA, C64_LevyQSA_returning, C64_LevyQSA, C64_ImprovedQSA_returning, C64_ImprovedQSA, C64_OriginalQSA_returning, C64_OriginalQSA, C64_DevQSA_refuted, C64_OriginalTWO, C64_LevyTWO_parallel, C65_OppoTWO_parallel, C64_LevyTWO_refuted, C64_OppoTWO_refuted, C64_OriginalIWO_returning, C64_ImprovedTLO, C65_ETLBO, C64_DevTPO, C64_DevTPO_refuted, C65_ImprovedBSO, C65_OriginalBSO, C64_DevWOAmM, C65_OriginalWOAmM, C65_OriginalWOAmM_refuted, C65_ModifiedSLO, C65_ImprovedSLO, C65_ModifiedSLO_refuted, C65_ImprovedSLO_refuted, C68_ModifiedSLO_starting, C65_OriginalIMODE, C64_OriginalIMODE_minimization, C65_OriginalBFO, C65_ABFO_returning, C64_OriginalCRO, C65_OCRO, C64_OriginalLSHADEcnEpSin, C64_OriginalChameleonSA, C65_IChameleonSA, C65_OriginalHCO_returning, C65_OriginalFA_returning, C64_OriginalSSpiderO, C65_OriginalWCA_returning, C64_OriginalTS_returning, C64_OriginalPSS, C64_QleSCA_returning, C65_SAP_DE_returning, C65_DevSMO_returning, C64_OCRO, C64_OriginalZOA, C64_OriginalCDO, C64_OriginalKLA, C64_OriginalRSA, C64_OriginalFHO, C64_OriginalSOS, C64_OriginalChOA, C64_OriginalMSA, C64_OriginalTDO, C64_OriginalHBA, C65_OriginalSHO, C64_OriginalBBOA, C64_OriginalRFO, C64_OriginalCrayfishOA, C64_OriginalCDDO, C64_OriginalSSDO, C64_OriginalEFO, C64_HI_WOA, C64_OriginalPSO, C64_AIW_PSO, C64_LDW_PSO, C64_P_PSO, C64_HPSO_TVAC, C64_CL_PSO_single, C65_C_PSO, C64_OriginalDE, C64_SADE, C64_OriginalGWO, C64_GWO_WOA, C64_IGWO, C64_FuzzyGWO, C64_IncrementalGWO, C64_ExGWO, C64_ER_GWO, C64_OriginalWOA, C64_DevWOA, C64_JADE, C64_DevHS, C64_OriginalHS, C64_ChaoticGWO, C65_HI_WOA, C65_CG_GWO, C65_IOBL_GWO, C64_OGWO, C64_RW_GWO, C64_DS_GWO, C64_OriginalGA, C64_OriginalBBO, C64_DevBBO, C64_DevJA, C64_OriginalJA, C64_LevyJA, C65_OriginalHHO, C64_OriginalEVO, C64_DevMVO, C64_OriginalMVO, C65_OriginalEO, C65_AdaptiveEO, C65_ModifiedEO, C64_OriginalAEO, C64_ImprovedAEO, C64_EnhancedAEO, C64_ModifiedAEO, C64_AugmentedAEO, C64_DevSMA, C64_OriginalSMA, C64_MPA, C64_DevSOA, C64_OriginalSOA, C64_MGO, C64_SBOA, C64_AVOA, C64_TSO, C64_ARO, C64_LARO, C64_IARO, C64_OriginalLCO, C64_DevLCO, C64_DevSBO, C64_DevGCO, C64_OriginalGCO, C65_OriginalBA, C65_AdaptiveBA, C64_BWO, C64_SeaHO, C64_DevSSA, C64_OriginalSSA, C64_ImprovedLCO, C64_SOO, C64_DevGSKA, C64_OriginalGSKA, C64_DevBA, C65_OriginalESO, C68_ESO_many_dimensions, C68_DevGSKA_five, C65_OriginalSBO_refuted, C65_OriginalSBO_parallel, C64_DevEPC, C64_OriginalFOX, C64_DevFOX, C64_OriginalCEO, C64_OriginalSFOA, C64_OriginalBES, C64_OriginalSPBO, C64_DevSPBO, C64_OriginalAPO, C64_OriginalNMRA, C64_ImprovedNMRA, C64_OriginalDandelionO, C64_DevDandelionO, C65_OriginalAHO, C65_OriginalGJA, C64_OriginalDOA, C68_SquirrelSA_equal_start, C64_OriginalAOA, C64_OriginalCGO, C64_OriginalCircleSA, C64_OriginalGBO, C64_OriginalHC, C64_SwarmHC, C64_OriginalINFO, C64_OriginalRUN, C64_OriginalSHIO, C64_DevSCA, C64_OriginalSCA, C64_OriginalCEM, C33_fitness, C33_single_objective, C33_errors, C33_integer_sums_exact, C34_target_copy, C34_agent_copy, C34_recalculated_refuted, C35_eq_reflexive, C35_not_symmetric_refuted, C35_not_transitive_refuted, C35_hash_refuted, C36_strict_weak_order, C36_better_solution, C29_duplicates_refuted, C26_decode_in_range, C26_large_refuted, C26_nan_refuted, C24_float, C24_integer, C24_labels, C24_sequence, C24_binary, C24_bool, C25_decode_permutation, C25_round_trip_is_inverse, C25_round_trip_refuted, C66_float, C66_float_errors, C66_choices, C66_lengths, C66_empty_refuted, C66_unordered_refuted, C66_empty_sequence_refuted, C66_sensible, C67_flip, C67_elite_flip, C67_swap_refuted, C68_GA, C68_roulette, C27_generate_in_range, C27_generate_at_most_one_above, C27_every_value, C27_negative_refuted, C28_generate_in_range, C28_overflow_refuted, C28_variable_in_box, C28_solution_in_box, C22_problem_ok, C61_equal_variables_draw_equal_values, C51_snapshots, C51_all_records, C52_positions, C52_all_positions, C52_shared_array, C51_hbo, C52_woa, C51_current_best_refuted, C52_hbo_refuted, C51_refines, C52_OriginalBeesA_refuted, C52_ProbBeesA_refuted, C68_OriginalBeesA, C65_OriginalTHRO_fitness, C65_EnhancedTWO_fitness, C65_OriginalICA_fitness, C65_OriginalTHRO_refuted, C65_OriginalICA_refuted, C64_EnhancedTWO_refuted, C65_EnhancedTWO_refuted, C68_OriginalICA, C10_percentages, C10_all_zero, C10_no_epoch, C44_never_worst, C44_in_range, C18_starting_used_exactly, C18_rejected, C18_unchecked_refuted, C19_initial_population, C19_process_identical, C20_update_target, C21_counter, C30_correct_bits, C30_correct_bool, C30_decode, C30_generate, C30_lower_bound_ignored, C30_decode_resamples_refuted, C32_bounds, C32_correct_slices, C32_decode, C32_encode, C32_same_name_refuted, C65_AdaptiveBA_refuted, C65_AdaptiveEO_refuted, C65_CG_GWO_refuted, C65_C_PSO_refuted, C65_DevBRO_refuted, C65_DevDMOA_refuted, C65_IOBL_GWO_refuted, C65_ImprovedBSO_refuted, C65_ImprovedSFO_refuted, C65_LevyEP_refuted, C65_MLFA_GD_refuted, C65_ModifiedEO_refuted, C65_OriginalABC_refuted, C65_OriginalAHO_refuted, C65_OriginalBA_refuted, C65_OriginalBRO_refuted, C65_OriginalBSO_refuted, C65_OriginalCA_refuted, C65_OriginalCHIO_refuted, C65_OriginalCoatiOA_refuted, C65_OriginalDMOA_refuted, C65_OriginalDO_refuted, C65_OriginalEO_refuted, C65_OriginalEP_refuted, C65_OriginalFFA_refuted, C65_OriginalGJA_refuted, C65_OriginalGRSA_refuted, C65_OriginalHGSO_refuted, C65_OriginalHHO_refuted, C65_OriginalOrcaPA_refuted, C65_OriginalSFO_refuted, C65_OriginalSHO_refuted, C65_OriginalTOA_refuted, C65_SwarmSA_refuted, C65_OriginalBFO_refuted, C65_ABFO_refuted, C65_OriginalFA_refuted, C65_IChameleonSA_refuted, C65_OriginalWCA_refuted, C65_SAP_DE_refuted, C65_DevSMO_refuted, C58_shrinking_refuted, C68_JADE, C68_JADE_default, C68_DE, C68_CA, C68_DS_GWO, C68_OriginalSOO, C68_OriginalDOA, C68_OriginalDandelionO, C68_OriginalAO, C68_AAO, C68_OriginalSquirrelSA, C68_CleverBookBeesA, C68_DevSSpiderA, C68_OriginalFOA, C68_DevFOA, C68_DevEFO, C68_OriginalEFO, C68_OriginalCOA, C68_OriginalSFO, C68_OriginalMA, C68_OriginalEHO, C68_OppoTWO, C68_ImprovedBSO, C68_OriginalBFO, C68_ABFO, C68_OriginalCRO, C68_OCRO, C65_OriginalAAA_refuted, C68_OriginalAAA, C68_OriginalPSS_MC, C68_QleSCA, C68_DevSMO, C46_rounding_refuted, C46_swap, C69_levy, C49_admissible, C49_in_box, C48_improved_ms, C48_single_mode_refuted, C31_s_shaped, C31_v_shaped, C31_s_order, C53_unit_interval, C53_chebyshev, C50_repeat_with_termination, C50_repeat_without_termination, C01_should_terminate, C03_early_stop_counter, C03_total, C04_stops_exactly, C05_evaluation_budget, C06_global_best_monotone_min, C06_global_best_monotone, C07_returned_agent_best_of_generations, C08_global_worst, C09_history_aligned, C60_invalid_direction, C06_global_best_max_nan_refuted, C06_global_best_min_nan_refuted, C45_tournament, C45_small_fraction, C45_zero_losers_refuted, C12_best_agent, C12_worst_agent, C12_special_agents, C12_special_indices, C13_special_fitness, C14_get_better_agent, C14_coherent, C14_nan, C14_tie, C15_greedy, C17_comparison, C17_sorting, C17_best_worst, C17_greedy, C47_groups, C22_correct_in_box, C22_correct_nan, C22_correct_solution, C22_nan_choice_refuted, C22_transfer_refuted, C23_idempotent, C23_permutation_period_two, C23_permutation_refuted, C71_OriginalPSO_memory, C71_AIW_PSO_memory, C71_LDW_PSO_memory, C71_P_PSO_memory, C71_HPSO_TVAC_memory, C71_C_PSO_memory, C71_CL_PSO_memory, C71_CL_PSO_memory_refuted, C68_OriginalINFO_five, C71_OriginalPSO, C71_OriginalBSA_memory, C64_CL_PSO, C68_CL_PSO_starting, C68_OriginalBSA, C68_OriginalSRSR, C40_chosen, C40_execute, C40_max_refuted, C63_same_name_refuted, C38_truncation_refuted, C38_check_float, C02_construction, C02_dict, C44_total, C44_wheel_ok, C65_OriginalSBO_wheel, C65_DMOA_wheel

<!-- assumptions end -->
