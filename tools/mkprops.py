#!/usr/bin/env python3
"""Writes /verif/properties.jsonl from the table below (kept as a script so that ids stay consistent)."""
import json
P=[]
def p(i,title,statement,quant,why,anchors):
    P.append(dict(id=i,title=title,statement=statement,quantifier=quant,why_tests_cant=why,anchors=anchors))
O="mealpy/optimizer.py"; S="mealpy/utils/space.py"; T="mealpy/utils/termination.py"; H="mealpy/utils/history.py"
p("C01","Stopping decision","Termination.should_terminate returns True exactly when at least one configured limit has been reached (epoch>=max_epoch, evaluations>=max_fe, elapsed>=max_time, stagnant epochs>=max_early_stop), and the message names the first reached limit in the order MG, FE, TB, ES.","all limit configurations (each present or absent), all counters and clock readings","four optional limits times unbounded counters/clock values; a test samples a few combinations",[T+":Termination.should_terminate"])
p("C02","Termination construction","A Termination object can be built iff at least one limit is given and every given limit is a number inside its documented range; the stored integer limits are inside the range. Criteria nested in a `termination=` keyword are not honoured (they are ignored and construction fails).","all values of the four limits, of every modelled Python type","infinitely many values and types",[T+":Termination.__init__",T+":__set_condition",T+":__set_keyword_arguments"])
p("C03","Early-stop counter","The stagnation counter equals the length of the longest suffix of the global-best history in which every two consecutive fitness values differ by at most epsilon.","all histories, all epsilon, including NaN and infinite fitness","histories of every length",[H+":History.get_global_repeated_times"])
p("C04","Main loop stops exactly when it must","solve executes min(epoch, first epoch whose end satisfies the termination) epochs: it never runs past `epoch`, never continues after a satisfied termination, and never stops earlier.","all epoch limits, all termination configurations, all clocks, every evolve behaviour","quantifies over every run of every algorithm",[O+":Optimizer.solve",O+":Optimizer.check_termination"])
p("C05","Evaluation budget","With max_fe = M and no other limit, when solve stops because of FE the counter is >= M, and it was < M at the end of every earlier epoch, so the overshoot is less than the evaluations of the last epoch.","all M, all per-epoch evaluation counts","every schedule of evaluations",[O+":Optimizer.solve",T+":Termination.should_terminate"])
p("C06","Global best never gets worse","The sequence of global best fitness values recorded by the history never gets worse, for minimisation and maximisation, whatever the algorithm does to the population.","all algorithms (arbitrary population updates), all epochs, all fitness values except NaN in the initial population","needs every run of every algorithm",[O+":Optimizer.update_global_best_agent",O+":Optimizer.solve"])
p("C07","Returned agent is the best of all recorded generations","The agent returned by solve is the last recorded global best and is at least as good as every agent of the initial population and of the population at the end of each epoch.","all algorithms, all runs without NaN fitness","needs every run",[O+":Optimizer.solve",O+":Optimizer.after_initialization",O+":Optimizer.update_global_best_agent"])
p("C08","Global worst record","The recorded global worst never improves and is at least as bad as every agent of the initial population and of each epoch's final population.","all algorithms, all runs without NaN","needs every run",[O+":Optimizer.update_global_best_agent"])
p("C09","History is aligned with the epochs","After solve ran k epochs every per-epoch history list has exactly k entries, history.epoch = k, and the recorded fitness list equals the fitness of the recorded global bests provided the algorithm does not rewrite past entries (update_global_best_agent(save=False) does).","all run lengths, all algorithms","run length is unbounded",[O+":Optimizer.track_optimize_step",O+":Optimizer.track_optimize_process",H+":History"])
p("C10","Exploration/exploitation percentages","If some recorded diversity is positive, exploration is in [0,100] at every epoch, reaches 100 at the most diverse epoch, and exploitation is 100 minus it, also in [0,100]; if every diversity is zero all percentages are NaN.","all non-negative diversity sequences in binary64","every sequence of floats, rounding included",[O+":Optimizer.track_optimize_process"])
p("C11","Population sorting","get_sorted_population returns a permutation of the population together with the matching indices, ordered from best to worst for the given direction; NaN fitness is placed last for minimisation and FIRST for maximisation.","all populations, every correct (possibly unstable) argsort, all fitness values","any population size and any sort tie-breaking",[O+":Optimizer.get_sorted_population"])
p("C12","Best/worst/special agents","get_best_agent, get_worst_agent and get_special_agents return copies of members (or indices) that are no worse (resp. no better) than every member; asking for n best / n worst gives min(n, size) agents, ordered; n best dominate all others.","all non-empty populations and counts","any size",[O+":Optimizer.get_best_agent",O+":Optimizer.get_worst_agent",O+":Optimizer.get_special_agents"])
p("C13","Special fitness summary","get_special_fitness returns the best and the worst fitness of the population; every member lies between them.","all non-empty populations without NaN","any size",[O+":Optimizer.get_special_fitness"])
p("C14","Pairwise comparison is coherent","get_better_agent returns (a copy of) one of its arguments, never worse than the other; with reverse=True never better; compare_target/compare_fitness agree with it; ties go to the second argument for min and to the first for max; NaN behaviour is characterised.","all pairs of fitness values including NaN and infinities","all floats",[O+":Optimizer.get_better_agent",O+":Optimizer.compare_target",O+":Optimizer.compare_fitness"])
p("C15","Greedy survivor selection","greedy_selection_population keeps the size, takes each slot from the old or the new population, never makes a slot worse, replaces only on strict improvement, and raises ValueError iff the lengths differ.","all pairs of populations","any size",[O+":Optimizer.greedy_selection_population"])
p("C16","Sort and trim","get_sorted_and_trimmed_population returns min(k,size) agents; they form a sub-multiset of the population, sorted, and no dropped agent is better than a kept one.","all populations and k","any size",[O+":Optimizer.get_sorted_and_trimmed_population"])
p("C17","Min/max duality","Maximising f selects the same fitness values as minimising -f in comparison, sorting, greedy selection and best/worst extraction (up to the choice among exact ties).","all non-NaN fitness values","all populations",[O+":Optimizer.get_sorted_population",O+":Optimizer.get_better_agent",O+":Optimizer.greedy_selection_population"])
p("C18","Starting solutions","solve uses exactly the given starting positions, unmodified and in order, as initial population, and rejects a collection whose length is not pop_size or whose first row has not n_dims entries. They are not corrected to the bounds and rows after the first are not checked.","all starting collections, all modes","any size and content",[O+":Optimizer.before_initialization"])
p("C19","Initial population","generate_population returns exactly pop_size evaluated agents whatever the mode and whatever the completion order of workers; in process mode all agents are identical because each worker starts from a copy of the same generator state.","all modes, all worker schedules, all generator states","schedules",[O+":Optimizer.generate_population"])
p("C20","Population evaluation","In swarm, thread and process mode update_target_for_population gives each agent the target of its own position regardless of evaluation order, keeps positions and order, and adds the population size to the counter; in single mode it changes nothing.","all populations, modes and evaluation orders","schedules",[O+":Optimizer.update_target_for_population"])
p("C21","Evaluation counter","The evaluation counter equals the number of objective calls made through the optimizer since it was reset for every sequential operation sequence; it is reset by solve only when a termination is given; in process mode initial evaluations are not counted; in thread mode concurrent increments can be lost but never over-count.","all operation sequences and interleavings","interleavings",[O+":Optimizer.get_target",O+":Optimizer.generate_population",O+":Optimizer.check_termination"])
p("C22","Corrected solutions are inside the bounds","Optimizer.correct_solution returns a vector of length n_dims each component of which lies in [lb,ub] (or is NaN where the input was NaN) for every mix of variable types.","all problems built from the ten variable classes, all float vectors of the right length, including infinities","all vectors",["mealpy/utils/problem.py:Problem.correct_solution_with_bounds",S,O+":Optimizer.correct_solution"])
p("C23","Correction is idempotent","Correcting twice equals correcting once for float, integer, string, categorical, sequence, binary and bool variables; for permutation variables it is not idempotent, but has period two from the first application on.","all inputs","all vectors",[S+":correct"])
p("C24","Encode/decode round trips","decode(encode(x)) = x for every valid value x of float, integer, binary, bool, string, categorical and sequence variables.","all valid values, all variable declarations satisfying the stated guard","all declarations",[S+":encode",S+":decode"])
p("C25","Permutation variables","decode of any vector is a permutation of the (duplicate-free) valid set; decode(encode(x)) is the inverse arrangement of x, so the round trip holds exactly for self-inverse arrangements.","all valid sets, all vectors, all arrangements","n! arrangements",[S+":PermutationVar"])
p("C26","Integer decoding stays in range","IntegerVar.decode returns integers inside [lb,ub] for every non-NaN input as long as |lb|,|ub| <= 2^38; at ub = 2^40 it can return ub+1 because of rounding.","all integer bounds in the range, all binary64 inputs","2^64 inputs times bounds",[S+":IntegerVar.decode",S+":BaseVar.round",S+":IntegerVar._set_bounds"])
p("C27","Integer generation range","For |lb|,|ub| <= 2^38 IntegerVar.generate never raises, can yield every integer of [lb,ub], and yields nothing else when ub >= -1; for smaller ub it can yield ub+1 (for example ub=-5), never anything beyond, rounding included.","all bounds","all bounds",[S+":IntegerVar.generate"])
p("C28","Float generation range","FloatVar.generate yields values within [lb,ub] for all finite bounds with finite range, rounding included.","all binary64 bounds and all uniform draws","all floats",[S+":FloatVar.generate"])
p("C29","Label encoder","inverse_transform(transform(y)) = y for all fitted labels; transform is injective up to label equality and onto 0..k-1; unknown labels raise KeyError; out-of-range codes decode to 'unknown'; with duplicate choices a categorical variable can decode to 'unknown'.","all label lists of mixed types","all lists",[S+":LabelEncoder",S+":StringVar"])
p("C30","Transfer variables","correct yields only 0/1; with all_zeros=False never the all-zero vector; the declared lower bound is ignored (the effective one is 0); decoding re-samples, so a corrected vector need not decode to itself.","all inputs and random draws","all draws",[S+":TransferBinaryVar",S+":TransferBoolVar"])
p("C31","Transfer functions","Every transfer function maps reals into [0,1]; the S-shaped ones are increasing with value 1/2 at 0, the V-shaped ones are even with value 0 at 0.","all real inputs","all reals",["mealpy/utils/transfer.py"])
p("C32","Problem layout","A problem's lb/ub/n_dims are the concatenation of its variables'; correct/encode/decode hand each variable exactly its own slice, outputs keep length n_dims, and decode_solution has one entry per variable iff the variable names are distinct (later variables overwrite earlier ones with the same name).","all variable lists","all layouts",["mealpy/utils/problem.py:Problem"])
p("C33","Fitness is the weighted sum","Target.fitness is the weighted sum of the objectives when as many weights as objectives (or one scalar weight) are given, the plain sum when none is given, and silently the plain sum when the number of weights is wrong.","all objective and weight vectors","all vectors",["mealpy/utils/target.py:Target","mealpy/utils/problem.py:Problem.get_target"])
p("C34","Copies are faithful","Agent.copy/Target.copy have the same position, objectives, weights, fitness and attributes as the original and a fresh larger id; calling calculate_fitness with other weights is not preserved by copy.","all agents","all attributes",["mealpy/utils/agent.py:Agent.copy","mealpy/utils/target.py:Target.copy"])
p("C35","Agent equality and hash","Agent equality is reflexive on finite positions but neither symmetric nor transitive nor compatible with hash.","all positions","all floats",["mealpy/utils/agent.py:Agent.__eq__","mealpy/utils/agent.py:Agent.__hash__"])
p("C36","Agent ordering","is_better_than is a strict weak order on agents without NaN fitness and get_better_solution returns an agent not worse than either; a NaN-fitness argument is returned by get_better_solution.","all agents","all floats",["mealpy/utils/agent.py:Agent._compare_fitness"])
p("C37","set_parameters is atomic","set_parameters(dict) either updates exactly the given parameters (values and attributes) or raises ValueError and changes nothing; values are not validated.","all parameter dictionaries and states","all dictionaries",[O+":Optimizer.set_parameters"])
p("C38","Validator","is_in_bound means open interval for tuples and closed for lists with infinite ends unbounded; check_int/check_float/check_str/check_bool accept exactly the documented values; check_int truncates, so with open or fractional bounds the result can be outside (0.01 in (0,5) becomes 0).","all values and bounds","all values",["mealpy/utils/validator.py"])
p("C39","Parameter grid","Iterating a ParameterGrid yields each combination exactly once in lexicographic order and len() counts them; grid[i] enumerates the same combinations but in a different order than iteration, contrary to its documentation.","all grids","all grids",["mealpy/tuner.py:ParameterGrid"])
p("C40","Tuner picks the best parameters","For a minimisation problem Tuner.best_params has the smallest mean over trials; for a maximisation problem the selected row is one with the smallest (worst) mean.","all result tables","all tables",["mealpy/tuner.py:Tuner.execute"])
p("C41","Multitask option expansion","Multitask accepts terminations/modes of size 1, n, m or n*m and gives algorithm i on problem j its intended entry: true for sizes 1 and m (m != n); size n always raises; size n*m is never expanded to a matrix.","all sizes and values","all sizes",["mealpy/multitask.py:Multitask.check_input"])
p("C42","n_jobs rule","Tuner and Multitask run sequentially iff n_jobs is None or < 1, raise for n_jobs = 1 (documented as sequential), and otherwise accept exactly 2..min(61,cpus-1).","all n_jobs and cpu counts","all values",["mealpy/multitask.py:Multitask.execute","mealpy/tuner.py:Tuner.execute"])
p("C43","Index sampling with exclusions","sample_indexes_exclude_one/list return in-range indices, never an excluded one, distinct when sampling without replacement, and every admissible outcome is reachable.","all sizes, exclusions and generator outcomes","all draws",[O+":Optimizer.sample_indexes_exclude_one",O+":Optimizer.sample_indexes_exclude_list"])
p("C44","Roulette wheel selection","The selection probabilities are non-negative, sum to one, favour better fitness, and the worst agent has probability zero (for min, or whenever fitness was shifted); for equal fitness the choice is uniform. In binary64, a wheel over at most 2^20 fitness values between -2^860 and 2^860 never raises and returns a position of the list, whatever the state.","all non-empty fitness lists (exact arithmetic for the probabilities, binary64 for the range and the absence of errors)","all lists",[O+":Optimizer.get_index_roulette_wheel_selection"])
p("C45","Tournament selection","k-way tournament returns distinct indices of the population, the best (or worst) min(output,k) of the sampled ones in order.","all populations, samples, k and outputs","all draws",[O+":Optimizer.get_index_kway_tournament_selection"])
p("C46","Arithmetic crossover","Children lie componentwise between the parents and their sum is the parents' sum (exact arithmetic).","all parents and r in [0,1]","all vectors",[O+":Optimizer.crossover_arithmetic"])
p("C47","Grouping","generate_group_population splits the first n*m agents into n consecutive groups of m in order, nothing lost or duplicated; a short population gives short trailing groups.","all populations, n, m","all sizes",[O+":Optimizer.generate_group_population"])
p("C48","improved_ms","improved_ms keeps the population size and keeps targets consistent with positions: true only for even sizes and non-single modes; in single mode returned agents can carry the target of another position.","all populations and modes","all sizes",[O+":Optimizer.improved_ms"])
p("C49","Opposition solution","generate_opposition_solution returns a vector within the bounds (no NaN input).","all agents and draws","all floats",[O+":Optimizer.generate_opposition_solution"])
p("C50","Repeatability","Two solves with the same integer seed, problem and parameters give the same result whatever was run before on the same optimizer, provided the algorithm's own attributes are re-initialised; the evaluation counter is the only base attribute that leaks when no termination is used. ABFO's step sizes leak.","all previous histories of the optimizer","all histories",[O+":Optimizer.check_problem",O+":Optimizer.solve","mealpy/swarm_based/BFO.py:ABFO.initialize_variables"])
p("C51","History entries are snapshots","Recorded global bests are never altered by later epochs for any algorithm that updates agents in place; recorded current bests/worsts are the live population objects and do change.","all in-place update sequences","aliasing over whole runs",[O+":Optimizer.update_global_best_agent","mealpy/utils/agent.py:Agent.copy"])
p("C52","Recorded best positions and in-place array writes","The position array of the recorded best agent is shared with the population, so it is preserved iff algorithms never write into position arrays in place (HBO does).","all in-place array writes","aliasing over whole runs",["mealpy/utils/agent.py:Agent.copy","mealpy/human_based/HBO.py"])
p("C53","Chaotic maps","With default parameters each chaotic map keeps the unit interval invariant ([-1,1] for Chebyshev), so iterating never leaves it.","all starting points and iteration counts","all reals, all iterations",["mealpy/utils/chaotic.py:ChaoticMap"])
p("C54","Fuzzy weights","Membership degrees are in [0,1] and the three fuzzy weights are in [25,75] for every iteration of every run length.","all iterations 0..max","all ratios",["mealpy/utils/fuzzy.py:FuzzySystem"])
p("C55","OptInfo validation","An OptInfo object exists only with valid difficulty, kind, status, concerns, non-blank names and a year in 1800..2100.","all field values","all values",["mealpy/utils/opt_info.py:OptInfo.__post_init__"])
p("C56","Optimizer lookup","get_all_optimizers returns every optimizer class and not the base class; get_optimizer_by_class finds a class iff it is listed; get_optimizer_by_name includes the base class unless verbose, and returns {} (or None when verbose) for an unknown module.","all module namespaces","all names",["mealpy/__init__.py"])
p("C57","Logger reuse","A logger name keeps the first handler it got: a later create_logger with another target file adds no handler.","all sequences of create_logger calls","all histories",["mealpy/utils/logger.py:Logger.create_logger"])
p("C58","Trajectory chart arguments","save_trajectory_chart accepts exactly the argument sets for which every plotted index exists, and plots for each selected agent and dimension its series over the saved generations.","all index sets and histories","all index sets",[H+":History.save_trajectory_chart"])
p("C59","Model file names","save_model and load_model agree on the file name for every path argument, so what is saved under a path is what is loaded under it.","all paths","all strings",["mealpy/utils/io.py"])
p("C60","Invalid direction","A problem whose minmax is neither 'min' nor 'max' never yields a result: solve raises at the first epoch end.","all other strings, all algorithms","all strings",[O+":Optimizer.get_better_agent","mealpy/utils/problem.py:Problem.__init__"])
p("C61","Seeded variables draw in lockstep","Problem.set_seed gives every variable a generator seeded alike, so equal variables of one problem draw equal values: each generated solution repeats the same coordinates.","all seeds, all equal variables","all random streams",["mealpy/utils/problem.py:Problem.set_seed","mealpy/utils/problem.py:Problem.generate_solution_with_bounds"])
try:
    from props_algo import extra
    extra(p)
except ImportError:
    pass
with open("/verif/properties.jsonl","w") as f:
    for x in P: f.write(json.dumps(x)+"\n")
print(len(P))
