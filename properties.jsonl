{"id": "C01", "title": "Stopping decision", "statement": "Termination.should_terminate returns True exactly when at least one configured limit has been reached (epoch>=max_epoch, evaluations>=max_fe, elapsed>=max_time, stagnant epochs>=max_early_stop), and the message names the first reached limit in the order MG, FE, TB, ES.", "quantifier": "all limit configurations (each present or absent), all counters and clock readings", "why_tests_cant": "four optional limits times unbounded counters/clock values; a test samples a few combinations", "anchors": ["mealpy/utils/termination.py:Termination.should_terminate"]}
{"id": "C02", "title": "Termination construction", "statement": "A Termination object can be built iff at least one limit is given and every given limit is a number inside its documented range; the stored integer limits are inside the range. Criteria nested in a `termination=` keyword are not honoured (they are ignored and construction fails).", "quantifier": "all values of the four limits, of every modelled Python type", "why_tests_cant": "infinitely many values and types", "anchors": ["mealpy/utils/termination.py:Termination.__init__", "mealpy/utils/termination.py:__set_condition", "mealpy/utils/termination.py:__set_keyword_arguments"]}
{"id": "C03", "title": "Early-stop counter", "statement": "The stagnation counter equals the length of the longest suffix of the global-best history in which every two consecutive fitness values differ by at most epsilon.", "quantifier": "all histories, all epsilon, including NaN and infinite fitness", "why_tests_cant": "histories of every length", "anchors": ["mealpy/utils/history.py:History.get_global_repeated_times"]}
{"id": "C04", "title": "Main loop stops exactly when it must", "statement": "solve executes min(epoch, first epoch whose end satisfies the termination) epochs: it never runs past `epoch`, never continues after a satisfied termination, and never stops earlier.", "quantifier": "all epoch limits, all termination configurations, all clocks, every evolve behaviour", "why_tests_cant": "quantifies over every run of every algorithm", "anchors": ["mealpy/optimizer.py:Optimizer.solve", "mealpy/optimizer.py:Optimizer.check_termination"]}
{"id": "C05", "title": "Evaluation budget", "statement": "With max_fe = M and no other limit, when solve stops because of FE the counter is >= M, and it was < M at the end of every earlier epoch, so the overshoot is less than the evaluations of the last epoch.", "quantifier": "all M, all per-epoch evaluation counts", "why_tests_cant": "every schedule of evaluations", "anchors": ["mealpy/optimizer.py:Optimizer.solve", "mealpy/utils/termination.py:Termination.should_terminate"]}
{"id": "C06", "title": "Global best never gets worse", "statement": "The sequence of global best fitness values recorded by the history never gets worse, for minimisation and maximisation, whatever the algorithm does to the population.", "quantifier": "all algorithms (arbitrary population updates), all epochs, all fitness values except NaN in the initial population", "why_tests_cant": "needs every run of every algorithm", "anchors": ["mealpy/optimizer.py:Optimizer.update_global_best_agent", "mealpy/optimizer.py:Optimizer.solve"]}
{"id": "C07", "title": "Returned agent is the best of all recorded generations", "statement": "The agent returned by solve is the last recorded global best and is at least as good as every agent of the initial population and of the population at the end of each epoch.", "quantifier": "all algorithms, all runs without NaN fitness", "why_tests_cant": "needs every run", "anchors": ["mealpy/optimizer.py:Optimizer.solve", "mealpy/optimizer.py:Optimizer.after_initialization", "mealpy/optimizer.py:Optimizer.update_global_best_agent"]}
{"id": "C08", "title": "Global worst record", "statement": "The recorded global worst never improves and is at least as bad as every agent of the initial population and of each epoch's final population.", "quantifier": "all algorithms, all runs without NaN", "why_tests_cant": "needs every run", "anchors": ["mealpy/optimizer.py:Optimizer.update_global_best_agent"]}
{"id": "C09", "title": "History is aligned with the epochs", "statement": "After solve ran k epochs every per-epoch history list has exactly k entries, history.epoch = k, and the recorded fitness list equals the fitness of the recorded global bests provided the algorithm does not rewrite past entries (update_global_best_agent(save=False) does).", "quantifier": "all run lengths, all algorithms", "why_tests_cant": "run length is unbounded", "anchors": ["mealpy/optimizer.py:Optimizer.track_optimize_step", "mealpy/optimizer.py:Optimizer.track_optimize_process", "mealpy/utils/history.py:History"]}
{"id": "C10", "title": "Exploration/exploitation percentages", "statement": "If some recorded diversity is positive, exploration is in [0,100] at every epoch, reaches 100 at the most diverse epoch, and exploitation is 100 minus it, also in [0,100]; if every diversity is zero all percentages are NaN.", "quantifier": "all non-negative diversity sequences in binary64", "why_tests_cant": "every sequence of floats, rounding included", "anchors": ["mealpy/optimizer.py:Optimizer.track_optimize_process"]}
{"id": "C11", "title": "Population sorting", "statement": "get_sorted_population returns a permutation of the population together with the matching indices, ordered from best to worst for the given direction; NaN fitness is placed last for minimisation and FIRST for maximisation.", "quantifier": "all populations, every correct (possibly unstable) argsort, all fitness values", "why_tests_cant": "any population size and any sort tie-breaking", "anchors": ["mealpy/optimizer.py:Optimizer.get_sorted_population"]}
{"id": "C12", "title": "Best/worst/special agents", "statement": "get_best_agent, get_worst_agent and get_special_agents return copies of members (or indices) that are no worse (resp. no better) than every member; asking for n best / n worst gives min(n, size) agents, ordered; n best dominate all others.", "quantifier": "all non-empty populations and counts", "why_tests_cant": "any size", "anchors": ["mealpy/optimizer.py:Optimizer.get_best_agent", "mealpy/optimizer.py:Optimizer.get_worst_agent", "mealpy/optimizer.py:Optimizer.get_special_agents"]}
{"id": "C13", "title": "Special fitness summary", "statement": "get_special_fitness returns the best and the worst fitness of the population; every member lies between them.", "quantifier": "all non-empty populations without NaN", "why_tests_cant": "any size", "anchors": ["mealpy/optimizer.py:Optimizer.get_special_fitness"]}
{"id": "C14", "title": "Pairwise comparison is coherent", "statement": "get_better_agent returns (a copy of) one of its arguments, never worse than the other; with reverse=True never better; compare_target/compare_fitness agree with it; ties go to the second argument for min and to the first for max; NaN behaviour is characterised.", "quantifier": "all pairs of fitness values including NaN and infinities", "why_tests_cant": "all floats", "anchors": ["mealpy/optimizer.py:Optimizer.get_better_agent", "mealpy/optimizer.py:Optimizer.compare_target", "mealpy/optimizer.py:Optimizer.compare_fitness"]}
{"id": "C15", "title": "Greedy survivor selection", "statement": "greedy_selection_population keeps the size, takes each slot from the old or the new population, never makes a slot worse, replaces only on strict improvement, and raises ValueError iff the lengths differ.", "quantifier": "all pairs of populations", "why_tests_cant": "any size", "anchors": ["mealpy/optimizer.py:Optimizer.greedy_selection_population"]}
{"id": "C16", "title": "Sort and trim", "statement": "get_sorted_and_trimmed_population returns min(k,size) agents; they form a sub-multiset of the population, sorted, and no dropped agent is better than a kept one.", "quantifier": "all populations and k", "why_tests_cant": "any size", "anchors": ["mealpy/optimizer.py:Optimizer.get_sorted_and_trimmed_population"]}
{"id": "C17", "title": "Min/max duality", "statement": "Maximising f selects the same fitness values as minimising -f in comparison, sorting, greedy selection and best/worst extraction (up to the choice among exact ties).", "quantifier": "all non-NaN fitness values", "why_tests_cant": "all populations", "anchors": ["mealpy/optimizer.py:Optimizer.get_sorted_population", "mealpy/optimizer.py:Optimizer.get_better_agent", "mealpy/optimizer.py:Optimizer.greedy_selection_population"]}
{"id": "C18", "title": "Starting solutions", "statement": "solve uses exactly the given starting positions, unmodified and in order, as initial population, and rejects a collection whose length is not pop_size or whose first row has not n_dims entries. They are not corrected to the bounds and rows after the first are not checked.", "quantifier": "all starting collections, all modes", "why_tests_cant": "any size and content", "anchors": ["mealpy/optimizer.py:Optimizer.before_initialization"]}
{"id": "C19", "title": "Initial population", "statement": "generate_population returns exactly pop_size evaluated agents whatever the mode and whatever the completion order of workers; in process mode all agents are identical because each worker starts from a copy of the same generator state.", "quantifier": "all modes, all worker schedules, all generator states", "why_tests_cant": "schedules", "anchors": ["mealpy/optimizer.py:Optimizer.generate_population"]}
{"id": "C20", "title": "Population evaluation", "statement": "In swarm, thread and process mode update_target_for_population gives each agent the target of its own position regardless of evaluation order, keeps positions and order, and adds the population size to the counter; in single mode it changes nothing.", "quantifier": "all populations, modes and evaluation orders", "why_tests_cant": "schedules", "anchors": ["mealpy/optimizer.py:Optimizer.update_target_for_population"]}
{"id": "C21", "title": "Evaluation counter", "statement": "The evaluation counter equals the number of objective calls made through the optimizer since it was reset for every sequential operation sequence; it is reset by solve only when a termination is given; in process mode initial evaluations are not counted; in thread mode concurrent increments can be lost but never over-count.", "quantifier": "all operation sequences and interleavings", "why_tests_cant": "interleavings", "anchors": ["mealpy/optimizer.py:Optimizer.get_target", "mealpy/optimizer.py:Optimizer.generate_population", "mealpy/optimizer.py:Optimizer.check_termination"]}
{"id": "C22", "title": "Corrected solutions are inside the bounds", "statement": "Optimizer.correct_solution returns a vector of length n_dims each component of which lies in [lb,ub] (or is NaN where the input was NaN) for every mix of variable types.", "quantifier": "all problems built from the ten variable classes, all float vectors of the right length, including infinities", "why_tests_cant": "all vectors", "anchors": ["mealpy/utils/problem.py:Problem.correct_solution_with_bounds", "mealpy/utils/space.py", "mealpy/optimizer.py:Optimizer.correct_solution"]}
{"id": "C23", "title": "Correction is idempotent", "statement": "Correcting twice equals correcting once for float, integer, string, categorical, sequence, binary and bool variables; for permutation variables it is not idempotent, but has period two from the first application on.", "quantifier": "all inputs", "why_tests_cant": "all vectors", "anchors": ["mealpy/utils/space.py:correct"]}
{"id": "C24", "title": "Encode/decode round trips", "statement": "decode(encode(x)) = x for every valid value x of float, integer, binary, bool, string, categorical and sequence variables.", "quantifier": "all valid values, all variable declarations satisfying the stated guard", "why_tests_cant": "all declarations", "anchors": ["mealpy/utils/space.py:encode", "mealpy/utils/space.py:decode"]}
{"id": "C25", "title": "Permutation variables", "statement": "decode of any vector is a permutation of the (duplicate-free) valid set; decode(encode(x)) is the inverse arrangement of x, so the round trip holds exactly for self-inverse arrangements.", "quantifier": "all valid sets, all vectors, all arrangements", "why_tests_cant": "n! arrangements", "anchors": ["mealpy/utils/space.py:PermutationVar"]}
{"id": "C26", "title": "Integer decoding stays in range", "statement": "IntegerVar.decode returns integers inside [lb,ub] for every non-NaN input as long as |lb|,|ub| <= 2^38; at ub = 2^40 it can return ub+1 because of rounding.", "quantifier": "all integer bounds in the range, all binary64 inputs", "why_tests_cant": "2^64 inputs times bounds", "anchors": ["mealpy/utils/space.py:IntegerVar.decode", "mealpy/utils/space.py:BaseVar.round", "mealpy/utils/space.py:IntegerVar._set_bounds"]}
{"id": "C27", "title": "Integer generation range", "statement": "For |lb|,|ub| <= 2^38 IntegerVar.generate never raises, can yield every integer of [lb,ub], and yields nothing else when ub >= -1; for smaller ub it can yield ub+1 (for example ub=-5), never anything beyond, rounding included.", "quantifier": "all bounds", "why_tests_cant": "all bounds", "anchors": ["mealpy/utils/space.py:IntegerVar.generate"]}
{"id": "C28", "title": "Float generation range", "statement": "FloatVar.generate yields values within [lb,ub] for all finite bounds with finite range, rounding included.", "quantifier": "all binary64 bounds and all uniform draws", "why_tests_cant": "all floats", "anchors": ["mealpy/utils/space.py:FloatVar.generate"]}
{"id": "C29", "title": "Label encoder", "statement": "inverse_transform(transform(y)) = y for all fitted labels; transform is injective up to label equality and onto 0..k-1; unknown labels raise KeyError; out-of-range codes decode to 'unknown'; with duplicate choices a categorical variable can decode to 'unknown'.", "quantifier": "all label lists of mixed types", "why_tests_cant": "all lists", "anchors": ["mealpy/utils/space.py:LabelEncoder", "mealpy/utils/space.py:StringVar"]}
{"id": "C30", "title": "Transfer variables", "statement": "correct yields only 0/1; with all_zeros=False never the all-zero vector; the declared lower bound is ignored (the effective one is 0); decoding re-samples, so a corrected vector need not decode to itself.", "quantifier": "all inputs and random draws", "why_tests_cant": "all draws", "anchors": ["mealpy/utils/space.py:TransferBinaryVar", "mealpy/utils/space.py:TransferBoolVar"]}
{"id": "C31", "title": "Transfer functions", "statement": "Every transfer function maps reals into [0,1]; the S-shaped ones are increasing with value 1/2 at 0, the V-shaped ones are even with value 0 at 0.", "quantifier": "all real inputs", "why_tests_cant": "all reals", "anchors": ["mealpy/utils/transfer.py"]}
{"id": "C32", "title": "Problem layout", "statement": "A problem's lb/ub/n_dims are the concatenation of its variables'; correct/encode/decode hand each variable exactly its own slice, outputs keep length n_dims, and decode_solution has one entry per variable iff the variable names are distinct (later variables overwrite earlier ones with the same name).", "quantifier": "all variable lists", "why_tests_cant": "all layouts", "anchors": ["mealpy/utils/problem.py:Problem"]}
{"id": "C33", "title": "Fitness is the weighted sum", "statement": "Target.fitness is the weighted sum of the objectives when as many weights as objectives (or one scalar weight) are given, the plain sum when none is given, and silently the plain sum when the number of weights is wrong.", "quantifier": "all objective and weight vectors", "why_tests_cant": "all vectors", "anchors": ["mealpy/utils/target.py:Target", "mealpy/utils/problem.py:Problem.get_target"]}
{"id": "C34", "title": "Copies are faithful", "statement": "Agent.copy/Target.copy have the same position, objectives, weights, fitness and attributes as the original and a fresh larger id; calling calculate_fitness with other weights is not preserved by copy.", "quantifier": "all agents", "why_tests_cant": "all attributes", "anchors": ["mealpy/utils/agent.py:Agent.copy", "mealpy/utils/target.py:Target.copy"]}
{"id": "C35", "title": "Agent equality and hash", "statement": "Agent equality is reflexive on finite positions but neither symmetric nor transitive nor compatible with hash.", "quantifier": "all positions", "why_tests_cant": "all floats", "anchors": ["mealpy/utils/agent.py:Agent.__eq__", "mealpy/utils/agent.py:Agent.__hash__"]}
{"id": "C36", "title": "Agent ordering", "statement": "is_better_than is a strict weak order on agents without NaN fitness and get_better_solution returns an agent not worse than either; a NaN-fitness argument is returned by get_better_solution.", "quantifier": "all agents", "why_tests_cant": "all floats", "anchors": ["mealpy/utils/agent.py:Agent._compare_fitness"]}
{"id": "C37", "title": "set_parameters is atomic", "statement": "set_parameters(dict) either updates exactly the given parameters (values and attributes) or raises ValueError and changes nothing; values are not validated.", "quantifier": "all parameter dictionaries and states", "why_tests_cant": "all dictionaries", "anchors": ["mealpy/optimizer.py:Optimizer.set_parameters"]}
{"id": "C38", "title": "Validator", "statement": "is_in_bound means open interval for tuples and closed for lists with infinite ends unbounded; check_int/check_float/check_str/check_bool accept exactly the documented values; check_int truncates, so with open or fractional bounds the result can be outside (0.01 in (0,5) becomes 0).", "quantifier": "all values and bounds", "why_tests_cant": "all values", "anchors": ["mealpy/utils/validator.py"]}
{"id": "C39", "title": "Parameter grid", "statement": "Iterating a ParameterGrid yields each combination exactly once in lexicographic order and len() counts them; grid[i] enumerates the same combinations but in a different order than iteration, contrary to its documentation.", "quantifier": "all grids", "why_tests_cant": "all grids", "anchors": ["mealpy/tuner.py:ParameterGrid"]}
{"id": "C40", "title": "Tuner picks the best parameters", "statement": "For a minimisation problem Tuner.best_params has the smallest mean over trials; for a maximisation problem the selected row is one with the smallest (worst) mean.", "quantifier": "all result tables", "why_tests_cant": "all tables", "anchors": ["mealpy/tuner.py:Tuner.execute"]}
{"id": "C41", "title": "Multitask option expansion", "statement": "Multitask accepts terminations/modes of size 1, n, m or n*m and gives algorithm i on problem j its intended entry: true for sizes 1 and m (m != n); size n always raises; size n*m is never expanded to a matrix.", "quantifier": "all sizes and values", "why_tests_cant": "all sizes", "anchors": ["mealpy/multitask.py:Multitask.check_input"]}
{"id": "C42", "title": "n_jobs rule", "statement": "Tuner and Multitask run sequentially iff n_jobs is None or < 1, raise for n_jobs = 1 (documented as sequential), and otherwise accept exactly 2..min(61,cpus-1).", "quantifier": "all n_jobs and cpu counts", "why_tests_cant": "all values", "anchors": ["mealpy/multitask.py:Multitask.execute", "mealpy/tuner.py:Tuner.execute"]}
{"id": "C43", "title": "Index sampling with exclusions", "statement": "sample_indexes_exclude_one/list return in-range indices, never an excluded one, distinct when sampling without replacement, and every admissible outcome is reachable.", "quantifier": "all sizes, exclusions and generator outcomes", "why_tests_cant": "all draws", "anchors": ["mealpy/optimizer.py:Optimizer.sample_indexes_exclude_one", "mealpy/optimizer.py:Optimizer.sample_indexes_exclude_list"]}
{"id": "C44", "title": "Roulette wheel selection", "statement": "The selection probabilities are non-negative, sum to one, favour better fitness, and the worst agent has probability zero (for min, or whenever fitness was shifted); for equal fitness the choice is uniform. In binary64, a wheel over at most 2^20 fitness values between -2^860 and 2^860 never raises and returns a position of the list, whatever the state.", "quantifier": "all non-empty fitness lists (exact arithmetic for the probabilities, binary64 for the range and the absence of errors)", "why_tests_cant": "all lists", "anchors": ["mealpy/optimizer.py:Optimizer.get_index_roulette_wheel_selection"]}
{"id": "C45", "title": "Tournament selection", "statement": "k-way tournament returns distinct indices of the population, the best (or worst) min(output,k) of the sampled ones in order.", "quantifier": "all populations, samples, k and outputs", "why_tests_cant": "all draws", "anchors": ["mealpy/optimizer.py:Optimizer.get_index_kway_tournament_selection"]}
{"id": "C46", "title": "Arithmetic crossover", "statement": "Children lie componentwise between the parents and their sum is the parents' sum (exact arithmetic).", "quantifier": "all parents and r in [0,1]", "why_tests_cant": "all vectors", "anchors": ["mealpy/optimizer.py:Optimizer.crossover_arithmetic"]}
{"id": "C47", "title": "Grouping", "statement": "generate_group_population splits the first n*m agents into n consecutive groups of m in order, nothing lost or duplicated; a short population gives short trailing groups.", "quantifier": "all populations, n, m", "why_tests_cant": "all sizes", "anchors": ["mealpy/optimizer.py:Optimizer.generate_group_population"]}
{"id": "C48", "title": "improved_ms", "statement": "improved_ms keeps the population size and keeps targets consistent with positions: true only for even sizes and non-single modes; in single mode returned agents can carry the target of another position.", "quantifier": "all populations and modes", "why_tests_cant": "all sizes", "anchors": ["mealpy/optimizer.py:Optimizer.improved_ms"]}
{"id": "C49", "title": "Opposition solution", "statement": "generate_opposition_solution returns a vector within the bounds (no NaN input).", "quantifier": "all agents and draws", "why_tests_cant": "all floats", "anchors": ["mealpy/optimizer.py:Optimizer.generate_opposition_solution"]}
{"id": "C50", "title": "Repeatability", "statement": "Two solves with the same integer seed, problem and parameters give the same result whatever was run before on the same optimizer, provided the algorithm's own attributes are re-initialised; the evaluation counter is the only base attribute that leaks when no termination is used. ABFO's step sizes leak.", "quantifier": "all previous histories of the optimizer", "why_tests_cant": "all histories", "anchors": ["mealpy/optimizer.py:Optimizer.check_problem", "mealpy/optimizer.py:Optimizer.solve", "mealpy/swarm_based/BFO.py:ABFO.initialize_variables"]}
{"id": "C51", "title": "History entries are snapshots", "statement": "Recorded global bests are never altered by later epochs for any algorithm that updates agents in place; recorded current bests/worsts are the live population objects and do change.", "quantifier": "all in-place update sequences", "why_tests_cant": "aliasing over whole runs", "anchors": ["mealpy/optimizer.py:Optimizer.update_global_best_agent", "mealpy/utils/agent.py:Agent.copy"]}
{"id": "C52", "title": "Recorded best positions and in-place array writes", "statement": "The position array of the recorded best agent is shared with the population, so it is preserved iff algorithms never write into position arrays in place (HBO does).", "quantifier": "all in-place array writes", "why_tests_cant": "aliasing over whole runs", "anchors": ["mealpy/utils/agent.py:Agent.copy", "mealpy/human_based/HBO.py"]}
{"id": "C53", "title": "Chaotic maps", "statement": "With default parameters each chaotic map keeps the unit interval invariant ([-1,1] for Chebyshev), so iterating never leaves it.", "quantifier": "all starting points and iteration counts", "why_tests_cant": "all reals, all iterations", "anchors": ["mealpy/utils/chaotic.py:ChaoticMap"]}
{"id": "C54", "title": "Fuzzy weights", "statement": "Membership degrees are in [0,1] and the three fuzzy weights are in [25,75] for every iteration of every run length.", "quantifier": "all iterations 0..max", "why_tests_cant": "all ratios", "anchors": ["mealpy/utils/fuzzy.py:FuzzySystem"]}
{"id": "C55", "title": "OptInfo validation", "statement": "An OptInfo object exists only with valid difficulty, kind, status, concerns, non-blank names and a year in 1800..2100.", "quantifier": "all field values", "why_tests_cant": "all values", "anchors": ["mealpy/utils/opt_info.py:OptInfo.__post_init__"]}
{"id": "C56", "title": "Optimizer lookup", "statement": "get_all_optimizers returns every optimizer class and not the base class; get_optimizer_by_class finds a class iff it is listed; get_optimizer_by_name includes the base class unless verbose, and returns {} (or None when verbose) for an unknown module.", "quantifier": "all module namespaces", "why_tests_cant": "all names", "anchors": ["mealpy/__init__.py"]}
{"id": "C57", "title": "Logger reuse", "statement": "A logger name keeps the first handler it got: a later create_logger with another target file adds no handler.", "quantifier": "all sequences of create_logger calls", "why_tests_cant": "all histories", "anchors": ["mealpy/utils/logger.py:Logger.create_logger"]}
{"id": "C58", "title": "Trajectory chart arguments", "statement": "save_trajectory_chart accepts exactly the argument sets for which every plotted index exists, and plots for each selected agent and dimension its series over the saved generations.", "quantifier": "all index sets and histories", "why_tests_cant": "all index sets", "anchors": ["mealpy/utils/history.py:History.save_trajectory_chart"]}
{"id": "C59", "title": "Model file names", "statement": "save_model and load_model agree on the file name for every path argument, so what is saved under a path is what is loaded under it.", "quantifier": "all paths", "why_tests_cant": "all strings", "anchors": ["mealpy/utils/io.py"]}
{"id": "C60", "title": "Invalid direction", "statement": "A problem whose minmax is neither 'min' nor 'max' never yields a result: solve raises at the first epoch end.", "quantifier": "all other strings, all algorithms", "why_tests_cant": "all strings", "anchors": ["mealpy/optimizer.py:Optimizer.get_better_agent", "mealpy/utils/problem.py:Problem.__init__"]}
{"id": "C61", "title": "Seeded variables draw in lockstep", "statement": "Problem.set_seed gives every variable a generator seeded alike, so equal variables of one problem draw equal values: each generated solution repeats the same coordinates.", "quantifier": "all seeds, all equal variables", "why_tests_cant": "all random streams", "anchors": ["mealpy/utils/problem.py:Problem.set_seed", "mealpy/utils/problem.py:Problem.generate_solution_with_bounds"]}
{"id": "C62", "title": "Execution mode rule", "statement": "solve accepts exactly the modes process, thread, swarm and single for algorithms that support parallel runs; a worker count is checked and used only in process and thread mode; an algorithm that does not support parallel runs is switched to single mode for process and thread.", "quantifier": "all mode strings, worker counts and algorithms", "why_tests_cant": "all values", "anchors": ["mealpy/optimizer.py:Optimizer.check_mode_and_workers"]}
{"id": "C63", "title": "Multitask result tables", "statement": "Each convergence table has one column per trial in order, all as long as the longest, padded with NaN after that trial's own values; the best fitness table has one column per problem name, so problems sharing a name overwrite each other.", "quantifier": "all trial counts and lengths", "why_tests_cant": "all shapes", "anchors": ["mealpy/multitask.py:Multitask.execute"]}
{"id": "C64", "title": "Algorithm classes: a run ends normally and returns the best solution evaluated", "statement": "For each algorithm class covered, with its documented parameter ranges: solve never raises for any valid problem, direction, mode, termination, starting solutions and random stream; every solution handed to the objective is admissible; the population size, history lists and saved populations are consistent with each other; the number of evaluations per epoch lies in the stated range; and no evaluated solution is better than the returned agent when objective values are numbers.", "quantifier": "all problems, parameters, random streams, modes, termination settings, starting solutions and previous optimizer states", "why_tests_cant": "all random streams and run lengths", "anchors": ["mealpy/*/*.py:evolve", "mealpy/optimizer.py:Optimizer.solve"]}
{"id": "C65", "title": "Algorithm classes that may lose an evaluated solution: a run ends normally and is consistent", "statement": "For each algorithm class that overwrites agents without comparing them (so the best evaluated solution can be lost): everything of the previous property except the last clause; instead the returned agent is an evaluated one, its stored target is the objective value of its position, and the recorded global best never gets worse from epoch to epoch. The missing clause is indeed false for most of these classes: there are runs that return an agent worse than a solution they evaluated. For some classes that write into positions shared between agents (OriginalTHRO, OriginalICA, EnhancedTWO, in single mode) the agreement of target and position is false as well; what holds is that every stored target is the objective value of some position.", "quantifier": "all problems, parameters, random streams, modes, termination settings, starting solutions and previous optimizer states", "why_tests_cant": "all random streams and run lengths", "anchors": ["mealpy/*/*.py:evolve", "mealpy/optimizer.py:Optimizer.solve"]}
{"id": "C66", "title": "Variable constructors and problem bounds: what is accepted and what is built", "statement": "FloatVar, IntegerVar, BoolVar, BinaryVar, StringVar, PermutationVar and the two transfer-function variables accept exactly the argument combinations their checks name and raise the documented error otherwise; a constructed variable has as many lower and upper bounds as variables. Unordered bounds, and empty bound arrays, are accepted by FloatVar. Problem bounds accept a variable or a non-empty list of variables only.", "quantifier": "all constructor arguments", "why_tests_cant": "all argument values", "anchors": ["mealpy/utils/space.py:BaseVar.set_n_vars", "mealpy/utils/space.py:FloatVar.__init__", "mealpy/utils/space.py:TransferBinaryVar.__init__", "mealpy/utils/problem.py:Problem.set_bounds"]}
{"id": "C67", "title": "Genetic algorithms: stored targets stay up to date", "statement": "After any run of BaseGA or MultiGA (and their elitist variants) with the flip mutation on the whole vector, the returned agent and every agent reachable from the population or history stores the objective value of the position it holds. With mutation operators that write into the array they are given (swap, inversion, scramble, single flip) this fails: the returned agent can hold a position whose objective differs from its stored target.", "quantifier": "all problems, selections, crossovers, probabilities, population sizes, epochs and random streams", "why_tests_cant": "aliasing between agents over all runs", "anchors": ["mealpy/evolutionary_based/GA.py:BaseGA.evolve", "mealpy/evolutionary_based/GA.py:BaseGA.mutation_process__", "mealpy/utils/agent.py:Agent.copy"]}
{"id": "C68", "title": "Documented settings with which solve never returns", "statement": "With the following settings, which the constructors accept, solve raises or loops on every problem, in every mode and for every random stream: BaseGA, SingleGA and MultiGA with fewer than ten or an odd number of agents; roulette parent selection when all agents but one are equally bad; JADE with pt times pop_size below one (any population below ten with the default); OriginalDE strategy 3 with five agents; OriginalCA with accepted_rate times pop_size below one; DS_GWO with more groups than agents; OriginalSOO and DevSSpiderA in thread, process or swarm mode; OriginalDOA with more agents than variables and no termination; OriginalDandelionO, OriginalAO and AAO with one epoch; OriginalSquirrelSA with one food source or at most two agents more than food sources; OriginalBeesA when a ratio gives the elite or selected sites no bees (its default ratios with five agents); DevEFO and OriginalEFO when p_field times pop_size is below one (the default with fewer than ten agents) or a field is empty; OriginalCOA with two coyotes per pack; OriginalMA with an odd number of agents; OriginalEHO when the number of agents is not a multiple of the number of clans; OppoTWO with an odd number of agents; ImprovedBSO when the number of agents is not a multiple of the number of clusters; OriginalBFO with an odd number of agents; ABFO with N_adapt zero; OriginalAAA on problems of one or two variables; OriginalPSS with sampling_method MC; DevSMO when the number of agents leaves one over after division into groups; OriginalBSA, OriginalSRSR and CL_PSO with starting solutions in a parallel mode; OriginalSFO without termination when the attack power of the last epoch exceeds one in size (the default settings). On some problems also OriginalFOA and DevFOA (a negative upper bound), OriginalESO (many dimensions), DevGSKA (few agents), OriginalSquirrelSA (equal starting solutions), OriginalOrcaOA (p_percent times pop_size below one), ModifiedSLO (starting solutions in a parallel mode), CleverBookBeesA, OriginalCRO and OCRO (one variable) and OriginalNRO (two or more variables, one of them with a single admissible value) and QleSCA (a single admissible solution), and OriginalICA in single mode (an objective that is zero everywhere). On every problem, but only for some random streams, also OriginalINFO with five agents.", "quantifier": "all problems, modes, terminations, starting solutions, random streams and previous optimizer states", "why_tests_cant": "failure for every input, not some input", "anchors": ["mealpy/evolutionary_based/GA.py:BaseGA.survivor_process__", "mealpy/evolutionary_based/GA.py:BaseGA.selection_process__", "mealpy/evolutionary_based/DE.py:JADE.evolve", "mealpy/evolutionary_based/DE.py:OriginalDE.evolve", "mealpy/human_based/CA.py:OriginalCA.evolve", "mealpy/swarm_based/GWO.py:DS_GWO.before_main_loop", "mealpy/physics_based/SOO.py:OriginalSOO.evolve", "mealpy/human_based/DOA.py:OriginalDOA.evolve", "mealpy/swarm_based/DandelionO.py:OriginalDandelionO.evolve", "mealpy/swarm_based/SquirrelSA.py:OriginalSquirrelSA.evolve", "mealpy/swarm_based/AO.py:OriginalAO.evolve", "mealpy/swarm_based/AO.py:AAO.evolve", "mealpy/swarm_based/ORCA.py:OriginalOrcaOA.evolve", "mealpy/swarm_based/BSA.py:OriginalBSA.evolve", "mealpy/swarm_based/BeesA.py:CleverBookBeesA.evolve", "mealpy/physics_based/NRO.py:OriginalNRO.evolve", "mealpy/swarm_based/SSpiderA.py:DevSSpiderA.evolve", "mealpy/swarm_based/SRSR.py:OriginalSRSR.evolve", "mealpy/swarm_based/BeesA.py:OriginalBeesA.evolve", "mealpy/physics_based/EFO.py:DevEFO.evolve", "mealpy/physics_based/EFO.py:OriginalEFO.initialization", "mealpy/swarm_based/COA.py:OriginalCOA.evolve", "mealpy/evolutionary_based/MA.py:OriginalMA.evolve", "mealpy/swarm_based/EHO.py:OriginalEHO.evolve", "mealpy/physics_based/TWO.py:OppoTWO.initialization", "mealpy/human_based/BSO.py:ImprovedBSO.evolve", "mealpy/swarm_based/BFO.py:OriginalBFO.evolve", "mealpy/swarm_based/BFO.py:ABFO.evolve", "mealpy/human_based/ICA.py:OriginalICA.initialization", "mealpy/bio_based/AAA.py:OriginalAAA.evolve", "mealpy/evolutionary_based/CRO.py:OriginalCRO.multi_point_cross__", "mealpy/swarm_based/SLO.py:ModifiedSLO.evolve", "mealpy/swarm_based/SFO.py:OriginalSFO.evolve", "mealpy/swarm_based/FOA.py:OriginalFOA.evolve", "mealpy/swarm_based/FOA.py:DevFOA.evolve", "mealpy/math_based/PSS.py:OriginalPSS.create_population", "mealpy/math_based/SCA.py:QleSCA.evolve", "mealpy/swarm_based/SMO.py:DevSMO.local_leader_phase", "mealpy/math_based/INFO.py:OriginalINFO.evolve", "mealpy/swarm_based/PSO.py:CL_PSO.evolve"]}
{"id": "C69", "title": "Levy steps: case 0 never lengthens a step", "statement": "get_levy_flight_step returns as many components as asked for; with case 0 (scaling by a uniform random number) no component is longer than the same component of the unscaled step made from the same random numbers, as long as that is finite.", "quantifier": "all beta, multipliers, sizes, optimizer states and random streams with uniform draws in [0,1)", "why_tests_cant": "all random streams and floating point values", "anchors": ["mealpy/optimizer.py:Optimizer.get_levy_flight_step"]}
{"id": "C70", "title": "Classes that update the best solution inside an epoch: what a run returns and what its history means", "statement": "For the giant trevally, gorilla troops and manta ray classes, which call the best-solution update several times per epoch without saving: solve never raises, returns the best solution evaluated, and evaluates the stated number of solutions per epoch; the history lists have one entry per epoch, the recorded agents are evaluated admissible solutions, best and worst so far are monotone, and every recorded best fitness value is an objective value that is no better than the recorded agent of the same epoch. The two agree for the last epoch only: for earlier epochs the recorded agent may have been replaced by a better one found in the first half of the next epoch.", "quantifier": "all problems, parameters, random streams, modes, termination settings, starting solutions and previous optimizer states", "why_tests_cant": "all random streams and run lengths", "anchors": ["mealpy/swarm_based/AGTO.py:OriginalAGTO.evolve", "mealpy/swarm_based/GTO.py:OriginalGTO.evolve", "mealpy/swarm_based/MRFO.py:OriginalMRFO.evolve", "mealpy/optimizer.py:Optimizer.update_global_best_agent"]}
{"id": "C71", "title": "Particle swarm and bird swarm: what an agent remembers", "statement": "Whenever a run of OriginalPSO, AIW_PSO, LDW_PSO, P_PSO, HPSO_TVAC or C_PSO ends, the remembered local best of every particle is its present position and target, because a particle moves only to better positions. The same holds for CL_PSO in the single mode when minimising; when maximising it fails, since a position that is only as good as the present one is remembered but not taken. So the cognitive coefficient c1 of OriginalPSO multiplies a zero difference: two runs that differ only in c1 return the same agent with the same history and evaluations, whatever the problem, as long as the uniform draws lie in [0,1]. In OriginalBSA the remembered position and target of a bird never change during the epochs of a run: they stay those of its start.", "quantifier": "all problems, directions, parameters, population sizes, epochs, terminations, starting solutions and random streams", "why_tests_cant": "two runs compared for all random streams and run lengths", "anchors": ["mealpy/swarm_based/PSO.py:OriginalPSO.evolve", "mealpy/swarm_based/PSO.py:OriginalPSO.generate_agent", "mealpy/swarm_based/PSO.py:AIW_PSO.evolve", "mealpy/swarm_based/PSO.py:LDW_PSO.evolve", "mealpy/swarm_based/PSO.py:P_PSO.evolve", "mealpy/swarm_based/PSO.py:HPSO_TVAC.evolve", "mealpy/swarm_based/PSO.py:C_PSO.evolve", "mealpy/swarm_based/PSO.py:CL_PSO.evolve", "mealpy/swarm_based/BSA.py:OriginalBSA.evolve"]}
