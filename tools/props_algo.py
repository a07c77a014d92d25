O="mealpy/optimizer.py"
def extra(p):
    p("C62","Execution mode rule","solve accepts exactly the modes process, thread, swarm and single for algorithms that support parallel runs; a worker count is checked and used only in process and thread mode; an algorithm that does not support parallel runs is switched to single mode for process and thread.","all mode strings, worker counts and algorithms","all values",[O+":Optimizer.check_mode_and_workers"])
    p("C63","Multitask result tables","Each convergence table has one column per trial in order, all as long as the longest, padded with NaN after that trial's own values; the best fitness table has one column per problem name, so problems sharing a name overwrite each other.","all trial counts and lengths","all shapes",["mealpy/multitask.py:Multitask.execute"])
    p("C64","Algorithm classes: a run ends normally and returns the best solution evaluated","For each algorithm class covered, with its documented parameter ranges: solve never raises for any valid problem, direction, mode, termination, starting solutions and random stream; every solution handed to the objective is admissible; the population size, history lists and saved populations are consistent with each other; the number of evaluations per epoch lies in the stated range; and no evaluated solution is better than the returned agent when objective values are numbers.","all problems, parameters, random streams, modes, termination settings, starting solutions and previous optimizer states","all random streams and run lengths",["mealpy/*/*.py:evolve","mealpy/optimizer.py:Optimizer.solve"])
    p("C65","Algorithm classes that may lose an evaluated solution: a run ends normally and is consistent","For each algorithm class that overwrites agents without comparing them (so the best evaluated solution can be lost): everything of the previous property except the last clause; instead the returned agent is an evaluated one, its stored target is the objective value of its position, and the recorded global best never gets worse from epoch to epoch. The missing clause is indeed false for most of these classes: there are runs that return an agent worse than a solution they evaluated. For some classes that write into positions shared between agents (OriginalTHRO, OriginalICA, EnhancedTWO, in single mode) the agreement of target and position is false as well; what holds is that every stored target is the objective value of some position.","all problems, parameters, random streams, modes, termination settings, starting solutions and previous optimizer states","all random streams and run lengths",["mealpy/*/*.py:evolve","mealpy/optimizer.py:Optimizer.solve"])
    p("C66","Variable constructors and problem bounds: what is accepted and what is built","FloatVar, IntegerVar, BoolVar, BinaryVar, StringVar, PermutationVar and the two transfer-function variables accept exactly the argument combinations their checks name and raise the documented error otherwise; a constructed variable has as many lower and upper bounds as variables. Unordered bounds, and empty bound arrays, are accepted by FloatVar. Problem bounds accept a variable or a non-empty list of variables only.","all constructor arguments","all argument values",["mealpy/utils/space.py:BaseVar.set_n_vars","mealpy/utils/space.py:FloatVar.__init__","mealpy/utils/space.py:TransferBinaryVar.__init__","mealpy/utils/problem.py:Problem.set_bounds"])
    p("C67","Genetic algorithms: stored targets stay up to date","After any run of BaseGA or MultiGA (and their elitist variants) with the flip mutation on the whole vector, the returned agent and every agent reachable from the population or history stores the objective value of the position it holds. With mutation operators that write into the array they are given (swap, inversion, scramble, single flip) this fails: the returned agent can hold a position whose objective differs from its stored target.","all problems, selections, crossovers, probabilities, population sizes, epochs and random streams","aliasing between agents over all runs",["mealpy/evolutionary_based/GA.py:BaseGA.evolve","mealpy/evolutionary_based/GA.py:BaseGA.mutation_process__","mealpy/utils/agent.py:Agent.copy"])
    p("C68","Documented settings with which solve never returns","With the following settings, which the constructors accept, solve raises or loops on every problem, in every mode and for every random stream: BaseGA, SingleGA and MultiGA with fewer than ten or an odd number of agents; roulette parent selection when all agents but one are equally bad; JADE with pt times pop_size below one (any population below ten with the default); OriginalDE strategy 3 with five agents; OriginalCA with accepted_rate times pop_size below one; DS_GWO with more groups than agents; OriginalSOO and DevSSpiderA in thread, process or swarm mode; OriginalDOA with more agents than variables and no termination; OriginalDandelionO, OriginalAO and AAO with one epoch; OriginalSquirrelSA with one food source or at most two agents more than food sources; OriginalBeesA when a ratio gives the elite or selected sites no bees (its default ratios with five agents); DevEFO and OriginalEFO when p_field times pop_size is below one (the default with fewer than ten agents) or a field is empty; OriginalCOA with two coyotes per pack; OriginalMA with an odd number of agents; OriginalEHO when the number of agents is not a multiple of the number of clans; OppoTWO with an odd number of agents; ImprovedBSO when the number of agents is not a multiple of the number of clusters; OriginalBFO with an odd number of agents; ABFO with N_adapt zero; OriginalAAA on problems of one or two variables; OriginalPSS with sampling_method MC; DevSMO when the number of agents leaves one over after division into groups; OriginalBSA, OriginalSRSR and CL_PSO with starting solutions in a parallel mode; OriginalSFO without termination when the attack power of the last epoch exceeds one in size (the default settings). On some problems also OriginalFOA and DevFOA (a negative upper bound), OriginalESO (many dimensions), DevGSKA (few agents), OriginalSquirrelSA (equal starting solutions), OriginalOrcaOA (p_percent times pop_size below one), ModifiedSLO (starting solutions in a parallel mode), CleverBookBeesA, OriginalCRO and OCRO (one variable) and OriginalNRO (two or more variables, one of them with a single admissible value) and QleSCA (a single admissible solution), and OriginalICA in single mode (an objective that is zero everywhere). On every problem, but only for some random streams, also OriginalINFO with five agents.","all problems, modes, terminations, starting solutions, random streams and previous optimizer states","failure for every input, not some input",["mealpy/evolutionary_based/GA.py:BaseGA.survivor_process__","mealpy/evolutionary_based/GA.py:BaseGA.selection_process__","mealpy/evolutionary_based/DE.py:JADE.evolve","mealpy/evolutionary_based/DE.py:OriginalDE.evolve","mealpy/human_based/CA.py:OriginalCA.evolve","mealpy/swarm_based/GWO.py:DS_GWO.before_main_loop","mealpy/physics_based/SOO.py:OriginalSOO.evolve","mealpy/human_based/DOA.py:OriginalDOA.evolve","mealpy/swarm_based/DandelionO.py:OriginalDandelionO.evolve","mealpy/swarm_based/SquirrelSA.py:OriginalSquirrelSA.evolve","mealpy/swarm_based/AO.py:OriginalAO.evolve","mealpy/swarm_based/AO.py:AAO.evolve","mealpy/swarm_based/ORCA.py:OriginalOrcaOA.evolve","mealpy/swarm_based/BSA.py:OriginalBSA.evolve","mealpy/swarm_based/BeesA.py:CleverBookBeesA.evolve","mealpy/physics_based/NRO.py:OriginalNRO.evolve","mealpy/swarm_based/SSpiderA.py:DevSSpiderA.evolve","mealpy/swarm_based/SRSR.py:OriginalSRSR.evolve","mealpy/swarm_based/BeesA.py:OriginalBeesA.evolve","mealpy/physics_based/EFO.py:DevEFO.evolve","mealpy/physics_based/EFO.py:OriginalEFO.initialization","mealpy/swarm_based/COA.py:OriginalCOA.evolve","mealpy/evolutionary_based/MA.py:OriginalMA.evolve","mealpy/swarm_based/EHO.py:OriginalEHO.evolve","mealpy/physics_based/TWO.py:OppoTWO.initialization","mealpy/human_based/BSO.py:ImprovedBSO.evolve","mealpy/swarm_based/BFO.py:OriginalBFO.evolve","mealpy/swarm_based/BFO.py:ABFO.evolve","mealpy/human_based/ICA.py:OriginalICA.initialization","mealpy/bio_based/AAA.py:OriginalAAA.evolve","mealpy/evolutionary_based/CRO.py:OriginalCRO.multi_point_cross__","mealpy/swarm_based/SLO.py:ModifiedSLO.evolve","mealpy/swarm_based/SFO.py:OriginalSFO.evolve","mealpy/swarm_based/FOA.py:OriginalFOA.evolve","mealpy/swarm_based/FOA.py:DevFOA.evolve","mealpy/math_based/PSS.py:OriginalPSS.create_population","mealpy/math_based/SCA.py:QleSCA.evolve","mealpy/swarm_based/SMO.py:DevSMO.local_leader_phase","mealpy/math_based/INFO.py:OriginalINFO.evolve","mealpy/swarm_based/PSO.py:CL_PSO.evolve"])
    p("C69","Levy steps: case 0 never lengthens a step","get_levy_flight_step returns as many components as asked for; with case 0 (scaling by a uniform random number) no component is longer than the same component of the unscaled step made from the same random numbers, as long as that is finite.","all beta, multipliers, sizes, optimizer states and random streams with uniform draws in [0,1)","all random streams and floating point values",[O+":Optimizer.get_levy_flight_step"])
    p("C70","Classes that update the best solution inside an epoch: what a run returns and what its history means","For the giant trevally, gorilla troops and manta ray classes, which call the best-solution update several times per epoch without saving: solve never raises, returns the best solution evaluated, and evaluates the stated number of solutions per epoch; the history lists have one entry per epoch, the recorded agents are evaluated admissible solutions, best and worst so far are monotone, and every recorded best fitness value is an objective value that is no better than the recorded agent of the same epoch. The two agree for the last epoch only: for earlier epochs the recorded agent may have been replaced by a better one found in the first half of the next epoch.","all problems, parameters, random streams, modes, termination settings, starting solutions and previous optimizer states","all random streams and run lengths",["mealpy/swarm_based/AGTO.py:OriginalAGTO.evolve","mealpy/swarm_based/GTO.py:OriginalGTO.evolve","mealpy/swarm_based/MRFO.py:OriginalMRFO.evolve",O+":Optimizer.update_global_best_agent"])
    p("C71","Particle swarm and bird swarm: what an agent remembers","Whenever a run of OriginalPSO, AIW_PSO, LDW_PSO, P_PSO, HPSO_TVAC or C_PSO ends, the remembered local best of every particle is its present position and target, because a particle moves only to better positions. The same holds for CL_PSO in the single mode when minimising; when maximising it fails, since a position that is only as good as the present one is remembered but not taken. So the cognitive coefficient c1 of OriginalPSO multiplies a zero difference: two runs that differ only in c1 return the same agent with the same history and evaluations, whatever the problem, as long as the uniform draws lie in [0,1]. In OriginalBSA the remembered position and target of a bird never change during the epochs of a run: they stay those of its start.","all problems, directions, parameters, population sizes, epochs, terminations, starting solutions and random streams","two runs compared for all random streams and run lengths",["mealpy/swarm_based/PSO.py:OriginalPSO.evolve","mealpy/swarm_based/PSO.py:OriginalPSO.generate_agent","mealpy/swarm_based/PSO.py:AIW_PSO.evolve","mealpy/swarm_based/PSO.py:LDW_PSO.evolve","mealpy/swarm_based/PSO.py:P_PSO.evolve","mealpy/swarm_based/PSO.py:HPSO_TVAC.evolve","mealpy/swarm_based/PSO.py:C_PSO.evolve", "mealpy/swarm_based/PSO.py:CL_PSO.evolve","mealpy/swarm_based/BSA.py:OriginalBSA.evolve"])
