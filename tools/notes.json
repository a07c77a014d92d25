{
"C06": {
"note": "Minimisation: monotone as soon as one initial agent is not NaN. Maximisation: monotone when no NaN fitness occurs; with NaN it is false of the code (two _refuted witnesses)."
},
"C60": {
"note": "For every algorithm and environment solve never returns for a direction other than min/max (KeyError at the first epoch end), given epoch >= 1, which the constructors enforce."
},
"C51": {
"note": "On a heap with shared objects: snapshots for any code that writes only its own agents (C51_snapshots), all records when it writes only new agents (C51_all_records); the current-best list is live (C51_current_best_refuted, on WOA). C51_refines connects the heap model with the value model used elsewhere."
},
"C52": {
"note": "C52_shared_array: the recorded best shares the position array; C52_positions: preserved when old arrays are not written in place; C52_hbo_refuted: HBO returns an agent outside the bounds whose stored fitness is not its objective value; the same for OriginalBeesA and ProbBeesA (C52_OriginalBeesA_refuted, C52_ProbBeesA_refuted)."
}
}