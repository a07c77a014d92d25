{
 "claims": [
  {
   "property": "C01",
   "status": "proved",
   "theorems": [
    "C01_should_terminate"
   ],
   "note": ""
  },
  {
   "property": "C02",
   "status": "proved",
   "theorems": [
    "C02_construction",
    "C02_nested_ignored",
    "C02_dict"
   ],
   "note": ""
  },
  {
   "property": "C03",
   "status": "proved",
   "theorems": [
    "C03_early_stop_counter",
    "C03_total"
   ],
   "note": ""
  },
  {
   "property": "C04",
   "status": "proved",
   "theorems": [
    "C04_stops_exactly"
   ],
   "note": ""
  },
  {
   "property": "C05",
   "status": "proved",
   "theorems": [
    "C05_evaluation_budget"
   ],
   "note": ""
  },
  {
   "property": "C06",
   "status": "proved",
   "theorems": [
    "C06_global_best_monotone_min",
    "C06_global_best_monotone",
    "C06_global_best_max_nan_refuted",
    "C06_global_best_min_nan_refuted"
   ],
   "note": "Minimisation: monotone as soon as one initial agent is not NaN. Maximisation: monotone when no NaN fitness occurs; with NaN it is false of the code (two _refuted witnesses)."
  },
  {
   "property": "C07",
   "status": "proved",
   "theorems": [
    "C07_returned_agent_best_of_generations"
   ],
   "note": ""
  },
  {
   "property": "C08",
   "status": "proved",
   "theorems": [
    "C08_global_worst"
   ],
   "note": ""
  },
  {
   "property": "C09",
   "status": "proved",
   "theorems": [
    "C09_history_aligned"
   ],
   "note": ""
  },
  {
   "property": "C10",
   "status": "proved",
   "theorems": [
    "C10_percentages",
    "C10_all_zero",
    "C10_no_epoch"
   ],
   "note": ""
  },
  {
   "property": "C11",
   "status": "proved",
   "theorems": [
    "C11_sorted_population",
    "C11_no_target"
   ],
   "note": ""
  },
  {
   "property": "C12",
   "status": "proved",
   "theorems": [
    "C12_best_agent",
    "C12_worst_agent",
    "C12_special_agents",
    "C12_special_indices"
   ],
   "note": ""
  },
  {
   "property": "C13",
   "status": "proved",
   "theorems": [
    "C13_special_fitness"
   ],
   "note": ""
  },
  {
   "property": "C14",
   "status": "proved",
   "theorems": [
    "C14_get_better_agent",
    "C14_coherent",
    "C14_nan",
    "C14_tie"
   ],
   "note": ""
  },
  {
   "property": "C15",
   "status": "proved",
   "theorems": [
    "C15_greedy",
    "C15_length_error"
   ],
   "note": ""
  },
  {
   "property": "C16",
   "status": "proved",
   "theorems": [
    "C16_sort_and_trim"
   ],
   "note": ""
  },
  {
   "property": "C17",
   "status": "proved",
   "theorems": [
    "C17_comparison",
    "C17_sorting",
    "C17_best_worst",
    "C17_greedy"
   ],
   "note": ""
  },
  {
   "property": "C18",
   "status": "proved",
   "theorems": [
    "C18_starting_used_exactly",
    "C18_rejected",
    "C18_unchecked_refuted"
   ],
   "note": ""
  },
  {
   "property": "C19",
   "status": "proved",
   "theorems": [
    "C19_initial_population",
    "C19_thread_order_irrelevant",
    "C19_process_identical"
   ],
   "note": ""
  },
  {
   "property": "C20",
   "status": "proved",
   "theorems": [
    "C20_update_target",
    "C20_single_noop",
    "C20_any_schedule"
   ],
   "note": ""
  },
  {
   "property": "C21",
   "status": "proved",
   "theorems": [
    "C21_counter",
    "C21_thread_never_overcounts",
    "C21_thread_lost_refuted"
   ],
   "note": ""
  },
  {
   "property": "C22",
   "status": "proved",
   "theorems": [
    "C22_problem_ok",
    "C22_correct_in_box",
    "C22_correct_nan",
    "C22_correct_solution",
    "C22_nan_choice_refuted",
    "C22_transfer_refuted"
   ],
   "note": ""
  },
  {
   "property": "C23",
   "status": "proved",
   "theorems": [
    "C23_idempotent",
    "C23_permutation_period_two",
    "C23_permutation_refuted"
   ],
   "note": ""
  },
  {
   "property": "C24",
   "status": "proved",
   "theorems": [
    "C24_float",
    "C24_integer",
    "C24_labels",
    "C24_sequence",
    "C24_binary",
    "C24_bool"
   ],
   "note": ""
  },
  {
   "property": "C25",
   "status": "proved",
   "theorems": [
    "C25_decode_permutation",
    "C25_round_trip_is_inverse",
    "C25_round_trip_refuted"
   ],
   "note": ""
  },
  {
   "property": "C26",
   "status": "proved",
   "theorems": [
    "C26_decode_in_range",
    "C26_large_refuted",
    "C26_nan_refuted"
   ],
   "note": ""
  },
  {
   "property": "C27",
   "status": "proved",
   "theorems": [
    "C27_generate_in_range",
    "C27_generate_at_most_one_above",
    "C27_every_value",
    "C27_negative_refuted"
   ],
   "note": ""
  },
  {
   "property": "C28",
   "status": "proved",
   "theorems": [
    "C28_generate_in_range",
    "C28_overflow_refuted",
    "C28_variable_in_box",
    "C28_solution_in_box"
   ],
   "note": ""
  },
  {
   "property": "C29",
   "status": "proved",
   "theorems": [
    "C29_round_trip",
    "C29_bijection",
    "C29_out_of_range",
    "C29_sorted",
    "C29_duplicates_refuted"
   ],
   "note": ""
  },
  {
   "property": "C30",
   "status": "proved",
   "theorems": [
    "C30_correct_bits",
    "C30_correct_bool",
    "C30_decode",
    "C30_generate",
    "C30_lower_bound_ignored",
    "C30_decode_resamples_refuted"
   ],
   "note": ""
  },
  {
   "property": "C31",
   "status": "proved",
   "theorems": [
    "C31_s_shaped",
    "C31_v_shaped",
    "C31_erf_shaped",
    "C31_s_shaped_strict",
    "C31_s_order"
   ],
   "note": ""
  },
  {
   "property": "C32",
   "status": "proved",
   "theorems": [
    "C32_bounds",
    "C32_correct_slices",
    "C32_decode",
    "C32_encode",
    "C32_same_name_refuted"
   ],
   "note": ""
  },
  {
   "property": "C33",
   "status": "proved",
   "theorems": [
    "C33_fitness",
    "C33_single_objective",
    "C33_errors",
    "C33_integer_sums_exact"
   ],
   "note": ""
  },
  {
   "property": "C34",
   "status": "proved",
   "theorems": [
    "C34_target_copy",
    "C34_agent_copy",
    "C34_kw_ok",
    "C34_recalculated_refuted"
   ],
   "note": ""
  },
  {
   "property": "C35",
   "status": "proved",
   "theorems": [
    "C35_eq_reflexive",
    "C35_not_symmetric_refuted",
    "C35_not_transitive_refuted",
    "C35_hash_refuted"
   ],
   "note": ""
  },
  {
   "property": "C36",
   "status": "proved",
   "theorems": [
    "C36_strict_weak_order",
    "C36_better_solution",
    "C36_nan"
   ],
   "note": ""
  },
  {
   "property": "C37",
   "status": "proved",
   "theorems": [
    "C37_set_parameters",
    "C37_unvalidated_refuted"
   ],
   "note": ""
  },
  {
   "property": "C38",
   "status": "proved",
   "theorems": [
    "C38_in_bound",
    "C38_in_bound_nan",
    "C38_check_int",
    "C38_check_int_in_range",
    "C38_truncation_refuted",
    "C38_bool_is_number",
    "C38_infinite",
    "C38_check_float",
    "C38_check_str",
    "C38_check_bool",
    "C38_check_tuple",
    "C38_tuple_unchecked_refuted"
   ],
   "note": ""
  },
  {
   "property": "C39",
   "status": "proved",
   "theorems": [
    "C39_iteration_order",
    "C39_iteration",
    "C39_getitem",
    "C39_getitem_range",
    "C39_getitem_order_refuted",
    "C39_init"
   ],
   "note": ""
  },
  {
   "property": "C40",
   "status": "proved",
   "theorems": [
    "C40_chosen",
    "C40_execute",
    "C40_max_refuted",
    "C40_problem_object_refused"
   ],
   "note": ""
  },
  {
   "property": "C41",
   "status": "proved",
   "theorems": [
    "C41_none",
    "C41_one",
    "C41_per_problem",
    "C41_per_algorithm_refuted",
    "C41_per_pair_refuted",
    "C41_other_sizes",
    "C41_modes_per_pair_refuted"
   ],
   "note": ""
  },
  {
   "property": "C42",
   "status": "proved",
   "theorems": [
    "C42_jobs",
    "C42_one_job_refuted"
   ],
   "note": ""
  },
  {
   "property": "C43",
   "status": "proved",
   "theorems": [
    "C43_exclude_one",
    "C43_exclude_one_error",
    "C43_exclude_one_reach",
    "C43_exclude_list",
    "C43_exclude_list_reach",
    "C43_exclude_list_error"
   ],
   "note": ""
  },
  {
   "property": "C44",
   "status": "proved",
   "theorems": [
    "C44_never_worst",
    "C44_in_range",
    "C44_probabilities",
    "C44_uniform",
    "C44_max_worst_positive",
    "C44_total",
    "C44_wheel_ok"
   ],
   "note": ""
  },
  {
   "property": "C45",
   "status": "proved",
   "theorems": [
    "C45_tournament",
    "C45_small_fraction",
    "C45_zero_losers_refuted"
   ],
   "note": ""
  },
  {
   "property": "C46",
   "status": "proved",
   "theorems": [
    "C46_rounding_refuted",
    "C46_swap",
    "C46_between"
   ],
   "note": ""
  },
  {
   "property": "C47",
   "status": "proved",
   "theorems": [
    "C47_groups"
   ],
   "note": ""
  },
  {
   "property": "C48",
   "status": "proved",
   "theorems": [
    "C48_improved_ms",
    "C48_single_mode_refuted"
   ],
   "note": ""
  },
  {
   "property": "C49",
   "status": "proved",
   "theorems": [
    "C49_admissible",
    "C49_in_box"
   ],
   "note": ""
  },
  {
   "property": "C50",
   "status": "proved",
   "theorems": [
    "C50_repeat_with_termination",
    "C50_repeat_without_termination"
   ],
   "note": ""
  },
  {
   "property": "C51",
   "status": "proved",
   "theorems": [
    "C51_snapshots",
    "C51_all_records",
    "C51_hbo",
    "C51_current_best_refuted",
    "C51_refines"
   ],
   "note": "On a heap with shared objects: snapshots for any code that writes only its own agents (C51_snapshots), all records when it writes only new agents (C51_all_records); the current-best list is live (C51_current_best_refuted, on WOA). C51_refines connects the heap model with the value model used elsewhere."
  },
  {
   "property": "C52",
   "status": "proved",
   "theorems": [
    "C52_positions",
    "C52_all_positions",
    "C52_shared_array",
    "C52_woa",
    "C52_hbo_refuted",
    "C52_OriginalBeesA_refuted",
    "C52_ProbBeesA_refuted"
   ],
   "note": "C52_shared_array: the recorded best shares the position array; C52_positions: preserved when old arrays are not written in place; C52_hbo_refuted: HBO returns an agent outside the bounds whose stored fitness is not its objective value; the same for OriginalBeesA and ProbBeesA (C52_OriginalBeesA_refuted, C52_ProbBeesA_refuted)."
  },
  {
   "property": "C53",
   "status": "proved",
   "theorems": [
    "C53_unit_interval",
    "C53_chebyshev",
    "C53_singer_refuted",
    "C53_singer"
   ],
   "note": ""
  },
  {
   "property": "C54",
   "status": "proved",
   "theorems": [
    "C54_degrees",
    "C54_weights",
    "C54_ends"
   ],
   "note": ""
  },
  {
   "property": "C55",
   "status": "proved",
   "theorems": [
    "C55_metadata"
   ],
   "note": ""
  },
  {
   "property": "C56",
   "status": "proved",
   "theorems": [
    "C56_all",
    "C56_by_class",
    "C56_by_name",
    "C56_unknown"
   ],
   "note": ""
  },
  {
   "property": "C57",
   "status": "proved",
   "theorems": [
    "C57_first_handler",
    "C57_second_file_refuted",
    "C57_parent_handler"
   ],
   "note": ""
  },
  {
   "property": "C58",
   "status": "proved",
   "theorems": [
    "C58_trajectory",
    "C58_shrinking_refuted"
   ],
   "note": ""
  },
  {
   "property": "C59",
   "status": "proved",
   "theorems": [
    "C59_same_file",
    "C59_other_files",
    "C59_extension"
   ],
   "note": ""
  },
  {
   "property": "C60",
   "status": "proved",
   "theorems": [
    "C60_invalid_direction"
   ],
   "note": "For every algorithm and environment solve never returns for a direction other than min/max (KeyError at the first epoch end), given epoch >= 1, which the constructors enforce."
  },
  {
   "property": "C61",
   "status": "proved",
   "theorems": [
    "C61_equal_variables_draw_equal_values"
   ],
   "note": ""
  },
  {
   "property": "C62",
   "status": "proved",
   "theorems": [
    "C62_mode",
    "C62_workers",
    "C62_unsupported"
   ],
   "note": ""
  },
  {
   "property": "C63",
   "status": "proved",
   "theorems": [
    "C63_convergence_table",
    "C63_fitness_table",
    "C63_same_name_refuted"
   ],
   "note": ""
  },
  {
   "property": "C64",
   "status": "proved",
   "theorems": [
    "C64_OriginalBMO",
    "C64_OriginalServalOA",
    "C64_OriginalTSA",
    "C64_OriginalPOA",
    "C64_OriginalFFO",
    "C64_OriginalWaOA",
    "C64_OriginalNGO",
    "C64_OriginalSSO",
    "C64_OriginalMFO",
    "C64_OriginalSTO",
    "C64_OriginalOOA",
    "C64_OriginalRIME",
    "C64_OriginalSCSO",
    "C64_OriginalEAO",
    "C64_OriginalFPA",
    "C64_OriginalOSA",
    "C64_OriginalGOA",
    "C64_OriginalMGOA",
    "C64_OriginalACOR",
    "C64_OriginalGJO",
    "C64_OriginalALO",
    "C64_DevALO",
    "C64_OriginalAO",
    "C64_AAO",
    "C64_OriginalNO",
    "C64_OriginalNWOA",
    "C64_OriginalEEFO",
    "C64_OriginalKOA",
    "C64_OriginalOrcaOA",
    "C64_OriginalPO",
    "C64_OriginalBSA",
    "C64_DevVCS",
    "C64_OriginalVCS",
    "C64_DevFBIO",
    "C64_OriginalFBIO",
    "C64_OriginalLSO",
    "C64_DevLSO",
    "C64_OriginalMSO",
    "C64_OriginalHGS",
    "C64_OriginalNRO_returning",
    "C64_OriginalNRO_one_variable",
    "C64_CleverBookBeesA",
    "C64_OriginalWSO_returning",
    "C64_OriginalASO",
    "C64_OriginalESOA",
    "C64_OriginalEOA_returning",
    "C64_OriginalFLA",
    "C64_OriginalSLO",
    "C64_OriginalFDO",
    "C64_OriginalMShOA",
    "C64_DevMShOA",
    "C64_OriginalILA",
    "C64_OriginalBWOA",
    "C64_OriginalCCO_minimization",
    "C64_DevSSpiderA",
    "C64_OriginalArchOA_parallel",
    "C64_OriginalDBO",
    "C64_DevEFO",
    "C64_OriginalES",
    "C64_LevyES",
    "C64_CMA_ES_returning",
    "C64_Simple_CMA_ES_returning",
    "C64_OriginalMA",
    "C64_OriginalSHADE_returning",
    "C64_L_SHADE_returning",
    "C64_OriginalSA",
    "C64_GaussianSA",
    "C64_OriginalEHO",
    "C64_OriginalWDO",
    "C64_OriginalWarSO",
    "C64_OriginalAFT",
    "C64_OriginalDSO",
    "C64_OriginalCSA",
    "C64_OriginalPFA",
    "C64_OriginalTSeedA",
    "C64_OriginalTLO",
    "C64_DevQSA_returning",
    "C64_DevQSA",
    "C64_OppoQSA_returning",
    "C64_OppoQSA",
    "C64_LevyQSA_returning",
    "C64_LevyQSA",
    "C64_ImprovedQSA_returning",
    "C64_ImprovedQSA",
    "C64_OriginalQSA_returning",
    "C64_OriginalQSA",
    "C64_DevQSA_refuted",
    "C64_OriginalTWO",
    "C64_LevyTWO_parallel",
    "C64_LevyTWO_refuted",
    "C64_OppoTWO_refuted",
    "C64_OriginalIWO_returning",
    "C64_ImprovedTLO",
    "C64_DevTPO",
    "C64_DevTPO_refuted",
    "C64_DevWOAmM",
    "C64_OriginalIMODE_minimization",
    "C64_OriginalCRO",
    "C64_OriginalLSHADEcnEpSin",
    "C64_OriginalChameleonSA",
    "C64_OriginalSSpiderO",
    "C64_OriginalTS_returning",
    "C64_OriginalPSS",
    "C64_QleSCA_returning",
    "C64_OCRO",
    "C64_OriginalZOA",
    "C64_OriginalCDO",
    "C64_OriginalKLA",
    "C64_OriginalRSA",
    "C64_OriginalFHO",
    "C64_OriginalSOS",
    "C64_OriginalChOA",
    "C64_OriginalMSA",
    "C64_OriginalTDO",
    "C64_OriginalHBA",
    "C64_OriginalBBOA",
    "C64_OriginalRFO",
    "C64_OriginalCrayfishOA",
    "C64_OriginalCDDO",
    "C64_OriginalSSDO",
    "C64_OriginalEFO",
    "C64_HI_WOA",
    "C64_OriginalPSO",
    "C64_AIW_PSO",
    "C64_LDW_PSO",
    "C64_P_PSO",
    "C64_HPSO_TVAC",
    "C64_CL_PSO_single",
    "C64_OriginalDE",
    "C64_SADE",
    "C64_OriginalGWO",
    "C64_GWO_WOA",
    "C64_IGWO",
    "C64_FuzzyGWO",
    "C64_IncrementalGWO",
    "C64_ExGWO",
    "C64_ER_GWO",
    "C64_OriginalWOA",
    "C64_DevWOA",
    "C64_JADE",
    "C64_DevHS",
    "C64_OriginalHS",
    "C64_ChaoticGWO",
    "C64_OGWO",
    "C64_RW_GWO",
    "C64_DS_GWO",
    "C64_OriginalGA",
    "C64_OriginalBBO",
    "C64_DevBBO",
    "C64_DevJA",
    "C64_OriginalJA",
    "C64_LevyJA",
    "C64_OriginalEVO",
    "C64_DevMVO",
    "C64_OriginalMVO",
    "C64_OriginalAEO",
    "C64_ImprovedAEO",
    "C64_EnhancedAEO",
    "C64_ModifiedAEO",
    "C64_AugmentedAEO",
    "C64_DevSMA",
    "C64_OriginalSMA",
    "C64_MPA",
    "C64_DevSOA",
    "C64_OriginalSOA",
    "C64_MGO",
    "C64_SBOA",
    "C64_AVOA",
    "C64_TSO",
    "C64_ARO",
    "C64_LARO",
    "C64_IARO",
    "C64_OriginalLCO",
    "C64_DevLCO",
    "C64_DevSBO",
    "C64_DevGCO",
    "C64_OriginalGCO",
    "C64_BWO",
    "C64_SeaHO",
    "C64_DevSSA",
    "C64_OriginalSSA",
    "C64_ImprovedLCO",
    "C64_SOO",
    "C64_DevGSKA",
    "C64_OriginalGSKA",
    "C64_DevBA",
    "C64_DevEPC",
    "C64_OriginalFOX",
    "C64_DevFOX",
    "C64_OriginalCEO",
    "C64_OriginalSFOA",
    "C64_OriginalBES",
    "C64_OriginalSPBO",
    "C64_DevSPBO",
    "C64_OriginalAPO",
    "C64_OriginalNMRA",
    "C64_ImprovedNMRA",
    "C64_OriginalDandelionO",
    "C64_DevDandelionO",
    "C64_OriginalDOA",
    "C64_OriginalAOA",
    "C64_OriginalCGO",
    "C64_OriginalCircleSA",
    "C64_OriginalGBO",
    "C64_OriginalHC",
    "C64_SwarmHC",
    "C64_OriginalINFO",
    "C64_OriginalRUN",
    "C64_OriginalSHIO",
    "C64_DevSCA",
    "C64_OriginalSCA",
    "C64_OriginalCEM",
    "C64_EnhancedTWO_refuted",
    "C64_CL_PSO"
   ],
   "note": ""
  },
  {
   "property": "C65",
   "status": "proved",
   "theorems": [
    "C65_OriginalCoatiOA",
    "C65_OriginalTOA",
    "C65_OriginalOrcaPA",
    "C65_OriginalDMOA",
    "C65_DevDMOA",
    "C65_OriginalWHO_parallel",
    "C65_OriginalWHO_refuted",
    "C65_DevBRO_returning",
    "C65_OriginalBRO_returning",
    "C65_OriginalGRSA",
    "C65_OriginalCCO",
    "C65_OriginalSRSR_returning",
    "C65_OriginalArchOA_refuted",
    "C65_OriginalCHIO_returning",
    "C65_DevCHIO_returning",
    "C65_OriginalFOA_refuted",
    "C65_WhaleFOA_refuted",
    "C65_OriginalFOA_bounds_refuted",
    "C65_DevFOA_bounds_refuted",
    "C65_OriginalEFO",
    "C65_OriginalHGSO",
    "C65_OriginalCOA",
    "C65_ImprovedSFO",
    "C65_OriginalSFO_returning",
    "C65_DevSARO",
    "C65_OriginalSARO",
    "C65_OriginalBCO_refuted",
    "C65_OriginalEP",
    "C65_LevyEP",
    "C65_OriginalDO",
    "C65_OriginalCSO_returning",
    "C65_OriginalCSO",
    "C65_OriginalFFA",
    "C65_MLFA_GD",
    "C65_SwarmSA",
    "C65_OriginalABC",
    "C65_OriginalCA",
    "C65_OppoTWO_parallel",
    "C65_ETLBO",
    "C65_ImprovedBSO",
    "C65_OriginalBSO",
    "C65_OriginalWOAmM",
    "C65_OriginalWOAmM_refuted",
    "C65_ModifiedSLO",
    "C65_ImprovedSLO",
    "C65_ModifiedSLO_refuted",
    "C65_ImprovedSLO_refuted",
    "C65_OriginalIMODE",
    "C65_OriginalBFO",
    "C65_ABFO_returning",
    "C65_OCRO",
    "C65_IChameleonSA",
    "C65_OriginalHCO_returning",
    "C65_OriginalFA_returning",
    "C65_OriginalWCA_returning",
    "C65_SAP_DE_returning",
    "C65_DevSMO_returning",
    "C65_OriginalSHO",
    "C65_C_PSO",
    "C65_HI_WOA",
    "C65_CG_GWO",
    "C65_IOBL_GWO",
    "C65_OriginalHHO",
    "C65_OriginalEO",
    "C65_AdaptiveEO",
    "C65_ModifiedEO",
    "C65_OriginalBA",
    "C65_AdaptiveBA",
    "C65_OriginalESO",
    "C65_OriginalSBO_refuted",
    "C65_OriginalSBO_parallel",
    "C65_OriginalAHO",
    "C65_OriginalGJA",
    "C65_OriginalTHRO_fitness",
    "C65_EnhancedTWO_fitness",
    "C65_OriginalICA_fitness",
    "C65_OriginalTHRO_refuted",
    "C65_OriginalICA_refuted",
    "C65_EnhancedTWO_refuted",
    "C65_AdaptiveBA_refuted",
    "C65_AdaptiveEO_refuted",
    "C65_CG_GWO_refuted",
    "C65_C_PSO_refuted",
    "C65_DevBRO_refuted",
    "C65_DevDMOA_refuted",
    "C65_IOBL_GWO_refuted",
    "C65_ImprovedBSO_refuted",
    "C65_ImprovedSFO_refuted",
    "C65_LevyEP_refuted",
    "C65_MLFA_GD_refuted",
    "C65_ModifiedEO_refuted",
    "C65_OriginalABC_refuted",
    "C65_OriginalAHO_refuted",
    "C65_OriginalBA_refuted",
    "C65_OriginalBRO_refuted",
    "C65_OriginalBSO_refuted",
    "C65_OriginalCA_refuted",
    "C65_OriginalCHIO_refuted",
    "C65_OriginalCoatiOA_refuted",
    "C65_OriginalDMOA_refuted",
    "C65_OriginalDO_refuted",
    "C65_OriginalEO_refuted",
    "C65_OriginalEP_refuted",
    "C65_OriginalFFA_refuted",
    "C65_OriginalGJA_refuted",
    "C65_OriginalGRSA_refuted",
    "C65_OriginalHGSO_refuted",
    "C65_OriginalHHO_refuted",
    "C65_OriginalOrcaPA_refuted",
    "C65_OriginalSFO_refuted",
    "C65_OriginalSHO_refuted",
    "C65_OriginalTOA_refuted",
    "C65_SwarmSA_refuted",
    "C65_OriginalBFO_refuted",
    "C65_ABFO_refuted",
    "C65_OriginalFA_refuted",
    "C65_IChameleonSA_refuted",
    "C65_OriginalWCA_refuted",
    "C65_SAP_DE_refuted",
    "C65_DevSMO_refuted",
    "C65_OriginalAAA_refuted",
    "C65_OriginalSBO_wheel",
    "C65_DMOA_wheel"
   ],
   "note": ""
  },
  {
   "property": "C66",
   "status": "proved",
   "theorems": [
    "C66_n_vars",
    "C66_n_vars_error",
    "C66_float",
    "C66_float_errors",
    "C66_choices",
    "C66_permutation",
    "C66_transfer",
    "C66_lengths",
    "C66_positive",
    "C66_empty_refuted",
    "C66_unordered_refuted",
    "C66_empty_sequence_refuted",
    "C66_sensible",
    "C66_bounds",
    "C66_bounds_errors"
   ],
   "note": ""
  },
  {
   "property": "C67",
   "status": "proved",
   "theorems": [
    "C67_flip",
    "C67_elite_flip",
    "C67_swap_refuted"
   ],
   "note": ""
  },
  {
   "property": "C68",
   "status": "proved",
   "theorems": [
    "C68_OriginalOrcaOA_no_removal",
    "C68_OriginalBSA_starting",
    "C68_OriginalNRO",
    "C68_OriginalSRSR_starting",
    "C68_ModifiedSLO_starting",
    "C68_ESO_many_dimensions",
    "C68_DevGSKA_five",
    "C68_SquirrelSA_equal_start",
    "C68_GA",
    "C68_roulette",
    "C68_OriginalBeesA",
    "C68_OriginalICA",
    "C68_JADE",
    "C68_JADE_default",
    "C68_DE",
    "C68_CA",
    "C68_DS_GWO",
    "C68_OriginalSOO",
    "C68_OriginalDOA",
    "C68_OriginalDandelionO",
    "C68_OriginalAO",
    "C68_AAO",
    "C68_OriginalSquirrelSA",
    "C68_CleverBookBeesA",
    "C68_DevSSpiderA",
    "C68_OriginalFOA",
    "C68_DevFOA",
    "C68_DevEFO",
    "C68_OriginalEFO",
    "C68_OriginalCOA",
    "C68_OriginalSFO",
    "C68_OriginalMA",
    "C68_OriginalEHO",
    "C68_OppoTWO",
    "C68_ImprovedBSO",
    "C68_OriginalBFO",
    "C68_ABFO",
    "C68_OriginalCRO",
    "C68_OCRO",
    "C68_OriginalAAA",
    "C68_OriginalPSS_MC",
    "C68_QleSCA",
    "C68_DevSMO",
    "C68_OriginalINFO_five",
    "C68_CL_PSO_starting",
    "C68_OriginalBSA",
    "C68_OriginalSRSR"
   ],
   "note": ""
  },
  {
   "property": "C69",
   "status": "proved",
   "theorems": [
    "C69_levy"
   ],
   "note": ""
  },
  {
   "property": "C70",
   "status": "proved",
   "theorems": [
    "C70_OriginalAGTO",
    "C70_MGTO",
    "C70_OriginalGTO",
    "C70_Matlab102GTO",
    "C70_OriginalMRFO",
    "C70_WMQIMRFO",
    "C70_Matlab101GTO",
    "C70_OriginalGTO_refuted",
    "C70_OriginalMRFO_refuted"
   ],
   "note": ""
  },
  {
   "property": "C71",
   "status": "proved",
   "theorems": [
    "C71_OriginalPSO_memory",
    "C71_AIW_PSO_memory",
    "C71_LDW_PSO_memory",
    "C71_P_PSO_memory",
    "C71_HPSO_TVAC_memory",
    "C71_C_PSO_memory",
    "C71_OriginalPSO",
    "C71_OriginalBSA_memory",
    "C71_CL_PSO_memory",
    "C71_CL_PSO_memory_refuted"
   ],
   "note": ""
  }
 ]
}