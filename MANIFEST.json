{
 "claims": [
  {
   "property": "C01",
   "status": "proved",
   "theorems": [
    "C01_new_uniform",
    "C01_new_zero_aborts",
    "C01_table_shape"
   ],
   "note": ""
  },
  {
   "property": "C02",
   "status": "proved",
   "theorems": [
    "C02_sets_normalises",
    "C02_sets_rejects"
   ],
   "note": ""
  },
  {
   "property": "C03",
   "status": "proved",
   "theorems": [
    "C03_history_valid"
   ],
   "note": ""
  },
  {
   "property": "C04",
   "status": "proved",
   "theorems": [
    "C04_set_rescales",
    "C04_set_aborts_iff",
    "C04_set_keeps_ratios"
   ],
   "note": ""
  },
  {
   "property": "C05",
   "status": "proved",
   "theorems": [
    "C05_one_state_set_aborts_refuted"
   ],
   "note": "REFUTED expectation: ProbabilitySet on a one-state pdf always terminates the program."
  },
  {
   "property": "C06",
   "status": "proved",
   "theorems": [
    "C06_failed_sets_not_atomic_refuted"
   ],
   "note": "REFUTED expectation: failed ProbabilitiesSet is not atomic."
  },
  {
   "property": "C07",
   "status": "proved",
   "theorems": [
    "C07_sample_is_quantile",
    "C07_sample_interval",
    "C07_sample_zero_draw_refuted",
    "C07_other_methods_rejected"
   ],
   "note": "Quantile for draws in (0,1]; the draw 0 returns state -1 (REFUTED corner case)."
  },
  {
   "property": "C08",
   "status": "proved",
   "theorems": [
    "C08_ripley_batch",
    "C08_default_batch",
    "C08_ripley_empty_refuted",
    "C08_other_methods"
   ],
   "note": "Batch soundness for non-empty batches; empty RIPLEY batch is UB (REFUTED corner case). pow(u,1/k) is assumed to map (0,1] to (0,1]."
  },
  {
   "property": "C09",
   "status": "proved",
   "theorems": [
    "C09_most_probable"
   ],
   "note": ""
  },
  {
   "property": "C10",
   "status": "proved",
   "theorems": [
    "C10_index_in_table",
    "C10_index_injective",
    "C10_index_onto",
    "C10_get_last_set",
    "C10_copy"
   ],
   "note": ""
  },
  {
   "property": "C11",
   "status": "proved",
   "theorems": [
    "C11_sample_quantile",
    "C11_zero_row_aborts",
    "C11_batch"
   ],
   "note": "Quantile for draws in (0,1]; zero row terminates the program."
  },
  {
   "property": "C12",
   "status": "proved",
   "theorems": [
    "C12_state_overflow_aliases_refuted",
    "C12_state_overflow_corrupts_refuted"
   ],
   "note": "REFUTED expectation: out-of-range arguments alias other entries or leave the table."
  },
  {
   "property": "C13",
   "status": "proved",
   "theorems": [
    "C13_set_weighted",
    "C13_update_weighted",
    "C13_update_wrong_length"
   ],
   "note": ""
  },
  {
   "property": "C14",
   "status": "proved",
   "theorems": [
    "C14_set_unweighted",
    "C14_update_unweighted",
    "C14_update_wrong_length_silent_refuted"
   ],
   "note": "Includes REFUTED expectation: an update of the wrong length silently does nothing and returns true."
  },
  {
   "property": "C15",
   "status": "proved",
   "theorems": [
    "C15_history_valid",
    "C15_table_shape",
    "C15_sizes_always_match"
   ],
   "note": ""
  },
  {
   "property": "C16",
   "status": "proved",
   "theorems": [
    "C16_failed_update_not_atomic_refuted"
   ],
   "note": "REFUTED expectation: failed weighted update is not atomic."
  },
  {
   "property": "C17",
   "status": "proved",
   "theorems": [
    "C17_resize_size",
    "C17_grow_keeps",
    "C17_shrink_drops_front_refuted"
   ],
   "note": "Includes REFUTED expectation: shrinking drops particles at the front and leaves weights unnormalised."
  },
  {
   "property": "C18",
   "status": "proved",
   "theorems": [
    "C18_sample_is_existing",
    "C18_ripley_batch",
    "C18_zero_draw_refuted",
    "C18_default_batch"
   ],
   "note": "pow(u,1/k) is assumed to map (0,1] to (0,1]. The draw 0 is UB (REFUTED corner case)."
  },
  {
   "property": "C19",
   "status": "proved",
   "theorems": [
    "C19_double_table_overrun_refuted",
    "C19_short_table_overrun",
    "C19_largest_ripley_draw"
   ],
   "note": "REFUTED expectation: witness in IEEE doubles (Coq primitive floats) plus two exact-arithmetic theorems. That libm pow returns a double above 1-2^-48 is argued through the exact root only."
  },
  {
   "property": "C20",
   "status": "proved",
   "theorems": [
    "C20_mean_is_weighted_sum",
    "C20_mean_in_hull",
    "C20_covariance",
    "C20_unsigned_mean_rounds",
    "C20_unsigned_cov_close",
    "C20_unsigned_cov_wraps_refuted"
   ],
   "note": "Includes REFUTED expectation: unsigned covariance wraps beyond distance 2^16. Unsigned theorems are over rat (truncation needs an archimedean field)."
  },
  {
   "property": "C21",
   "status": "proved",
   "theorems": [
    "C21_history_valid",
    "C21_history_exact",
    "C21_weightset_single_inexact_refuted",
    "C21_weights_set_invalid",
    "C21_weights_set",
    "C21_weight_set"
   ],
   "note": "Includes REFUTED exactness: WeightSet on a one-component mixture may leave a weight in [1-eps,1]; exact for histories without WeightSet. eps = NUMERIC_PRECISION is a parameter in [0,1)."
  },
  {
   "property": "C22",
   "status": "proved",
   "theorems": [
    "C22_add_first",
    "C22_add_weighted",
    "C22_add_plain",
    "C22_add_out_of_range"
   ],
   "note": "The result flag of WeightSet inside AddComponent is ignored by the code; it is always true when the call returns."
  },
  {
   "property": "C23",
   "status": "proved",
   "theorems": [
    "C23_delete",
    "C23_delete_all_weight_refuted",
    "C23_delete_only",
    "C23_delete_out_of_range"
   ],
   "note": "Includes REFUTED expectation: deleting the component that carries all the weight returns false and leaves zero weights."
  },
  {
   "property": "C24",
   "status": "proved",
   "theorems": [
    "C24_density",
    "C24_density_bounds",
    "C24_density_mass",
    "C24_mean",
    "C24_most_probable_state",
    "C24_state_mismatch"
   ],
   "note": "Component densities and means are arbitrary functions; the unsigned/int ExpectedValueGet is the first most probable state."
  },
  {
   "property": "C25",
   "status": "proved",
   "theorems": [
    "C25_most_probable",
    "C25_all_zero"
   ],
   "note": ""
  },
  {
   "property": "C26",
   "status": "proved",
   "theorems": [
    "C26_sample_single",
    "C26_other_methods",
    "C26_zero_draw_UB_refuted",
    "C26_ripley_batch",
    "C26_ripley_ignores_failure_refuted",
    "C26_default_batch",
    "C26_ripley_discrete_refuted"
   ],
   "note": "Includes REFUTED expectation: RIPLEY batch sampling ignores the refusal of the component sampler. pow(u,1/k) is assumed to map (0,1] to (0,1]."
  },
  {
   "property": "C27",
   "status": "proved",
   "theorems": [
    "C27_construction",
    "C27_prediction"
   ],
   "note": "Exact arithmetic; NUMERIC_PRECISION is an arbitrary parameter >= 0."
  },
  {
   "property": "C28",
   "status": "proved",
   "theorems": [
    "C28_bayes",
    "C28_scale_free",
    "C28_zero_stays_zero"
   ],
   "note": ""
  },
  {
   "property": "C29",
   "status": "proved",
   "theorems": [
    "C29_joint_posterior",
    "C29_measurements_commute_merge"
   ],
   "note": "Stated for sequences with non-zero total probability; C30 covers the rest."
  },
  {
   "property": "C30",
   "status": "proved",
   "theorems": [
    "C30_impossible_measurement_refuted",
    "C30_stuck_at_zero_refuted"
   ],
   "note": "REFUTED expectation: Update returns true and the posterior becomes, and stays, all zero."
  },
  {
   "property": "C31",
   "status": "proved",
   "theorems": [
    "C31_prior_untouched",
    "C31_own_copy",
    "C31_reset_aliases",
    "C31_reset_destroy_refuted",
    "C31_destroy",
    "C31_reset_histogram_refuted",
    "C31_reset_other_size_refuted"
   ],
   "note": "Includes REFUTED expectations: after Reset updates overwrite the user's prior, the destructor frees it, and a prior of another size breaks the histogram filter. Proved for any filter built on the base class; concrete for the histogram filter."
  },
  {
   "property": "C32",
   "status": "proved",
   "theorems": [
    "C32_split",
    "C32_null_models",
    "C32_single_updates",
    "C32_timestep_refuted",
    "C32_timestep_zero_refuted"
   ],
   "note": "Includes REFUTED expectation: the time step never advances."
  },
  {
   "property": "C33",
   "status": "proved",
   "theorems": [
    "C33_particle",
    "C33_bootstrap",
    "C33_particle_safe",
    "C33_bootstrap_safe",
    "C33_reachable"
   ],
   "note": "Histories in which every update succeeded have a valid posterior; with models that answer every query and uniform draws in (0,1] no history ends in undefined behaviour or a failed assert. pow(u,1/k) is assumed to map (0,1] to (0,1]."
  },
  {
   "property": "C34",
   "status": "proved",
   "theorems": [
    "C34_measurement",
    "C34_system"
   ],
   "note": "Stated for updates without resampling; C36/C37 describe the others. Sensor parameters are C35."
  },
  {
   "property": "C35",
   "status": "proved",
   "theorems": [
    "C35_parameters_refuted"
   ],
   "note": "REFUTED expectation: with sensor parameters the importance correction is dropped."
  },
  {
   "property": "C36",
   "status": "proved",
   "theorems": [
    "C36_policy",
    "C36_static",
    "C36_static_run",
    "C36_dynamic_measurement",
    "C36_dynamic_system",
    "C36_dynamic_prediction",
    "C36_ess",
    "C36_thresholds"
   ],
   "note": ""
  },
  {
   "property": "C37",
   "status": "proved",
   "theorems": [
    "C37_multinomial",
    "C37_dynamic",
    "C37_other_schemes_refuted",
    "C37_other_schemes_static_refuted"
   ],
   "note": "Includes REFUTED expectation: four of the five advertised schemes do nothing. pow(u,1/k) is assumed to map (0,1] to (0,1]."
  },
  {
   "property": "C38",
   "status": "proved",
   "theorems": [
    "C38_mixture",
    "C38_mixture_bound",
    "C38_timestep"
   ],
   "note": "Mixture filter: the time step advances by the number of components K (finding), so with period p static resampling runs every p/gcd(p,K) system updates."
  },
  {
   "property": "C39",
   "status": "proved",
   "theorems": [
    "C39_product",
    "C39_commute",
    "C39_moves"
   ],
   "note": "C39_commute is stated for pf_call; for measurement-only calls bf_call is the same function (lemma bf_measures)."
  },
  {
   "property": "C40",
   "status": "proved",
   "theorems": [
    "C40_bootstrap_both_steps",
    "C40_all_zero",
    "C40_stuck",
    "C40_stuck_forever",
    "C40_static_revival_refuted"
   ],
   "note": "Includes REFUTED expectation: static resampling revives a failed filter from stale data."
  },
  {
   "property": "C41",
   "status": "proved",
   "theorems": [
    "C41_resample",
    "C41_dynamic",
    "C41_static",
    "C41_double_refuted",
    "C41_zero_draw_refuted"
   ],
   "note": "Includes REFUTED parts: C41_double_refuted (the weight counts twice), C41_zero_draw_refuted (a zero draw reads before the first sample). C41_resample: the covariances follow their particles. C41_dynamic, C41_static: when the filter resamples. `root` stands for pow(u,1/k)."
  },
  {
   "property": "C42",
   "status": "proved",
   "theorems": [
    "C42_measurement",
    "C42_importance",
    "C42_bootstrap",
    "C42_particle_safe",
    "C42_bootstrap_safe"
   ],
   "note": "Also for updates with a system model (importance weights, bootstrap weights), with what dynamic resampling may change, and a theorem that no update aborts when the models answer every query. Joint statements are for updates without resampling."
  },
  {
   "property": "C43",
   "status": "proved",
   "theorems": [
    "C43_system"
   ],
   "note": "Extended and iterated filter, any number of iterations, any system model with positive semidefinite noise."
  },
  {
   "property": "C44",
   "status": "proved",
   "theorems": [
    "C44_measurement",
    "C44_history"
   ],
   "note": "Measurement noise positive definite at every state. Exact arithmetic: rounding can break positive semidefiniteness in the code."
  },
  {
   "property": "C45",
   "status": "proved",
   "theorems": [
    "C45_information",
    "C45_minimiser",
    "C45_gain",
    "C45_determinants"
   ],
   "note": "Optimality is stated for the linearised model (exact for linear models): least covariance over all gains, unique minimiser of the quadratic cost, information form, determinants."
  },
  {
   "property": "C46",
   "status": "proved",
   "theorems": [
    "C46_order"
   ],
   "note": "Linear models; an example shows the order matters for a quadratic sensor."
  },
  {
   "property": "C47",
   "status": "proved",
   "theorems": [
    "C47_value",
    "C47_parameters_refuted"
   ],
   "note": "Includes REFUTED expectation: NisGet evaluates a model with sensor parameters on an empty vector."
  },
  {
   "property": "C48",
   "status": "proved",
   "theorems": [
    "C48_one_iteration",
    "C48_linear",
    "C48_zero_iterations_refuted"
   ],
   "note": "Includes REFUTED corner case: zero iterations is undefined behaviour."
  },
  {
   "property": "C49",
   "status": "proved",
   "theorems": [
    "C49_last_linearisation",
    "C49_fixed_point"
   ],
   "note": ""
  },
  {
   "property": "C50",
   "status": "proved",
   "theorems": [
    "C50_diagonal",
    "C50_scalar",
    "C50_scalar_history",
    "C50_gain",
    "C50_vector_refuted",
    "C50_limit_refuted",
    "C50_zero_iterations_refuted"
   ],
   "note": "Includes REFUTED expectations: wrong mean for correlated vector measurements (C50_vector_refuted), the singular value limitation is dead code (C50_limit_refuted), zero iterations drop the measurement. Noise at least eps in every direction."
  },
  {
   "property": "C51",
   "status": "proved",
   "theorems": [
    "C51_construction",
    "C51_system",
    "C51_refuted",
    "C51_covariance_ignored",
    "C51_prior_set_refuted",
    "C51_reset_refuted"
   ],
   "note": "Includes REFUTED expectations: after a system update J'J, not JJ', is the covariance, and the next reading of a single state gives a wrong mean; PriorSet and Reset leave the factor stale."
  },
  {
   "property": "C52",
   "status": "proved",
   "theorems": [
    "C52_exact",
    "C52_factor",
    "C52_psd",
    "C52_false",
    "C52_indefinite_refuted"
   ],
   "note": "Includes REFUTED corner case: [[0,c],[c,0]] is accepted with factor 0. For semidefinite input the product is within sqrt(eps * variance) of the input."
  },
  {
   "property": "C53",
   "status": "proved",
   "theorems": [
    "C53_covariance",
    "C53_fixed",
    "C53_exact",
    "C53_batch"
   ],
   "note": "Covariance part for every model; fixed point, one-step exactness and the whole backward pass for linear models. Exactness is relative to the Kalman correction, shown optimal in C45."
  },
  {
   "property": "C54",
   "status": "proved",
   "theorems": [
    "C54_prediction",
    "C54_scalar",
    "C54_refuted"
   ],
   "note": "REFUTED expectation: positive characterisation for every dimension (C54_prediction), one dimension (C54_scalar), concrete case (C54_refuted)."
  },
  {
   "property": "C55",
   "status": "proved",
   "theorems": [
    "C55_computed",
    "C55_accumulator",
    "C55_out_of_bounds",
    "C55_single",
    "C55_exact_refuted"
   ],
   "note": "REFUTED expectation: what is computed instead (C55_computed), concrete difference (C55_exact_refuted), out-of-bounds write, effect of the uninitialised accumulator."
  },
  {
   "property": "C56",
   "status": "proved",
   "theorems": [
    "C56_history",
    "C56_density",
    "C56_setters"
   ],
   "note": "Refinement to objects without a cache for every program with any number of objects; density equals the formula for positive definite covariances. exp and 2 pi are parameters."
  },
  {
   "property": "C57",
   "status": "proved",
   "theorems": [
    "C57_history",
    "C57_round_trip",
    "C57_density",
    "C57_mass",
    "C57_sample",
    "C57_sample_onto",
    "C57_moments"
   ],
   "note": "Results of every program with any number of objects equal those of boxes given by centre and width (C57_history)."
  },
  {
   "property": "C58",
   "status": "proved",
   "theorems": [
    "C58_program",
    "C58_construction",
    "C58_mean",
    "C58_derivative",
    "C58_affine",
    "C58_model1",
    "C58_model2",
    "C58_filter_model",
    "C58_more_arguments_refuted"
   ],
   "note": "Includes a REFUTED expectation: after NumConditionalArgumentsSet to a larger number the mean cannot be computed until the new matrices are set."
  },
  {
   "property": "C59",
   "status": "proved",
   "theorems": [
    "C59_construction",
    "C59_pdf_set_null",
    "C59_null_model_refuted",
    "C59_one_argument",
    "C59_two_arguments"
   ],
   "note": "Includes REFUTED expectation: a model built from a NULL pdf is undefined behaviour when used."
  },
  {
   "property": "C60",
   "status": "proved",
   "theorems": [
    "C60_history",
    "C60_queries",
    "C60_value",
    "C60_one_model_refuted",
    "C60_leak_refuted"
   ],
   "note": "Includes REFUTED expectations: with only one model set every query and every ConditionalArgumentSet aborts; the destructor always leaks one Gaussian."
  },
  {
   "property": "C61",
   "status": "proved",
   "theorems": [
    "C61_assign_refuted",
    "C61_first_unset",
    "C61_constructor"
   ],
   "note": "REFUTED expectation: out-of-range write for every size (C61_assign_refuted), first element untouched (C61_first_unset)."
  },
  {
   "property": "C62",
   "status": "proved",
   "theorems": [
    "C62_symmetric",
    "C62_identity",
    "C62_wrappers_differ_refuted",
    "C62_triangles"
   ],
   "note": "Includes REFUTED expectation: the two back ends keep different triangles."
  },
  {
   "property": "C63",
   "status": "proved",
   "theorems": [
    "C63_determinant",
    "C63_inverse",
    "C63_filters"
   ],
   "note": "Includes finding: singular matrices behave differently by dimension."
  },
  {
   "property": "C64",
   "status": "proved",
   "theorems": [
    "C64_concatenation",
    "C64_sub",
    "C64_round_trip",
    "C64_dot"
   ],
   "note": ""
  },
  {
   "property": "C65",
   "status": "proved",
   "theorems": [
    "C65_boost",
    "C65_boost_column",
    "C65_eigen_refuted",
    "C65_symmetric"
   ],
   "note": "Includes REFUTED expectation: the Eigen back end counts from 0."
  },
  {
   "property": "C66",
   "status": "proved",
   "theorems": [
    "C66_affine",
    "C66_moments",
    "C66_failure",
    "C66_list"
   ],
   "note": "Moments for every finite weighted family of draws. Includes finding: a rejected covariance overwrites the sample with the mean."
  },
  {
   "property": "C67",
   "status": "proved",
   "theorems": [
    "C67_set_later",
    "C67_density_unset_refuted",
    "C67_default_then_set_refuted",
    "C67_long_input",
    "C67_short_input_refuted",
    "C67_dimension_set"
   ],
   "note": "Includes REFUTED expectations: density undefined before UniformSet, no samples after default construction and UniformSet, short inputs accepted."
  },
  {
   "property": "C68",
   "status": "proved",
   "theorems": [
    "C68_value_semantics",
    "C68_no_leak",
    "C68_leak_refuted",
    "C68_assign_double_free_refuted",
    "C68_assign_shares_refuted",
    "C68_assign_leaks_refuted",
    "C68_classes",
    "C68_discrete_copy",
    "C68_mixture_copy",
    "C68_mixture_copy_empty_refuted",
    "C68_conditional_copy"
   ],
   "note": "Includes REFUTED expectations: assignment shares storage, leaks and frees twice; DiscreteConditionalPdf never frees; an empty mixture cannot be copied."
  },
  {
   "property": "C69",
   "status": "proved",
   "theorems": [
    "C69_density",
    "C69_sample"
   ],
   "note": ""
  },
  {
   "property": "C70",
   "status": "proved",
   "theorems": [
    "C70_no_sample_refuted"
   ],
   "note": "REFUTED: sampling aborts in every reachable configuration."
  },
  {
   "property": "C71",
   "status": "proved",
   "theorems": [
    "C71_extinct",
    "C71_stuck",
    "C71_forever",
    "C71_lost",
    "C71_lose"
   ],
   "note": "REFUTED expectation: success of an update does not keep the filter usable."
  },
  {
   "property": "C72",
   "status": "proved",
   "theorems": [
    "C72_alias_refuted",
    "C72_reset",
    "C72_mismatch_refuted",
    "C72_larger_refuted"
   ],
   "note": "Includes REFUTED expectations: aliasing Reset, and Reset to a mixture of another shape."
  },
  {
   "property": "C73",
   "status": "proved",
   "theorems": [
    "C73_check",
    "C73_agree",
    "C73_norm_refuted",
    "C73_filter",
    "C73_default"
   ],
   "note": "Includes a REFUTED expectation: the squared norm is compared."
  },
  {
   "property": "C74",
   "status": "proved",
   "theorems": [
    "C74_no_update_refuted"
   ],
   "note": "REFUTED expectation: no Update call of the class completes for dimension > 0."
  },
  {
   "property": "C75",
   "status": "proved",
   "theorems": [
    "C75_update",
    "C75_first",
    "C75_returns"
   ],
   "note": "Includes REFUTED part (C75_update states the stale predecessors and the single covariance; C75_stale_example shows wrong weights). Stated for updates without a resampling step; for a sampler other than the shipped one, which never returns (C74)."
  },
  {
   "property": "C76",
   "status": "proved",
   "theorems": [
    "C76_dead_refuted"
   ],
   "note": "REFUTED expectation: all-zero weights are never left."
  },
  {
   "property": "C77",
   "status": "proved",
   "theorems": [
    "C77_batch",
    "C77_estimate"
   ],
   "note": "Linear models with positive definite noise and prior; exact arithmetic."
  },
  {
   "property": "C78",
   "status": "proved",
   "theorems": [
    "C78_forward",
    "C78_smoother"
   ],
   "note": "Linear models with positive definite noise and prior; exact arithmetic; the caller supplies the filtered densities as the smoother's API demands."
  },
  {
   "property": "C79",
   "status": "proved",
   "theorems": [
    "C79_set",
    "C79_zero",
    "C79_overflow",
    "C79_new"
   ],
   "note": "In IEEE double arithmetic (Flocq binary64, stdlib real axioms). C79_new constructor, C79_set, C79_zero, C79_overflow. Sums between 2^1022 and 2^1025 are not classified."
  },
  {
   "property": "C80",
   "status": "proved",
   "theorems": [
    "C80_sample",
    "C80_zero",
    "C80_support",
    "C80_last_refuted"
   ],
   "note": "C80_sample, C80_zero, C80_support for draws up to 1 - tol. Includes REFUTED expectation C80_last_refuted: a state of probability 0 is returned for u = 1 - 2^-53."
  },
  {
   "property": "C81",
   "status": "proved",
   "theorems": [
    "C81_update",
    "C81_set",
    "C81_sample",
    "C81_draw"
   ],
   "note": "C81_update, C81_set, C81_sample, C81_draw."
  },
  {
   "property": "C82",
   "status": "proved",
   "theorems": [
    "C82_set",
    "C82_after_set",
    "C82_one",
    "C82_set_refuted"
   ],
   "note": "C82_set, C82_after_set, C82_one. Includes REFUTED expectation C82_set_refuted: ProbabilitySet can stop the program after a successful ProbabilitiesSet."
  },
  {
   "property": "C83",
   "status": "proved",
   "theorems": [
    "C83_discrete",
    "C83_particles",
    "C83_overrun",
    "C83_overrun_refuted",
    "C83_discrete32",
    "C83_particles32",
    "C83_thousand",
    "C83_zero"
   ],
   "note": "C83_discrete, C83_particles; for the 32-bit generator without the underflow condition: C83_discrete32, C83_particles32, C83_thousand; a first draw of 0: C83_zero. Includes REFUTED expectation C83_overrun_refuted (and C83_overrun, for every accurate pow): RIPLEY resampling of 10000 equal particles reads behind the table when the last draw is 1 - 2^-32."
  },
  {
   "property": "C84",
   "status": "proved",
   "theorems": [
    "C84_accuracy"
   ],
   "note": "C84_accuracy. Underflow and overflow are excluded by hypotheses on the exact quantities (see C85 for what happens otherwise)."
  },
  {
   "property": "C85",
   "status": "proved",
   "theorems": [
    "C85_alive",
    "C85_underflow",
    "C85_forever",
    "C85_collapse_refuted"
   ],
   "note": "Includes REFUTED part: C85_collapse_refuted (with C85_underflow, C85_forever) shows the posterior lost for good after a measurement of positive likelihood. C85_alive is the positive statement."
  },
  {
   "property": "C86",
   "status": "proved",
   "theorems": [
    "C86_decomposition",
    "C86_exact",
    "C86_spectrum",
    "C86_column"
   ],
   "note": "Arithmetic is real; the convergence tests are arbitrary up to the tolerance. Convergence within 150 iterations is not claimed: the theorems say what holds for each returned flag."
  },
  {
   "property": "C87",
   "status": "proved",
   "theorems": [
    "C87_safe",
    "C87_nan_refuted"
   ],
   "note": "Includes REFUTED: with comparisons that all fail (NaN) element w(0) is read (C87_nan_refuted)."
  },
  {
   "property": "C88",
   "status": "proved",
   "theorems": [
    "C88_moore_penrose",
    "C88_bound",
    "C88_inverse",
    "C88_left_inverse",
    "C88_unique",
    "C88_small_refuted",
    "C88_default_refuted"
   ],
   "note": "Includes REFUTED: every matrix of norm below epsilon, also an invertible one, gets the result 0 (C88_small_refuted, C88_default_refuted with the default 0.01). A failed decomposition is the assertion failure of the source."
  },
  {
   "property": "C89",
   "status": "proved",
   "theorems": [
    "C89_expected",
    "C89_jacobian",
    "C89_state_only",
    "C89_covariance",
    "C89_zero_division",
    "C89_unbound_refuted"
   ],
   "note": "Includes REFUTED part: an unbound symbol is not rejected (C89_unbound_refuted)."
  },
  {
   "property": "C90",
   "status": "proved",
   "theorems": [
    "C90_expected",
    "C90_covariance",
    "C90_covariance_psd",
    "C90_jacobian",
    "C90_mean_refuted",
    "C90_dimension_refuted",
    "C90_sample",
    "C90_sample_refuted",
    "C90_copy",
    "C90_copy_refuted"
   ],
   "note": "Includes REFUTED parts: dfGet with a noise mean other than zero (C90_mean_refuted), dimension (C90_dimension_refuted, C90_sample_refuted), number of arguments of a copy (C90_copy_refuted)."
  },
  {
   "property": "C91",
   "status": "proved",
   "theorems": [
    "C91_robot",
    "C91_state_only",
    "C91_agree"
   ],
   "note": ""
  },
  {
   "property": "C92",
   "status": "proved",
   "theorems": [
    "C92_variance",
    "C92_absolute",
    "C92_mean",
    "C92_positive"
   ],
   "note": "C92_variance (any run), C92_absolute and C92_mean (one measurement of any precision), C92_positive; only for one state and one measurement dimension"
  },
  {
   "property": "C93",
   "status": "proved",
   "theorems": [
    "C93_stuck",
    "C93_zero_refuted",
    "C93_negative_refuted"
   ],
   "note": "REFUTED as expected: C93_zero_refuted (covariance 0), C93_negative_refuted (negative covariance); C93_stuck: a filter with covariance 0 ignores every later measurement"
  },
  {
   "property": "C94",
   "status": "proved",
   "theorems": [
    "C94_agree",
    "C94_exact"
   ],
   "note": "Exact arithmetic; numeric decompositions (inverse, determinant, Cholesky, SVD) are not in the language, see C63, C86-C88."
  },
  {
   "property": "C95",
   "status": "proved",
   "theorems": [
    "C95_row_add_refuted",
    "C95_element_refuted",
    "C95_rows_refuted",
    "C95_convert_refuted",
    "C95_resize_refuted",
    "C95_empty_refuted"
   ],
   "note": "REFUTED: the wrapper does not behave the same with both back ends; the theorems give the differing results for each call."
  },
  {
   "property": "C96",
   "status": "proved",
   "theorems": [
    "C96_algebra",
    "C96_eigen",
    "C96_product",
    "C96_sum",
    "C96_scale",
    "C96_transpose",
    "C96_equal"
   ],
   "note": "Exact arithmetic; a number that was never written is reported as indeterminate. inverse and determinant are C63, SVD is C86-C88."
  },
  {
   "property": "C97",
   "status": "proved",
   "theorems": [
    "C97_neff",
    "C97_decision"
   ],
   "note": "Bootstrap measurement updates (sysmodel NULL); weights stored by ListOfSamplesUpdate."
  },
  {
   "property": "C98",
   "status": "proved",
   "theorems": [
    "C98_run",
    "C98_decision",
    "C98_keep",
    "C98_resample",
    "C98_schedule"
   ],
   "note": "Updates are system updates with the bootstrap proposal and measurement updates; the proposal ratio of a combined update is not in the double model. The likelihoods are arbitrary doubles given per particle."
  },
  {
   "property": "C99",
   "status": "proved",
   "theorems": [
    "C99_underflow",
    "C99_forever",
    "C99_period",
    "C99_collapse_refuted"
   ],
   "note": "Includes REFUTED: a measurement update keeps a posterior (C99_collapse_refuted)."
  },
  {
   "property": "C100",
   "status": "proved",
   "theorems": [
    "C100_mean",
    "C100_covariance",
    "C100_diagonal",
    "C100_index"
   ],
   "note": "The particle values are given (the proposal draws are not modelled); the mean of unsigned values assumes the conversion of a double truncates."
  },
  {
   "property": "C101",
   "status": "proved",
   "theorems": [
    "C101_mean",
    "C101_covariance",
    "C101_estimate_refuted"
   ],
   "note": "Includes REFUTED: the estimate stays near the mean of the particles (C101_estimate_refuted)."
  },
  {
   "property": "C102",
   "status": "proved",
   "theorems": [
    "C102_vector",
    "C102_vector_read",
    "C102_vector_type",
    "C102_matrix",
    "C102_matrix_read",
    "C102_symmetric",
    "C102_probability",
    "C102_sample",
    "C102_weighted",
    "C102_weighted_vector"
   ],
   "note": "RTT itself (PropertyBag, TypeInfo) is outside the repository and modelled as documented: see ModelRtt.v."
  },
  {
   "property": "C103",
   "status": "proved",
   "theorems": [
    "C103_double",
    "C103_int",
    "C103_name",
    "C103_order_refuted"
   ],
   "note": "Includes REFUTED: the order of the properties does not matter (C103_order_refuted)."
  },
  {
   "property": "C104",
   "status": "proved",
   "theorems": [
    "C104_vector_missing",
    "C104_vector_no_abort",
    "C104_vector_reuse",
    "C104_sample_empty",
    "C104_matrix_no_rows",
    "C104_matrix_refuted",
    "C104_matrix_changed",
    "C104_symmetric_kept",
    "C104_sample_kept",
    "C104_probability_kept",
    "C104_weighted_kept",
    "C104_weighted_changed",
    "C104_atomic_refuted",
    "C104_sample_found",
    "C104_weighted_found",
    "C104_other_type",
    "C104_filled",
    "C104_negative",
    "C104_negative_probability"
   ],
   "note": "Includes REFUTED: every matrix survives decomposing and composing (C104_matrix_refuted); a call that returns false leaves the object unchanged (C104_atomic_refuted)."
  },
  {
   "property": "C105",
   "status": "proved",
   "theorems": [
    "C105_lower",
    "C105_not_square",
    "C105_wide_ndebug",
    "C105_narrow_ndebug",
    "C105_symmetric_refuted",
    "C105_row_check",
    "C105_last_row_refuted",
    "C105_last_row",
    "C105_vector_index",
    "C105_vector_outside",
    "C105_assign_vector",
    "C105_assign_matrix"
   ],
   "note": "Includes REFUTED: only symmetric rows are accepted (C105_symmetric_refuted); every row index passes the check (C105_last_row_refuted)."
  },
  {
   "property": "C106",
   "status": "proved",
   "theorems": [
    "C106_mean",
    "C106_exact",
    "C106_variance",
    "C106_thousand"
   ],
   "note": "One state, one measurement, at most one input, all of dimension 1."
  },
  {
   "property": "C107",
   "status": "proved",
   "theorems": [
    "C107_discrete",
    "C107_new",
    "C107_average",
    "C107_never",
    "C107_particles",
    "C107_equal",
    "C107_conditional",
    "C107_zero_row",
    "C107_mixture"
   ],
   "note": "The generator is taken to return each of the 2^32 numbers k/2^32; nothing is said about the order of its outputs."
  },
  {
   "property": "C108",
   "status": "proved",
   "theorems": [
    "C108_sizes",
    "C108_borders",
    "C108_read_back",
    "C108_height",
    "C108_density",
    "C108_sample",
    "C108_one_each",
    "C108_returns",
    "C108_stuck_refuted",
    "C108_case",
    "C108_case_sample"
   ],
   "note": "Includes REFUTED: SampleFrom does not return if a positive width is at most 2^-54 of the centre (C108_stuck_refuted, C108_case). Boost before 1.47 has no rejection loop; the rest is as in the model."
  },
  {
   "property": "C109",
   "status": "proved",
   "theorems": [
    "C109_rows",
    "C109_last_refuted",
    "C109_zero_refuted",
    "C109_outside",
    "C109_eigen",
    "C109_eigen_sym",
    "C109_members",
    "C109_elements",
    "C109_element_place",
    "C109_elements_sym",
    "C109_eigen_set_refuted",
    "C109_operators",
    "C109_sum_refuted",
    "C109_available",
    "C109_fill",
    "C109_services",
    "C109_resize_refuted",
    "C109_case"
   ],
   "note": "Includes REFUTED: last row not readable (C109_last_refuted), index 0 aborts (C109_zero_refuted), unsymmetric SymmetricMatrix with Eigen (C109_eigen_set_refuted), sum and difference of SymmetricMatrix and Matrix missing (C109_sum_refuted), resize_SymmetricMatrix (C109_resize_refuted)."
  },
  {
   "property": "C110",
   "status": "proved",
   "theorems": [
    "C110_factor",
    "C110_run",
    "C110_same",
    "C110_bootstrap",
    "C110_lost_refuted",
    "C110_overflow",
    "C110_overflow_refuted",
    "C110_case"
   ],
   "note": "Includes REFUTED: overflow of the quotient (C110_overflow_refuted), factor 0 when the transition density underflows (C110_lost_refuted)."
  },
  {
   "property": "C111",
   "status": "proved",
   "theorems": [
    "C111_total",
    "C111_density",
    "C111_far",
    "C111_overflow_refuted",
    "C111_lost_refuted",
    "C111_filter",
    "C111_returns"
   ],
   "note": "Includes REFUTED: failed assertion when the square overflows (C111_overflow_refuted), all weights lost when every density underflows (C111_lost_refuted). Dimension 1; the densities of higher dimension are the subject of the exact models."
  },
  {
   "property": "C112",
   "status": "proved",
   "theorems": [
    "C112_sample",
    "C112_samples",
    "C112_monotone",
    "C112_flat_refuted",
    "C112_negative",
    "C112_walk",
    "C112_still_refuted"
   ],
   "note": "Includes REFUTED: a positive variance below 2^-52 yields samples equal to the mean and reports success (C112_flat_refuted), a random walk with it never moves (C112_still_refuted). Dimension 1; the factorisation in higher dimension is the subject of the exact models."
  },
  {
   "property": "C113",
   "status": "proved",
   "theorems": [
    "C113_factor",
    "C113_accept",
    "C113_negative",
    "C113_singular_refuted",
    "C113_definite_refuted",
    "C113_dropped_refuted",
    "C113_sample"
   ],
   "note": "Includes REFUTED: semidefinite and definite covariances are rejected (C113_singular_refuted, C113_definite_refuted), a small first variance drops the covariance (C113_dropped_refuted). Dimension 2; the factorisation in any dimension is the subject of the exact models."
  },
  {
   "property": "C114",
   "status": "proved",
   "theorems": [
    "C114_det",
    "C114_inverse",
    "C114_square",
    "C114_zero_refuted",
    "C114_negative_refuted"
   ],
   "note": "Includes REFUTED: failed assertion for every argument when the determinant rounds to 0 (C114_zero_refuted), failed assertion from a negative square (C114_negative_refuted). The value of the density is in C115."
  },
  {
   "property": "C115",
   "status": "proved",
   "theorems": [
    "C115_density",
    "C115_value",
    "C115_far"
   ],
   "note": "C115_density: against the computed deviations; C115_value: against the exact ones. Cases: library2, C115_case, C115_case_value, C115_case_far."
  },
  {
   "property": "C116",
   "status": "proved",
   "theorems": [
    "C116_lost_refuted",
    "C116_filter",
    "C116_returns",
    "C116_zero_refuted"
   ],
   "note": "Includes REFUTED: every update fails when the determinant rounds to 0 (C116_zero_refuted), all weights lost far from the particles (C116_lost_refuted). Cases: C116_case, C116_case_zero, C116_case_lost."
  }
 ]
}