{
 "claims": [
  {
   "property": "C01",
   "status": "proved",
   "theorems": [
    "C01_dimensions",
    "C01_saved_numbers"
   ],
   "note": "for every chain of every inversion over valid spaces and targets (setup_ok), any of the three samplers, any number of runs; user callbacks only observe"
  },
  {
   "property": "C02",
   "status": "proved",
   "theorems": [
    "C02_one_value_per_dimension",
    "C02_entries"
   ],
   "note": "for every chain of every inversion over valid spaces and targets (setup_ok), any of the three samplers, any number of runs; user callbacks only observe"
  },
  {
   "property": "C03",
   "status": "proved",
   "theorems": [
    "C03_sites_sorted"
   ],
   "note": "for every chain of every inversion over valid spaces and targets (setup_ok), any of the three samplers, any number of runs; user callbacks only observe"
  },
  {
   "property": "C04",
   "status": "proved",
   "theorems": [
    "C04_sites_inside"
   ],
   "note": "for every chain of every inversion over valid spaces and targets (setup_ok), any of the three samplers, any number of runs; user callbacks only observe; polygon.contains of shapely is a parameter"
  },
  {
   "property": "C05",
   "status": "proved",
   "theorems": [
    "C05_support",
    "C05_never_accepted"
   ],
   "note": "for every chain of every inversion over valid spaces and targets (setup_ok), any of the three samplers, any number of runs; user callbacks only observe"
  },
  {
   "property": "C06",
   "status": "proved",
   "theorems": [
    "C06_noise",
    "C06_saved_noise",
    "C06_limits",
    "C06_accepted"
   ],
   "note": "for every chain of every inversion over valid spaces and targets (setup_ok), any of the three samplers, any number of runs; user callbacks only observe"
  },
  {
   "property": "C07",
   "status": "proved",
   "theorems": [
    "C07_site_move"
   ],
   "note": "cells (site and all values) of the new state are a permutation of the old ones with one site replaced"
  },
  {
   "property": "C08",
   "status": "proved",
   "theorems": [
    "C08_birth"
   ],
   "note": "that the state passed in is not changed is covered by C17 (heap model)"
  },
  {
   "property": "C09",
   "status": "proved",
   "theorems": [
    "C09_death",
    "C09_death_refused",
    "C09_birth_refused"
   ],
   "note": ""
  },
  {
   "property": "C10",
   "status": "proved",
   "theorems": [
    "C10_reverse"
   ],
   "note": "birth from prior and from neighbour, nested tessellations included"
  },
  {
   "property": "C11",
   "status": "proved",
   "theorems": [
    "C11_births",
    "C11_births_all",
    "C11_deaths",
    "C11_deaths_all",
    "C11_detailed_balance"
   ],
   "note": "plain parameter spaces of priors; densities of the moves' draws are part of the specification (SpecMoves)"
  },
  {
   "property": "C12",
   "status": "proved",
   "theorems": [
    "C12_hyper_parameters",
    "C12_log_prior",
    "C12_value_ratio",
    "C12_ratio_is_difference",
    "C12_move"
   ],
   "note": ""
  },
  {
   "property": "C13",
   "status": "partial",
   "theorems": [
    "C13_custom_prior_refuted",
    "C13_custom_prior_partial"
   ],
   "note": "refuted: outside births perturb_value raises UnboundLocalError; in births the claimed ratio is returned"
  },
  {
   "property": "C14",
   "status": "proved",
   "theorems": [
    "C14_acceptance",
    "C14_rejection_keeps_state",
    "C14_decided",
    "C14_zero_draw_refuted"
   ],
   "note": "for draws in (0,1); a draw of exactly 0.0 raises ValueError (C14_zero_draw_refuted)"
  },
  {
   "property": "C15",
   "status": "partial",
   "theorems": [
    "C15_acceptance_probability",
    "C15_detailed_balance",
    "C15_stationary",
    "C15_kernel",
    "C15_retries_refuted"
   ],
   "note": "The decision rule of the model accepts with probability min(1,exp(ratio)) and, for any mixture of moves reporting the exact prior and proposal ratio, is in detailed balance with the tempered posterior and leaves it stationary (finite state spaces; pointwise for densities). That the concrete moves report the exact ratio is C10-C12; the continuous case is C73 and C77 for numbers with uniform priors. Drawing a failed proposal again breaks detailed balance (refuted)."
  },
  {
   "property": "C16",
   "status": "proved",
   "theorems": [
    "C16_one_substate"
   ],
   "note": ""
  },
  {
   "property": "C17",
   "status": "proved",
   "theorems": [
    "C17_move",
    "C17_elementary",
    "C17_old_values",
    "C17_chain",
    "C17_chain_values",
    "C17_saved"
   ],
   "note": "Heap model with addresses (ModelHeap): every perturbation and every run of a chain, from any heap with any sharing, also when exceptions are raised. Forward functions and other user code are assumed not to write to the objects they are given."
  },
  {
   "property": "C18",
   "status": "partial",
   "theorems": [
    "C18_spaces_partial",
    "C18_copies_partial",
    "C18_start_partial",
    "C18_structure_partial",
    "C18_flat_partial",
    "C18_old_values_shown",
    "C18_noise_partial",
    "C18_refuted",
    "C18_noise_refuted"
   ],
   "note": "Violated by the code. C18_refuted: after a move of parameter values the attributes of the proposed state show the old values (C18_old_values_shown: always); C18_noise_refuted: the same for noise. Proved: state.space is state['space'] in every state of every chain, copies and starting states agree completely, births/deaths/site moves agree (from states whose nested states are in step; always without nested spaces), noise moves leave all spaces in step."
  },
  {
   "property": "C19",
   "status": "proved",
   "theorems": [
    "C19_ratio",
    "C19_current",
    "C19_saved",
    "C19_elementary"
   ],
   "note": "Cached predictions are those of the state's own parameters in every state of a chain of an inversion after any runs; ratio and saved predictions use them. For deterministic forward functions of the parameters."
  },
  {
   "property": "C20",
   "status": "partial",
   "theorems": [
    "C20_refuted",
    "C20_partial",
    "C20_simple_partial"
   ],
   "note": "Refuted: a sample is saved without predictions when the first proposals have ratio zero (witness: death of the only cell). Partial: once the current state has predictions, every further sample comes with its own, in order; without custom priors, position-dependent priors or births from the neighbour no further assumption is needed."
  },
  {
   "property": "C21",
   "status": "partial",
   "theorems": [
    "C21_refuted",
    "C21_runs_again"
   ],
   "note": "Refuted: keep_dpred keeps the key 'dpred' only, so no prediction survives a noise perturbation and forward functions run again every time."
  },
  {
   "property": "C22",
   "status": "proved",
   "theorems": [
    "C22_schedule",
    "C22_schedule_list",
    "C22_count",
    "C22_save_every_zero_refuted"
   ],
   "note": "callbacks may do anything but tamper with samples and counters; save_every=0 raises ZeroDivisionError"
  },
  {
   "property": "C23",
   "status": "proved",
   "theorems": [
    "C23_split"
   ],
   "note": ""
  },
  {
   "property": "C24",
   "status": "proved",
   "theorems": [
    "C24_statistics",
    "C24_totals",
    "C24_print",
    "C24_print_every_zero_refuted",
    "C14_acceptance"
   ],
   "note": ""
  },
  {
   "property": "C25",
   "status": "proved",
   "theorems": [
    "C25_retries",
    "C25_retry_continues",
    "C25_runtime_error",
    "C25_other_exceptions",
    "C25_failures_keep_state"
   ],
   "note": ""
  },
  {
   "property": "C26",
   "status": "proved",
   "theorems": [
    "C26_infinite_ratio",
    "C26_no_exceptions"
   ],
   "note": ""
  },
  {
   "property": "C27",
   "status": "proved",
   "theorems": [
    "C27_ladder",
    "C27_initialize",
    "C27_too_few_chains"
   ],
   "note": "temperature_max=1 or fewer than two warm chains: see C27_too_few_chains"
  },
  {
   "property": "C28",
   "status": "proved",
   "theorems": [
    "C28_permutation",
    "C28_untouched"
   ],
   "note": ""
  },
  {
   "property": "C29",
   "status": "partial",
   "theorems": [
    "C29_decision",
    "C29_attempts",
    "C29_unit_first_partial",
    "C29_rule_balanced",
    "C29_exchange_refuted"
   ],
   "note": "the code's exchange rule equals the balanced rule only when the first chain of the pair is at temperature 1 (C29_unit_first_partial); counterexample C29_exchange_refuted"
  },
  {
   "property": "C30",
   "status": "proved",
   "theorems": [
    "C30_iterations",
    "C30_terminates",
    "C30_swap_every_zero",
    "C30_second_run"
   ],
   "note": ""
  },
  {
   "property": "C31",
   "status": "partial",
   "theorems": [
    "C31_actual",
    "C31_short_burnin_partial",
    "C31_burnin_refuted"
   ],
   "note": "a burn-in longer than swap_every is not observed (C31_burnin_refuted); C31_actual states what is saved instead"
  },
  {
   "property": "C32",
   "status": "proved",
   "theorems": [
    "C32_cooling",
    "C32_schedule",
    "C32_initialize"
   ],
   "note": ""
  },
  {
   "property": "C33",
   "status": "partial",
   "theorems": [
    "C33_second_run",
    "C33_continuation_refuted"
   ],
   "note": "a second run of the same annealing sampler does not continue: refuted"
  },
  {
   "property": "C34",
   "status": "partial",
   "theorems": [
    "C34_iterations",
    "C34_own_first",
    "C34_initialize",
    "C34_end_advance_ignored",
    "C34_end_advance_refuted",
    "C34_default_callbacks_refuted"
   ],
   "note": "end_advance callbacks given by the user are never called: refuted"
  },
  {
   "property": "C35",
   "status": "proved",
   "theorems": [
    "C35_concatenated",
    "C35_separate",
    "C35_single",
    "C35_not_chains",
    "C35_no_chains"
   ],
   "note": ""
  },
  {
   "property": "C36",
   "status": "partial",
   "theorems": [
    "C36_never_a_list_refuted",
    "C36_raises_refuted",
    "C36_samples_lost_refuted"
   ],
   "note": "refuted: the code returns dict(results), never a list"
  },
  {
   "property": "C37",
   "status": "partial",
   "theorems": [
    "C37_lists_of_chains_refuted",
    "C37_other_lists_refuted",
    "C37_not_a_list_partial"
   ],
   "note": "refuted: the test of the setter is inverted"
  },
  {
   "property": "C38",
   "status": "proved",
   "theorems": [
    "C38_accepts",
    "C38_result",
    "C38_refused",
    "C38_caller_list",
    "C38_caller_list_refuted"
   ],
   "note": "the caller's list is changed in place, also when the call is refused"
  },
  {
   "property": "C39",
   "status": "proved",
   "theorems": [
    "C39_choice",
    "C39_choice_total",
    "C39_zero_weight",
    "C39_perturbations",
    "C39_elementary",
    "C39_births_and_deaths"
   ],
   "note": ""
  },
  {
   "property": "C40",
   "status": "proved",
   "theorems": [
    "C40_gaussian"
   ],
   "note": "log_density is the log density of independent multivariate normals with determinant and inverse covariance specified independently of the code; correlated noise with fewer than three data is undefined (C41_small_refuted) and so excluded"
  },
  {
   "property": "C41",
   "status": "proved",
   "theorems": [
    "C41_inverse_covariance",
    "C41_small_refuted",
    "C41_log_determinant",
    "C41_log_determinant_total",
    "C41_singular_refuted"
   ],
   "note": "For n >= 3, s > 0, |r| < 1 as stated; the refuted theorems show what happens outside (n <= 2: memory outside the array is read; r = 1 or s = 0: an exception)"
  },
  {
   "property": "C42",
   "status": "partial",
   "theorems": [
    "C42_targets",
    "C42_log_like",
    "C42_infinite_refuted",
    "C42_precedence",
    "C42_nothing_given"
   ],
   "note": "Proved for targets (deterministic forward functions) and finite log_like_func; C42_infinite_refuted: with an infinite log likelihood the ratio of a state with itself is NaN"
  },
  {
   "property": "C43",
   "status": "partial",
   "theorems": [
    "C43_refuted",
    "C43_partial",
    "C43_history_partial",
    "C43_duplicate",
    "C43_stuck",
    "C43_tuple_refuted",
    "C43_functions_refuted",
    "C43_ignored"
   ],
   "note": "Proved: valid calls cannot raise, extend likelihood, functions, observers and chains, over any history. Refuted: a rejected call leaves its targets behind (after which no call succeeds); functions given as tuples, functions without targets, and targets added to a likelihood made from a function do not work."
  },
  {
   "property": "C44",
   "status": "proved",
   "theorems": [
    "C44_nearest_neighbour_exact"
   ],
   "note": ""
  },
  {
   "property": "C45",
   "status": "proved",
   "theorems": [
    "C45_interpolate_linear",
    "C45_node_values",
    "C45_array"
   ],
   "note": ""
  },
  {
   "property": "C46",
   "status": "proved",
   "theorems": [
    "C46_bounds_ordered",
    "C46_width"
   ],
   "note": ""
  },
  {
   "property": "C47",
   "status": "proved",
   "theorems": [
    "C47_interpolate_nearest",
    "C47_interpolate_nearest_strict",
    "C47_array"
   ],
   "note": ""
  },
  {
   "property": "C48",
   "status": "partial",
   "theorems": [
    "C48_cell_extents_partial",
    "C48_extents_partition_partial",
    "C48_few_sites_refuted"
   ],
   "note": "Holds from two sites (three when unbounded on the left); with fewer the code reads uninitialised memory (refuted)."
  },
  {
   "property": "C49",
   "status": "proved",
   "theorems": [
    "C49_interfaces_agree",
    "C49_interfaces_are_midpoints"
   ],
   "note": ""
  },
  {
   "property": "C50",
   "status": "partial",
   "theorems": [
    "C50_depth_profile_partial",
    "C50_tessellation_agrees_partial",
    "C50_unsorted_queries_refuted",
    "C50_negative_query_refuted"
   ],
   "note": "Holds for non-negative queries in non-decreasing order; refuted otherwise."
  },
  {
   "property": "C51",
   "status": "proved",
   "theorems": [
    "C51_insert",
    "C51_delete",
    "C51_delete_after_insert",
    "C51_insert_after_delete",
    "C51_out_of_range"
   ],
   "note": ""
  },
  {
   "property": "C52",
   "status": "proved",
   "theorems": [
    "C52_documented",
    "C52_none",
    "C52_perturbations",
    "C52_other_arguments",
    "C52_only_user_exceptions",
    "C52_dropped_arguments_refuted"
   ],
   "note": "(function, kwargs, args) silently loses args"
  },
  {
   "property": "C53",
   "status": "partial",
   "theorems": [
    "C53_density_exists",
    "C53_density_unique",
    "C53_log_ratio",
    "C53_kept_law",
    "C53_noise_draws",
    "C53_correlation_draws",
    "C53_joint_draws",
    "C53_site_draws",
    "C53_point_draws",
    "C53_point_law",
    "C53_point_ratio",
    "C53_noise_partial",
    "C53_noise_refuted",
    "C53_site_partial",
    "C53_site_refuted",
    "C53_point_partial",
    "C53_point_refuted"
   ],
   "note": "Refuted: moves of noise levels and of one-dimensional sites redraw until within the limits and report the log ratio 0; the densities of these walks are determined and their log ratio is 0 only for values equally far from the middle of the limits. Joint moves of several noise levels draw each number by such a walk, with its own limits and step (C53_correlation_draws, C53_joint_draws). Sites in several dimensions redraw all coordinates at once: in a box the end point has independent coordinates, each distributed as a walk along its axis (C53_point_law), and the reported 0 is right only between points from which a step stays in the box equally often (C53_point_partial). For polygons only the draws are described (C53_point_draws)."
  },
  {
   "property": "C54",
   "status": "partial",
   "theorems": [
    "C54_same_name_refuted",
    "C54_partial"
   ],
   "note": "Refuted in general (two nested spaces may share a name at different depths, so a perturbation written for one acts on the other); C54_partial proves, with distinct names, that the space chosen is the one it was built for"
  },
  {
   "property": "C55",
   "status": "partial",
   "theorems": [
    "C55_structure_refuted",
    "C55_initialize",
    "C55_sample_partial",
    "C55_array_of_objects"
   ],
   "note": "Refuted: a sampled plain space holding a tessellation has an object array, not the list initialize gives; the structure of both is proved otherwise"
  },
  {
   "property": "C56",
   "status": "partial",
   "theorems": [
    "C56_refuted",
    "C56_plain_fails",
    "C56_partial"
   ],
   "note": "Refuted: with a plain parameter space among the parameters every birth from the neighbour raises TypeError; C56_partial: with tessellations nested and priors usable at every position it never raises, whatever the draws"
  },
  {
   "property": "C57",
   "status": "proved",
   "theorems": [
    "C57_interleaving",
    "C57_modes",
    "C57_positions"
   ],
   "note": "each chain draws from its own stream in the interleaving theorem"
  },
  {
   "property": "C58",
   "status": "proved",
   "theorems": [
    "C58_exception",
    "C58_too_many_failures",
    "C58_parallel",
    "C58_sequential",
    "C58_inversion",
    "C58_initialization"
   ],
   "note": ""
  },
  {
   "property": "C59",
   "status": "partial",
   "theorems": [
    "C59_space_copy",
    "C59_state_copy",
    "C59_todict",
    "C59_items",
    "C59_items_refuted",
    "C59_dimensions_refuted"
   ],
   "note": "Copies of all states: proved in full (equality of values, noise, temperature; empty cache and extra storage); independence of mutable storage is C17. items()/todict: proved for space names without dots and parameters not called n_dimensions; both restrictions are needed (C59_items_refuted, C59_dimensions_refuted)."
  },
  {
   "property": "C60",
   "status": "partial",
   "theorems": [
    "C60_top_level",
    "C60_nested_partial",
    "C60_refuted"
   ],
   "note": "Spaces of the parameterization: every held, saved or proposed state has a tree, built from exactly its sites. Nested states: a tree that is there belongs to the sites; refuted that there always is one (states born inside another space come from sample(), which adds no tree)."
  },
  {
   "property": "C61",
   "status": "proved",
   "theorems": [
    "C61_temperature",
    "C61_setter",
    "C61_swaps",
    "C61_annealing",
    "C61_batch",
    "C61_inversion"
   ],
   "note": "C61_inversion: chains of every inversion, any of the three samplers, any number of runs; callbacks may do anything that leaves state and chain in agreement"
  },
  {
   "property": "C62",
   "status": "partial",
   "theorems": [
    "C62_dict_states_refuted",
    "C62_dict_states_partial"
   ],
   "note": "fails with save_dpred=True"
  },
  {
   "property": "C63",
   "status": "partial",
   "theorems": [
    "C63_space_partial",
    "C63_space_model_partial",
    "C63_space_refuted",
    "C63_n_dimensions_refuted",
    "C63_state_partial",
    "C63_state_model_partial",
    "C63_state_refuted",
    "C63_saving_keys",
    "C63_saving_partial",
    "C63_saving_refuted",
    "C63_saved_dimensions",
    "C63_distinct"
   ],
   "note": "Refuted in general: names of fields, methods or properties of the state classes break the objects (C63_space_refuted, C63_n_dimensions_refuted, C63_state_refuted) and a parameter whose name contains n_dimensions makes every save raise KeyError (C63_saving_refuted). Proved exactly which names are safe."
  },
  {
   "property": "C64",
   "status": "proved",
   "theorems": [
    "C64_is_sorted",
    "C64_empty_refuted"
   ],
   "note": ""
  },
  {
   "property": "C65",
   "status": "partial",
   "theorems": [
    "C65_statistics_partial",
    "C65_statistics_2d_partial",
    "C65_percentile",
    "C65_median",
    "C65_mean_std",
    "C65_order",
    "C65_refused",
    "C65_short_refuted"
   ],
   "note": "Proved for ensembles with as many lists of sites (or extents) as lists of values; extents need non-negative positions in order (see C50). Refuted otherwise: missing samples enter the statistics as zeros (C65_short_refuted)."
  },
  {
   "property": "C66",
   "status": "partial",
   "theorems": [
    "C66_density_partial",
    "C66_default",
    "C66_row_mass",
    "C66_negative_sites_refuted"
   ],
   "note": "Mass and normalisation proved (C66_density_partial: extents need non-negative positions in order, see C50); with numbers of bins every row is the histogram at one position, when the largest site is positive (C66_default, C66_row_mass). Refuted: positions start at 0 whatever the domain, so sites at negative positions are left out (C66_negative_sites_refuted)."
  },
  {
   "property": "C67",
   "status": "proved",
   "theorems": [
    "C67_shown",
    "C67_elementary",
    "C67_move",
    "C67_own_perturb"
   ],
   "note": "Simulation between the heap model (ModelHeap, addresses, sharing, in-place changes) and the value models (ModelPerturb, ModelLikelihood); C67_move for every perturbation function of an inversion, states with distinct names and non-empty lists as constructors demand."
  },
  {
   "property": "C68",
   "status": "proved",
   "theorems": [
    "C68_run",
    "C68_attempt",
    "C68_saved",
    "C68_array",
    "C68_likelihood"
   ],
   "note": "Simulation between chains of the heap model and chains of values, on top of C67; the likelihood in memory must compute what the model of the likelihood computes (C68_likelihood: so does the code on what the objects show). Without user hooks and printing."
  },
  {
   "property": "C69",
   "status": "proved",
   "theorems": [
    "C69_histories",
    "C69_saved",
    "C69_creation",
    "C69_vanilla",
    "C69_tempering",
    "C69_annealing",
    "C69_processes",
    "C69_shared_refuted"
   ],
   "note": "For inversions whose chains have State objects of their own, which includes every BayesianInversion (C69_creation, C69_histories). That this is needed (BaseBayesianInversion may be given one State object for several chains) is shown by C69_shared_refuted. Without user hooks and printing; processes work on a disjoint copy of the memory."
  },
  {
   "property": "C70",
   "status": "partial",
   "theorems": [
    "C70_nuclei_partial",
    "C70_extents_partial",
    "C70_drawn",
    "C70_many",
    "C70_not_swapped",
    "C70_not_swapped_refuted",
    "C70_last_cell_refuted",
    "C70_many_refuted"
   ],
   "note": "Holds with swapped axes, the default. With swap_xy_axes=False the curve shows at each position the value of the cell before (C70_not_swapped, C70_not_swapped_refuted); plot_tessellations ignores swap_xy_axes=False (C70_many_refuted); without an upper bound the last cell is not drawn when all interfaces are at 0 (C70_last_cell_refuted). matplotlib's step is modelled by its documentation."
  },
  {
   "property": "C71",
   "status": "proved",
   "theorems": [
    "C71_drawing",
    "C71_duplicates",
    "C71_scipy"
   ],
   "note": "scipy.spatial.Voronoi is a function that tells which regions are bounded, assumed to be right about that (finds_bounded, satisfiable by C71_scipy) and to keep the points in order. Lines, dots, colour maps and colour bars are not modelled."
  },
  {
   "property": "C72",
   "status": "proved",
   "theorems": [
    "C72_birth",
    "C72_death",
    "C72_draws",
    "C72_balance",
    "C72_prior_balance"
   ],
   "note": "Priors with densities (uniform, Gaussian, Laplace; user functions of CustomPrior have none to compare with). The ratio covers nested tessellations; balance (C72_balance, C72_prior_balance) is stated for tessellations without nested spaces."
  },
  {
   "property": "C73",
   "status": "proved",
   "theorems": [
    "C73_iteration",
    "C73_invariant",
    "C73_run",
    "C73_function",
    "C73_ratio_function",
    "C73_gaussian_data",
    "C73_continuous",
    "C73_posterior"
   ],
   "note": "One ParameterSpace with one UniformPrior and a fixed number of values; trans-dimensional spaces are C77; other priors and several spaces are covered pointwise (C10-C12, C72) and for finite state spaces (C15), not here. Exact real arithmetic. The draws follow the distributions numpy documents: index uniform, step standard normal (density the derivative of a normal distribution function, exists by ExampleWalk.normal_cdf_exists), acceptance number uniform on (0,1)."
  },
  {
   "property": "C74",
   "status": "partial",
   "theorems": [
    "C74_log_prior",
    "C74_move",
    "C74_nested_refuted"
   ],
   "note": "Holds for spaces whose parameters are priors. With nested spaces log_prior raises (NotImplementedError for tessellations, TypeError for ParameterSpace), shown by C74_nested_refuted; Voronoi.log_prior is not implemented in the code."
  },
  {
   "property": "C75",
   "status": "partial",
   "theorems": [
    "C75_uniform",
    "C75_gaussian",
    "C75_laplace",
    "C75_custom",
    "C75_uniform_rejected",
    "C75_unsorted_refuted"
   ],
   "note": "Holds for positions in order (1-D) and for whatever SciPy interpolates in N-D. Refuted otherwise: nothing checks the order of 1-D positions, and values at positions out of order are not the values used there (C75_unsorted_refuted). With position arrays in N-D the width is covered for scalar limits only (it is SciPy's interpolation of the difference)."
  },
  {
   "property": "C76",
   "status": "partial",
   "theorems": [
    "C76_select",
    "C76_any_index",
    "C76_out_of_range",
    "C76_any_out_of_range",
    "C76_name",
    "C76_other",
    "C76_no_index_refuted"
   ],
   "note": "Holds for every list of integers from -n to n-1 (negative ones count from the end) except the empty one on a state with nested states, which raises IndexError (C76_no_index_refuted)."
  },
  {
   "property": "C77",
   "status": "proved",
   "theorems": [
    "C77_iteration",
    "C77_invariant",
    "C77_run",
    "C77_prior",
    "C77_function",
    "C77_ratio_function",
    "C77_gaussian_data",
    "C77_posterior"
   ],
   "note": "One ParameterSpace with one UniformPrior and n_dimensions=None, n_dimensions_min at least 1. Tessellations (births at positions) are covered pointwise by C10 and C72. Exact real arithmetic; the draws follow the documented distributions, as for C73; retries do not occur, since no draw raises."
  },
  {
   "property": "C78",
   "status": "partial",
   "theorems": [
    "C78_value",
    "C78_site",
    "C78_first_values",
    "C78_sample",
    "C78_initialize",
    "C78_birth",
    "C78_cell_birth",
    "C78_initialize_refuted"
   ],
   "note": "Proved: which draws every first or newborn value and site comes from, and how. Refuted for plain spaces with position-dependent priors: initialize passes the uninitialised memory of np.empty as positions (C78_initialize_refuted); C78_initialize covers all other spaces. Births with birth_from='neighbour' are C55. That the draws have the documented distributions is assumed."
  },
  {
   "property": "C79",
   "status": "partial",
   "theorems": [
    "C79_iteration",
    "C79_run_partial",
    "C79_function",
    "C79_ratio_function",
    "C79_refuted"
   ],
   "note": "Refuted: the random walk of a site is drawn again until it is between the limits and the proposal ratio is reported as 0, so the kept density is exp(log likelihood / T) times the product over the sites of the probability that a step from the site stays within the limits (C79_run_partial, any number of sites and iterations). C79_refuted: one site, constant likelihood, the uniform distribution is not kept. The tessellation has no parameters besides its sites; likelihoods are functions or ratio functions of the state."
  },
  {
   "property": "C80",
   "status": "partial",
   "theorems": [
    "C80_shown_partial",
    "C80_exists",
    "C80_unswapped_error",
    "C80_unswapped_transposed",
    "C80_refuted"
   ],
   "note": "Holds with swapped axes (default). With swap_xy_axes=False the density array is not transposed: TypeError unless there are as many position bins as value bins, otherwise (also by default, 100 and 100) the drawing is transposed. Points on edges of bins are left out."
  },
  {
   "property": "C81",
   "status": "proved",
   "theorems": [
    "C81_bars",
    "C81_exists",
    "C81_no_boundary"
   ],
   "note": "Ensembles without any boundary give NaN in NumPy (Undef in the model)."
  },
  {
   "property": "C82",
   "status": "proved",
   "theorems": [
    "C82_curves",
    "C82_few_percentiles"
   ],
   "note": "At least one sample; positions in order for extents, as in C65."
  },
  {
   "property": "C83",
   "status": "partial",
   "theorems": [
    "C83_iteration",
    "C83_run_partial",
    "C83_function",
    "C83_gaussian_data",
    "C83_continuous",
    "C83_data_partial",
    "C83_refuted"
   ],
   "note": "Refuted: the random walk of the noise level is drawn again until it is between the limits and the proposal ratio is reported as 0, so the kept density is exp(log likelihood / T) times the probability that a step of the level stays within its limits (C83_run_partial; C83_data_partial for Gaussian data with a positive lower limit of the level). C83_refuted: constant likelihood, the uniform distribution of the level is not kept. One space of numbers with uniform priors and one target with uncorrelated noise."
  },
  {
   "property": "C84",
   "status": "proved",
   "theorems": [
    "C84_iteration",
    "C84_run",
    "C84_proper",
    "C84_function",
    "C84_gaussian_data",
    "C84_posterior"
   ],
   "note": "One space with one parameter whose hyperparameters are numbers (no positions). Expectations and integrals are Riemann integrals, over R^n as limits over boxes; the normal law enters through its distribution function."
  },
  {
   "property": "C85",
   "status": "proved",
   "theorems": [
    "C85_converges",
    "C85_means_unique",
    "C85_only",
    "C85_posterior"
   ],
   "note": "One space with one parameter whose hyperparameters are numbers (no positions), as in C73."
  },
  {
   "property": "C86",
   "status": "partial",
   "theorems": [
    "C86_sites_partial",
    "C86_sites_refuted",
    "C86_level_partial",
    "C86_level_refuted"
   ],
   "note": "Refuted: the chains do converge from every start at a geometric rate, but to the density exp(log likelihood / T) times the probability that steps of the sites (of the level) stay within their limits (C86_sites_partial, C86_level_partial); for one site or level in [0, 10] and a constant likelihood the limit of a mean is strictly larger than the posterior mean, whatever the start (C86_sites_refuted, C86_level_refuted)."
  },
  {
   "property": "C87",
   "status": "proved",
   "theorems": [
    "C87_converges",
    "C87_posterior",
    "C87_numbers"
   ],
   "note": "One space with one parameter whose hyperparameters are numbers (no positions), as in C77."
  },
  {
   "property": "C88",
   "status": "proved",
   "theorems": [
    "C88_iteration",
    "C88_converges",
    "C88_means_unique",
    "C88_function",
    "C88_gaussian_data",
    "C88_continuous",
    "C88_posterior"
   ],
   "note": "One space with one dimension; hyperparameters are numbers (no positions). Names that contain n_dimensions are excluded: saving such a parameter fails in the code."
  },
  {
   "property": "C89",
   "status": "partial",
   "theorems": [
    "C89_attempt",
    "C89_partial",
    "C89_refuted",
    "C89_function",
    "C89_gaussian_data"
   ],
   "note": "Holds when the first chain of the pair has temperature 1 or both have the same temperature (C89_partial). Refuted otherwise: the difference of log likelihoods is divided by the temperature of the first chain a second time, and the mean of the samples at temperature 1 drifts (C89_refuted: for the log likelihood -x on the unit interval, over both orders of the pair). Inversions for numbers with one uniform prior."
  },
  {
   "property": "C90",
   "status": "proved",
   "theorems": [
    "C90_estimates",
    "C90_mean_unique",
    "C90_saved",
    "C90_numbers",
    "C90_numbers_unique",
    "C90_transd"
   ],
   "note": "For several parameters with uniform priors of their own (C90_estimates, with the saved samples of the run in C90_saved), a fixed number of values with one prior (C90_numbers) and trans-dimensional inversions (C90_transd). Mean squares over the draws of all iterations; with hooks that do nothing and without printing. At temperatures other than 1 the estimates are of the tempered posterior, but nothing is saved then."
  },
  {
   "property": "C91",
   "status": "proved",
   "theorems": [
    "C91_estimates",
    "C91_saved"
   ],
   "note": "For the parameterizations of C88 (several parameters with uniform priors of their own), a sampler without further callbacks, and runs without printing. C91_saved links the run of the sampler to the path of C91_estimates; chains must not have moved before, since the schedule counts iterations over all runs."
  },
  {
   "property": "C92",
   "status": "proved",
   "theorems": [
    "C92_callable",
    "C92_default",
    "C92_taken",
    "C92_one_value_each",
    "C92_wrong_number",
    "C92_inversion",
    "C92_support_refuted"
   ],
   "note": "The functions return one-dimensional arrays. That the values are checked against the support is refuted: C92_support_refuted."
  },
  {
   "property": "C93",
   "status": "proved",
   "theorems": [
    "C93_vanilla",
    "C93_annealing",
    "C93_data",
    "C93_integral_unique"
   ],
   "note": "Uniform priors, one space with one value per number, no unknown noise; draws are independent standard normal and uniform numbers (trusted)."
  },
  {
   "property": "C94",
   "status": "proved",
   "theorems": [
    "C94_results",
    "C94_estimates",
    "C94_mean_unique",
    "C94_data"
   ],
   "note": "Uniform priors, one space with one value per number, no unknown noise, names without \"dpred\"; the draws of the chains are independent (trusted: the run gives every chain its own part of the trace)."
  },
  {
   "property": "C95",
   "status": "proved",
   "theorems": [
    "C95_inversion",
    "C95_consistent",
    "C95_estimates",
    "C95_probability"
   ],
   "note": "C95_inversion: from the construction of the inversion to the mean of what get_results returns, for Gaussian data with known noise. Probabilities are lower probabilities (the mean of a function below the indicator of the event); where the event has a probability in the sense of Riemann, it is at least as large (C95_probability)."
  },
  {
   "property": "C96",
   "status": "proved",
   "theorems": [
    "C96_inversion",
    "C96_consistent"
   ],
   "note": "Probabilities as in C95. Uniform priors, one space with one value per number, no unknown noise."
  },
  {
   "property": "C97",
   "status": "proved",
   "theorems": [
    "C97_inversion",
    "C97_consistent",
    "C97_below",
    "C97_mass_unique"
   ],
   "note": "Probabilities as in C95; posterior probabilities are limits of posterior means of continuous functions below and above the indicator. Uniform priors, one space with one value per number, no unknown noise."
  },
  {
   "property": "C98",
   "status": "proved",
   "theorems": [
    "C98_inversion",
    "C98_consistent"
   ],
   "note": "Probabilities as in C95, posterior probabilities as in C97, np.percentile as in C65, here applied to the values of get_results. Uniform priors, one space with one value per number, no unknown noise."
  },
  {
   "property": "C99",
   "status": "proved",
   "theorems": [
    "C99_mean_std",
    "C99_median"
   ],
   "note": "Probabilities as in C95, posterior probabilities as in C97, np.mean, np.std and np.median as in C65, here applied to the values of get_results. Uniform priors, one space with one value per number, no unknown noise."
  }
 ]
}