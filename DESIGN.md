# Formal model of BayesBay in Rocq: design

Source: `/repo` (fmagrini/bayes-bay), read as text. Nothing of it is executed.

## 1. Approach

* The code is transcribed function by function into total Gallina functions
  (`rocq/theories/Model*.v`).  Every definition cites file and lines and says
  where it simplifies.
* **Randomness** is an explicit input.  A *trace* is the list of the values the
  random generators return; `M A := trace -> out A` consumes it.  A theorem
  "for all traces" therefore is a theorem for all random draws.  A draw that the
  generator could not have produced (for instance a `randint` result out of
  range), or a trace that is too short, gives the outcome `Starve`; rejection
  loops consume the trace, so a loop that never ends is a trace that never ends.
* **Exceptions** are outcomes (`Err e`), **undefined behaviour** of the Cython
  code (uninitialised variables, unchecked out-of-range accesses) is the outcome
  `UBeh`/`Undef`; theorems exclude them explicitly or exhibit them.  Methods of chains,
  samplers and inversions that raise return the object as it is at that moment together
  with the exception.
* **Numbers.**  Python/NumPy floats that are data are modelled as real numbers
  (`R`), so rounding is not modelled; log ratios are extended numbers
  `ext := Fin r | PInf | MInf | NaN` with IEEE rules for infinities and NaN.
  Integers are `nat`/`Z`.  Chains and samplers are polymorphic in the states.
* **User code** (forward functions, custom priors, callbacks, `log_like_func`, states of
  the low-level interface) enters as function arguments, universally quantified; each
  theorem says what it assumes about them (for instance: a callback only observes).
* **Specifications** (`Spec*.v`, or next to the theorem) are written without the
  model's helper functions: first principles such as "sorted", "permutation",
  "sum", "closest", "matrix inverse", "density", "the set of saved iterations".
* Files: `Base.v` (outcomes, traces, dictionaries, extended numbers), `Model*.v`
  (transcription), `Spec*.v` (specifications), `Proof*.v` (lemmas), `Prop*.v` (the theorems of
  the properties, named after them, with `Example`s beside them that show the hypotheses
  can be met by non-trivial cases), `Example*.v` (concrete spaces, states, runs used there).
* Where the code violates a property, a theorem `..._refuted` gives a concrete witness
  computed by the model; what does hold is proved as `..._partial` under the extra
  hypothesis (or, where the exact condition is known, as an equivalence).

## 2. Trusted base

* Coq 8.16.1 kernel (`coqc`).  No kernel check is switched off, no axiom, parameter or admitted
  proof is added; no functor or module type is declared.
* Axioms: only those of the standard library's real numbers and classical logic:
  `ClassicalDedekindReals.sig_forall_dec`, `ClassicalDedekindReals.sig_not_dec`,
  `FunctionalExtensionality.functional_extensionality_dep`, `Classical_Prop.classic`.
  Section 6 lists what `Print Assumptions` prints for every theorem of `MANIFEST.json`.
  Libraries other than Coq's own: Coquelicot, used for the integrals of C73, C77, C79, C83, C84, C85, C86, C87, C88, C89, C90, C91, C93, C94, C95, C96, C97, C98 and C99 and in `ExampleWalk.v` (the normal
  distribution function exists); it adds no axiom.
* The transcription itself (Python/Cython to Gallina) is trusted; its simplifications
  are listed in section 4 and at each definition.

## 3. What is modelled where

| code in `/repo/src/bayesbay` | model |
|---|---|
| `_utils_1d.pyx` (all functions) | `ModelUtils1D` |
| `_utils.py` (function specifications) | `ModelInversion` |
| `prior/_prior.py` (Prior, UniformPrior, GaussianPrior, LaplacePrior, CustomPrior, hyper-parameters) | `ModelPrior`, `ModelPriorB` (attribute delta of UniformPrior), `ModelCustom` (set_custom_initialize) |
| `_state.py` (DataNoiseState, ParameterSpaceState, State) | `ModelState`; `__getitem__` with any argument `ModelSelect`; with the namespace of the instances `ModelNames` |
| `parameterization/_parameter_space.py`, `discretization/_discretization.py`, `discretization/_voronoi.py` (construction, initialize, sample, birth, death, site moves, kd-tree, nearest neighbour) | `ModelSpace` |
| `parameterization/_parameterization.py`, `perturbations/_birth_death.py`, `_param_values.py`, `_param_space.py` | `ModelPerturb` |
| `perturbations/_data_noise.py`, `likelihood/_target.py`, `likelihood/_log_likelihood.py`, class BayesianInversion of `_bayes_inversion.py`, class MarkovChain of `_markov_chain.py` | `ModelLikelihood` |
| `_markov_chain.py` (BaseMarkovChain), `random.choices` of CPython | `ModelChain` |
| `samplers/_samplers.py` (VanillaSampler, ParallelTempering, SimulatedAnnealing) | `ModelSampler` |
| `_bayes_inversion.py` (BaseBayesianInversion: weights, chains, results, run) | `ModelInversion`, `ModelSampler` |
| `discretization/_voronoi.py` (statistics and densities of ensembles, interpolation of Voronoi2D) | `ModelEnsemble` |
| the same states, spaces, perturbations and one iteration of a chain, with objects that have addresses, are shared and changed in place (for C17, C67, C68) | `ModelHeap` |
| `samplers/_samplers.py`, creation and runs of inversions, with objects that have addresses; processes (for C69) | `ModelHeapSampler` |
| `discretization/_voronoi.py` (drawings of tessellations: the curve in 1-D, the filled cells in 2-D) | `ModelPlot` |
| `discretization/_voronoi.py` (drawings of ensembles: densities, interfaces, statistics) | `ModelHist` |


## 4. What is not modelled, and simplifications

* Floating-point rounding, overflow and NumPy dtype corner cases (integer arrays,
  broadcasting other than of arrays of length one).  `setup.py` compiles the Cython code with
  `-ffast-math`, which lets the compiler ignore infinities; the model uses the source semantics.
* Printing, `__repr__`, plotting other than of tessellations and ensembles (C70, C71, C80-C82).  Statistics of ensembles without samples, and densities where
  no value falls into a bin or a bin has no width (NumPy returns NaN): outcome `Undef`.
* Delaunay/ND interpolation of hyper-parameters, shapely polygons, kd-tree internals,
  `scipy.sparse`: oracles (function arguments); a kd-tree is represented by the sites it was
  built from.
* joblib: parallel mode is modelled by its interleavings (`ModelSampler`, C57) and by copies of the
  whole memory (`ModelHeapSampler`, C69); what pickling refuses to copy is not modelled.
* Deprecated or unused code paths: `log_like_ratio_func` is a function argument; weights that
  are not finite numbers are not modelled.
* Errors raised on construction with arguments of wrong Python types.
* All models but `ModelHeap` and `ModelHeapSampler` treat objects as values.  `ModelHeap` has objects with addresses;
  there, states made from nothing are allocated when complete, and user code is assumed not to
  write to objects.
* Every definition says so in its comment when it simplifies further.

### Findings

Behaviour of the code that the proofs exposed (with the theorem where there is one).

* `ParamPerturbation` updates `param_values` of a copy but not its attributes, so attributes are
  stale after a move (`C18_*`, `_refuted`).
* A name containing `n_dimensions` makes saving a sample raise KeyError (`C63_saving_refuted`);
  names equal to attributes or methods of the state classes overwrite them (C63).
* A target named like a parameter space overwrites that space's entry of the state.
* Proposals from a bounded normal walk are treated as symmetric (`C53_site_refuted`,
  `C53_point_refuted`, `C53_noise_refuted`).  A chain for the sites of a 1-D tessellation therefore samples the
  posterior times the probability that steps from its sites stay inside (`C79_run_partial`, `C79_refuted`).
* `plot_tessellation_density(swap_xy_axes=False)` hands the density to matplotlib without transposing it: TypeError, or
  a transposed drawing when the numbers of bins are equal, as by default (`C80_refuted`); its argument `colorbar` is not used.
* Hierarchical inversions keep, instead of the posterior, the posterior times the probability that a step of the noise level
  stays within its limits: levels within a step of the limits are sampled too rarely (`C83_run_partial`, `C83_refuted`).
* Both chains do converge, from every start, but to these other distributions, so that longer runs do not remove
  the error (`C86_sites_refuted`, `C86_level_refuted`).
* ParallelTempering divides the difference of log likelihoods by the temperature of the first chain twice
  (`C29_exchange_refuted`): when a warm chain is drawn first, exchanges move the samples at temperature 1 away from
  the posterior distribution (`C89_refuted`).
* Birth at the maximum and death at the minimum return the old object itself; the caller then
  writes a kd-tree into the old state's cache.
* `n_dimensions_init_range > 1` can start above the maximum; `n_dimensions_min = 0` crashes.
* Position-dependent hyper-parameters in a space without discretization: `initialize` uses
  uninitialised positions (`C78_initialize_refuted`), births raise ValueError.  Position-dependent Gaussian and Laplace
  priors in more than one dimension raise ValueError unless there is one site.
* `ParameterSpace.log_prior` fails on nested spaces.
* `Parameterization`'s check for duplicated parameters cannot fire.
* `n_jobs = -1` runs sequentially; in parallel mode hooks run in the workers and what they do to
  other chains is lost.
* Correlated noise with fewer than three data reads out of range; correlation 1 or standard
  deviation 0 raise.
* `get_tessellation_statistics` counts samples without sites as zeros when the lists differ in
  length (`C65_short_refuted`).
* `get_tessellation_density` starts the positions at 0 whatever the domain, so tessellations at
  negative positions are left out, and ends at the largest site rather than at the domain's end
  (`C66_negative_sites_refuted`).
* `BaseBayesianInversion` takes the starting states uncopied: with one State object for several
  chains, parallel tempering and annealing set the temperature of all of them
  (`C69_shared_refuted`).
* `Voronoi1D.plot_tessellation` with `swap_xy_axes=False` shows each cell's value one cell too far
  (`C70_not_swapped_refuted`); `plot_tessellations` ignores `swap_xy_axes=False`
  (`C70_many_refuted`); without an upper bound the last cell is not drawn when all interfaces are
  at 0 (`C70_last_cell_refuted`).
* `Voronoi2D.plot_tessellation` raises ValueError when two sites coincide (`C71_duplicates`); when all
  sites are on one axis, the four points it adds are on that axis too and scipy refuses them (not
  modelled).
* The values that a custom initialization function returns are not checked against the prior: a value
  outside the range of a uniform prior becomes part of the starting state (`C92_support_refuted`).

## 5. Per property: what is proved, and how

Status and theorem names as in `MANIFEST.json`; the files are those of `rocq/theories`.

**C01. Number of dimensions stays within the configured limits** — proved (`PropRun`). Invariant `wf` of the states, preserved by every move that can be accepted; induction over iterations, sampler runs and repeated runs. For every chain of every inversion over valid spaces and targets (setup_ok), any of the three samplers, any number of runs; user callbacks only observe. Theorems: `C01_dimensions`, `C01_saved_numbers`.

**C02. Every parameter has one value per dimension** — proved (`PropRun`). Same invariant. For every chain of every inversion over valid spaces and targets (setup_ok), any of the three samplers, any number of runs; user callbacks only observe. Theorems: `C02_one_value_per_dimension`, `C02_entries`.

**C03. 1-D Voronoi sites are always sorted and inside the domain** — proved (`PropRun`). Same invariant (sites sorted). For every chain of every inversion over valid spaces and targets (setup_ok), any of the three samplers, any number of runs; user callbacks only observe. Theorems: `C03_sites_sorted`.

**C04. Multi-dimensional Voronoi sites stay in the box or polygon** — proved (`PropRun`). Same invariant (sites within the domain). For every chain of every inversion over valid spaces and targets (setup_ok), any of the three samplers, any number of runs; user callbacks only observe; polygon.contains of shapely is a parameter. Theorems: `C04_sites_inside`.

**C05. Values under a uniform prior never leave their support** — proved (`PropRun`). Same invariant (values within the support of their priors). For every chain of every inversion over valid spaces and targets (setup_ok), any of the three samplers, any number of runs; user callbacks only observe. Theorems: `C05_support`, `C05_never_accepted`.

**C06. Noise hyper-parameters stay within their limits** — proved (`PropRun`, `PropMoves`). Same induction; rejection loop by induction on the trace. For every chain of every inversion over valid spaces and targets (setup_ok), any of the three samplers, any number of runs; user callbacks only observe. Theorems: `C06_noise`, `C06_saved_noise`, `C06_limits`, `C06_accepted`.

**C07. A site move keeps every value attached to its site** — proved (`PropSpace`). Permutation argument for any sorting permutation. Cells (site and all values) of the new state are a permutation of the old ones with one site replaced. Theorems: `C07_site_move`.

**C08. A birth inserts exactly one dimension consistently** — proved (`PropSpace`). List lemmas on insertion and deletion. That the state passed in is not changed is covered by C17 (heap model). Theorems: `C08_birth`.

**C09. A death removes exactly one dimension consistently** — proved (`PropSpace`). Inversion lemmas of births and deaths. Theorems: `C09_death`, `C09_death_refused`, `C09_birth_refused`.

**C10. Birth and death of a Voronoi cell are exact reverses** — proved (`PropSpace`). Structural induction over the tree of nested tessellations, algebra of extended numbers. Birth from prior and from neighbour, nested tessellations included. Theorems: `C10_reverse`.

**C11. Trans-dimensional moves of a plain ParameterSpace satisfy detailed balance** — proved (`PropSpaceB`). Sums over insertion indices. Plain parameter spaces of priors; densities of the moves' draws are part of the specification (SpecMoves). Theorems: `C11_births`, `C11_births_all`, `C11_deaths`, `C11_deaths_all`, `C11_detailed_balance`.

**C12. Value perturbation returns the exact log prior ratio** — proved (`PropPrior`, `PropMoves`). Real algebra on log densities. Theorems: `C12_hyper_parameters`, `C12_log_prior`, `C12_value_ratio`, `C12_ratio_is_difference`, `C12_move`.

**C13. Parameters with a CustomPrior can be perturbed** — partial (`PropPrior`). Evaluation of the branches of CustomPrior. Refuted: outside births perturb_value raises UnboundLocalError; in births the claimed ratio is returned. Theorems: `C13_custom_prior_refuted`, `C13_custom_prior_partial`.

**C14. Acceptance follows the Metropolis-Hastings-Green rule** — proved (`PropChain`). Monotonicity of ln/exp. For draws in (0,1); a draw of exactly 0.0 raises ValueError (C14_zero_draw_refuted). Theorems: `C14_acceptance`, `C14_rejection_keeps_state`, `C14_decided`, `C14_zero_draw_refuted`.

**C15. The acceptance rule makes the target stationary (detailed balance)** — partial (`PropBalance`). Finite sums; the acceptance rule as a function of the uniform draw. The decision rule of the model accepts with probability min(1,exp(ratio)) and, for any mixture of moves reporting the exact prior and proposal ratio, is in detailed balance with the tempered posterior and leaves it stationary (finite state spaces; pointwise for densities). That the concrete moves report the exact ratio is C10-C12; the continuous case is C73 and C77 for numbers with uniform priors. Drawing a failed proposal again breaks detailed balance (refuted). Theorems: `C15_acceptance_probability`, `C15_detailed_balance`, `C15_stationary`, `C15_kernel`, `C15_retries_refuted`.

**C16. A parameter-space perturbation changes exactly one sub-state** — proved (`PropSpace`). Induction on the breadth-first queue with paths. Theorems: `C16_one_substate`.

**C17. A proposal never mutates the current state or saved samples** — proved (`PropHeap`). Heap model with addresses; triples 'objects below the base keep their data' for every function, composed up to chains. Heap model with addresses (ModelHeap): every perturbation and every run of a chain, from any heap with any sharing, also when exceptions are raised. Forward functions and other user code are assumed not to write to the objects they are given. Theorems: `C17_move`, `C17_elementary`, `C17_old_values`, `C17_chain`, `C17_chain_values`, `C17_saved`.

**C18. Item access and attribute access of a proposed state agree** — partial (`PropState`). Two dictionaries (param_values, attributes) in the states; invariant over chains. Violated by the code. C18_refuted: after a move of parameter values the attributes of the proposed state show the old values (C18_old_values_shown: always); C18_noise_refuted: the same for noise. Proved: state.space is state['space'] in every state of every chain, copies and starting states agree completely, births/deaths/site moves agree (from states whose nested states are in step; always without nested spaces), noise moves leave all spaces in step. Theorems: `C18_spaces_partial`, `C18_copies_partial`, `C18_start_partial`, `C18_structure_partial`, `C18_flat_partial`, `C18_old_values_shown`, `C18_noise_partial`, `C18_refuted`, `C18_noise_refuted`.

**C19. Cached predictions are never stale** — proved (`PropLikelihood`, `PropPredictions`, `PropMoves`). Coherence invariant between caches and forward functions over chains. Cached predictions are those of the state's own parameters in every state of a chain of an inversion after any runs; ratio and saved predictions use them. For deterministic forward functions of the parameters. Theorems: `C19_ratio`, `C19_current`, `C19_saved`, `C19_elementary`.

**C20. Saved predictions are aligned with the saved samples** — partial (`PropPredictions`). Induction over iterations after the first prediction; witness. Refuted: a sample is saved without predictions when the first proposals have ratio zero (witness: death of the only cell). Partial: once the current state has predictions, every further sample comes with its own, in order; without custom priors, position-dependent priors or births from the neighbour no further assumption is needed. Theorems: `C20_refuted`, `C20_partial`, `C20_simple_partial`.

**C21. A noise move reuses the predictions of the current state** — partial (`PropPredictions`). Characterisation of what copy keeps. Refuted: keep_dpred keeps the key 'dpred' only, so no prediction survives a noise perturbation and forward functions run again every time. Theorems: `C21_refuted`, `C21_runs_again`.

**C22. Samples are saved exactly on schedule** — proved (`PropChain`). Induction over iterations. Callbacks may do anything but tamper with samples and counters; save_every=0 raises ZeroDivisionError. Theorems: `C22_schedule`, `C22_schedule_list`, `C22_count`, `C22_save_every_zero_refuted`.

**C23. Splitting a run does not change it** — proved (`PropChain`). Induction over iterations. Theorems: `C23_split`.

**C24. Acceptance statistics are consistent** — proved (`PropChain`). Induction over iterations with counters. Theorems: `C24_statistics`, `C24_totals`, `C24_print`, `C24_print_every_zero_refuted`, `C14_acceptance`.

**C25. Failures of user functions are retried, counted and never change the chain** — proved (`PropChain`). Case analysis of _next_iteration. Theorems: `C25_retries`, `C25_retry_continues`, `C25_runtime_error`, `C25_other_exceptions`, `C25_failures_keep_state`.

**C26. Impossible proposals never reach the forward function** — proved (`PropChain`). Case analysis of _next_iteration. Theorems: `C26_infinite_ratio`, `C26_no_exceptions`.

**C27. Parallel tempering starts from the documented temperature ladder** — proved (`PropSampler`). Temperature_max=1 or fewer than two warm chains: see C27_too_few_chains. Theorems: `C27_ladder`, `C27_initialize`, `C27_too_few_chains`.

**C28. Swaps only permute temperatures** — proved (`PropSampler`). Theorems: `C28_permutation`, `C28_untouched`.

**C29. Parallel tempering swaps with the exchange probability** — partial (`PropSampler`). The code's exchange rule equals the balanced rule only when the first chain of the pair is at temperature 1 (C29_unit_first_partial); counterexample C29_exchange_refuted. Theorems: `C29_decision`, `C29_attempts`, `C29_unit_first_partial`, `C29_rule_balanced`, `C29_exchange_refuted`.

**C30. Parallel tempering performs the requested number of iterations** — proved (`PropSampler`). Theorems: `C30_iterations`, `C30_terminates`, `C30_swap_every_zero`, `C30_second_run`.

**C31. Parallel tempering respects the burn-in** — partial (`PropSampler`). A burn-in longer than swap_every is not observed (C31_burnin_refuted); C31_actual states what is saved instead. Theorems: `C31_actual`, `C31_short_burnin_partial`, `C31_burnin_refuted`.

**C32. Simulated annealing cools from the start temperature to one** — proved (`PropSampler`). Theorems: `C32_cooling`, `C32_schedule`, `C32_initialize`.

**C33. An annealed inversion can be continued** — partial (`PropSampler`). A second run of the same annealing sampler does not continue: refuted. Theorems: `C33_second_run`, `C33_continuation_refuted`.

**C34. Registered callbacks are called at the documented moments** — partial (`PropSampler`, `PropChain`). End_advance callbacks given by the user are never called: refuted. Theorems: `C34_iterations`, `C34_own_first`, `C34_initialize`, `C34_end_advance_ignored`, `C34_end_advance_refuted`, `C34_default_callbacks_refuted`.

**C35. Results are the concatenation of the chains' samples** — proved (`PropInversion`). Theorems: `C35_concatenated`, `C35_separate`, `C35_single`, `C35_not_chains`, `C35_no_chains`.

**C36. Results of list-like states are returned as a list** — partial (`PropInversion`). Refuted: the code returns dict(results), never a list. Theorems: `C36_never_a_list_refuted`, `C36_raises_refuted`, `C36_samples_lost_refuted`.

**C37. The chains of an inversion can be replaced by a list of chains** — partial (`PropInversion`). Refuted: the test of the setter is inverted. Theorems: `C37_lists_of_chains_refuted`, `C37_other_lists_refuted`, `C37_not_a_list_partial`.

**C38. Perturbation functions are validated and birth/death weights equalised** — proved (`PropInversion`). The caller's list is changed in place, also when the call is refused. Theorems: `C38_accepts`, `C38_result`, `C38_refused`, `C38_caller_list`, `C38_caller_list_refuted`.

**C39. Each perturbation is chosen with its weight** — proved (`PropChain`, `PropSpaceB`). Theorems: `C39_choice`, `C39_choice_total`, `C39_zero_weight`, `C39_perturbations`, `C39_elementary`, `C39_births_and_deaths`.

**C40. The target likelihood ratio is the Gaussian one** — proved (`PropLikelihood`). Real algebra with an independent log density of the multivariate normal. Log_density is the log density of independent multivariate normals with determinant and inverse covariance specified independently of the code; correlated noise with fewer than three data is undefined (C41_small_refuted) and so excluded. Theorems: `C40_gaussian`.

**C41. The correlated-noise covariance is inverted exactly** — proved (`PropUtils1D`, `PropLikelihood`). Explicit inverse and determinant checked against matrix definitions for every size. For n >= 3, s > 0, |r| < 1 as stated; the refuted theorems show what happens outside (n <= 2: memory outside the array is read; r = 1 or s = 0: an exception). Theorems: `C41_inverse_covariance`, `C41_small_refuted`, `C41_log_determinant`, `C41_log_determinant_total`, `C41_singular_refuted`.

**C42. Likelihood ratios compose** — partial (`PropLikelihood`). Proved for targets (deterministic forward functions) and finite log_like_func; C42_infinite_refuted: with an infinite log likelihood the ratio of a state with itself is NaN. Theorems: `C42_targets`, `C42_log_like`, `C42_infinite_refuted`, `C42_precedence`, `C42_nothing_given`.

**C43. Adding targets is all-or-nothing and reaches running inversions** — partial (`PropTargets`). Proved: valid calls cannot raise, extend likelihood, functions, observers and chains, over any history. Refuted: a rejected call leaves its targets behind (after which no call succeeds); functions given as tuples, functions without targets, and targets added to a likelihood made from a function do not work. Theorems: `C43_refuted`, `C43_partial`, `C43_history_partial`, `C43_duplicate`, `C43_stuck`, `C43_tuple_refuted`, `C43_functions_refuted`, `C43_ignored`.

**C44. Nearest-neighbour search in 1-D is exact** — proved (`PropUtils1D`). Induction over sorted lists. Theorems: `C44_nearest_neighbour_exact`.

**C45. Linear interpolation is exact and safe** — proved (`PropUtils1D`). Theorems: `C45_interpolate_linear`, `C45_node_values`, `C45_array`.

**C46. Position-dependent bounds stay ordered** — proved (`PropUtils1D`). Theorems: `C46_bounds_ordered`, `C46_width`.

**C47. Nearest interpolation returns the value of a nearest site** — proved (`PropUtils1D`). Theorems: `C47_interpolate_nearest`, `C47_interpolate_nearest_strict`, `C47_array`.

**C48. Voronoi cell extents partition the domain** — partial (`PropUtils1D`). Holds from two sites (three when unbounded on the left); with fewer the code reads uninitialised memory (refuted). Theorems: `C48_cell_extents_partial`, `C48_extents_partition_partial`, `C48_few_sites_refuted`.

**C49. Interfaces from nuclei and from extents agree** — proved (`PropUtils1D`). Theorems: `C49_interfaces_agree`, `C49_interfaces_are_midpoints`.

**C50. Tessellations are interpolated cell by cell** — partial (`PropUtils1D`). Holds for non-negative queries in non-decreasing order; refuted otherwise. Theorems: `C50_depth_profile_partial`, `C50_tessellation_agrees_partial`, `C50_unsorted_queries_refuted`, `C50_negative_query_refuted`.

**C51. Array insertion and deletion are mutually inverse** — proved (`PropUtils1D`). Theorems: `C51_insert`, `C51_delete`, `C51_delete_after_insert`, `C51_insert_after_delete`, `C51_out_of_range`.

**C52. Function specifications are resolved as documented** — proved (`PropInversion`). (function, kwargs, args) silently loses args. Theorems: `C52_documented`, `C52_none`, `C52_perturbations`, `C52_other_arguments`, `C52_only_user_exceptions`, `C52_dropped_arguments_refuted`.

**C53. Bounded random walks report their true proposal ratio** — partial (`PropWalk`, `PropMoves`, `PropWalkN`). Existence, uniqueness and ratio of the densities of bounded walks (geometric series, derivatives); in several dimensions by induction over the axes. Refuted: moves of noise levels and of one-dimensional sites redraw until within the limits and report the log ratio 0; the densities of these walks are determined and their log ratio is 0 only for values equally far from the middle of the limits. Joint moves of several noise levels draw each number by such a walk, with its own limits and step (C53_correlation_draws, C53_joint_draws). Sites in several dimensions redraw all coordinates at once: in a box the end point has independent coordinates, each distributed as a walk along its axis (C53_point_law), and the reported 0 is right only between points from which a step stays in the box equally often (C53_point_partial). For polygons only the draws are described (C53_point_draws). Theorems: `C53_density_exists`, `C53_density_unique`, `C53_log_ratio`, `C53_kept_law`, `C53_noise_draws`, `C53_correlation_draws`, `C53_joint_draws`, `C53_site_draws`, `C53_point_draws`, `C53_point_law`, `C53_point_ratio`, `C53_noise_partial`, `C53_noise_refuted`, `C53_site_partial`, `C53_site_refuted`, `C53_point_partial`, `C53_point_refuted`.

**C54. Nested parameter spaces are perturbed by their own rules** — partial (`PropNested`). Refuted in general (two nested spaces may share a name at different depths, so a perturbation written for one acts on the other); C54_partial proves, with distinct names, that the space chosen is the one it was built for. Theorems: `C54_same_name_refuted`, `C54_partial`.

**C55. Sampling a parameter space gives the same structure as initializing it** — partial (`PropNested`). Refuted: a sampled plain space holding a tessellation has an object array, not the list initialize gives; the structure of both is proved otherwise. Theorems: `C55_structure_refuted`, `C55_initialize`, `C55_sample_partial`, `C55_array_of_objects`.

**C56. Births from neighbours work with every accepted parameter** — partial (`PropNeighbour`). Refuted: with a plain parameter space among the parameters every birth from the neighbour raises TypeError; C56_partial: with tessellations nested and priors usable at every position it never raises, whatever the draws. Theorems: `C56_refuted`, `C56_plain_fails`, `C56_partial`.

**C57. Chains are independent of scheduling** — proved (`PropSampler`). Each chain draws from its own stream in the interleaving theorem. Theorems: `C57_interleaving`, `C57_modes`, `C57_positions`.

**C58. A failing chain does not corrupt the inversion** — proved (`PropChain`, `PropSampler`). Theorems: `C58_exception`, `C58_too_many_failures`, `C58_parallel`, `C58_sequential`, `C58_inversion`, `C58_initialization`.

**C59. Copies of states are faithful and independent** — partial (`PropState`). Copies of all states: proved in full (equality of values, noise, temperature; empty cache and extra storage); independence of mutable storage is C17. items()/todict: proved for space names without dots and parameters not called n_dimensions; both restrictions are needed (C59_items_refuted, C59_dimensions_refuted). Theorems: `C59_space_copy`, `C59_state_copy`, `C59_todict`, `C59_items`, `C59_items_refuted`, `C59_dimensions_refuted`.

**C60. The cached kd-tree belongs to the current sites** — partial (`PropTrees`). Spaces of the parameterization: every held, saved or proposed state has a tree, built from exactly its sites. Nested states: a tree that is there belongs to the sites; refuted that there always is one (states born inside another space come from sample(), which adds no tree). Theorems: `C60_top_level`, `C60_nested_partial`, `C60_refuted`.

**C61. The temperature seen by the state is the chain's** — proved (`PropChain`, `PropSampler`, `PropTemp`). C61_inversion: chains of every inversion, any of the three samplers, any number of runs; callbacks may do anything that leaves state and chain in agreement. Theorems: `C61_temperature`, `C61_setter`, `C61_swaps`, `C61_annealing`, `C61_batch`, `C61_inversion`.

**C62. Saving works for dictionary states** — partial (`PropChain`). Fails with save_dpred=True. Theorems: `C62_dict_states_refuted`, `C62_dict_states_partial`.

**C63. Parameter names cannot break a state** — partial (`PropNames`, `PropSaving`, `PropMoves`). Refinement between ModelState and ModelNames for free names; evaluation for reserved ones. Refuted in general: names of fields, methods or properties of the state classes break the objects (C63_space_refuted, C63_n_dimensions_refuted, C63_state_refuted) and a parameter whose name contains n_dimensions makes every save raise KeyError (C63_saving_refuted). Proved exactly which names are safe. Theorems: `C63_space_partial`, `C63_space_model_partial`, `C63_space_refuted`, `C63_n_dimensions_refuted`, `C63_state_partial`, `C63_state_model_partial`, `C63_state_refuted`, `C63_saving_keys`, `C63_saving_partial`, `C63_saving_refuted`, `C63_saved_dimensions`, `C63_distinct`.

**C64. The sortedness test is exact** — proved (`PropUtils1D`). Theorems: `C64_is_sorted`, `C64_empty_refuted`.

**C65. Ensemble statistics describe the samples' values at each position** — partial (`PropEnsemble`). Uniqueness of ordered rearrangements; counts in ordered lists; permutation invariance. Proved for ensembles with as many lists of sites (or extents) as lists of values; extents need non-negative positions in order (see C50). Refuted otherwise: missing samples enter the statistics as zeros (C65_short_refuted). Theorems: `C65_statistics_partial`, `C65_statistics_2d_partial`, `C65_percentile`, `C65_median`, `C65_mean_std`, `C65_order`, `C65_refused`, `C65_short_refuted`.

**C66. Tessellation density is a normalised histogram of the ensemble** — partial (`PropEnsemble`). Exactness of the bin search, double counting over cells. Mass and normalisation proved (C66_density_partial: extents need non-negative positions in order, see C50); with numbers of bins every row is the histogram at one position, when the largest site is positive (C66_default, C66_row_mass). Refuted: positions start at 0 whatever the domain, so sites at negative positions are left out (C66_negative_sites_refuted). Theorems: `C66_density_partial`, `C66_default`, `C66_row_mass`, `C66_negative_sites_refuted`.

**C67. Moves with shared, mutable objects do what the models with values say** — proved (`PropRefine`). Simulation relation between heap and values; the copied state as a tree of fresh objects with disjoint footprint, frame lemmas, induction over the breadth-first walk. Simulation between the heap model (ModelHeap, addresses, sharing, in-place changes) and the value models (ModelPerturb, ModelLikelihood); C67_move for every perturbation function of an inversion, states with distinct names and non-empty lists as constructors demand. Theorems: `C67_shown`, `C67_elementary`, `C67_move`, `C67_own_perturb`.

**C68. Chains with shared, mutable objects run as the chains of values do** — proved (`PropRefineChain`). Simulation of iterations on top of C67: relation between saved objects and saved values, kept as long as objects keep their data. Simulation between chains of the heap model and chains of values, on top of C67; the likelihood in memory must compute what the model of the likelihood computes (C68_likelihood: so does the code on what the objects show). Without user hooks and printing. Theorems: `C68_run`, `C68_attempt`, `C68_saved`, `C68_array`, `C68_likelihood`.

**C69. Inversions with shared, mutable objects run as the inversions of values do** — proved (`PropRefineSampler`). Simulation of the samplers on top of C68: relation between lists of chains with distinct States, frames (`only`) for every step, relocation of the memory for processes. For inversions whose chains have State objects of their own, which includes every BayesianInversion (C69_creation, C69_histories). That this is needed (BaseBayesianInversion may be given one State object for several chains) is shown by C69_shared_refuted. Without user hooks and printing; processes work on a disjoint copy of the memory. Theorems: `C69_histories`, `C69_saved`, `C69_creation`, `C69_vanilla`, `C69_tempering`, `C69_annealing`, `C69_processes`, `C69_shared_refuted`.

**C70. Drawings of one-dimensional tessellations show the tessellation** — partial (`PropPlot`). Geometry of the step curve: the vertical segment of each cell and the jumps between cells; midpoints of ordered sites are ordered. Holds with swapped axes, the default. With swap_xy_axes=False the curve shows at each position the value of the cell before (C70_not_swapped, C70_not_swapped_refuted); plot_tessellations ignores swap_xy_axes=False (C70_many_refuted); without an upper bound the last cell is not drawn when all interfaces are at 0 (C70_last_cell_refuted). matplotlib's step is modelled by its documentation. Theorems: `C70_nuclei_partial`, `C70_extents_partial`, `C70_drawn`, `C70_many`, `C70_not_swapped`, `C70_not_swapped_refuted`, `C70_last_cell_refuted`, `C70_many_refuted`.

**C71. Drawings of two-dimensional tessellations show the tessellation** — proved (`PropPlotB`). Half-plane inequalities: cells of sites are bounded, those of the four added points are not, displayed points are nearer to every site than to the added points. Scipy.spatial.Voronoi is a function that tells which regions are bounded, assumed to be right about that (finds_bounded, satisfiable by C71_scipy) and to keep the points in order. Lines, dots, colour maps and colour bars are not modelled. Theorems: `C71_drawing`, `C71_duplicates`, `C71_scipy`.

**C72. Births and deaths of cells report the ratio of prior to proposal densities** — proved (`PropBirth`). Mutual induction over the nested recursion; log of a product of densities (relation cell_ratio, written without the model's helpers), Gaussian density algebra; balance by pointwise algebra on the joint density. Priors with densities (uniform, Gaussian, Laplace; user functions of CustomPrior have none to compare with). The ratio covers nested tessellations; balance (C72_balance, C72_prior_balance) is stated for tessellations without nested spaces. Theorems: `C72_birth`, `C72_death`, `C72_draws`, `C72_balance`, `C72_prior_balance`.

**C73. The chain leaves the tempered posterior density invariant** — proved (`PropInvariance`, `PropInvarianceLike`). One iteration of the code is computed symbolically from the draws (a function step); the mean over the draws is an iterated Riemann integral; detailed balance by symmetry of the normal density and Fubini on the box (proved here for uniformly continuous functions, axioms only of the standard reals); induction over iterations. Gaussian data: the loop over targets with its caches equals the log density of the residuals. One ParameterSpace with one UniformPrior and a fixed number of values; trans-dimensional spaces are C77; other priors and several spaces are covered pointwise (C10-C12, C72) and for finite state spaces (C15), not here. Exact real arithmetic. The draws follow the distributions numpy documents: index uniform, step standard normal (density the derivative of a normal distribution function, exists by ExampleWalk.normal_cdf_exists), acceptance number uniform on (0,1). Theorems: `C73_iteration`, `C73_invariant`, `C73_run`, `C73_function`, `C73_ratio_function`, `C73_gaussian_data`, `C73_continuous`, `C73_posterior`.

**C74. log_prior of a parameter space is the log of the joint prior density** — partial (`PropLogPrior`). Induction over parameters and over the moved numbers; the joint density is a relation written with has_density, densities are unique. Holds for spaces whose parameters are priors. With nested spaces log_prior raises (NotImplementedError for tessellations, TypeError for ParameterSpace), shown by C74_nested_refuted; Voronoi.log_prior is not implemented in the code. Theorems: `C74_log_prior`, `C74_move`, `C74_nested_refuted`.

**C75. Priors take their hyper-parameters as given** — partial (`PropPriorInit`). Case analysis of the constructors; linear interpolation of constants and differences (C45, C46). Holds for positions in order (1-D) and for whatever SciPy interpolates in N-D. Refuted otherwise: nothing checks the order of 1-D positions, and values at positions out of order are not the values used there (C75_unsorted_refuted). With position arrays in N-D the width is covered for scalar limits only (it is SciPy's interpolation of the difference). Theorems: `C75_uniform`, `C75_gaussian`, `C75_laplace`, `C75_custom`, `C75_uniform_rejected`, `C75_unsorted_refuted`.

**C76. Selecting dimensions of a state gives exactly these dimensions** — partial (`PropSelect`, `PropSelectAny`). Induction over the parameters and over the indices; copies by the lemma behind C59. Holds for every list of integers from -n to n-1 (negative ones count from the end) except the empty one on a state with nested states, which raises IndexError (C76_no_index_refuted). Theorems: `C76_select`, `C76_any_index`, `C76_out_of_range`, `C76_any_out_of_range`, `C76_name`, `C76_other`, `C76_no_index_refuted`.

**C77. Trans-dimensional chains keep the tempered posterior distribution** — proved (`PropTransd`, `PropTransdLike`). One iteration computed symbolically for each kind of perturbation; births from k and deaths from k+1 numbers exchange the same flow at every index (insertion of a coordinate commutes with the integral over the box), changes of a number by C73; sums over lengths telescope. One ParameterSpace with one UniformPrior and n_dimensions=None, n_dimensions_min at least 1. Tessellations (births at positions) are covered pointwise by C10 and C72. Exact real arithmetic; the draws follow the documented distributions, as for C73; retries do not occur, since no draw raises. Theorems: `C77_iteration`, `C77_invariant`, `C77_run`, `C77_prior`, `C77_function`, `C77_ratio_function`, `C77_gaussian_data`, `C77_posterior`.

**C78. First and newborn values and sites are drawn from the priors** — partial (`PropDraws`). Both directions for single values (draws of numpy and random as functions of uniform and normal numbers); vectors, rejection loops and nested spaces by induction. Proved: which draws every first or newborn value and site comes from, and how. Refuted for plain spaces with position-dependent priors: initialize passes the uninitialised memory of np.empty as positions (C78_initialize_refuted); C78_initialize covers all other spaces. Births with birth_from='neighbour' are C55. That the draws have the documented distributions is assumed. Theorems: `C78_value`, `C78_site`, `C78_first_values`, `C78_sample`, `C78_initialize`, `C78_birth`, `C78_cell_birth`, `C78_initialize_refuted`.

**C79. Chains that move the sites of a 1-D tessellation keep the tempered posterior distribution** — partial (`PropSites`). One iteration computed symbolically (argsort of the sites is insertion sort); Metropolis flow between two sets of sites symmetric after weighting with the probability that steps stay inside, exchanged under the integral over the box; sorting is continuous and the weighted mean does not depend on the order. Refuted: the random walk of a site is drawn again until it is between the limits and the proposal ratio is reported as 0, so the kept density is exp(log likelihood / T) times the product over the sites of the probability that a step from the site stays within the limits (C79_run_partial, any number of sites and iterations). C79_refuted: one site, constant likelihood, the uniform distribution is not kept. The tessellation has no parameters besides its sites; likelihoods are functions or ratio functions of the state. Theorems: `C79_iteration`, `C79_run_partial`, `C79_function`, `C79_ratio_function`, `C79_refuted`.

**C80. Drawings of tessellation densities show the density** — partial (`PropHist`). Membership in the list of coloured rectangles characterised by bins; combined with C66; computed witness for the transposed drawing. Holds with swapped axes (default). With swap_xy_axes=False the density array is not transposed: TypeError unless there are as many position bins as value bins, otherwise (also by default, 100 and 100) the drawing is transposed. Points on edges of bins are left out. Theorems: `C80_shown_partial`, `C80_exists`, `C80_unswapped_error`, `C80_unswapped_transposed`, `C80_refuted`.

**C81. Histograms of interfaces are normalised histograms of the boundaries between cells** — proved (`PropHist`). Counting over the bins (each datum in at most one), edges strictly increasing; sums of thicknesses by induction. Ensembles without any boundary give NaN in NumPy (Undef in the model). Theorems: `C81_bars`, `C81_exists`, `C81_no_boundary`.

**C82. Drawings of statistics show mean, deviation, median and percentiles** — proved (`PropHist`). From C65, curve by curve. At least one sample; positions in order for extents, as in C65. Theorems: `C82_curves`, `C82_few_percentiles`.

**C83. Chains over values and the noise level of the data keep the tempered posterior distribution** — partial (`PropHier`). One iteration of either kind computed symbolically, the choice by the weights 3 and 1 included; the level mapped affinely onto the interval of the values, so that both moves are exchanges in one box of n+1 numbers; weighted balance of both; the Gaussian density from the misfit and determinant the code computes. Refuted: the random walk of the noise level is drawn again until it is between the limits and the proposal ratio is reported as 0, so the kept density is exp(log likelihood / T) times the probability that a step of the level stays within its limits (C83_run_partial; C83_data_partial for Gaussian data with a positive lower limit of the level). C83_refuted: constant likelihood, the uniform distribution of the level is not kept. One space of numbers with uniform priors and one target with uncorrelated noise. Theorems: `C83_iteration`, `C83_run_partial`, `C83_function`, `C83_gaussian_data`, `C83_continuous`, `C83_data_partial`, `C83_refuted`.

**C84. Chains for numbers with Gaussian or Laplace priors keep the tempered posterior distribution** — proved (`PropLine`). The step on a box (C73) for larger and larger boxes: the mean over all proposals is the limit, its distance from the step on a box at most the probability of leaving the box; the integral of this over the box is bounded by one-dimensional prior masses and goes to 0. One space with one parameter whose hyperparameters are numbers (no positions). Expectations and integrals are Riemann integrals, over R^n as limits over boxes; the normal law enters through its distribution function. Theorems: `C84_iteration`, `C84_run`, `C84_proper`, `C84_function`, `C84_gaussian_data`, `C84_posterior`.

**C85. From every start, chains for numbers with uniform priors converge to the posterior distribution** — proved (`PropConverge`). A chain whose n-step mean of every positive function is at least theta times a fixed mean contracts the range of the function by 1 - theta every n steps (Doeblin), proved for any operator that is linear, positive and keeps constants; for the chain, n steps that move each value once and are all accepted have a density bounded below on the box. One space with one parameter whose hyperparameters are numbers (no positions), as in C73. Theorems: `C85_converges`, `C85_means_unique`, `C85_only`, `C85_posterior`.

**C86. From every start, chains over the sites of a 1-D tessellation, and over values and a noise level, converge to the posterior distribution** — partial (`PropLimit`). The contraction of C85 applied to the walks of C79 and C83: their accepted proposals have densities bounded below on the box too. The refutations compare the limit, a mean under a weight, with the mean under the uniform distribution (strict Cauchy-Schwarz). Refuted: the chains do converge from every start at a geometric rate, but to the density exp(log likelihood / T) times the probability that steps of the sites (of the level) stay within their limits (C86_sites_partial, C86_level_partial); for one site or level in [0, 10] and a constant likelihood the limit of a mean is strictly larger than the posterior mean, whatever the start (C86_sites_refuted, C86_level_refuted). Theorems: `C86_sites_partial`, `C86_sites_refuted`, `C86_level_partial`, `C86_level_refuted`.

**C87. From every start, trans-dimensional chains converge to the posterior distribution** — proved (`PropTransConverge`). The contraction of C85 with kmax iterations: from k numbers, k - kmin accepted deaths reach kmin numbers, then each of these is replaced once and the remaining iterations change numbers; every accepted proposal has a probability or density bounded below. One space with one parameter whose hyperparameters are numbers (no positions), as in C77. Theorems: `C87_converges`, `C87_posterior`, `C87_numbers`.

**C88. Chains for several parameters converge to the posterior distribution** — proved (`PropMany`, `PropManyLike`). One iteration computed symbolically by induction on the list of parameters; all numbers are brought to the unit interval; the mean over the deviates is an integral against a product of normal densities, by induction; balance by exchanging two integrals over the box; contraction of C85 after a single iteration. One space with one dimension; hyperparameters are numbers (no positions). Names that contain n_dimensions are excluded: saving such a parameter fails in the code. Theorems: `C88_iteration`, `C88_converges`, `C88_means_unique`, `C88_function`, `C88_gaussian_data`, `C88_continuous`, `C88_posterior`.

**C89. Exchanges in parallel tempering keep the distributions of the chains** — partial (`PropSwap`). The attempt computed symbolically; the flow between a pair of points and the exchanged pair is antisymmetric in balance, and exchanging the two integrals gives invariance; for the refutation the flow has a sign everywhere and its integral is positive. Holds when the first chain of the pair has temperature 1 or both have the same temperature (C89_partial). Refuted otherwise: the difference of log likelihoods is divided by the temperature of the first chain a second time, and the mean of the samples at temperature 1 drifts (C89_refuted: for the log likelihood -x on the unit interval, over both orders of the pair). Inversions for numbers with one uniform prior. Theorems: `C89_attempt`, `C89_partial`, `C89_refuted`, `C89_function`, `C89_gaussian_data`.

**C90. Averages over the saved samples converge to posterior means** — proved (`PropEstimate`, `PropEstimateBox`). The mean of the square of a sum along the path unfolds into means after k iterations of the function and of products (induction over the marks of the schedule); the cross terms are bounded by the geometric series of the rates of convergence; the saved samples by induction over the rounds of advance_chain. For several parameters with uniform priors of their own (C90_estimates, with the saved samples of the run in C90_saved), a fixed number of values with one prior (C90_numbers) and trans-dimensional inversions (C90_transd). Mean squares over the draws of all iterations; with hooks that do nothing and without printing. At temperatures other than 1 the estimates are of the tempered posterior, but nothing is saved then. Theorems: `C90_estimates`, `C90_mean_unique`, `C90_saved`, `C90_numbers`, `C90_numbers_unique`, `C90_transd`.

**C91. Samples saved by simulated annealing estimate posterior means** — proved (`PropAnneal`). The mean after the burn-in is a continuous function of the state there, with the bound of C90 for every such state; each iteration of the burn-in averages it, at its own temperature, over the draws (induction backwards over the burn-in). The run of the sampler by induction over the rounds of each chain and over the chains. For the parameterizations of C88 (several parameters with uniform priors of their own), a sampler without further callbacks, and runs without printing. C91_saved links the run of the sampler to the path of C91_estimates; chains must not have moved before, since the schedule counts iterations over all runs. Theorems: `C91_estimates`, `C91_saved`.

**C92. Custom initialization of the priors** — proved (`PropCustom`). Induction over nested spaces and over the parameters, keeping for each value the call that returned it; the lengths come from the check of ParameterSpaceState. Then the invariant of C01 - C05 over all runs. The refutation is a computed starting state. The functions return one-dimensional arrays. That the values are checked against the support is refuted: C92_support_refuted. Theorems: `C92_callable`, `C92_default`, `C92_taken`, `C92_one_value_each`, `C92_wrong_number`, `C92_inversion`, `C92_support_refuted`.

**C93. A whole inversion estimates posterior means** — proved (`PropWhole`). The starting states are computed symbolically (induction over the numbers and the chains) and shown to meet the hypotheses of C90 and C91; the run is followed chain by chain; the bounds are those of C90 and C91, with the likelihood of C88 for Gaussian data. Uniform priors, one space with one value per number, no unknown noise; draws are independent standard normal and uniform numbers (trusted). Theorems: `C93_vanilla`, `C93_annealing`, `C93_data`, `C93_integral_unique`.

**C94. The concatenated results of several chains estimate posterior means better than one chain** — proved (`PropPool`). The results are computed from the chains of C93 by induction over the chains (every dictionary has distinct keys). For the bound, the average over the chains has the variance of one chain divided by their number, by independence and the bias bound of C90 and C91; both are proved by induction over the chains. Uniform priors, one space with one value per number, no unknown noise, names without "dpred"; the draws of the chains are independent (trusted: the run gives every chain its own part of the trace). Theorems: `C94_results`, `C94_estimates`, `C94_mean_unique`, `C94_data`.

**C95. Estimates from the results are consistent** — proved (`PropConsistent`). Chebyshev's inequality for the mean squares of C94; means over the draws are monotone and affine (induction over deviates, iterations and chains). C95_inversion: from the construction of the inversion to the mean of what get_results returns, for Gaussian data with known noise. Probabilities are lower probabilities (the mean of a function below the indicator of the event); where the event has a probability in the sense of Riemann, it is at least as large (C95_probability). Theorems: `C95_inversion`, `C95_consistent`, `C95_estimates`, `C95_probability`.

**C96. Variances of the results estimate posterior variances** — proved (`PropSpread`). C95 for the function and for its squared distance from the posterior mean, a union bound, and the identity between the variance and the second moment about any point. Probabilities as in C95. Uniform priors, one space with one value per number, no unknown noise. Theorems: `C96_inversion`, `C96_consistent`.

**C97. Shares of the results estimate posterior probabilities** — proved (`PropShare`). C95 for continuous functions below and above the indicator of the set, and a union bound. That the sets have a posterior probability: the integral over a strip goes to 0 with its width (induction over the numbers), and completeness of the reals. Probabilities as in C95; posterior probabilities are limits of posterior means of continuous functions below and above the indicator. Uniform priors, one space with one value per number, no unknown noise. Theorems: `C97_inversion`, `C97_consistent`, `C97_below`, `C97_mass_unique`.

**C98. Percentiles of the results estimate posterior percentiles** — proved (`PropPercentile`). C97 for both ends and a union bound; the counts of values up to and from a percentile (C65) bound it by the shares. Probabilities as in C95, posterior probabilities as in C97, np.percentile as in C65, here applied to the values of get_results. Uniform priors, one space with one value per number, no unknown noise. Theorems: `C98_inversion`, `C98_consistent`.

**C99. np.mean, np.std and np.median of the results estimate the posterior** — proved (`PropSummary`). C96 and continuity of the square root; C98 for the 50th percentile, which is the median (C65). Probabilities as in C95, posterior probabilities as in C97, np.mean, np.std and np.median as in C65, here applied to the values of get_results. Uniform priors, one space with one value per number, no unknown noise. Theorems: `C99_mean_std`, `C99_median`.

## 6. Assumptions per theorem

What `Print Assumptions` lists. S = `ClassicalDedekindReals.sig_forall_dec`, N = `ClassicalDedekindReals.sig_not_dec`, F = `FunctionalExtensionality.functional_extensionality_dep`, C = `Classical_Prop.classic`; "closed" = closed under the global context.

* **C F N S**: `C01_dimensions`, `C01_saved_numbers`, `C02_entries`, `C02_one_value_per_dimension`, `C03_sites_sorted`, `C04_sites_inside`, `C05_never_accepted`, `C05_support`, `C06_noise`, `C06_saved_noise`, `C07_site_move`, `C08_birth`, `C09_birth_refused`, `C09_death`, `C09_death_refused`, `C10_reverse`, `C11_births`, `C11_births_all`, `C11_deaths`, `C11_deaths_all`, `C11_detailed_balance`, `C12_log_prior`, `C12_move`, `C12_ratio_is_difference`, `C12_value_ratio`, `C13_custom_prior_partial`, `C13_custom_prior_refuted`, `C14_acceptance`, `C14_decided`, `C14_rejection_keeps_state`, `C14_zero_draw_refuted`, `C15_acceptance_probability`, `C15_detailed_balance`, `C15_kernel`, `C15_retries_refuted`, `C15_stationary`, `C16_one_substate`, `C17_chain`, `C17_chain_values`, `C17_elementary`, `C17_move`, `C17_old_values`, `C17_saved`, `C18_copies_partial`, `C18_flat_partial`, `C18_noise_partial`, `C18_noise_refuted`, `C18_old_values_shown`, `C18_refuted`, `C18_spaces_partial`, `C18_structure_partial`, `C19_current`, `C19_elementary`, `C19_ratio`, `C19_saved`, `C20_partial`, `C20_refuted`, `C20_simple_partial`, `C22_save_every_zero_refuted`, `C22_schedule`, `C22_schedule_list`, `C23_split`, `C24_print`, `C24_print_every_zero_refuted`, `C24_statistics`, `C24_totals`, `C25_other_exceptions`, `C25_retries`, `C25_retry_continues`, `C25_runtime_error`, `C26_infinite_ratio`, `C26_no_exceptions`, `C27_initialize`, `C27_ladder`, `C27_too_few_chains`, `C28_permutation`, `C28_untouched`, `C29_attempts`, `C29_decision`, `C29_exchange_refuted`, `C29_rule_balanced`, `C29_unit_first_partial`, `C30_iterations`, `C30_second_run`, `C30_swap_every_zero`, `C30_terminates`, `C31_actual`, `C31_burnin_refuted`, `C31_short_burnin_partial`, `C32_cooling`, `C32_schedule`, `C33_continuation_refuted`, `C33_second_run`, `C34_default_callbacks_refuted`, `C34_end_advance_ignored`, `C34_end_advance_refuted`, `C34_iterations`, `C39_elementary`, `C40_gaussian`, `C41_log_determinant`, `C41_log_determinant_total`, `C41_singular_refuted`, `C42_infinite_refuted`, `C42_log_like`, `C42_targets`, `C43_ignored`, `C43_tuple_refuted`, `C53_density_exists`, `C53_density_unique`, `C53_kept_law`, `C53_log_ratio`, `C53_noise_partial`, `C53_noise_refuted`, `C53_point_law`, `C53_point_partial`, `C53_point_ratio`, `C53_point_refuted`, `C53_site_partial`, `C53_site_refuted`, `C54_partial`, `C54_same_name_refuted`, `C56_partial`, `C56_plain_fails`, `C56_refuted`, `C57_interleaving`, `C57_modes`, `C57_positions`, `C58_exception`, `C58_parallel`, `C58_sequential`, `C58_too_many_failures`, `C60_nested_partial`, `C60_refuted`, `C60_top_level`, `C61_batch`, `C61_inversion`, `C61_swaps`, `C61_temperature`, `C62_dict_states_refuted`, `C63_saved_dimensions`, `C63_saving_keys`, `C63_saving_partial`, `C63_saving_refuted`, `C67_elementary`, `C67_move`, `C67_own_perturb`, `C68_attempt`, `C68_likelihood`, `C68_run`, `C68_saved`, `C69_annealing`, `C69_creation`, `C69_histories`, `C69_processes`, `C69_saved`, `C69_shared_refuted`, `C69_tempering`, `C69_vanilla`, `C71_scipy`, `C72_balance`, `C72_birth`, `C72_death`, `C72_draws`, `C72_prior_balance`, `C73_continuous`, `C73_function`, `C73_gaussian_data`, `C73_invariant`, `C73_iteration`, `C73_posterior`, `C73_ratio_function`, `C73_run`, `C74_log_prior`, `C74_move`, `C74_nested_refuted`, `C77_function`, `C77_gaussian_data`, `C77_invariant`, `C77_iteration`, `C77_posterior`, `C77_prior`, `C77_ratio_function`, `C77_run`, `C78_cell_birth`, `C79_function`, `C79_iteration`, `C79_ratio_function`, `C79_refuted`, `C79_run_partial`, `C83_continuous`, `C83_data_partial`, `C83_function`, `C83_gaussian_data`, `C83_iteration`, `C83_refuted`, `C83_run_partial`, `C84_function`, `C84_gaussian_data`, `C84_iteration`, `C84_posterior`, `C84_proper`, `C84_run`, `C85_converges`, `C85_means_unique`, `C85_only`, `C85_posterior`, `C86_level_partial`, `C86_level_refuted`, `C86_sites_partial`, `C86_sites_refuted`, `C87_converges`, `C87_numbers`, `C87_posterior`, `C88_continuous`, `C88_converges`, `C88_function`, `C88_gaussian_data`, `C88_iteration`, `C88_means_unique`, `C88_posterior`, `C89_attempt`, `C89_function`, `C89_gaussian_data`, `C89_partial`, `C89_refuted`, `C90_estimates`, `C90_numbers`, `C90_saved`, `C90_transd`, `C91_estimates`, `C91_saved`, `C92_default`, `C92_inversion`, `C92_support_refuted`, `C93_annealing`, `C93_data`, `C93_vanilla`, `C94_data`, `C94_estimates`, `C94_results`, `C95_consistent`, `C95_estimates`, `C95_inversion`, `C95_probability`, `C96_consistent`, `C96_inversion`, `C97_below`, `C97_consistent`, `C97_inversion`, `C98_consistent`, `C98_inversion`, `C99_mean_std`, `C99_median`
* **F N S**: `C61_annealing`, `C65_order`, `C65_short_refuted`, `C65_statistics_2d_partial`, `C65_statistics_partial`, `C82_curves`, `C82_few_percentiles`, `C90_mean_unique`, `C90_numbers_unique`, `C93_integral_unique`, `C94_mean_unique`, `C97_mass_unique`
* **F S**: `C06_accepted`, `C06_limits`, `C12_hyper_parameters`, `C18_start_partial`, `C21_refuted`, `C21_runs_again`, `C25_failures_keep_state`, `C38_accepts`, `C38_caller_list`, `C38_caller_list_refuted`, `C38_refused`, `C38_result`, `C39_choice`, `C39_choice_total`, `C39_perturbations`, `C39_zero_weight`, `C41_inverse_covariance`, `C41_small_refuted`, `C43_duplicate`, `C43_functions_refuted`, `C43_history_partial`, `C43_partial`, `C43_refuted`, `C43_stuck`, `C44_nearest_neighbour_exact`, `C45_array`, `C45_interpolate_linear`, `C45_node_values`, `C46_bounds_ordered`, `C46_width`, `C47_array`, `C47_interpolate_nearest`, `C47_interpolate_nearest_strict`, `C48_cell_extents_partial`, `C48_extents_partition_partial`, `C48_few_sites_refuted`, `C49_interfaces_agree`, `C49_interfaces_are_midpoints`, `C50_depth_profile_partial`, `C50_negative_query_refuted`, `C50_tessellation_agrees_partial`, `C50_unsorted_queries_refuted`, `C53_correlation_draws`, `C53_joint_draws`, `C53_noise_draws`, `C53_point_draws`, `C53_site_draws`, `C55_array_of_objects`, `C55_initialize`, `C55_sample_partial`, `C55_structure_refuted`, `C59_items_refuted`, `C63_n_dimensions_refuted`, `C63_space_model_partial`, `C63_space_partial`, `C63_space_refuted`, `C63_state_model_partial`, `C63_state_refuted`, `C64_is_sorted`, `C65_mean_std`, `C65_median`, `C65_percentile`, `C65_refused`, `C66_default`, `C66_density_partial`, `C66_negative_sites_refuted`, `C66_row_mass`, `C70_drawn`, `C70_extents_partial`, `C70_last_cell_refuted`, `C70_many`, `C70_many_refuted`, `C70_not_swapped`, `C70_not_swapped_refuted`, `C70_nuclei_partial`, `C71_drawing`, `C71_duplicates`, `C75_custom`, `C75_gaussian`, `C75_laplace`, `C75_uniform`, `C75_uniform_rejected`, `C75_unsorted_refuted`, `C78_birth`, `C78_first_values`, `C78_initialize`, `C78_initialize_refuted`, `C78_sample`, `C78_site`, `C78_value`, `C80_exists`, `C80_refuted`, `C80_shown_partial`, `C80_unswapped_error`, `C80_unswapped_transposed`, `C81_bars`, `C81_exists`, `C92_one_value_each`, `C92_taken`, `C92_wrong_number`
* **S**: `C22_count`, `C39_births_and_deaths`, `C51_delete`, `C51_delete_after_insert`, `C51_insert`, `C51_insert_after_delete`, `C51_out_of_range`, `C59_dimensions_refuted`
* **closed**: `C32_initialize`, `C34_initialize`, `C34_own_first`, `C35_concatenated`, `C35_no_chains`, `C35_not_chains`, `C35_separate`, `C35_single`, `C36_never_a_list_refuted`, `C36_raises_refuted`, `C36_samples_lost_refuted`, `C37_lists_of_chains_refuted`, `C37_not_a_list_partial`, `C37_other_lists_refuted`, `C42_nothing_given`, `C42_precedence`, `C52_documented`, `C52_dropped_arguments_refuted`, `C52_none`, `C52_only_user_exceptions`, `C52_other_arguments`, `C52_perturbations`, `C58_initialization`, `C58_inversion`, `C59_items`, `C59_space_copy`, `C59_state_copy`, `C59_todict`, `C61_setter`, `C62_dict_states_partial`, `C63_distinct`, `C63_state_partial`, `C64_empty_refuted`, `C67_shown`, `C68_array`, `C76_any_index`, `C76_any_out_of_range`, `C76_name`, `C76_no_index_refuted`, `C76_other`, `C76_out_of_range`, `C76_select`, `C81_no_boundary`, `C92_callable`
