{"id": "C01", "title": "Number of dimensions stays within the configured limits", "statement": "For a trans-dimensional ParameterSpace or Voronoi created with 1 <= n_dimensions_min <= n_dimensions_max and 0 <= n_dimensions_init_range <= 1, every state a chain ever holds as current_state or saves (also for nested parameter spaces) has n_dimensions_min <= n_dimensions <= n_dimensions_max; with fixed n_dimensions it is always exactly that number.", "quantifier": "every valid parameterization tree, every starting state it can draw, every sequence of random draws, every forward function (including failing ones), every number of iterations", "why_tests_cant": "The bound checks are equality tests made on one state at a time; the claim is an invariant of an unbounded random walk.", "anchors": ["src/bayesbay/parameterization/_parameter_space.py: ParameterSpace.initialize, birth, death", "src/bayesbay/discretization/_voronoi.py: Voronoi.birth, Voronoi.death", "src/bayesbay/perturbations/_param_space.py: ParamSpacePerturbation.perturb", "src/bayesbay/_markov_chain.py: BaseMarkovChain._next_iteration"]}
{"id": "C02", "title": "Every parameter has one value per dimension", "statement": "In every state held or saved by a chain, each parameter of each (nested) parameter space state has length n_dimensions, and the set of parameter names is exactly the configured one.", "quantifier": "every valid parameterization tree, every random draw sequence, every number of iterations", "why_tests_cant": "Perturbations update the dictionary directly and bypass the constructor's length check, so only an induction over all moves settles it.", "anchors": ["src/bayesbay/_state.py: ParameterSpaceState", "src/bayesbay/perturbations/_param_values.py: ParamPerturbation.perturb_param_space_state", "src/bayesbay/parameterization/_parameter_space.py: birth, death", "src/bayesbay/discretization/_voronoi.py: birth, death, perturb_value"]}
{"id": "C03", "title": "1-D Voronoi sites are always sorted and inside the domain", "statement": "In every state held or saved by a chain, the discretization of a Voronoi1D is in non-decreasing order and every site lies in [vmin, vmax].", "quantifier": "every Voronoi1D configuration with vmin <= vmax, every sequence of initialize / site move / birth / death moves and draws", "why_tests_cant": "All interpolation routines silently return wrong answers on unsorted sites; order is an inductive invariant over all moves.", "anchors": ["src/bayesbay/discretization/_voronoi.py: Voronoi._initialize, perturb_value, birth, death"]}
{"id": "C04", "title": "Multi-dimensional Voronoi sites stay in the box or polygon", "statement": "In every state held or saved by a chain, each site of a Voronoi tessellation of spatial dimension >= 2 lies in the box [vmin, vmax], and for a Voronoi2D with polygon inside the polygon.", "quantifier": "every Voronoi configuration, every sequence of moves and draws", "why_tests_cant": "The rejection loops have no bound on the number of draws.", "anchors": ["src/bayesbay/discretization/_voronoi.py: sample_site, _perturb_site, Voronoi2D.sample_site, Voronoi2D._perturb_site"]}
{"id": "C05", "title": "Values under a uniform prior never leave their support", "statement": "In every state held or saved by a chain, each value of a parameter with UniformPrior lies in [vmin(position), vmax(position)], where position is the site carrying the value (position-dependent bounds included); in particular a proposal with log ratio -inf is never accepted.", "quantifier": "every parameterization, every random draw sequence, every likelihood value, every number of iterations", "why_tests_cant": "A single accepted out-of-support value after any number of moves would bias the ensemble; needs an invariant through site moves, births from neighbours and nested spaces.", "anchors": ["src/bayesbay/prior/_prior.py: UniformPrior.perturb_value, log_prior, sample, initialize", "src/bayesbay/discretization/_voronoi.py: Voronoi.perturb_value", "src/bayesbay/_markov_chain.py: BaseMarkovChain._next_iteration"]}
{"id": "C06", "title": "Noise hyper-parameters stay within their limits", "statement": "For a hierarchical Target, the std (and correlation, when noise_is_correlated) of every state held or saved by a chain lies in [std_min, std_max] (and [correlation_min, correlation_max]); when noise_is_correlated is False the correlation is None in every state.", "quantifier": "every hierarchical target, every draw sequence, every number of iterations", "why_tests_cant": "The rejection loop runs for an unbounded number of draws and the state is changed by dictionary update.", "anchors": ["src/bayesbay/perturbations/_data_noise.py: NoisePerturbation.perturb, _perturb_target", "src/bayesbay/likelihood/_target.py: Target.initialize"]}
{"id": "C07", "title": "A site move keeps every value attached to its site", "statement": "Moving one site of a Voronoi tessellation changes exactly one site; the multiset of (site, value of each parameter) pairs of the new state is the old one with only that site replaced, even though all arrays are re-sorted in 1-D.", "quantifier": "every well-formed Voronoi state with any number of parameters (arrays or nested spaces), every chosen site, every accepted draw", "why_tests_cant": "The re-sorting permutation depends on all the sites; a test only sees a few permutations.", "anchors": ["src/bayesbay/discretization/_voronoi.py: Voronoi.perturb_value"]}
{"id": "C08", "title": "A birth inserts exactly one dimension consistently", "statement": "A birth that is not refused returns a state with n_dimensions + 1 where every parameter has exactly one new entry, at the same index for all parameters (and for the sites), and the remaining entries are the old ones in the old order; the state passed in is not changed.", "quantifier": "every well-formed state below n_dimensions_max, every draw", "why_tests_cant": "Universally quantified over array lengths, indices and nesting.", "anchors": ["src/bayesbay/parameterization/_parameter_space.py: ParameterSpace.birth", "src/bayesbay/discretization/_voronoi.py: Voronoi.birth", "src/bayesbay/_utils_1d.pyx: insert_1d"]}
{"id": "C09", "title": "A death removes exactly one dimension consistently", "statement": "A death that is not refused returns a state with n_dimensions - 1 in which every parameter and the sites have lost the entry at one common index, all others keeping value and order; at n_dimensions_min a death (and at n_dimensions_max a birth) is refused with log ratio -inf and the state is returned unchanged.", "quantifier": "every well-formed state, every draw", "why_tests_cant": "Universally quantified over array lengths, indices and nesting.", "anchors": ["src/bayesbay/parameterization/_parameter_space.py: ParameterSpace.death", "src/bayesbay/discretization/_voronoi.py: Voronoi.death", "src/bayesbay/_utils_1d.pyx: delete_1d"]}
{"id": "C10", "title": "Birth and death of a Voronoi cell are exact reverses", "statement": "If a birth (from prior or from neighbour) of a Voronoi takes m to m' with log ratio L, the death that removes the newborn cell takes m' back to m and returns the log ratio -L, nested Voronoi parameters included.", "quantifier": "every well-formed Voronoi state, every newborn site and values with finite prior density, every parameter list built from Uniform/Gaussian/Laplace priors and nested Voronois", "why_tests_cant": "Reversibility relates two different code paths on infinitely many states; a numeric test compares a handful of floats.", "anchors": ["src/bayesbay/discretization/_discretization.py: Discretization.initialize_newborn_params, log_prob_initialize..., _log_prob_death_parameters", "src/bayesbay/discretization/_voronoi.py: Voronoi.birth, death, nearest_neighbour"]}
{"id": "C11", "title": "Trans-dimensional moves of a plain ParameterSpace satisfy detailed balance", "statement": "With the returned log ratio 0 and equal birth/death weights, prior(m) * P(birth m -> m') = prior(m') * P(death m' -> m) for a ParameterSpace whose values are drawn from the prior, where prior(m) is the product of prior densities of the values (uniform on the number of dimensions).", "quantifier": "all states m, m', all prior densities", "why_tests_cant": "It is an identity of transition densities, summed over every insertion index that leads to the same state.", "anchors": ["src/bayesbay/parameterization/_parameter_space.py: ParameterSpace.birth, death"]}
{"id": "C12", "title": "Value perturbation returns the exact log prior ratio", "statement": "For Uniform, Gaussian and Laplace priors (position-dependent hyper-parameters included) the log ratio returned by perturb_value equals log_prior(new) - log_prior(old) at that position, and is -inf exactly when the new value has left the support.", "quantifier": "all old values in the support, all draws, all hyper-parameters with positive widths", "why_tests_cant": "An algebraic identity over the reals.", "anchors": ["src/bayesbay/prior/_prior.py: UniformPrior.perturb_value/log_prior, GaussianPrior.perturb_value/log_prior, LaplacePrior.perturb_value/log_prior"]}
{"id": "C13", "title": "Parameters with a CustomPrior can be perturbed", "statement": "Perturbing a value of a CustomPrior returns a new value and log_prior(new) - log_prior(old).", "quantifier": "all CustomPrior instances, values, positions and draws", "why_tests_cant": "The claim is about every call; existing tests never reach the failing branch with an assertion.", "anchors": ["src/bayesbay/prior/_prior.py: CustomPrior.perturb_value"]}
{"id": "C14", "title": "Acceptance follows the Metropolis-Hastings-Green rule", "statement": "In each iteration, given the log ratio a = log prior/proposal ratio + tempered log likelihood ratio and the uniform draw u in (0,1), the proposal becomes the current state if and only if u < min(1, exp a); NaN or -inf never replaces the current state, +inf always does; a rejected proposal leaves the current parameters unchanged.", "quantifier": "all ratios (finite, infinite, NaN), all draws u", "why_tests_cant": "Continuum of inputs; the special values are IEEE corner cases.", "anchors": ["src/bayesbay/_markov_chain.py: BaseMarkovChain._next_iteration"]}
{"id": "C15", "title": "The acceptance rule makes the target stationary (detailed balance)", "statement": "If the reported log ratio of each proposal is log of pi(y) q(y,x) / (pi(x) q(x,y)) then pi(x) q(x,y) accept(x,y) = pi(y) q(y,x) accept(y,x), and on finite state spaces pi is stationary for the resulting kernel, for any mixture of such perturbations chosen with fixed weights.", "quantifier": "all target densities, proposal densities and weights", "why_tests_cant": "A statement on measures, not on runs.", "anchors": ["src/bayesbay/_markov_chain.py: BaseMarkovChain._next_iteration"]}
{"id": "C16", "title": "A parameter-space perturbation changes exactly one sub-state", "statement": "A ParamSpacePerturbation applied to a state selects exactly one of the n parameter space states stored under its name anywhere in the tree, each of the n being selected by exactly one value of the integer draw, replaces it by the result of one of its perturbation functions, and leaves every other value in the tree equal to the original; the log ratio returned is that of this single function.", "quantifier": "every state tree of any depth and width, every draw", "why_tests_cant": "Breadth-first traversal over arbitrary trees.", "anchors": ["src/bayesbay/perturbations/_param_space.py: ParamSpacePerturbation.perturb, perturb_param_space_state"]}
{"id": "C17", "title": "A proposal never mutates the current state or saved samples", "statement": "Calling any perturbation on a state, evaluating the likelihood and accepting or rejecting never changes the parameter values reachable from the old state or from any sample already saved: arrays are only written when freshly allocated.", "quantifier": "all object graphs with sharing, all perturbations, all iteration histories", "why_tests_cant": "An aliasing property over all heaps; tests compare values after a few moves only.", "anchors": ["src/bayesbay/_state.py: copy", "src/bayesbay/perturbations/_param_space.py", "src/bayesbay/perturbations/_param_values.py", "src/bayesbay/perturbations/_data_noise.py", "src/bayesbay/discretization/_voronoi.py", "src/bayesbay/_markov_chain.py: _save_state"]}
{"id": "C18", "title": "Item access and attribute access of a proposed state agree", "statement": "For every state handed to the forward function, state[space][param] and state.space.param (and state[target] and state.target) are the same value.", "quantifier": "every perturbation and every draw", "why_tests_cant": "Two storage locations updated by different code paths; the claim ranges over all moves.", "anchors": ["src/bayesbay/_state.py: ParameterSpaceState.set_param_values, State.set_param_values", "src/bayesbay/perturbations/_param_values.py: perturb_param_space_state", "src/bayesbay/perturbations/_data_noise.py: perturb"]}
{"id": "C19", "title": "Cached predictions are never stale", "statement": "Whenever the likelihood uses a cached prediction of a target for a state, it equals what the forward function returns on that state's parameters; hence ratio values do not depend on caching, and the prediction saved with a sample is the forward prediction of that same sample.", "quantifier": "every deterministic forward function, every history of proposals, acceptances, swaps and failures", "why_tests_cant": "Cache coherence over all histories.", "anchors": ["src/bayesbay/likelihood/_log_likelihood.py: LogLikelihood._get_misfit_and_det", "src/bayesbay/_state.py: State.copy", "src/bayesbay/_markov_chain.py: _save_state"]}
{"id": "C20", "title": "Saved predictions are aligned with the saved samples", "statement": "With save_dpred=True, for each target the number of saved predictions equals the number of saved samples, the k-th prediction belonging to the k-th sample.", "quantifier": "every history of iterations and save settings", "why_tests_cant": "Depends on which proposals happened before the first save.", "anchors": ["src/bayesbay/_markov_chain.py: BaseMarkovChain._save_state, _next_iteration"]}
{"id": "C21", "title": "A noise move reuses the predictions of the current state", "statement": "state.copy(keep_dpred=True) keeps the cached predictions, so that a noise perturbation does not run the forward functions again.", "quantifier": "every state whose predictions have been cached", "why_tests_cant": "Quantifies over all target names.", "anchors": ["src/bayesbay/_state.py: State.copy", "src/bayesbay/perturbations/_data_noise.py: NoisePerturbation.perturb", "src/bayesbay/likelihood/_log_likelihood.py: _get_misfit_and_det"]}
{"id": "C22", "title": "Samples are saved exactly on schedule", "statement": "A chain advanced at unit temperature saves its current state after iteration i if and only if i > burnin_iterations and (i - burnin_iterations) is a multiple of save_every, in order; from a fresh chain n iterations save exactly floor((n - burnin)/save_every) samples (0 if n <= burnin); iterations are counted over the whole life of the chain.", "quantifier": "all n_iterations, burnin_iterations, save_every >= 1, all histories", "why_tests_cant": "Off-by-one claims over all integers.", "anchors": ["src/bayesbay/_markov_chain.py: BaseMarkovChain.advance_chain, _next_iteration, _save_state"]}
{"id": "C23", "title": "Splitting a run does not change it", "statement": "advance_chain(n1) followed by advance_chain(n2) with the same settings and random stream gives the same chain (state, saved samples, statistics) as advance_chain(n1 + n2).", "quantifier": "all n1, n2, settings, random streams", "why_tests_cant": "Equality of whole histories for all splits.", "anchors": ["src/bayesbay/_markov_chain.py: BaseMarkovChain.advance_chain"]}
{"id": "C24", "title": "Acceptance statistics are consistent", "statement": "After any history, n_proposed_models_total equals the number of completed iterations; n_accepted_models_total <= n_proposed_models_total and equals the number of iterations whose proposal was accepted; for each perturbation type accepted <= proposed; the per-type counts sum to the totals.", "quantifier": "all perturbation lists, all histories", "why_tests_cant": "An invariant over unbounded histories with two different counter layouts.", "anchors": ["src/bayesbay/_markov_chain.py: BaseMarkovChain._save_statistics"]}
{"id": "C25", "title": "Failures of user functions are retried, counted and never change the chain", "statement": "When a perturbation raises a UserFunctionException, or the likelihood a ForwardException/UserFunctionException, the iteration is retried with a fresh proposal, the exception counter for its class is incremented, and current state, samples and proposal counters are unchanged; exactly 500 consecutive failures raise RuntimeError; any other exception propagates at once.", "quantifier": "all failure patterns", "why_tests_cant": "All crash points of user code; 500-fold sequences.", "anchors": ["src/bayesbay/_markov_chain.py: BaseMarkovChain._next_iteration", "src/bayesbay/_utils.py: _FunctionWrapper", "src/bayesbay/likelihood/_log_likelihood.py: _get_misfit_and_det"]}
{"id": "C26", "title": "Impossible proposals never reach the forward function", "statement": "When the log ratio of a proposal is infinite the likelihood is not evaluated in that iteration: no forward call is made and no exception counter changes.", "quantifier": "all perturbations and states", "why_tests_cant": "Absence of an effect over all inputs.", "anchors": ["src/bayesbay/_markov_chain.py: BaseMarkovChain._next_iteration"]}
{"id": "C27", "title": "Parallel tempering starts from the documented temperature ladder", "statement": "With n >= 2 chains, fraction f <= 1 and temperature_max T > 1, initialization gives one temperature per chain, in non-decreasing order, all in [1, T], exactly max(2, int(n f)) of them equal to 1, the last equal to T whenever at least one chain is left for it, geometrically spaced.", "quantifier": "all n, f, T", "why_tests_cant": "Arithmetic over all n, f, T with truncation.", "anchors": ["src/bayesbay/samplers/_samplers.py: ParallelTempering.on_initialize"]}
{"id": "C28", "title": "Swaps only permute temperatures", "statement": "After any number of iterations and swap rounds, the multiset of chain temperatures is the one set at initialization, and the parameters and samples of all chains are untouched by the swaps.", "quantifier": "any number of chains, swaps and draws", "why_tests_cant": "Invariant over unbounded swap sequences.", "anchors": ["src/bayesbay/samplers/_samplers.py: ParallelTempering.on_end_advance_chain", "src/bayesbay/_markov_chain.py: temperature setter"]}
{"id": "C29", "title": "Parallel tempering swaps with the exchange probability", "statement": "Two chains at temperatures T1, T2 with log likelihoods L1, L2 exchange temperatures with probability min(1, exp((1/T1 - 1/T2)(L2 - L1))), which does not depend on which chain is called first and leaves the product of tempered posteriors invariant.", "quantifier": "all temperatures and likelihood values", "why_tests_cant": "A formula over the reals.", "anchors": ["src/bayesbay/samplers/_samplers.py: ParallelTempering.on_end_advance_chain", "src/bayesbay/_markov_chain.py: _log_likelihood_ratio"]}
{"id": "C30", "title": "Parallel tempering performs the requested number of iterations", "statement": "run(n_iterations=N) on fresh chains terminates with every chain having completed exactly N iterations (for swap_every >= 1), with one swap round after each batch of at most swap_every iterations.", "quantifier": "all N and swap_every", "why_tests_cant": "Termination and exact count of a while-True loop for all integers.", "anchors": ["src/bayesbay/samplers/_samplers.py: ParallelTempering.run, Sampler.advance_chain"]}
{"id": "C31", "title": "Parallel tempering respects the burn-in", "statement": "run(burnin_iterations=B) never saves a sample of an iteration i <= B, and saves at unit temperature exactly on the schedule of C22.", "quantifier": "all N, B, save_every, swap_every", "why_tests_cant": "Depends on the interplay of relative and absolute counters for all integers.", "anchors": ["src/bayesbay/samplers/_samplers.py: ParallelTempering.run", "src/bayesbay/_markov_chain.py: advance_chain"]}
{"id": "C32", "title": "Simulated annealing cools from the start temperature to one", "statement": "On fresh chains, with burn-in B > 0 and start temperature T0 > 1, iteration i (counted from 0) runs at T0^(1 - i/B) for i < B and at exactly 1 for i >= B; temperatures never increase, stay in [1, T0], and every saved sample was drawn at temperature 1.", "quantifier": "all B, T0, N", "why_tests_cant": "Real exponentials and an induction over iterations.", "anchors": ["src/bayesbay/samplers/_samplers.py: SimulatedAnnealing"]}
{"id": "C33", "title": "An annealed inversion can be continued", "statement": "Running the inversion again with SimulatedAnnealing keeps sampling at temperature 1 once the burn-in has passed and keeps saving samples.", "quantifier": "all continuation histories", "why_tests_cant": "Needs a history of two runs with all parameters.", "anchors": ["src/bayesbay/samplers/_samplers.py: SimulatedAnnealing.on_initialize, on_begin_iteration"]}
{"id": "C34", "title": "Registered callbacks are called at the documented moments", "statement": "Functions added with add_on_initialize, add_on_begin_iteration, add_on_end_iteration and add_on_end_advance_chain are each called, in registration order and after the sampler's own hook, once per initialization, iteration begin, iteration end and end of batch respectively.", "quantifier": "all callback lists, all numbers of iterations", "why_tests_cant": "Statement on complete event traces.", "anchors": ["src/bayesbay/samplers/_samplers.py: Sampler"]}
{"id": "C35", "title": "Results are the concatenation of the chains' samples", "statement": "For chains whose states are State or dict, get_results returns for each requested key saved by some chain the samples of all chains, in chain order and saving order (or the list of per-chain lists when concatenate_chains=False), and nothing else; no sample is lost or duplicated; the chains are not modified.", "quantifier": "all chains, key filters, numbers of samples", "why_tests_cant": "Quantifies over all saved dictionaries.", "anchors": ["src/bayesbay/_bayes_inversion.py: BaseBayesianInversion.get_results_from_chains"]}
{"id": "C36", "title": "Results of list-like states are returned as a list", "statement": "For chains whose states are neither State nor dict, get_results returns the list of saved states.", "quantifier": "all state types and numbers of samples", "why_tests_cant": "Ranges over all user state types.", "anchors": ["src/bayesbay/_bayes_inversion.py: BaseBayesianInversion.get_results_from_chains"]}
{"id": "C37", "title": "The chains of an inversion can be replaced by a list of chains", "statement": "Assigning to inversion.chains succeeds for every list of Markov chains, updates n_chains, and raises TypeError for anything else.", "quantifier": "all assigned values", "why_tests_cant": "Type-level statement on all inputs.", "anchors": ["src/bayesbay/_bayes_inversion.py: BaseBayesianInversion.chains setter"]}
{"id": "C38", "title": "Perturbation functions are validated and birth/death weights equalised", "statement": "set_perturbation_funcs accepts a list if and only if the weights (default: all 1) match in number and each parameter space with a birth or death perturbation has exactly one of each; afterwards the weight of each death equals that of its birth, all other weights are unchanged, and every chain holds the same functions and weights as the inversion.", "quantifier": "all lists of functions and weights", "why_tests_cant": "Quantifies over all lists.", "anchors": ["src/bayesbay/_bayes_inversion.py: BaseBayesianInversion.set_perturbation_funcs", "src/bayesbay/_markov_chain.py: set_perturbation_funcs"]}
{"id": "C39", "title": "Each perturbation is chosen with its weight", "statement": "One draw u in [0,1) selects perturbation i exactly when u * total lies in [w_0+..+w_{i-1}, w_0+..+w_i); a perturbation with weight zero is never chosen; for the high-level API the chance of each elementary move (birth, death, values, of each space at each nesting level) is its own weight over the sum of all elementary weights, births and deaths of a space being equally likely.", "quantifier": "all non-negative weight lists with positive sum, all parameterization trees", "why_tests_cant": "Probabilities over the continuum and over all trees.", "anchors": ["src/bayesbay/_markov_chain.py: _next_iteration (random.choices)", "src/bayesbay/perturbations/_param_space.py: perturb_param_space_state", "src/bayesbay/parameterization/_parameter_space.py: _init_perturbation_funcs"]}
{"id": "C40", "title": "The target likelihood ratio is the Gaussian one", "statement": "For targets with forward functions, log_likelihood_ratio(old, new, T) = (logL(new) - logL(old)) / T with logL the log density of independent multivariate normal residuals with each target's covariance (up to a constant not depending on the state), for fixed covariance (scalar, diagonal, full) and hierarchical (uncorrelated, correlated) noise.", "quantifier": "all data vectors, predictions, covariances, noise states, temperatures", "why_tests_cant": "An identity over the reals for all sizes.", "anchors": ["src/bayesbay/likelihood/_log_likelihood.py: _log_likelihood_ratio_from_targets, _get_misfit_and_det", "src/bayesbay/likelihood/_target.py: Target"]}
{"id": "C41", "title": "The correlated-noise covariance is inverted exactly", "statement": "For n >= 3 data, std s > 0 and |r| < 1 the matrix built for the misfit is the inverse of C with C_ij = s^2 r^|i-j|, and the log determinant used is log det C.", "quantifier": "all n, s, r", "why_tests_cant": "Matrix identity of arbitrary size.", "anchors": ["src/bayesbay/_utils_1d.pyx: inverse_covariance", "src/bayesbay/likelihood/_target.py: inverse_covariance_times_vector, log_determinant_covariance"]}
{"id": "C42", "title": "Likelihood ratios compose", "statement": "ratio(a,a) = 0, ratio(a,b) = -ratio(b,a), ratio(a,b) + ratio(b,c) = ratio(a,c), and dividing by the temperature scales them, for targets and for log_like_func; the source is chosen in the documented order of precedence (targets with forward functions, then log_like_ratio_func, then log_like_func).", "quantifier": "all states and temperatures > 0", "why_tests_cant": "Relational property over triples of states.", "anchors": ["src/bayesbay/likelihood/_log_likelihood.py: log_likelihood_ratio, _init_log_likelihood_ratio"]}
{"id": "C43", "title": "Adding targets is all-or-nothing and reaches running inversions", "statement": "add_targets with valid targets extends the likelihood, its perturbations, and every observing inversion and chain (initializing hierarchical noise in each current state); with duplicate names it raises ValueError and changes nothing.", "quantifier": "all target lists and histories of additions", "why_tests_cant": "All intermediate failure points.", "anchors": ["src/bayesbay/likelihood/_log_likelihood.py: add_targets", "src/bayesbay/_bayes_inversion.py: update_log_likelihood_targets"]}
{"id": "C44", "title": "Nearest-neighbour search in 1-D is exact", "statement": "nearest_neighbour_1d on non-empty sorted sites returns a valid index whose site minimises the distance to the query (ties go to the right-hand site), reading only inside the array.", "quantifier": "all sorted arrays and queries", "why_tests_cant": "All lengths and orderings.", "anchors": ["src/bayesbay/_utils_1d.pyx: nearest_neighbour_1d"]}
{"id": "C45", "title": "Linear interpolation is exact and safe", "statement": "interpolate_linear_1d on sorted nodes returns the node value at nodes, lies between the neighbouring node values, is constant outside the nodes, never divides by zero and never reads outside the arrays, including repeated nodes.", "quantifier": "all sorted node arrays with equal lengths >= 1 and all queries", "why_tests_cant": "All lengths, with repeated nodes.", "anchors": ["src/bayesbay/_utils_1d.pyx: interpolate_linear_1d, floor_index"]}
{"id": "C46", "title": "Position-dependent bounds stay ordered", "statement": "If the lower bound is below the upper bound at every node, then vmin(position) <= vmax(position) at every position, and the interpolated width equals vmax - vmin.", "quantifier": "all node arrays and positions", "why_tests_cant": "All positions of a continuum.", "anchors": ["src/bayesbay/prior/_prior.py: UniformPrior, Prior.get_hyper_param", "src/bayesbay/_utils_1d.pyx: interpolate_linear_1d"]}
{"id": "C47", "title": "Nearest interpolation returns the value of a nearest site", "statement": "interpolate_nearest_1d returns, for each query, the value of a site at minimal distance.", "quantifier": "all sorted arrays and queries", "why_tests_cant": "All lengths and orderings.", "anchors": ["src/bayesbay/_utils_1d.pyx: interpolate_nearest_1d"]}
{"id": "C48", "title": "Voronoi cell extents partition the domain", "statement": "compute_cell_extents on sorted sites in [lb, ub] returns for each cell the distance between its two interfaces (midpoints between sites, lb and ub at the ends): non-negative and summing to ub - lb; infinite end cells get fill_value.", "quantifier": "all numbers of sites >= 1 and all bounds", "why_tests_cant": "All lengths; the small sizes are special in the code.", "anchors": ["src/bayesbay/_utils_1d.pyx: compute_voronoi1d_cell_extents", "src/bayesbay/discretization/_voronoi.py: Voronoi1D.compute_cell_extents"]}
{"id": "C49", "title": "Interfaces from nuclei and from extents agree", "statement": "compute_interface_positions gives the same interfaces from the nuclei and from the extents computed with the same lower bound.", "quantifier": "all sorted site arrays", "why_tests_cant": "All lengths.", "anchors": ["src/bayesbay/discretization/_voronoi.py: Voronoi1D.compute_interface_positions, compute_cell_extents"]}
{"id": "C50", "title": "Tessellations are interpolated cell by cell", "statement": "interpolate_depth_profile / interpolate_tessellation with extents returns for each query the value of the layer that contains it, whatever the order of the queries, and agrees with nearest-site interpolation of the nuclei.", "quantifier": "all layerings and query arrays", "why_tests_cant": "The routine keeps a running layer index across queries, so the claim is over all query sequences.", "anchors": ["src/bayesbay/_utils_1d.pyx: interpolate_depth_profile", "src/bayesbay/discretization/_voronoi.py: Voronoi1D.interpolate_tessellation"]}
{"id": "C51", "title": "Array insertion and deletion are mutually inverse", "statement": "insert_1d(a, i, x) puts x at index i, shifting the tail; delete_1d(a, i) removes index i; delete after insert at the same index is the identity and insert of the removed value after delete is the identity; neither modifies its argument or accesses memory outside the arrays for 0 <= i <= len (insert) or i < len (delete).", "quantifier": "all arrays, indices, values", "why_tests_cant": "All lengths, memory safety with bounds checks switched off.", "anchors": ["src/bayesbay/_utils_1d.pyx: insert_1d, delete_1d"]}
{"id": "C52", "title": "Function specifications are resolved as documented", "statement": "A callable, (callable, args), (callable, kwargs) or (callable, args, kwargs) specification is called with the state followed by args and kwargs; exceptions raised by it surface as UserFunctionException; None stays None and Perturbation objects are used as they are; other second entries raise TypeError.", "quantifier": "all specifications and call arguments", "why_tests_cant": "All shapes of nested specifications.", "anchors": ["src/bayesbay/_utils.py: _preprocess_func, _FunctionWrapper"]}
{"id": "C53", "title": "Bounded random walks report their true proposal ratio", "statement": "The log ratio returned by noise perturbation and by Voronoi site perturbation equals log q(old|new)/q(new|old) of the proposal actually drawn (Gaussian redrawn until inside the limits).", "quantifier": "all current values, limits and widths", "why_tests_cant": "Compares densities (integrals), not outputs.", "anchors": ["src/bayesbay/perturbations/_data_noise.py: _perturb_target", "src/bayesbay/discretization/_voronoi.py: _perturb_site"]}
{"id": "C54", "title": "Nested parameter spaces are perturbed by their own rules", "statement": "A move configured for one parameter space only changes states of that parameter space, so values keep respecting the priors of the space they belong to, also when spaces in different branches use the same name.", "quantifier": "all parameterizations accepted by the constructors", "why_tests_cant": "Quantifies over all parameterization trees.", "anchors": ["src/bayesbay/perturbations/_param_space.py: ParamSpacePerturbation.perturb", "src/bayesbay/parameterization/_parameterization.py: duplicate checks"]}
{"id": "C55", "title": "Sampling a parameter space gives the same structure as initializing it", "statement": "sample() and initialize() of a parameter space return states with the same shape: arrays for priors and lists of ParameterSpaceState for nested spaces, at every nesting level.", "quantifier": "all parameterization trees", "why_tests_cant": "Recursive structure of any depth.", "anchors": ["src/bayesbay/parameterization/_parameter_space.py: ParameterSpace.sample, _initialize", "src/bayesbay/discretization/_discretization.py: Discretization.sample"]}
{"id": "C56", "title": "Births from neighbours work with every accepted parameter", "statement": "A Voronoi with birth_from='neighbour' and any parameters its constructor accepts (priors, Voronois, parameter spaces) can perform a birth without raising.", "quantifier": "all parameter lists, states and draws", "why_tests_cant": "Quantifies over all accepted configurations.", "anchors": ["src/bayesbay/discretization/_discretization.py: _initialize_params_from_neighbour"]}
{"id": "C57", "title": "Chains are independent of scheduling", "statement": "Advancing several chains gives each chain the result determined by its own state and random stream: any interleaving of the chains' iterations, sequential or parallel, gives the same chains, returned in the original order.", "quantifier": "any number of chains, any interleaving", "why_tests_cant": "All schedules.", "anchors": ["src/bayesbay/samplers/_samplers.py: Sampler.advance_chain"]}
{"id": "C58", "title": "A failing chain does not corrupt the inversion", "statement": "If one chain raises during run: in parallel mode all chains of the inversion keep the states, samples and statistics they had before; in sequential mode each chain is left after a whole number of completed iterations, samples and counters consistent.", "quantifier": "all failure points and chain numbers", "why_tests_cant": "All crash points.", "anchors": ["src/bayesbay/samplers/_samplers.py: Sampler.advance_chain", "src/bayesbay/_bayes_inversion.py: run"]}
{"id": "C59", "title": "Copies of states are faithful and independent", "statement": "State.copy() has the same parameter values, noise and temperature as the original and empty cache and extra storage; ParameterSpaceState.copy() has equal values; items()/todict list each parameter exactly once under '<space>.<parameter>', plus '<space>.n_dimensions'.", "quantifier": "all states of any nesting", "why_tests_cant": "Recursive structures of any depth.", "anchors": ["src/bayesbay/_state.py: State.copy, State.items, ParameterSpaceState.copy, todict, DataNoiseState.todict"]}
{"id": "C60", "title": "The cached kd-tree belongs to the current sites", "statement": "For a Voronoi2D with compute_kdtree=True every state held by a chain and every proposed state has a cached kd-tree, and it was built from exactly the sites of that state.", "quantifier": "all histories of moves, top-level and nested", "why_tests_cant": "Cache coherence over all histories.", "anchors": ["src/bayesbay/discretization/_voronoi.py: Voronoi2D._add_kdtree_to_ps_state, perturb_value, birth, death, _initialize"]}
{"id": "C61", "title": "The temperature seen by the state is the chain's", "statement": "For chains with State states, current_state.temperature equals chain.temperature after every iteration, swap and annealing step, and the likelihood of each iteration is tempered with it.", "quantifier": "all histories", "why_tests_cant": "Two copies of one value updated on different paths.", "anchors": ["src/bayesbay/_markov_chain.py: temperature setter", "src/bayesbay/_state.py: State.copy", "src/bayesbay/samplers/_samplers.py"]}
{"id": "C62", "title": "Saving works for dictionary states", "statement": "Chains of the base API whose states are plain dicts can be run and their values are saved per key.", "quantifier": "all dict states and settings", "why_tests_cant": "Ranges over all user states and settings.", "anchors": ["src/bayesbay/_markov_chain.py: BaseMarkovChain._save_state"]}
{"id": "C63", "title": "Parameter names cannot break a state", "statement": "Any distinct strings accepted as names of parameter spaces, parameters and targets can be used: attributes of State and ParameterSpaceState keep their meaning, and results are saved under these names.", "quantifier": "all names", "why_tests_cant": "All strings.", "anchors": ["src/bayesbay/_state.py: set_param_values (setattr)", "src/bayesbay/_markov_chain.py: _save_state"]}
{"id": "C64", "title": "The sortedness test is exact", "statement": "is_sorted on a non-empty array returns True exactly when the array is in non-decreasing order, reading only inside the array.", "quantifier": "all arrays", "why_tests_cant": "All lengths and values.", "anchors": ["src/bayesbay/_utils_1d.pyx: is_sorted"]}
{"id": "C65", "title": "Ensemble statistics describe the samples' values at each position", "statement": "get_tessellation_statistics (Voronoi1D and Voronoi2D) returns, for every interpolation position, the mean, median, standard deviation and percentiles of exactly the values that the sampled tessellations have at that position; percentiles bound the right fractions of samples, grow with the percentage and contain the median; the order of the samples does not matter.", "quantifier": "all ensembles, positions and percentages", "why_tests_cant": "All numbers of samples, sites and orderings; ties and boundaries of cells.", "anchors": ["src/bayesbay/discretization/_voronoi.py: Voronoi1D.get_tessellation_statistics, _interpolate_tessellations", "src/bayesbay/discretization/_voronoi.py: Voronoi2D.get_tessellation_statistics, interpolate_tessellation"]}
{"id": "C66", "title": "Tessellation density is a normalised histogram of the ensemble", "statement": "get_tessellation_density returns a density that integrates to one and whose mass in each bin is the fraction of pairs (position, value of a sample there) in the bin; with a number of position bins the positions cover the tessellations and each row is the histogram of the values of the samples at one position.", "quantifier": "all ensembles and bins", "why_tests_cant": "All numbers of samples and bins; values on edges of bins.", "anchors": ["src/bayesbay/discretization/_voronoi.py: Voronoi1D.get_tessellation_density"]}
{"id": "C67", "title": "Moves with shared, mutable objects do what the models with values say", "statement": "From objects in memory that stand for a state (whatever they share with other objects), every perturbation makes the same random draws and raises the same exception, or returns a new object that stands for the state which the perturbation defined on values returns, with the same log ratio; the state before stays what it was. In particular the in-place changes that ParamSpacePerturbation makes to the copied state never reach the state that was copied.", "quantifier": "all memories, states, perturbation functions and random draws", "why_tests_cant": "All sharing patterns, depths of nesting and orders of in-place changes.", "anchors": ["src/bayesbay/perturbations/_param_space.py: perturb", "src/bayesbay/perturbations/_birth_death.py", "src/bayesbay/perturbations/_param_values.py", "src/bayesbay/perturbations/_data_noise.py", "src/bayesbay/_state.py: copy, set_param_values, __post_init__"]}
{"id": "C68", "title": "Chains with shared, mutable objects run as the chains of values do", "statement": "A chain in memory that stands for a chain of values makes, over any number of iterations, the same random draws as the chain of values, stops with the same exception, and ends with a current state, counters and saved samples that stand, item by item, for those of the chain of values: objects that are saved without being copied still show what they showed when they were saved. Hence what the other properties say about chains of values holds for the objects in memory; in particular everything that is saved shows a well-formed state.", "quantifier": "all memories, sharing patterns, parameter spaces, targets, numbers of iterations, schedules and random draws", "why_tests_cant": "All histories of accepted and rejected moves, sharing patterns and schedules of saving.", "anchors": ["src/bayesbay/_markov_chain.py: advance_chain, _next_iteration, _save_state, _save_statistics", "src/bayesbay/_state.py: items, todict", "src/bayesbay/likelihood/_log_likelihood.py: log_likelihood_ratio"]}
{"id": "C69", "title": "Inversions with shared, mutable objects run as the inversions of values do", "statement": "An inversion in memory makes the same random draws as the inversion of values, stops with the same exception, and its chains stand for the chains of values: on creation, and over any number of runs with the vanilla sampler, parallel tempering (with swaps of temperatures that are written into the State objects) and simulated annealing, sequentially or in processes that work on copies of the chains. Of the objects there were, only the State objects that were current change, in nothing but temperature, cache and extra_storage; what processes do reaches none of them. The chains must start from different State objects, as those of BayesianInversion do.", "quantifier": "all memories, sharing patterns below the states, parameter spaces, targets, numbers of chains, sequences of runs, schedules, numbers of jobs and random draws", "why_tests_cant": "All histories of runs, swaps and sharing patterns.", "anchors": ["src/bayesbay/samplers/_samplers.py: VanillaSampler, ParallelTempering, SimulatedAnnealing, advance_chain", "src/bayesbay/_bayes_inversion.py: run, BayesianInversion.__init__", "src/bayesbay/_markov_chain.py: temperature, MarkovChain.__init__"]}
{"id": "C70", "title": "Drawings of one-dimensional tessellations show the tessellation", "statement": "The curve that Voronoi1D.plot_tessellation draws (with positions on the vertical axis, the default) passes, at each position between the bounds and away from the interfaces, through the value of the cell that contains the position and through no other value, whether the cells are given by nuclei or by extents; plot_tessellations draws each tessellation as it would be drawn alone.  With the axes not swapped the same should hold.", "quantifier": "all tessellations, values, bounds and positions", "why_tests_cant": "Tests of drawings look at whether a call succeeds, not at what each of the infinitely many positions shows.", "anchors": ["src/bayesbay/discretization/_voronoi.py: Voronoi1D.plot_tessellation (1048-1066)", "src/bayesbay/discretization/_voronoi.py: Voronoi1D.plot_tessellations (1127-1164)", "src/bayesbay/discretization/_voronoi.py: Voronoi1D.compute_interface_positions"]}
{"id": "C71", "title": "Drawings of two-dimensional tessellations show the tessellation", "statement": "Voronoi2D.plot_tessellation, for distinct sites that are not all on one axis and one value per site, fills regions so that each point of a filled region has the site of the region as closest site and the colour of that site's value, and every point of the displayed rectangle lies in a filled region: the four points that the code adds far away neither take area from the display nor are given a colour. With two sites at the same place it raises ValueError.", "quantifier": "all numbers and positions of sites, values and displayed points", "why_tests_cant": "Infinitely many tessellations and points; a drawing is not compared with a result.", "anchors": ["src/bayesbay/discretization/_voronoi.py: Voronoi2D.plot_tessellation (1509-1618)", "src/bayesbay/discretization/_voronoi.py: Voronoi2D._fill_tessellation (1621-1649)"]}
{"id": "C72", "title": "Births and deaths of cells report the ratio of prior to proposal densities", "statement": "With births from the neighbour, the log ratio that birth() of a tessellation reports is the log of the product, over all numbers that are born (those of nested tessellations included), of the prior density of the number at its position over the density of the normal step from the closest cell's number with perturb_std_birth at that position; death() reports minus the same of the reverse birth. The born numbers are the neighbour's plus a standard normal draw times that standard deviation. With it, births and deaths of cells balance for the prior in which sites are independent and uniform and all numbers of cells are equally probable; births from the prior, which report 0, do too.", "quantifier": "all spaces (1-D and N-D tessellations, any parameters and nesting), states with any number of cells, and random draws", "why_tests_cant": "A wrong ratio gives plausible samples of a wrong posterior; densities and the nested recursion must be right for every position and value.", "anchors": ["src/bayesbay/discretization/_discretization.py: Discretization._initialize_params_from_neighbour (323-375)", "src/bayesbay/discretization/_discretization.py: Discretization._sample_from_neighbour (377-433)", "src/bayesbay/discretization/_discretization.py: Discretization._log_prob_death_parameters (435-465)", "src/bayesbay/discretization/_discretization.py: Discretization._log_prob_death_ps_state (467-494)", "src/bayesbay/discretization/_voronoi.py: birth, death, nearest_neighbour"]}
{"id": "C73", "title": "The chain leaves the tempered posterior density invariant", "statement": "In an inversion for n numbers with a uniform prior (one ParameterSpace, one UniformPrior), with the likelihood given as a function, as a function for ratios, or by targets with Gaussian noise of known covariance: if the numbers of a chain at temperature T have the density proportional to prior times likelihood^(1/T), they have that density after any number of iterations. The mean is over what one iteration draws: the index of the number, the normal step and the uniform number of the acceptance test. Predictions kept in caches never make the ratio that of other values.", "quantifier": "all n > 0, limits, step widths, temperatures, continuous likelihoods (any number of targets, scalar, diagonal or full inverse covariance), continuous test functions, numbers of iterations", "why_tests_cant": "It is an equality of n-dimensional integrals over a continuum of states and draws; a sampler that is slightly off passes statistical tests of any fixed length.", "anchors": ["src/bayesbay/_markov_chain.py: BaseMarkovChain._next_iteration", "src/bayesbay/perturbations/_param_values.py: ParamPerturbation.perturb", "src/bayesbay/prior/_prior.py: UniformPrior.perturb_value", "src/bayesbay/likelihood/_log_likelihood.py: log_likelihood_ratio, _log_likelihood_ratio_from_targets, _log_likelihood_ratio_from_loglike, _get_misfit_and_det"]}
{"id": "C74", "title": "log_prior of a parameter space is the log of the joint prior density", "statement": "ParameterSpace.log_prior of a state is the logarithm of the product of the prior densities of all its numbers, -inf exactly when that product is zero; and the log ratio that a move of the numbers of one dimension reports is the difference of log_prior between the proposed and the current state.", "quantifier": "all parameter spaces without tessellation, any number of parameters and dimensions, uniform, Gaussian and Laplace priors, states of positive density, any draws", "why_tests_cant": "Equality of real functions over all states and draws.", "anchors": ["src/bayesbay/parameterization/_parameter_space.py: ParameterSpace.log_prior (189-195)", "src/bayesbay/perturbations/_param_values.py: ParamPerturbation.perturb"]}
{"id": "C75", "title": "Priors take their hyper-parameters as given", "statement": "UniformPrior, GaussianPrior, LaplacePrior and CustomPrior accept numbers, or arrays with one entry per position; the value used at a given position is the value given there, between positions it is interpolated linearly, numbers hold everywhere; perturb_std_birth is perturb_std unless given; the width of a uniform prior is vmax - vmin at every position. Everything else is rejected.", "quantifier": "for all hyper-parameters, positions, and queries", "why_tests_cant": "Tests use constant hyper-parameters or a few profiles; combinations of arrays, numbers, missing and mismatched positions are unbounded.", "anchors": ["src/bayesbay/prior/_prior.py:173-299", "src/bayesbay/prior/_prior.py:326-387", "src/bayesbay/prior/_prior.py:509-531", "src/bayesbay/prior/_prior.py:708-729", "src/bayesbay/prior/_prior.py:896-917"]}
{"id": "C76", "title": "Selecting dimensions of a state gives exactly these dimensions", "statement": "Indexing a ParameterSpaceState with a list of indices gives a state with as many dimensions as indices, whose parameters have the entries at these indices in this order (nested states as equal copies), with an empty cache; an index out of range raises IndexError.", "quantifier": "for all states, nested to any depth, and all lists of indices", "why_tests_cant": "Order, repetition and nesting of indices are unbounded.", "anchors": ["src/bayesbay/_state.py:88-102"]}
{"id": "C77", "title": "Trans-dimensional chains keep the tempered posterior distribution", "statement": "In an inversion for an unknown number (between n_dimensions_min and n_dimensions_max) of numbers with a uniform prior, one iteration of a chain at temperature T - a birth with probability 1/5, a death with probability 1/5, a change of one number with probability 3/5 - leaves invariant the distribution on lists of varying length with density exp(log likelihood / T) times the prior density (every length equally likely): sums over lengths of integrals of any continuous function stay the same after any number of iterations. Births at the largest and deaths at the smallest length are rejected.", "quantifier": "all bounds, numbers of dimensions, perturbation widths, temperatures, continuous likelihoods (functions, ratio functions, Gaussian data with any number of targets), test functions and numbers of iterations", "why_tests_cant": "A statement on distributions over a continuous space of varying dimension; simulations only see histograms of single runs.", "anchors": ["src/bayesbay/parameterization/_parameter_space.py: birth (217-275), death (277-322), _init_perturbation_funcs (324-352)", "src/bayesbay/perturbations/_param_space.py: perturb (24-91)", "src/bayesbay/_markov_chain.py: _next_iteration, advance_chain"]}
{"id": "C78", "title": "First and newborn values and sites are drawn from the priors", "statement": "Every value of a state returned by sample or initialize, and every value of a birth from the prior, is obtained from its own draws by the map of its prior (uniform: vmin + (vmax - vmin) u; Gaussian: mean + std z; Laplace; custom: the user's sample function), with hyper-parameters evaluated at the position of its cell; sites are uniform in the domain (redrawn until inside the polygon, sorted in one dimension); the number of dimensions is an integer drawn from the initial range or between the limits; every draw is used once.", "quantifier": "all spaces (also nested), priors, hyper-parameters, states and draws", "why_tests_cant": "Relates every value to the draws for all spaces and all draws; tests see single values.", "anchors": ["src/bayesbay/prior/_prior.py: sample, initialize", "src/bayesbay/parameterization/_parameter_space.py: initialize, sample, birth", "src/bayesbay/discretization/_voronoi.py: initialize, sample, birth, sample_site"]}
{"id": "C79", "title": "Chains that move the sites of a 1-D tessellation keep the tempered posterior distribution", "statement": "In an inversion for the positions of a fixed number of sites of a Voronoi1D tessellation, which are uniform a priori between vmin and vmax, one iteration of a chain at temperature T leaves the distribution with density exp(log likelihood / T) invariant: integrals of any continuous function of the sites stay the same after any number of iterations; the sites stay between the limits and sorted.", "quantifier": "all limits, numbers of sites, step widths, temperatures, continuous likelihoods, test functions and numbers of iterations", "why_tests_cant": "A statement on a distribution over a continuous space; a simulation sees a histogram of one run, and the deviation is confined to a step width from the limits.", "anchors": ["src/bayesbay/discretization/_voronoi.py: perturb_value (Voronoi1D), _perturb_site", "src/bayesbay/perturbations/_param_values.py: perturb", "src/bayesbay/_markov_chain.py: _next_iteration, advance_chain"]}
{"id": "C80", "title": "Drawings of tessellation densities show the density", "statement": "Voronoi1D.plot_tessellation_density colours every point of the drawing (value and position, or position and value when the axes are not swapped) with the density of the ensemble in the bin of this position and value, for every numbers of bins.", "quantifier": "all ensembles, bins, both orientations of the axes, all points inside bins", "why_tests_cant": "Drawings are compared by eye, if at all; the statement is about every point of every drawing.", "anchors": ["src/bayesbay/discretization/_voronoi.py: plot_tessellation_density (866-948), get_tessellation_density"]}
{"id": "C81", "title": "Histograms of interfaces are normalised histograms of the boundaries between cells", "statement": "The bars drawn by Voronoi1D.plot_interface_hist stand side by side on increasing edges; the area of each is the fraction of all boundaries between neighbouring cells of all samples that lie in its bin, the areas add up to one, and with a number of bins every boundary is in a bin. It exists as soon as one sample has two cells; extents without a lower boundary raise AssertionError.", "quantifier": "all ensembles (sites or extents), bins and orientations", "why_tests_cant": "All ensembles and all bins.", "anchors": ["src/bayesbay/discretization/_voronoi.py: plot_interface_hist (951-1006), compute_interface_positions (650-683)"]}
{"id": "C82", "title": "Drawings of statistics show mean, deviation, median and percentiles", "statement": "Voronoi1D.plot_tessellation_statistics draws six curves whose points at each given position are the mean, the mean minus and plus the standard deviation, the median and the first two percentiles of the values which the samples have there; fewer than two percentiles raise IndexError.", "quantifier": "all ensembles, positions, percentiles and orientations", "why_tests_cant": "All ensembles, all positions.", "anchors": ["src/bayesbay/discretization/_voronoi.py: plot_tessellation_statistics (1178-1277), _plot (32-36)"]}
{"id": "C83", "title": "Chains over values and the noise level of the data keep the tempered posterior distribution", "statement": "In a hierarchical inversion for numbers and for the standard deviation of the noise of the data, both uniform a priori between limits, one iteration of a chain at temperature T leaves the joint distribution with density exp(log likelihood / T) invariant, the log likelihood being that of data with independent Gaussian noise of this standard deviation about the predictions: integrals of any continuous function of level and values stay the same after any number of iterations; level and values stay between their limits.", "quantifier": "all limits, numbers of values, step widths, temperatures, data, continuous forward functions, test functions and numbers of iterations", "why_tests_cant": "A statement on a distribution over a continuous space; a simulation sees a histogram of one run, and the deviation is confined to a step width from the limits of the noise level.", "anchors": ["src/bayesbay/perturbations/_data_noise.py: perturb, _perturb_target", "src/bayesbay/perturbations/_param_values.py: perturb", "src/bayesbay/likelihood/_log_likelihood.py: _log_likelihood_ratio_from_targets, _get_misfit_and_det", "src/bayesbay/_markov_chain.py: _next_iteration, advance_chain", "src/bayesbay/_bayes_inversion.py: __init__"]}
{"id": "C84", "title": "Chains for numbers with Gaussian or Laplace priors keep the tempered posterior distribution", "statement": "In an inversion for n numbers with a Gaussian or Laplace prior, the prior density times exp(log likelihood / T) has a finite positive integral over all of R^n when the log likelihood is continuous and bounded above, and one iteration of a chain at temperature T leaves the distribution with this density invariant: the integral of any bounded continuous function of the values is the same after any number of iterations. The log likelihood may be a user function or that of data with Gaussian noise of known covariance about the predictions of forward functions.", "quantifier": "all means, widths, numbers of values, step widths, temperatures, data, continuous forward functions, log likelihood functions bounded above, bounded continuous test functions and numbers of iterations", "why_tests_cant": "A statement on a distribution over an unbounded continuous space; a simulation sees a histogram of one run.", "anchors": ["src/bayesbay/prior/_prior.py: GaussianPrior.perturb_value, LaplacePrior.perturb_value", "src/bayesbay/perturbations/_param_values.py: perturb", "src/bayesbay/likelihood/_log_likelihood.py: log_likelihood_ratio", "src/bayesbay/_markov_chain.py: _next_iteration, advance_chain", "src/bayesbay/_bayes_inversion.py: __init__"]}
{"id": "C85", "title": "From every start, chains for numbers with uniform priors converge to the posterior distribution", "statement": "In an inversion for n numbers with a uniform prior, whatever values the chain starts from, the mean of any continuous function of the values after k iterations at temperature T differs from its mean under the tempered posterior distribution by at most 2 B rho^(k / n), where B bounds the function and rho < 1 depends on neither the function nor the start. Hence the posterior distribution is the only distribution with a continuous density that the chain keeps.", "quantifier": "all numbers of values, limits, step widths, temperatures, log likelihood functions continuous in the values, data and continuous forward functions, continuous test functions, starting values and numbers of iterations", "why_tests_cant": "A limit over infinitely many iterations, for every start and every function; a run shows one path.", "anchors": ["src/bayesbay/prior/_prior.py: UniformPrior.perturb_value", "src/bayesbay/perturbations/_param_values.py: perturb", "src/bayesbay/_markov_chain.py: _next_iteration, advance_chain", "src/bayesbay/likelihood/_log_likelihood.py: log_likelihood_ratio", "src/bayesbay/_bayes_inversion.py: __init__, run"]}
{"id": "C86", "title": "From every start, chains over the sites of a 1-D tessellation, and over values and a noise level, converge to the posterior distribution", "statement": "In an inversion for the sites of a tessellation with a fixed number of cells, or for numbers with uniform priors together with the noise level of a target, the mean of any continuous function after k iterations converges, from every start, to its mean under the tempered posterior distribution as k grows.", "quantifier": "all numbers of sites or values, limits, step widths, temperatures, log likelihood functions continuous in the unknowns, continuous test functions, starts and numbers of iterations", "why_tests_cant": "A limit over infinitely many iterations, for every start and every function; a run shows one path.", "anchors": ["src/bayesbay/discretization/_voronoi.py: Voronoi1D.perturb_value", "src/bayesbay/likelihood/_target.py: perturb", "src/bayesbay/perturbations/_param_values.py: perturb", "src/bayesbay/perturbations/_data_noise.py: perturb", "src/bayesbay/_markov_chain.py: _next_iteration, advance_chain"]}
{"id": "C87", "title": "From every start, trans-dimensional chains converge to the posterior distribution", "statement": "In an inversion for kmin to kmax numbers with a uniform prior and births and deaths from the prior, whatever number of values and values the chain starts from, the mean of any continuous function of the values after j iterations at temperature T differs from its mean under the tempered posterior distribution over all numbers of values by at most 2 B rho^(j / kmax), where B bounds the function and rho < 1 depends on neither the function nor the start. In particular, with a likelihood that does not depend on the values every number of values from kmin to kmax becomes equally frequent.", "quantifier": "all limits of the number of values, limits of the values, step widths, temperatures, log likelihood functions continuous in the values for every number of values, data and continuous forward functions, test functions, starts and numbers of iterations", "why_tests_cant": "A limit over infinitely many iterations on a space of varying dimension, for every start and every function; a run shows one path.", "anchors": ["src/bayesbay/perturbations/_birth_death.py: perturb", "src/bayesbay/parameterization/_parameter_space.py: birth, death", "src/bayesbay/perturbations/_param_values.py: perturb", "src/bayesbay/_markov_chain.py: _next_iteration, advance_chain", "src/bayesbay/likelihood/_log_likelihood.py: log_likelihood_ratio"]}
{"id": "C88", "title": "Chains for several parameters converge to the posterior distribution", "statement": "In an inversion for several numbers, each a parameter of one space with one dimension and with a uniform prior and step width of its own (as in the linear regression of the tutorials), one iteration moves all numbers at once, a proposal with any number outside its range is rejected, the tempered posterior distribution of the numbers is kept by every iteration, and from whatever numbers the chain starts, the mean of any continuous function of them after k iterations differs from its posterior mean by at most 2 B rho^k, where B bounds the function and rho < 1 depends on neither the function nor the start.", "quantifier": "all non-empty lists of parameters with different names, ranges and step widths of the parameters, temperatures, log likelihood functions continuous in the numbers, data with Gaussian noise of known covariance and continuous forward functions, test functions, starts and numbers of iterations", "why_tests_cant": "A statement about the distribution over all draws and about a limit over infinitely many iterations, for any number of parameters; a run shows one path.", "anchors": ["src/bayesbay/perturbations/_param_values.py: ParamPerturbation.perturb_param_space_state", "src/bayesbay/prior/_prior.py: UniformPrior.perturb_param", "src/bayesbay/perturbations/_param_space.py: ParamSpacePerturbation.perturb", "src/bayesbay/_markov_chain.py: _next_iteration", "src/bayesbay/likelihood/_log_likelihood.py: log_likelihood_ratio"]}
{"id": "C89", "title": "Exchanges in parallel tempering keep the distributions of the chains", "statement": "If the chains of ParallelTempering have the posterior distributions to the powers 1/T of their temperatures, independently of each other, they still have them after an attempt to exchange the temperatures of two chains: the mean of every quantity of temperatures and values that does not depend on the order of the chains is the same before and after the attempt.", "quantifier": "all ensembles, pairs of chains, temperatures, log likelihood functions continuous in the numbers, data with Gaussian noise of known covariance, quantities of the ensemble", "why_tests_cant": "A statement about the joint distribution of all chains over all draws; a run shows one outcome, and the bias of the samples is invisible without the exact distribution.", "anchors": ["src/bayesbay/samplers/_samplers.py: ParallelTempering.on_end_advance_chain", "src/bayesbay/likelihood/_log_likelihood.py: log_likelihood_ratio", "src/bayesbay/_markov_chain.py: BaseMarkovChain.temperature"]}
{"id": "C90", "title": "Averages over the saved samples converge to posterior means", "statement": "A run of a chain at temperature 1 saves, under the name of each number, its values at the iterations on the schedule (burn-in, then every so many), and the average of any continuous function of the numbers over the saved samples estimates its posterior mean: from whatever numbers the chain starts and whatever the schedule, the mean over all draws of the squared error is at most C B^2 / N, where N is the number of saved samples, B bounds the function, and C depends on neither the function, nor the start, nor the schedule.", "quantifier": "all inversions for several numbers with uniform priors of their own, for a fixed number of values with one uniform prior, and trans-dimensional ones; log likelihoods continuous in the numbers, test functions, starts, burn-ins, intervals of saving and numbers of iterations", "why_tests_cant": "A bound on a mean over all draws of all iterations, for runs of every length; a run shows one average, and the draws of successive iterations are not independent.", "anchors": ["src/bayesbay/_markov_chain.py: BaseMarkovChain.advance_chain, _next_iteration, _save_state", "src/bayesbay/_bayes_inversion.py: get_results", "src/bayesbay/perturbations/_param_values.py: ParamPerturbation.perturb_param_space_state", "src/bayesbay/prior/_prior.py: UniformPrior.perturb_param"]}
{"id": "C91", "title": "Samples saved by simulated annealing estimate posterior means", "statement": "A run of an inversion with SimulatedAnnealing, from the initialization of the sampler to the return, on chains that have not moved yet, performs iteration i of every chain at the documented temperature and saves, under the name of each number, its values at the scheduled states among those visited. The average of any continuous function over the samples of a chain estimates its posterior mean: the mean over all draws, burn-in included, of the squared error is at most C B^2 / N for N samples and functions bounded by B, and C depends on the inversion only, not on the starting temperature, the length of the burn-in, the schedule, the start or the number of iterations.", "quantifier": "all inversions for several numbers with uniform priors of their own, log likelihoods continuous in the numbers, test functions, starting temperatures, burn-ins, numbers of chains, starts, intervals of saving and numbers of iterations", "why_tests_cant": "A bound on a mean over all draws of runs of every length whose acceptance rule changes with every iteration of the burn-in; a run shows one average.", "anchors": ["src/bayesbay/samplers/_samplers.py: SimulatedAnnealing.on_initialize, on_begin_iteration, run; Sampler.advance_chain", "src/bayesbay/_markov_chain.py: BaseMarkovChain.advance_chain, _next_iteration, _save_state", "src/bayesbay/_bayes_inversion.py: BaseBayesianInversion.run"]}
{"id": "C92", "title": "Custom initialization of the priors", "statement": "set_custom_initialize takes callables only. The function is then called with one position per dimension (the sites in a tessellation) and its values are the values of the starting state; whatever it returns, every array of a starting state has one entry per dimension, so another number of values is refused. With functions whose values are in the support of their priors, everything the chains hold and save after any number of runs satisfies C01 - C05. Values outside the support are not refused.", "quantifier": "all custom functions of all priors (also drawing random numbers or raising), parameterizations incl. nested ones, likelihoods, samplers, numbers of runs and draws", "why_tests_cant": "The custom functions are arbitrary; the claim is about all of them in all parameterizations.", "anchors": ["src/bayesbay/prior/_prior.py: Prior.set_custom_initialize, _initializer", "src/bayesbay/parameterization/_parameter_space.py: ParameterSpace.initialize", "src/bayesbay/discretization/_voronoi.py: Voronoi.initialize"]}
{"id": "C93", "title": "A whole inversion estimates posterior means", "statement": "For several numbers with uniform priors in one space and a log-likelihood without unknown noise: BayesianInversion(...).run with VanillaSampler or SimulatedAnnealing returns for every number of chains, n_jobs and sequence of draws; every chain starts inside the ranges, and afterwards holds (n_iterations - burnin) // save_every samples of each number, namely the scheduled states of a random-walk Metropolis chain from its start. The mean squared difference between the average of a bounded continuous function over these samples and its posterior mean is at most a constant divided by the number of samples, whatever the start, burn-in, schedule and starting temperature. In particular for Gaussian data with known noise.", "quantifier": "all numbers and ranges, continuous log-likelihoods (or forward functions), numbers of chains and iterations, schedules, starting temperatures, draws, bounded continuous functions", "why_tests_cant": "The bound is on a mean over all draws and holds for all lengths; a test sees single runs.", "anchors": ["src/bayesbay/_bayes_inversion.py: BaseBayesianInversion.run, BayesianInversion.__init__", "src/bayesbay/samplers/_samplers.py: VanillaSampler, SimulatedAnnealing", "src/bayesbay/_markov_chain.py: BaseMarkovChain.advance_chain, MarkovChain._init_starting_state"]}
{"id": "C94", "title": "The concatenated results of several chains estimate posterior means better than one chain", "statement": "After run, get_results with its defaults (concatenate_chains=True) returns for every number the samples of all chains, chain after chain: p N samples for p chains with N samples each. With chains drawn independently, the mean squared difference between the average of a bounded continuous function over these pooled samples and its posterior mean is at most C B^2 (1/(p N) + 1/N^2): the random part falls with the total number of samples, the part due to the starting states only with the length of each chain. C depends neither on the chains' number and starts nor on the schedule, burn-in, or starting temperature.", "quantifier": "all numbers and ranges, continuous log-likelihoods (or forward functions), numbers of chains and iterations, starting states, schedules, starting temperatures, draws, bounded continuous functions", "why_tests_cant": "The bound is on a mean over the draws of all chains and holds for all numbers and lengths of chains; a test sees single runs.", "anchors": ["src/bayesbay/_bayes_inversion.py: BaseBayesianInversion.run, BaseBayesianInversion.get_results, BaseBayesianInversion.get_results_from_chains", "src/bayesbay/samplers/_samplers.py: VanillaSampler, SimulatedAnnealing", "src/bayesbay/_markov_chain.py: BaseMarkovChain.advance_chain, BaseMarkovChain._save_state"]}
{"id": "C95", "title": "Estimates from the results are consistent", "statement": "For numbers with uniform priors and a log-likelihood without unknown noise: for every eps and delta there is a number N such that, with at least N saved samples per chain, the average of a bounded continuous function over the concatenated results is within eps of its posterior mean with probability at least 1 - delta. N does not depend on the number of chains, their starting states, the sampler (VanillaSampler or SimulatedAnnealing), the burn-in, the schedule or the starting temperature. The probability is at least 1 - C B^2 (1/(p N) + 1/N^2) / eps^2 for p chains. In particular, for data with Gaussian noise of known size, the mean of get_results()['m.<name>'] after run is within eps of the posterior mean of that number with probability at least 1 - delta.", "quantifier": "all numbers and ranges, continuous log-likelihoods, bounded continuous functions, eps, delta, numbers of chains, starting states, schedules, starting temperatures", "why_tests_cant": "It is about probabilities over all draws and holds for all sufficiently long runs.", "anchors": ["src/bayesbay/_bayes_inversion.py: BaseBayesianInversion.run, BaseBayesianInversion.get_results", "src/bayesbay/samplers/_samplers.py: VanillaSampler, SimulatedAnnealing", "src/bayesbay/_markov_chain.py: BaseMarkovChain.advance_chain"]}
{"id": "C96", "title": "Variances of the results estimate posterior variances", "statement": "For numbers with uniform priors and a log-likelihood without unknown noise: for every eps and delta, from some number of saved samples per chain on, the average and the variance (np.mean, np.var) of a bounded continuous function over the concatenated results are both within eps of its posterior mean and variance with probability at least 1 - delta, whatever the number of chains, their starts, the sampler (VanillaSampler or SimulatedAnnealing), burn-in and schedule. In particular for np.mean and np.var of get_results()['m.<name>'] after an inversion of data with Gaussian noise of known size.", "quantifier": "all numbers and ranges, continuous log-likelihoods (or forward functions), bounded continuous functions, eps, delta, numbers of chains, starting states, schedules, starting temperatures, draws", "why_tests_cant": "It is about probabilities over all draws and holds for all sufficiently long runs.", "anchors": ["src/bayesbay/_bayes_inversion.py: BaseBayesianInversion.run, BaseBayesianInversion.get_results", "src/bayesbay/samplers/_samplers.py: VanillaSampler, SimulatedAnnealing", "src/bayesbay/_markov_chain.py: BaseMarkovChain.advance_chain"]}
{"id": "C97", "title": "Shares of the results estimate posterior probabilities", "statement": "For numbers with uniform priors and a log-likelihood without unknown noise: for every number and every c there is a posterior probability that the number is at most c, and for every eps and delta, from some number of saved samples per chain on, the share of the concatenated results in which it is at most c is within eps of that probability with probability at least 1 - delta, whatever the number of chains, their starts, the sampler (VanillaSampler or SimulatedAnnealing), burn-in and schedule. The same for any set whose posterior probability exists. In particular for the values get_results()['m.<name>'] after an inversion of data with Gaussian noise of known size.", "quantifier": "all numbers and ranges, continuous log-likelihoods (or forward functions), sets with a posterior probability, eps, delta, numbers of chains, starting states, schedules, starting temperatures, draws", "why_tests_cant": "It is about probabilities over all draws and holds for all sufficiently long runs.", "anchors": ["src/bayesbay/_bayes_inversion.py: BaseBayesianInversion.run, BaseBayesianInversion.get_results", "src/bayesbay/samplers/_samplers.py: VanillaSampler, SimulatedAnnealing", "src/bayesbay/_markov_chain.py: BaseMarkovChain.advance_chain"]}
{"id": "C98", "title": "Percentiles of the results estimate posterior percentiles", "statement": "For numbers with uniform priors and a log-likelihood without unknown noise: if the posterior probability that a number is at most c1 is less than q/100, and that it is at most c2 is more than q/100, then for every delta, from some number of saved samples per chain on, the q-th percentile (np.percentile) of the concatenated results for that number exists and is in (c1, c2] with probability at least 1 - delta, whatever the number of chains, their starts, the sampler (VanillaSampler or SimulatedAnnealing), burn-in and schedule. In particular for the values get_results()['m.<name>'] after an inversion of data with Gaussian noise of known size.", "quantifier": "all numbers and ranges, continuous log-likelihoods (or forward functions), q, c1, c2, delta, numbers of chains, starting states, schedules, starting temperatures, draws", "why_tests_cant": "It is about probabilities over all draws and holds for all sufficiently long runs.", "anchors": ["src/bayesbay/_bayes_inversion.py: BaseBayesianInversion.run, BaseBayesianInversion.get_results", "src/bayesbay/samplers/_samplers.py: VanillaSampler, SimulatedAnnealing", "src/bayesbay/discretization/_voronoi.py: Voronoi1D.get_tessellation_statistics (np.percentile)"]}
{"id": "C99", "title": "np.mean, np.std and np.median of the results estimate the posterior", "statement": "After an inversion of data with Gaussian noise of known size, for numbers with uniform priors: for every eps and delta, from some number of saved samples per chain on, np.mean and np.std of the values get_results()['m.<name>'] are within eps of the posterior mean and the posterior standard deviation with probability at least 1 - delta; and if the posterior probabilities of being at most c1 and at most c2 are less and more than 1/2, np.median of them is in (c1, c2] with probability at least 1 - delta. This holds whatever the number of chains, their starts, the sampler (VanillaSampler or SimulatedAnnealing), burn-in and schedule.", "quantifier": "all numbers and ranges, continuous forward functions, data, eps, delta, c1, c2, numbers of chains, starting states, schedules, starting temperatures, draws", "why_tests_cant": "It is about probabilities over all draws and holds for all sufficiently long runs.", "anchors": ["src/bayesbay/_bayes_inversion.py: BaseBayesianInversion.run, BaseBayesianInversion.get_results", "src/bayesbay/samplers/_samplers.py: VanillaSampler, SimulatedAnnealing", "src/bayesbay/discretization/_voronoi.py: Voronoi1D.get_tessellation_statistics (np.mean, np.std, np.median)"]}
